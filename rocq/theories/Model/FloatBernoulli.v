(** Bernoulli.log_prob, entropy and KL divergence in floating point, one batch element.  [L], [L1], [G], [S] are the library's
    log, log1p, jax.nn.sigmoid and softplus. *)
From Coq Require Import Reals.
From Verif Require Import Base.XR Base.Float Model.FloatCategorical.
Local Open Scope R_scope.

(** how the distribution was built: with logits or with probs (exactly one of them, bernoulli.py:60-63) *)
Inductive bern_param := BLogits (l : XR) | BProbs (p : XR).
(** _log_probs_parameter, bernoulli.py:101-106 *)
Definition fl_bern_log_probs (dt : dtype) (L L1 S : XR -> XR) (d : bern_param) : XR * XR :=
  match d with
  | BProbs p => (L1 (fmul dt (Fin (-1)) p), L p)
  | BLogits l => (xopp (S l), xopp (S (fmul dt (Fin (-1)) l)))
  end.
(** log_prob, bernoulli.py:116-120 *)
Definition fl_bern_log_prob (dt : dtype) (L L1 S : XR -> XR) (d : bern_param) (value : XR) : XR :=
  let (log_probs0, log_probs1) := fl_bern_log_probs dt L L1 S d in
  fadd dt (fl_multiply_no_nan dt log_probs0 (fsub dt (Fin 1) value)) (fl_multiply_no_nan dt log_probs1 value).
(** _probs_and_log_probs, bernoulli.py:170-185: ((probs0, probs1), (log_probs0, log_probs1)) *)
Definition fl_bern_both (dt : dtype) (L L1 G S : XR -> XR) (d : bern_param) : (XR * XR) * (XR * XR) :=
  match d with
  | BProbs p => let probs0 := fsub dt (Fin 1) p in ((probs0, fsub dt (Fin 1) probs0), (L1 (fmul dt (Fin (-1)) p), L p))
  | BLogits l => ((G (fmul dt (Fin (-1)) l), G l), (xopp (S l), xopp (S (fmul dt (Fin (-1)) l))))
  end.
(** entropy, bernoulli.py:142-148 *)
Definition fl_bern_entropy (dt : dtype) (L L1 G S : XR -> XR) (d : bern_param) : XR :=
  let '((probs0, probs1), (log_probs0, log_probs1)) := fl_bern_both dt L L1 G S d in
  fmul dt (Fin (-1)) (fadd dt (fl_multiply_no_nan dt log_probs0 probs0) (fl_multiply_no_nan dt log_probs1 probs1)).
(** _kl_divergence_bernoulli_bernoulli, bernoulli.py:188-214 *)
Definition fl_bern_kl (dt : dtype) (L L1 G S : XR -> XR) (dist1 dist2 : bern_param) : XR :=
  let '((one_minus_p1, p1), (log_one_minus_p1, log_p1)) := fl_bern_both dt L L1 G S dist1 in
  let '(_, (log_one_minus_p2, log_p2)) := fl_bern_both dt L L1 G S dist2 in
  fsub dt (fadd dt (fsub dt (fl_multiply_no_nan dt log_p1 p1) (fl_multiply_no_nan dt log_p2 p1))
                   (fl_multiply_no_nan dt log_one_minus_p1 one_minus_p1))
       (fl_multiply_no_nan dt log_one_minus_p2 one_minus_p1).
