(** Model of the Categorical family (categorical.py, one_hot_categorical.py, bernoulli.py, greedy.py,
    epsilon_greedy.py, softmax.py) on one batch element: parameters are vectors over the last axis.
    The random generator is a parameter: [gumbel] is the noise added by jax.random.categorical. *)
From Coq Require Import Reals List Bool.
From Verif Require Import Base.Result Base.XR Model.MathUtils Model.ScalarDist.
Import ListNotations.
Local Open Scope R_scope.

Inductive dtype := DInt | DFloat | DBool | DOther.
(** The stored parameters: exactly one of _probs and _logits is present (categorical.py:62-63). *)
Inductive categorical := CProbs (p : list XR) | CLogits (l : list XR).

(** Categorical.__init__, categorical.py:51-64 *)
Definition cat_init (logits probs : option (list XR)) (dt : dtype) : result categorical :=
  match logits, probs with
  | None, None | Some _, Some _ => Err ValueError
  | Some l, None => match dt with DInt | DFloat => Ok (CLogits (normalize_logits l)) | _ => Err ValueError end
  | None, Some p => match dt with DInt | DFloat => Ok (CProbs (normalize_probs p)) | _ => Err ValueError end
  end.
Definition cat_logits (d : categorical) : list XR := match d with CLogits l => l | CProbs p => map xlog p end.   (* 72-76 *)
Definition cat_probs (d : categorical) : list XR := match d with CProbs p => p | CLogits l => softmax l end.     (* 79-83 *)
Definition num_categories (d : categorical) : nat := match d with CProbs p => length p | CLogits l => length l end. (* 86-90 *)
(** K - 1 as a number *)
Definition last_cat (d : categorical) : XR := Fin (INR (num_categories d) - 1).
(** jax.random.categorical: argmax of the logits plus Gumbel noise *)
Definition random_categorical (gumbel logits : list XR) : nat := argmax (map2 xadd gumbel logits).
Definition xisfinite (a : XR) : bool := match a with Fin _ => true | _ => false end.
(** Categorical._sample_n, 92-99 *)
Definition cat_is_valid (d : categorical) : bool :=
  forallb xisfinite (cat_probs d) && forallb (fun p => xleb (Fin 0) p) (cat_probs d).
Definition cat_sample (gumbel : list XR) (d : categorical) : XR :=
  if cat_is_valid d then Fin (INR (random_categorical gumbel (cat_logits d))) else Fin (-1).
(** 101-109 *)
Definition cat_log_prob (d : categorical) (value : XR) : XR :=
  let value_one_hot := one_hot value (num_categories d) in
  let mask_outside_domain := xltb value (Fin 0) || xltb (last_cat d) value in
  if mask_outside_domain then NInf else xsum (map2 multiply_no_nan (cat_logits d) value_one_hot).
(** 111-115 *)
Definition cat_prob (d : categorical) (value : XR) : XR :=
  xsum (map2 multiply_no_nan (cat_probs d) (one_hot value (num_categories d))).
(** 117-123 *)
Definition cat_entropy (d : categorical) : XR :=
  let log_probs := match d with CProbs p => map xlog p | CLogits l => log_softmax l end in
  xopp (xsum (map2 mul_exp log_probs log_probs)).
(** 125-128 *)
Definition cat_mode (d : categorical) : XR :=
  Fin (INR (argmax (match d with CProbs p => p | CLogits l => l end))).
(** 130-144 *)
Definition cat_cdf (d : categorical) (value : XR) : XR :=
  let should_be_zero := xltb value (Fin 0) in
  let should_be_one := xleb (last_cat d) value in
  let value := xclip value (Fin 0) (last_cat d) in
  let cdf := xsum (map2 multiply_no_nan (cumsum (cat_probs d)) (one_hot value (num_categories d))) in
  if should_be_zero then Fin 0 else if should_be_one then Fin 1 else cdf.
Definition cat_log_cdf (d : categorical) (value : XR) : XR := xlog (cat_cdf d value).                 (* 148 *)
(** _kl_divergence_categorical_categorical, 165-200 *)
Definition cat_kl (d1 d2 : categorical) : result XR :=
  let logits1 := cat_logits d1 in
  let logits2 := cat_logits d2 in
  if Nat.eqb (length logits1) (length logits2) then
    let log_probs1 := log_softmax logits1 in
    let log_probs2 := log_softmax logits2 in
    Ok (xsum (map2 mul_exp (map2 xsub log_probs1 log_probs2) log_probs1))
  else Err ValueError.

(** ** OneHotCategorical, one_hot_categorical.py (entropy and KL are inherited from Categorical) *)
Definition ohc_sample (gumbel : list XR) (d : categorical) : list XR :=                               (* 60-70 *)
  if cat_is_valid d then one_hot (Fin (INR (random_categorical gumbel (cat_logits d)))) (num_categories d)
  else repeat (Fin (-1)) (num_categories d).
Definition ohc_log_prob (d : categorical) (value : list XR) : XR := xsum (map2 multiply_no_nan (cat_logits d) value). (* 74 *)
Definition ohc_prob (d : categorical) (value : list XR) : XR := xsum (map2 multiply_no_nan (cat_probs d) value).      (* 78 *)
Definition ohc_mode (d : categorical) : list XR :=                                                    (* 80-85 *)
  one_hot (Fin (INR (argmax (match d with CProbs p => p | CLogits l => l end)))) (num_categories d).
Definition ohc_cdf (d : categorical) (value : list XR) : XR :=                                        (* 87-90 *)
  xsum (map2 multiply_no_nan (cumsum (cat_probs d)) value).

(** ** Greedy, EpsilonGreedy, Softmax *)
(** _argmax_with_random_tie_breaking, greedy.py:28-31 and epsilon_greedy.py:28-31 (booleans divide as 0/1) *)
Definition tie_breaking (preferences : list XR) : list XR :=
  let optimal_actions := map (fun p => if xeqb p (xmaxl preferences) then Fin 1 else Fin 0) preferences in
  map (fun a => xdiv a (xsum optimal_actions)) optimal_actions.
(** Greedy.__init__, greedy.py:51-53 *)
Definition greedy_init (preferences : list XR) (dt : dtype) : result categorical :=
  cat_init None (Some (tie_breaking preferences)) dt.
(** _mix_probs_with_uniform, epsilon_greedy.py:34-38 *)
Definition mix_probs_with_uniform (probs : list XR) (epsilon : XR) : list XR :=
  map (fun p => xadd (xmul (xsub (Fin 1) epsilon) p) (xmul epsilon (xdiv (Fin 1) (Fin (INR (length probs)))))) probs.
(** EpsilonGreedy.__init__, epsilon_greedy.py:59-63 *)
Definition epsilon_greedy_init (preferences : list XR) (epsilon : XR) (dt : dtype) : result categorical :=
  cat_init None (Some (mix_probs_with_uniform (tie_breaking preferences) epsilon)) dt.
(** Softmax.__init__, softmax.py:48-51 *)
Definition softmax_init (logits : list XR) (temperature : XR) (dt : dtype) : result categorical :=
  cat_init (Some (map (fun l => xdiv l temperature) logits)) None dt.

(** ** Bernoulli, bernoulli.py *)
Inductive bernoulli := BProbs (p : XR) | BLogits (l : XR).
(** __init__, 58-73 *)
Definition bern_init (logits probs : option XR) (dt : dtype) : result bernoulli :=
  match logits, probs with
  | None, None | Some _, Some _ => Err ValueError
  | Some l, None => match dt with DOther => Err ValueError | _ => Ok (BLogits l) end
  | None, Some p => match dt with DOther => Err ValueError | _ => Ok (BProbs p) end
  end.
Definition bern_logits (d : bernoulli) : XR := match d with BLogits l => l | BProbs p => xsub (xlog p) (xlog (xsub (Fin 1) p)) end. (* 88-92 *)
Definition bern_probs (d : bernoulli) : XR := match d with BProbs p => p | BLogits l => xsigmoid l end. (* 95-99 *)
Definition bern_log_probs_parameter (d : bernoulli) : XR * XR :=                                       (* 101-106 *)
  match d with
  | BProbs p => (xlog1p (xmul (Fin (-1)) p), xlog p)
  | BLogits l => (xopp (xsoftplus l), xopp (xsoftplus (xmul (Fin (-1)) l)))
  end.
Definition bern_sample (uniform : XR) (d : bernoulli) : XR := if xltb uniform (bern_probs d) then Fin 1 else Fin 0. (* 108-114 *)
Definition bern_log_prob (d : bernoulli) (value : XR) : XR :=                                          (* 116-120 *)
  let '(log_probs0, log_probs1) := bern_log_probs_parameter d in
  xadd (multiply_no_nan log_probs0 (xsub (Fin 1) value)) (multiply_no_nan log_probs1 value).
Definition bern_prob (d : bernoulli) (value : XR) : XR :=                                              (* 122-127 *)
  let probs1 := bern_probs d in
  let probs0 := xsub (Fin 1) probs1 in
  xadd (multiply_no_nan probs0 (xsub (Fin 1) value)) (multiply_no_nan probs1 value).
Definition bern_cdf (d : bernoulli) (value : XR) : XR :=                                               (* 129-136 *)
  if xltb value (Fin 0) then Fin 0 else if xleb (Fin 1) value then Fin 1 else xsub (Fin 1) (bern_probs d).
Definition bern_log_cdf (d : bernoulli) (value : XR) : XR := xlog (bern_cdf d value).                  (* 140 *)
(** _probs_and_log_probs, 170-185: probs0, probs1, log_probs0, log_probs1 *)
Definition probs_and_log_probs (d : bernoulli) : XR * XR * XR * XR :=
  match d with
  | BProbs p => let probs0 := xsub (Fin 1) p in
                (probs0, xsub (Fin 1) probs0, xlog1p (xmul (Fin (-1)) p), xlog p)
  | BLogits l => (xsigmoid (xmul (Fin (-1)) l), xsigmoid l, xopp (xsoftplus l), xopp (xsoftplus (xmul (Fin (-1)) l)))
  end.
Definition bern_entropy (d : bernoulli) : XR :=                                                        (* 142-148 *)
  let '(probs0, probs1, log_probs0, log_probs1) := probs_and_log_probs d in
  xmul (Fin (-1)) (xadd (multiply_no_nan log_probs0 probs0) (multiply_no_nan log_probs1 probs1)).
Definition bern_mean (d : bernoulli) : XR := bern_probs d.                                             (* 152 *)
Definition bern_variance (d : bernoulli) : XR := xmul (xsub (Fin 1) (bern_probs d)) (bern_probs d).    (* 156 *)
Definition bern_mode (d : bernoulli) : XR := if xltb (Fin (1 / 2)) (bern_probs d) then Fin 1 else Fin 0. (* 160 *)
(** _kl_divergence_bernoulli_bernoulli, 188-211 *)
Definition bern_kl (d1 d2 : bernoulli) : XR :=
  let '(one_minus_p1, p1, log_one_minus_p1, log_p1) := probs_and_log_probs d1 in
  let '(_, _, log_one_minus_p2, log_p2) := probs_and_log_probs d2 in
  xsub (xadd (xsub (multiply_no_nan log_p1 p1) (multiply_no_nan log_p2 p1))
             (multiply_no_nan log_one_minus_p1 one_minus_p1))
       (multiply_no_nan log_one_minus_p2 one_minus_p1).
