(** Categorical.entropy and the KL divergence of two Categoricals in floating point, one batch element: vectors of [n] entries are
    functions of the index, [o] is the order in which [jnp.sum] adds the categories. *)
From Coq Require Import Reals.
From Verif Require Import Base.XR Base.Float Spec.Rounding Model.FloatDist.
Local Open Scope R_scope.

(** math.mul_exp, math.py:114-129 *)
Definition fl_mul_exp (dt : dtype) (E : XR -> XR) (x logp : XR) : XR :=
  let p := E logp in
  let x := if xeqb p (Fin 0) then Fin 0 else x in
  fmul dt x p.
(** Categorical.entropy, categorical.py:117-123, given log_probs *)
Definition fl_cat_entropy (dt : dtype) (E : XR -> XR) (o : order) (log_probs : nat -> XR) : XR :=
  xopp (sum_in dt o (fun i => fl_mul_exp dt E (log_probs i) (log_probs i))).
(** ... of a Categorical built from logits (line 122) or from probs (line 120); [o1] is the order of the sum in log_softmax *)
Definition fl_cat_entropy_logits (dt : dtype) (L E : XR -> XR) (o1 o : order) (n : nat) (logits : nat -> XR) : XR :=
  fl_cat_entropy dt E o (fl_log_softmax dt L E o1 n logits).
Definition fl_cat_entropy_probs (dt : dtype) (L E : XR -> XR) (o : order) (probs : nat -> XR) : XR :=
  fl_cat_entropy dt E o (fun i => L (probs i)).
(** _kl_divergence_categorical_categorical, categorical.py:165-200, for equal numbers of categories; [logits1], [logits2] are the
    logits_parameter() of the two distributions *)
Definition fl_cat_kl (dt : dtype) (L E : XR -> XR) (o1 o2 o : order) (n : nat) (logits1 logits2 : nat -> XR) : XR :=
  let log_probs1 := fl_log_softmax dt L E o1 n logits1 in
  let log_probs2 := fl_log_softmax dt L E o2 n logits2 in
  sum_in dt o (fun i => fl_mul_exp dt E (fsub dt (log_probs1 i) (log_probs2 i)) (log_probs1 i)).
