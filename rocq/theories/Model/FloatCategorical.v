(** Categorical.prob, log_prob, cdf and the derived survival functions in floating point, one batch element.
    [p], [logits] are the stored vectors of [n] entries; [os] is the order in which [jnp.sum] adds the
    categories and [oc j] the order in which [jnp.cumsum] adds the entries 0 .. j.  Values are integers. *)
From Coq Require Import Reals List Bool ZArith.
From Verif Require Import Base.XR Base.Float Spec.Rounding.
Import ListNotations.
Local Open Scope R_scope.

(** utils/math.py:46-47 *)
Definition fl_multiply_no_nan dt (x y : XR) : XR := if xeqb y (Fin 0) then Fin 0 else fmul dt x y.
(** [jax.nn.one_hot(value, n, dtype)]: 1 at position [value], 0 elsewhere; all 0 when out of range *)
Definition fl_one_hot (value : Z) (j : nat) : XR := if Z.eqb value (Z.of_nat j) then Fin 1 else Fin 0.
(** [jnp.sum(multiply_no_nan(v, one_hot(value)), axis=-1)], categorical.py:111, 117, 142 *)
Definition fl_pick dt (os : order) (v : nat -> XR) (value : Z) : XR :=
  sum_in dt os (fun j => fl_multiply_no_nan dt (v j) (fl_one_hot value j)).

Section Cat.
Variables (dt : dtype) (n : nat) (os : order) (oc : nat -> order) (p logits : nat -> XR).
(** categorical.py:113-117 *)
Definition fl_cat_prob (value : Z) : XR := fl_pick dt os p value.
(** categorical.py:103-111 *)
Definition fl_cat_log_prob (value : Z) : XR :=
  if (value <? 0)%Z || (Z.of_nat n - 1 <? value)%Z then NInf else fl_pick dt os logits value.
(** [jnp.cumsum(self.probs, axis=-1)], 143 *)
Definition fl_cat_cumsum (j : nat) : XR := sum_in dt (oc j) p.
(** categorical.py:131-144 *)
Definition fl_cat_cdf (value : Z) : XR :=
  let should_be_zero := (value <? 0)%Z in
  let should_be_one := (Z.of_nat n - 1 <=? value)%Z in
  let value := Z.min (Z.max value 0) (Z.of_nat n - 1) in
  let cdf := fl_pick dt os fl_cat_cumsum value in
  if should_be_zero then Fin 0 else if should_be_one then Fin 1 else cdf.
(** categorical.py:148 *)
Definition fl_cat_log_cdf (L : XR -> XR) (value : Z) : XR := L (fl_cat_cdf value).
(** distribution.py:235 and 258 *)
Definition fl_cat_survival_function (value : Z) : XR := fsub dt (Fin 1) (fl_cat_cdf value).
Definition fl_cat_log_survival_function (L1 : XR -> XR) (value : Z) : XR := L1 (xopp (fl_cat_cdf value)).
End Cat.
