(** Specification vocabulary for scalar maps, independent of the models. *)
From Coq Require Import Reals.
Local Open Scope R_scope.

(** [lf x] is the logarithm of the absolute value of the (existing, nonzero) derivative of
    [f] at [x]; [derivable_pt_lim] is the standard library's derivative. *)
Definition log_abs_derivative (f lf : R -> R) (x : R) : Prop :=
  exists d, derivable_pt_lim f x d /\ d <> 0 /\ lf x = ln (Rabs d).

(** [f] restricted to all of R is a bijection onto the set [T] with two-sided inverse [g]. *)
Definition bijection_onto (f g : R -> R) (T : R -> Prop) : Prop :=
  (forall x, T (f x) /\ g (f x) = x) /\ (forall y, T y -> f (g y) = y).

Definition strictly_increasing (f : R -> R) : Prop := forall x y, x < y -> f x < f y.
