(** What is assumed of the library's elementary functions when accuracy is claimed. *)
From Coq Require Import Reals.
From Verif.Base Require Import XR Float.
Local Open Scope R_scope.

(** On the representable inputs in [P], [f] computes [F] with an error of at most [k] units of relative
    roundoff (plus the smallest normal number, for underflow). *)
Definition accurate (dt : dtype) (k : R) (f : XR -> XR) (F : R -> R) (P : R -> Prop) : Prop :=
  forall x, repr dt x -> P x ->
    exists r, f (Fin x) = Fin r /\ repr dt r /\ Rabs (r - F x) <= k * eps dt * Rabs (F x) + tiny dt.
(** [v] is within [tol] of [t]: finite, and close. *)
Definition close (v : XR) (t tol : R) : Prop := exists r, v = Fin r /\ Rabs (r - t) <= tol.
