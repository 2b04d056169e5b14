(** Specification vocabulary for transformed random vectors. *)
From mathcomp Require Import all_ssreflect all_algebra.
From Coq Require Import Reals List ZArith.
From Verif Require Import Base.Result Base.Tensor Base.XR Base.Rmx Base.MultiInt Model.Bijector Model.Transformed Spec.Jacobian.
Set Implicit Arguments.
Unset Strict Implicit.
Unset Printing Implicit Defensive.
Delimit Scope ring_scope with Ri.
Delimit Scope R_scope with R.
Local Open Scope R_scope.

(** Near [y], [G] is a right inverse of [F]; and [G] is continuous at [y]. *)
Definition inverse_near (n : nat) (F G : 'cV[R]_n -> 'cV[R]_n) (y : 'cV[R]_n) : Prop :=
  (exists d, 0 < d /\ forall h, norm1 h < d -> F (G (y + h)%Ri) = (y + h)%Ri) /\
  (forall eps, 0 < eps -> exists d, 0 < d /\ forall h, norm1 h < d -> norm1 (G (y + h) - G y)%Ri < eps).

(** A distribution of batch shape [pre] and event shape [suf] whose density in batch position [idx] is [p idx], as a
    function of the event flattened to a vector. *)
Definition has_densities {K} (d : dist K) (pre suf : shape) (p : list nat -> 'cV[R]_(prodl suf) -> R) : Prop :=
  (forall idx v, 0 <= p idx v) /\
  forall x, wf x -> shp x = (pre ++ suf)%list ->
    exists lp, d_log_prob d x = Ok lp /\ wf lp /\ shp lp = pre /\
      forall idx, inb pre idx -> tget (Fin 0) lp idx = rlog (p idx (event suf x idx)).
(** The vector [m] is the mean of the law with density [p] after the map [F]: the expectation of every coordinate. *)
Definition mean_after (n k : nat) (p : 'cV[R]_n -> R) (F : 'cV[R]_n -> 'cV[R]_k) (m : 'cV[R]_k) : Prop :=
  forall i, integral_n (fun v => F v i ord0 * p v) (m i ord0).
