(** Specification vocabulary for C58: Bessel integrals, the von Mises density, angles modulo a full turn. *)
From Coq Require Import Reals ZArith.
From Coquelicot Require Import Coquelicot.
From Verif Require Import Base.XR.
Local Open Scope R_scope.

(** integral over the circle [-pi, pi] *)
Definition circle_int (f : R -> R) (v : R) : Prop := is_RInt f (- PI) PI v.
(** [I0] and [I1]: the modified Bessel functions, (1/2pi) int exp(k cos t) dt and (1/2pi) int cos t exp(k cos t) dt *)
Definition is_I0 (k v : R) : Prop := circle_int (fun t => exp (k * cos t) / (2 * PI)) v.
Definition is_I1 (k v : R) : Prop := circle_int (fun t => cos t * exp (k * cos t) / (2 * PI)) v.
(** jax's i0, and the exponentially scaled i0e, i1e, on non-negative arguments *)
Definition is_bessel (i0 i0e i1e : XR -> XR) : Prop := forall k, 0 <= k ->
  exists a b, is_I0 k a /\ is_I1 k b /\ i0 (Fin k) = Fin a /\ i0e (Fin k) = Fin (exp (- k) * a) /\ i1e (Fin k) = Fin (exp (- k) * b).
(** the von Mises density with respect to the angle; [a] is I_0(k) *)
Definition vm_density (a loc k x : R) : R := exp (k * cos (x - loc)) / (2 * PI * a).
(** same angle up to whole turns *)
Definition congruent (x y : R) : Prop := exists n : Z, x = y + 2 * PI * IZR n.
