(** Specification vocabulary for continuous distributions on the real line. *)
From Coq Require Import Reals List.
From Coquelicot Require Import Coquelicot.
From Verif Require Import Base.XR Base.Integral.
Local Open Scope R_scope.

(** [f] is a probability density and [F] its cumulative distribution function. *)
Definition density_with_cdf (f F : R -> R) : Prop :=
  (forall x, 0 <= f x) /\ (forall x, continuous f x) /\ (forall x, is_derive F x (f x)) /\
  is_lim F m_infty 0 /\ is_lim F p_infty 1.
(** the expectation of [g] under the density [f] exists and equals [v] *)
Definition expectation (f g : R -> R) (v : R) : Prop := integral (fun x => f x * g x) v.
(** a strictly positive density has differential entropy and KL divergence given by expectations *)
Definition is_entropy (f : R -> R) (v : R) : Prop := expectation f (fun x => - ln (f x)) v.
Definition is_kl (f g : R -> R) (v : R) : Prop := expectation f (fun x => ln (f x) - ln (g x)) v.
(** [y] is the value at the float [Fin x] of a float function *)
Definition is_mode (f : R -> R) (m : R) : Prop := forall x, f x <= f m.

(** ** The textbook densities *)
Definition gaussian (l s x : R) : R := exp (- ((x - l) / s) ^ 2 / 2) / (s * sqrt (2 * PI)).
Definition laplacian (l s x : R) : R := exp (- (Rabs (x - l) / s)) / (2 * s).
Definition logistic_density (l s x : R) : R := exp (- ((x - l) / s)) / (s * (1 + exp (- ((x - l) / s))) ^ 2).
Definition gumbel_density (l s x : R) : R := exp (- ((x - l) / s + exp (- ((x - l) / s)))) / s.
Definition uniform_density (a b x : R) : R := if Rle_dec a x then if Rle_dec x b then 1 / (b - a) else 0 else 0.
