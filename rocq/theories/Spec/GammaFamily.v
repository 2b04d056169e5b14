(** Specification vocabulary: Euler's gamma function, the Gamma, Beta and Dirichlet densities, integrals over intervals and
    over the simplex. *)
From Coq Require Import Reals List.
From Coquelicot Require Import Coquelicot.
From Verif Require Import Base.XR Base.Sums Base.Improper.
Import ListNotations.
Local Open Scope R_scope.

(** Euler's integral, int_0^infty x^(a-1) e^-x dx *)
Definition Gamma_fn (a : R) : R := RInt_gen (fun x => Rpower x (a - 1) * exp (- x)) (at_right 0) (Rbar_locally p_infty).
(** [lg] computes ln Gamma(a) and [dg] its derivative, for a > 0 *)
Definition is_lgamma (lg : XR -> XR) : Prop := forall a, 0 < a -> lg (Fin a) = Fin (ln (Gamma_fn a)).
Definition is_digamma (dg : XR -> XR) : Prop :=
  forall a, 0 < a -> exists d, dg (Fin a) = Fin d /\ is_derive (fun x => ln (Gamma_fn x)) a d.

(** [f] is a probability density on (a, b) *)
Definition density_on (a : R) (b : Rbar) (f : R -> R) : Prop := (forall x, inside a b x -> 0 <= f x) /\ integral_on a b f 1.
Definition expect_on (a : R) (b : Rbar) (f g : R -> R) (v : R) : Prop := integral_on a b (fun x => f x * g x) v.
Definition entropy_on (a : R) (b : Rbar) (f : R -> R) (v : R) : Prop := expect_on a b f (fun x => - ln (f x)) v.
Definition kl_on (a : R) (b : Rbar) (f g : R -> R) (v : R) : Prop := expect_on a b f (fun x => ln (f x) - ln (g x)) v.

Definition gamma_density (a r x : R) : R := Rpower r a * Rpower x (a - 1) * exp (- (r * x)) / Gamma_fn a.
Definition beta_density (a b x : R) : R := Rpower x (a - 1) * Rpower (1 - x) (b - 1) * Gamma_fn (a + b) / (Gamma_fn a * Gamma_fn b).

Definition powers (x al : list R) : R := rprod (map (fun p => Rpower (fst p) (snd p - 1)) (combine x al)).
Definition dirichlet_density (al x : list R) : R := powers x al * Gamma_fn (rsum al) / rprod (map Gamma_fn al).

(** the integral of [g] over { (x_0, ..., x_n) : x_i > 0, sum = s }, iterated over the first n coordinates *)
Fixpoint simplex_int (n : nat) (g : list R -> R) (s v : R) : Prop :=
  match n with
  | O => v = g [s]
  | S m => exists h : R -> R,
      (forall x, 0 < x < s -> simplex_int m (fun xs => g (x :: xs)) (s - x) (h x)) /\ integral_on 0 s h v
  end.
Definition on_simplex (n : nat) (x : list R) : Prop := length x = S n /\ List.Forall (fun y => 0 < y) x /\ rsum x = 1.
