(** Specification vocabulary for multivariate normal distributions on R^n. *)
From mathcomp Require Import all_ssreflect all_algebra.
From Coq Require Import Reals List ClassicalEpsilon.
From Verif Require Import Base.Integral Base.MultiInt Base.Cholesky Base.Rmx.
Set Implicit Arguments.
Unset Strict Implicit.
Unset Printing Implicit Defensive.
Delimit Scope ring_scope with Ri.
Delimit Scope R_scope with R.
Local Open Scope R_scope.

(** The density of N(m, C): exp(-(x-m)^T C^-1 (x-m) / 2) / sqrt((2 pi)^n det C). *)
Definition mvn_density (n : nat) (m : 'cV[R]_n) (C : 'M[R]_n) (x : 'cV[R]_n) : R :=
  exp (- (1 / 2) * qform (invmx C) (x - m)%Ri) / sqrt ((2 * PI) ^ n * (\det C)%Ri).

(** What it means for a density [p] on R^n to be normalised and to have mean [m] and covariance [C]. *)
Definition normalised_n (n : nat) (p : 'cV[R]_n -> R) : Prop := (forall x, 0 <= p x) /\ integral_n p 1.
Definition mean_is_n (n : nat) (p : 'cV[R]_n -> R) (m : 'cV[R]_n) : Prop :=
  forall i, integral_n (fun x => x i ord0 * p x) (m i ord0).
Definition covariance_is_n (n : nat) (p : 'cV[R]_n -> R) (m : 'cV[R]_n) (C : 'M[R]_n) : Prop :=
  forall i j, integral_n (fun x => (x i ord0 - m i ord0) * (x j ord0 - m j ord0) * p x) (C i j).
(** Differential entropy and Kullback-Leibler divergence. *)
Definition entropy_is_n (n : nat) (p : 'cV[R]_n -> R) (h : R) : Prop := integral_n (fun x => - (p x * ln (p x))) h.
Definition kl_is_n (n : nat) (p q : 'cV[R]_n -> R) (k : R) : Prop := integral_n (fun x => p x * (ln (p x) - ln (q x))) k.
(** [x] inserted at coordinate [i]; the density [g] of coordinate [i] is got by integrating the others out. *)
Definition insert_at (n : nat) (i : 'I_n.+1) (x : R) (z : 'cV[R]_n) : 'cV[R]_(n.+1) :=
  (\col_k match unlift i k with Some j => z j ord0 | None => x end)%Ri.
Definition marginal_is (n : nat) (p : 'cV[R]_(n.+1) -> R) (i : 'I_n.+1) (g : R -> R) : Prop :=
  forall x, integral_n (fun z => p (insert_at i x z)) (g x).
(** The Kullback-Leibler divergence between two normal laws in closed form. *)
Definition mvn_kl (n : nat) (m1 : 'cV[R]_n) (C1 : 'M[R]_n) (m2 : 'cV[R]_n) (C2 : 'M[R]_n) : R :=
  1 / 2 * ((\tr (invmx C2 *m C1))%Ri + qform (invmx C2) (m2 - m1)%Ri - INR n + ln ((\det C2)%Ri / (\det C1)%Ri)).
(** The density [p] takes its largest value at [m] and nowhere else. *)
Definition unique_mode_n (n : nat) (p : 'cV[R]_n -> R) (m : 'cV[R]_n) : Prop := forall x, x <> m -> p x < p m.
(** The cumulative distribution function of a density [p] at [x]: the probability that every coordinate is at most x's. *)
Definition cdf_is_n (n : nat) (p : 'cV[R]_n -> R) (x : 'cV[R]_n) (v : R) : Prop :=
  integral_n (fun y => if excluded_middle_informative (forall k, y k ord0 <= x k ord0) then p y else 0) v.
