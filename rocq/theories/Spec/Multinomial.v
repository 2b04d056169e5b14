(** Specification: the multinomial law as the law of the counts of independent categorical draws. *)
From Coq Require Import Reals List ZArith Arith.
From Verif Require Import Base.Sums Base.XR Spec.FiniteLaw.
Import ListNotations.
Local Open Scope R_scope.

(** how often each of the K categories occurs *)
Definition count (j : nat) (draws : list Z) : nat := length (filter (Z.eqb (Z.of_nat j)) draws).
Definition counts (K : nat) (draws : list Z) : list nat := map (fun j => count j draws) (seq 0 K).
(** n! / (k_1! ... k_K!) p_1^k_1 ... p_K^k_K *)
Definition multinomial_pmf (n : nat) (p : list R) (k : list nat) : R :=
  INR (fact n) / prodf (fun i => INR (fact (nth i k O))) (seq 0 (length p)) * prodf (fun i => nth i p 0 ^ nth i k O) (seq 0 (length p)).
(** vectors of K non-negative integers with sum n; a list of all of them *)
Definition count_vector (n K : nat) (k : list nat) : Prop := length k = K /\ fold_right plus O k = n.
Definition enumerates (L : list (list nat)) (n K : nat) : Prop := NoDup L /\ forall k, In k L <-> count_vector n K k.
Definition natvec (k : list nat) : list XR := map (fun c => Fin (INR c)) k.
(** the log-gamma function at the integers *)
Definition lgamma_at_integers (lg : XR -> XR) : Prop :=
  (forall n, lg (Fin (INR (S n))) = Fin (ln (INR (fact n)))) /\ (forall n, lg (Fin (- INR n)) = PInf).
