(** Specification vocabulary: probability laws with finitely many outcomes, as lists of (outcome, weight). *)
From Coq Require Import Reals List ZArith.
From Verif Require Import Base.Sums.
Import ListNotations.
Local Open Scope R_scope.

Definition law (A : Type) := list (A * R).
Definition is_law {A} (m : law A) : Prop := (forall aw, In aw m -> 0 <= snd aw) /\ sumf snd m = 1.
(** the expectation of [f] and the probability of a set *)
Definition expect {A} (f : A -> R) (m : law A) : R := sumf (fun aw => snd aw * f (fst aw)) m.
Definition chance {A} (P : A -> bool) (m : law A) : R := expect (fun a => if P a then 1 else 0) m.
(** the joint law of independent variables, and of [n] independent copies *)
Fixpoint independent {A} (ms : list (law A)) : law (list A) :=
  match ms with
  | [] => [([], 1)]
  | m :: ms' => flat_map (fun aw => map (fun lu => (fst aw :: fst lu, snd aw * snd lu)) (independent ms')) m
  end.
Definition iid {A} (n : nat) (m : law A) : law (list A) := independent (repeat m n).
(** the law of a categorical variable with probabilities [p], as an integer *)
Definition categorical_law (p : list R) : law Z := map (fun k => (Z.of_nat k, nth k p 0)) (seq 0 (length p)).
