(** Specification vocabulary: products of finite probability laws. *)
From Coq Require Import Reals List.
From Verif Require Import Base.Sums Base.Tensor Base.Tree Spec.Categorical.
Import ListNotations.
Local Open Scope R_scope.

(** the probabilities of all combinations of outcomes of independent finite random variables *)
Fixpoint joint_pmf (ps : list (list R)) : list R :=
  match ps with [] => [1] | p :: ps' => flat_map (fun x => map (Rmult x) (joint_pmf ps')) p end.
(** the leading axes and the last [k] axes of the shape [s] *)
Definition leading (k : nat) (s : shape) : shape := firstn (length s - k) s.
Definition trailing (k : nat) (s : shape) : shape := skipn (length s - k) s.
(** laws on the same finite set, the first absolutely continuous with respect to the second *)
Definition compatible (p q : list R) : Prop := is_pmf p /\ length p = length q /\ absolutely_continuous p q.
(** trees that differ at most in the values at their leaves *)
Definition same_structure {A B} (s : tree A) (t : tree B) : Prop := tree_rel (fun _ _ => True) s t.
