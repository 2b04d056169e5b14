(** Specification vocabulary: a coin that shows 1 with probability [p] and 0 with probability [1 - p]. *)
From Coq Require Import Reals.
Local Open Scope R_scope.
Definition coin (p : R) (i : nat) : R := match i with O => 1 - p | _ => p end.
