(** Specification vocabulary: the distribution given by a vector of logits, its entropy and relative entropy. *)
From Coq Require Import Reals List.
From Verif Require Import Base.XR.
Local Open Scope R_scope.

Definition logit_weight (v : XR) : R := match v with Fin r => exp r | _ => 0 end.
Definition sum_over (n : nat) (f : nat -> R) : R := fold_right Rplus 0 (map f (seq 0 n)).
(** probability of category [i]: proportional to exp of its logit, -inf meaning impossible *)
Definition category_prob (n : nat) (logits : nat -> XR) (i : nat) : R := logit_weight (logits i) / sum_over n (fun j => logit_weight (logits j)).
(** [- sum p ln p] and [sum p ln (p / q)], over the possible categories *)
Definition shannon_entropy (n : nat) (p : nat -> R) : R := - sum_over n (fun i => if Rlt_dec 0 (p i) then p i * ln (p i) else 0).
Definition relative_entropy (n : nat) (p q : nat -> R) : R := sum_over n (fun i => if Rlt_dec 0 (p i) then p i * ln (p i / q i) else 0).
