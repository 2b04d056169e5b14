(** Specification vocabulary for Gumbel: the Euler-Mascheroni constant as the limit of sum_{k=1}^n 1/k - ln n. *)
From Coq Require Import Reals.
From Coquelicot Require Import Coquelicot.
Local Open Scope R_scope.
Fixpoint harmonic (n : nat) : R := match n with O => 0 | S m => harmonic m + / INR (S m) end.
Definition is_euler_mascheroni (g : R) : Prop := is_lim_seq (fun n => harmonic n - ln (INR n)) g.
