(** Specification of the piecewise-uniform distribution on [a, b] with bin probabilities p. *)
From Coq Require Import List Reals.
From Verif Require Import Base.Sums.
Import ListNotations.
Local Open Scope R_scope.

(** left end of bin k, the width of a bin *)
Definition edge (a b : R) (K k : nat) : R := a + INR k * ((b - a) / INR K).
Definition bin_width (a b : R) (K : nat) : R := (b - a) / INR K.
(** 1 on [u, v), 0 elsewhere *)
Definition bin (u v x : R) : R := if Rle_dec u x then if Rlt_dec x v then 1 else 0 else 0.
(** the density of the docstring: p_k / C when (k)C <= x - a < (k+1)C, and 0 otherwise *)
Definition piecewise_density (p : list R) (a b x : R) : R :=
  sumf (fun k => nth k p 0 / bin_width a b (length p) * bin (edge a b (length p) k) (edge a b (length p) (S k)) x)
       (seq 0 (length p)).
(** the probability of the bins before bin k *)
Definition mass_before (p : list R) (k : nat) : R := rsum (firstn k p).
