(** Specification of the arguments the multivariate normal constructors accept, in terms of shapes only. *)
From Coq Require Import List Reals.
From Verif Require Import Base.Tensor Model.Bijector.
Import ListNotations.

(** An optional array of vectors of length [n], with batch shape [b]. *)
Definition vectors_shaped (a : option (tensor R)) (b : shape) (n : nat) : Prop :=
  match a with Some a => shp a = b ++ [n] | None => b = [] end.
(** An optional array of [n] x [k] matrices. *)
Definition matrices_shaped (a : option (tensor R)) (b : shape) (n k : nat) : Prop :=
  match a with Some a => shp a = b ++ [n; k] | None => b = [] end.

(** A mean and a square matrix, at least one of them given, of one dimension and with compatible batch shapes. *)
Definition mean_and_matrix (loc matrix : option (tensor R)) (bs : shape) (n : nat) : Prop :=
  (loc <> None \/ matrix <> None) /\
  exists lb mb, vectors_shaped loc lb n /\ matrices_shaped matrix mb n n /\ bshape mb lb = Some bs.
Definition mean_and_diagonal (loc diag : option (tensor R)) (bs : shape) (n : nat) : Prop :=
  (loc <> None \/ diag <> None) /\
  exists lb db, vectors_shaped loc lb n /\ vectors_shaped diag db n /\ bshape db lb = Some bs.
(** ... and the factors of a low-rank term: [v] only together with [u], both with the same positive number of columns. *)
Definition mean_and_low_rank (loc diag u v : option (tensor R)) (bs : shape) (n : nat) : Prop :=
  (loc <> None \/ diag <> None \/ u <> None) /\ (v <> None -> u <> None) /\
  exists lb db ub vb k bs1 bs2, vectors_shaped loc lb n /\ vectors_shaped diag db n /\ matrices_shaped u ub n k /\ matrices_shaped v vb n k /\
    0 < k /\ bshape db ub = Some bs1 /\ bshape bs1 vb = Some bs2 /\ bshape bs2 lb = Some bs.
