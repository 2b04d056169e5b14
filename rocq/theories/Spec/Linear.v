(** Specification vocabulary for the linear bijectors (mathcomp matrices over R). *)
From mathcomp Require Import all_ssreflect all_algebra.
From Coq Require Import Reals List ZArith.
From Verif Require Import Base.Result Base.Tensor Model.Bijector Spec.Bijector Spec.Jacobian Base.Rmx.
Set Implicit Arguments.
Unset Strict Implicit.
Unset Printing Implicit Defensive.
Delimit Scope ring_scope with Ri.
Delimit Scope R_scope with R.
Local Open Scope R_scope.

(** The n-vector (n x k matrix) held in the last axis (two axes) at batch position [j]. *)
Definition vector_at (n : nat) (x : arr) (j : list nat) : 'cV[R]_n :=
  (\col_(i < n) tget 0 x (j ++ (i : nat) :: nil)%list)%Ri.
Definition matrix_at (n k : nat) (m : arr) (j : list nat) : 'M[R]_(n, k) :=
  (\matrix_(i < n, l < k) tget 0 m (j ++ (i : nat) :: (l : nat) :: nil)%list)%Ri.

(** On every array of n-vectors whose batch shape broadcasts with [bs], [op] returns at batch
    position [i] the vector A x + c and the number l, with the parameters and the input read
    through NumPy broadcasting. *)
Definition acts_affine (op : arr -> result (arr * arr)) (n : nat) (bs : shape)
    (A : list nat -> 'M[R]_n) (c : list nat -> 'cV[R]_n) (l : list nat -> R) : Prop :=
  forall x xb s, wf x -> shp x = (xb ++ n :: nil)%list -> bshape bs xb = Some s ->
  exists y ld, op x = Ok (y, ld) /\ wf y /\ shp y = (s ++ n :: nil)%list /\ wf ld /\ shp ld = s /\
    forall i, inb s i ->
      vector_at n y i = (A (bindex bs i) *m vector_at n x (bindex xb i) + c (bindex bs i))%Ri /\
      tget 0 ld i = l (bindex bs i).

(** [b] is the affine bijector x |-> A x + c on vectors with batch shape [bs]: both
    directions, the log-dets, the metadata and the separate methods. *)
Definition affine_bijector (b : bij) (n : nat) (bs : shape) (A : list nat -> 'M[R]_n) (c : list nat -> 'cV[R]_n) : Prop :=
  acts_affine (b_fal b) bs A c (fun j => ln (Rabs (\det (A j))%Ri)) /\
  acts_affine (b_ial b) bs (fun j => invmx (A j)) (fun j => (- (invmx (A j) *m c j))%Ri)
    (fun j => - ln (Rabs (\det (A j))%Ri)) /\
  methods_agree b /\ b_in b = 1%Z /\ b_out b = 1%Z /\ b_cj b = true /\ b_cl b = true.

(** The lower / upper triangle (diagonal included) and the unit lower triangle. *)
Definition lower_of (n : nat) (A : 'M[R]_n) : 'M[R]_n := (\matrix_(i, k) if leq k i then A i k else 0)%Ri.
Definition upper_of (n : nat) (A : 'M[R]_n) : 'M[R]_n := (\matrix_(i, k) if leq i k then A i k else 0)%Ri.
Definition unit_lower_of (n : nat) (A : 'M[R]_n) : 'M[R]_n :=
  (\matrix_(i, k) if leq k.+1 i then A i k else if i == k then 1 else 0)%Ri.
