(** Models of the linear bijectors DiagLinear, TriangularLinear, LowerUpperTriangularAffine,
    UnconstrainedAffine and DiagPlusLowRankLinear.  Arrays are tensors with trailing matrix or
    vector axes; the numerical linear algebra of JAX is given its exact meaning: [solve] and
    [solve_triangular] multiply by the inverse matrix, [slogdet(A)[1]] is ln|det A|. *)
From mathcomp Require Import all_ssreflect all_algebra.
From Coq Require Import Reals List ZArith.
From Verif Require Import Base.Result Base.Sums Base.Tensor Model.Bijector Model.ScalarBij Base.Rmx.
Set Implicit Arguments.
Unset Strict Implicit.
Unset Printing Implicit Defensive.
Delimit Scope ring_scope with Ri.
Delimit Scope R_scope with R.
Local Open Scope R_scope.

(** The vector (matrix) stored in the trailing axis (axes) of an array at batch position [j]. *)
Definition vec_at (n : nat) (x : arr) (j : list nat) : 'cV[R]_n :=
  (\col_(i < n) tget 0 x (j ++ (i : nat) :: nil)%list)%Ri.
Definition mat_at (n k : nat) (m : arr) (j : list nat) : 'M[R]_(n, k) :=
  (\matrix_(i < n, l < k) tget 0 m (j ++ (i : nat) :: (l : nat) :: nil)%list)%Ri.
Definition vget (n : nat) (v : 'cV[R]_n) (i : nat) : R := match insub i with Some o => v o ord0 | None => 0 end.
Definition mget (n k : nat) (m : 'M[R]_(n, k)) (i l : nat) : R :=
  match insub i, insub l with Some o, Some o' => m o o' | _, _ => 0 end.
(** The array of shape s ++ [n] (s ++ [n; k]) with the given vectors (matrices). *)
Definition vstack (s : shape) (n : nat) (f : list nat -> 'cV[R]_n) : arr :=
  tgen (s ++ n :: nil)%list (fun idx => vget (f (firstn (length s) idx)) (List.nth (length s) idx 0%nat)).
Definition mstack (s : shape) (n k : nat) (f : list nat -> 'M[R]_(n, k)) : arr :=
  tgen (s ++ n :: k :: nil)%list (fun idx => mget (f (firstn (length s) idx))
     (List.nth (length s) idx 0%nat) (List.nth (S (length s)) idx 0%nat)).

(** x.shape[:-1] and x.shape[-1], for rank >= 1. *)
Definition lead (s : shape) : shape := removelast s.
Definition trail (s : shape) : nat := List.last s 0%nat.

(** jnp.vectorize(f, signature="(m),...->(m)")(x, ...): parameters of batch shape [pb]. *)
Definition vectorize (n : nat) (pb : shape) (f : list nat -> 'cV[R]_n -> 'cV[R]_n) (x : arr) : result arr :=
  if Nat.eqb (trail (shp x)) n then
    do s <- bcast_shapes pb (lead (shp x));
    Ok (vstack s (fun i => f (bindex pb i) (vec_at n x (bindex (lead (shp x)) i))))
  else Err ValueError.
(** The log-det methods: broadcast_to(self._logdet, broadcast_shapes(batch_shape, x.shape[:-1])). *)
Definition bcast_logdet (batch_shape : shape) (logdet : arr) (x : arr) : result arr :=
  do s <- bcast_shapes batch_shape (lead (shp x)); bcast_to logdet s.

(** The methods shared by TriangularLinear (triangular_linear.py:93-123), UnconstrainedAffine
    (unconstrained_affine.py:91-127) and _IdentityPlusLowRankLinear
    (diag_plus_low_rank_linear.py:92-122). *)
Definition linear_methods (m : meta) (n : nat) (batch_shape : shape)
    (fwd inv : list nat -> 'cV[R]_n -> 'cV[R]_n) (logdet : arr) : bij :=
  let forward x := do _ <- check_input_shape (m_in m) x; vectorize batch_shape fwd x in
  let fldj x := do _ <- check_input_shape (m_in m) x; bcast_logdet batch_shape logdet x in
  let inverse y := do _ <- check_input_shape (m_out m) y; vectorize batch_shape inv y in
  let ildj y := rmap tneg (fldj y) in
  mkBij (m_in m) (m_out m) (m_cj m) (m_cl m) forward inverse fldj ildj
    (fun x => do y <- forward x; do l <- fldj x; Ok (y, l))
    (fun y => do x <- inverse y; do l <- ildj y; Ok (x, l)).

(** ** DiagLinear, diag_linear.py:44-78.  All methods are those of the Block, except that the
    metadata comes from Linear.__init__ (linear.py:45). *)
Definition diag_linear_init (diag : arr) : result bij :=
  if Nat.ltb (rank diag) 1 then Err ValueError
  else
    do sa <- scalar_affine_init (tscalar 0) (Some diag) None;
    do blk <- block_init sa 1;
    do m <- base_init 1 None true None;
    Ok (mkBij (m_in m) (m_out m) (m_cj m) (m_cl m)
          (b_fwd blk) (b_inv blk) (b_fld blk) (b_ild blk) (b_fal blk) (b_ial blk)).

(** ** TriangularLinear *)
(** The leading axes and the last two dimensions of a matrix array. *)
Definition mlead (s : shape) : shape := firstn (length s - 2) s.
Definition mrows (s : shape) : nat := List.nth (length s - 2) s 0%nat.
Definition mcols (s : shape) : nat := List.nth (length s - 1) s 0%nat.
(** jnp.tril(m, k) and jnp.triu(m) on the last two axes (k = 0 or -1 here). *)
Definition trilk (strict : bool) (m : arr) : arr :=
  tgen (shp m) (fun idx =>
    let r := List.nth (length (shp m) - 2) idx 0%nat in let c := List.nth (length (shp m) - 1) idx 0%nat in
    if (if strict then Nat.ltb c r else Nat.leb c r) then tget 0 m idx else 0).
Definition triu (m : arr) : arr :=
  tgen (shp m) (fun idx =>
    let r := List.nth (length (shp m) - 2) idx 0%nat in let c := List.nth (length (shp m) - 1) idx 0%nat in
    if Nat.leb r c then tget 0 m idx else 0).
(** _triangular_logdet, triangular_linear.py:28-30. *)
Definition triangular_logdet (n : nat) (A : 'M[R]_n) : R := (\sum_(i < n) ln (Rabs (A i i)))%Ri.
(** TriangularLinear.__init__, 58-81, and _forward_unbatched / _inverse_unbatched, 33-38. *)
Definition triangular_linear_init (matrix : arr) (is_lower : bool) : result (arr * bij) :=
  if Nat.ltb (rank matrix) 2 then Err ValueError
  else if negb (Nat.eqb (mrows (shp matrix)) (mcols (shp matrix))) then Err ValueError
  else
    do m <- base_init 1 None true None;
    let n := mcols (shp matrix) in
    let mb := mlead (shp matrix) in
    let mat := if is_lower then trilk false matrix else triu matrix in
    let logdet := tgen mb (fun j => triangular_logdet (mat_at n n mat j)) in
    Ok (mat, linear_methods m mb (fun j x => mat_at n n mat j *m x)%Ri
                                 (fun j y => invmx (mat_at n n mat j) *m y)%Ri logdet).

(** ** UnconstrainedAffine *)
(** check_affine_parameters, unconstrained_affine.py:26-46. *)
Definition check_affine_parameters (matrix bias : arr) : result unit :=
  if Nat.ltb (rank matrix) 2 then Err ValueError
  else if Nat.ltb (rank bias) 1 then Err ValueError
  else if negb (Nat.eqb (mrows (shp matrix)) (mcols (shp matrix))) then Err ValueError
  else if negb (Nat.eqb (mcols (shp matrix)) (trail (shp bias))) then Err ValueError
  else Ok tt.
(** UnconstrainedAffine.__init__, 66-79; unbatched maps 95-96 and 115-116. *)
Definition unconstrained_affine_init (matrix bias : arr) : result bij :=
  do _ <- check_affine_parameters matrix bias;
  do m <- base_init 1 None true None;
  let n := mcols (shp matrix) in
  let mb := mlead (shp matrix) in let bb := lead (shp bias) in
  do batch_shape <- bcast_shapes mb bb;
  let A j := mat_at n n matrix (bindex mb j) in
  let c j := vec_at n bias (bindex bb j) in
  let logdet := tgen mb (fun j => ln (Rabs (\det (mat_at n n matrix j))%Ri)) in
  Ok (linear_methods m batch_shape (fun j x => A j *m x + c j)%Ri
                                   (fun j y => invmx (A j) *m (y - c j))%Ri logdet).

(** ** LowerUpperTriangularAffine, lower_upper_triangular_affine.py:60-77 *)
(** jnp.eye(dim) + jnp.tril(matrix, -1), 73. *)
Definition unit_lower (matrix : arr) : arr :=
  tgen (shp matrix) (fun idx =>
    let r := List.nth (length (shp matrix) - 2) idx 0%nat in
    let c := List.nth (length (shp matrix) - 1) idx 0%nat in
    (if Nat.eqb r c then 1 else 0) + tget 0 (trilk true matrix) idx).
Definition lu_affine_init (matrix bias : arr) : result bij :=
  do _ <- check_affine_parameters matrix bias;
  do (_, upper) <- triangular_linear_init matrix false;
  do (_, lower) <- triangular_linear_init (unit_lower matrix) true;
  do sh <- shift_init bias;
  do shb <- block_init sh 1;
  chain_init (shb :: lower :: upper :: nil).

(** ** DiagPlusLowRankLinear *)
(** _get_small_matrix, diag_plus_low_rank_linear.py:29-31. *)
Definition small_matrix (n k : nat) (u v : 'M[R]_(n, k)) : 'M[R]_k := (1%:M + v^T *m u)%Ri.
(** _IdentityPlusLowRankLinear, 74-122, with _forward_unbatched / _inverse_unbatched, 39-45;
    [n], [k] are the trailing dimensions of both matrices. *)
Definition id_plus_low_rank_init (n k : nat) (u_matrix v_matrix : arr) : result bij :=
  do m <- base_init 1 None true None;
  let ub := mlead (shp u_matrix) in let vb := mlead (shp v_matrix) in
  do batch_shape <- bcast_shapes ub vb;
  let U j := mat_at n k u_matrix (bindex ub j) in
  let V j := mat_at n k v_matrix (bindex vb j) in
  let logdet := tgen batch_shape (fun j => ln (Rabs (\det (small_matrix (U j) (V j)))%Ri)) in
  Ok (linear_methods m batch_shape
        (fun j x => x + U j *m ((V j)^T *m x))%Ri
        (fun j y => y - U j *m (invmx (small_matrix (U j) (V j)) *m ((V j)^T *m y)))%Ri logdet).
(** _check_shapes_are_valid, 125-145. *)
Definition check_shapes_are_valid (diag u v : arr) : result unit :=
  if Nat.ltb (rank diag) 1 || Nat.ltb (rank u) 2 || Nat.ltb (rank v) 2 then Err ValueError
  else if negb (Nat.eqb (mrows (shp u)) (trail (shp diag))) then Err ValueError
  else if negb (Nat.eqb (mrows (shp u)) (mrows (shp v)) && Nat.eqb (mcols (shp u)) (mcols (shp v))) then Err ValueError
  else Ok tt.
(** u_matrix / diag[..., None], 192. *)
Definition div_rows (u diag : arr) : result arr :=
  tmap2 0 0 Rdiv u (mkT (shp diag ++ 1%nat :: nil)%list (dat diag)).
(** DiagPlusLowRankLinear.__init__, 177-208. *)
Definition diag_plus_low_rank_init (diag u v : arr) : result bij :=
  do _ <- check_shapes_are_valid diag u v;
  do w <- div_rows u diag;
  do idl <- id_plus_low_rank_init (trail (shp diag)) (mcols (shp u)) w v;
  do dl <- diag_linear_init diag;
  do ch <- chain_init (dl :: idl :: nil);
  do bs1 <- bcast_shapes (lead (shp diag)) (mlead (shp u));
  do _ <- bcast_shapes bs1 (mlead (shp v));
  do m <- base_init 1 None true None;
  Ok (mkBij (m_in m) (m_out m) (m_cj m) (m_cl m)
        (b_fwd ch) (b_inv ch) (b_fld ch) (b_ild ch) (b_fal ch) (b_ial ch)).
