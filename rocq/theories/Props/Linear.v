(** C21-C23: the linear and affine bijectors. *)
From mathcomp Require Import all_ssreflect all_algebra.
From Coq Require Import Reals List ZArith Lra Lia.
From Verif Require Import Base.Result Base.Sums Base.Tensor Model.Bijector Model.ScalarBij Model.Linear
  Spec.Bijector Spec.Jacobian Spec.Linear Proofs.Linear Base.Rmx.
Set Implicit Arguments.
Unset Strict Implicit.
Unset Printing Implicit Defensive.
Import GRing.Theory.
Delimit Scope ring_scope with Ri.
Delimit Scope R_scope with R.
Local Open Scope R_scope.

(** ** Shared consequences: whatever satisfies [affine_bijector] inverts and reports the true log-det. *)
Theorem C21_affine_inverse_undoes_forward : forall b n bs A (c : list nat -> 'cV[R]_n) x xb s y l,
  affine_bijector b bs A c -> (forall j, inb bs j -> (\det (A j))%Ri <> 0) ->
  wf x -> shp x = (xb ++ n :: nil)%list -> bshape bs xb = Some s -> b_fal b x = Ok (y, l) ->
  exists z, b_ial b y = Ok (z, tneg l) /\ wf z /\ shp z = (s ++ n :: nil)%list /\
    forall i, inb s i -> vector_at n z i = vector_at n x (bindex xb i).
Proof. exact: affine_round_trip. Qed.
Print Assumptions C21_affine_inverse_undoes_forward.
Theorem C21_affine_forward_undoes_inverse : forall b n bs A (c : list nat -> 'cV[R]_n) x xb s y l,
  affine_bijector b bs A c -> (forall j, inb bs j -> (\det (A j))%Ri <> 0) ->
  wf y -> shp y = (xb ++ n :: nil)%list -> bshape bs xb = Some s -> b_ial b y = Ok (x, l) ->
  exists z, b_fal b x = Ok (z, tneg l) /\ wf z /\ shp z = (s ++ n :: nil)%list /\
    forall i, inb s i -> vector_at n z i = vector_at n y (bindex xb i).
Proof. exact: affine_round_trip_inv. Qed.
Print Assumptions C21_affine_forward_undoes_inverse.
Theorem C21_affine_log_det_true_jacobian : forall n (A : 'M[R]_n) (c v : 'cV[R]_n),
  (\det A)%Ri <> 0 -> is_log_det (fun x => (A *m x + c)%Ri) v (ln (Rabs (\det A)%Ri)).
Proof. exact: affine_log_det. Qed.
Print Assumptions C21_affine_log_det_true_jacobian.

(** ** C21 *)
Theorem C21_diag_linear : forall diag db n b,
  wf diag -> shp diag = (db ++ n :: nil)%list -> diag_linear_init diag = Ok b ->
  (forall j, inb db j -> forall i, vector_at n diag j i ord0 <> 0) ->
  affine_bijector b db (fun j => diag_mx ((vector_at n diag j)^T)%Ri) (fun _ => 0%Ri).
Proof. exact: diag_linear_ok. Qed.
Print Assumptions C21_diag_linear.
Theorem C21_triangular_linear : forall matrix is_lower mb n mat b,
  shp matrix = (mb ++ n :: n :: nil)%list ->
  triangular_linear_init matrix is_lower = Ok (mat, b) ->
  (forall j, inb mb j -> forall i, matrix_at n n matrix j i i <> 0) ->
  let T j := if is_lower then lower_of (matrix_at n n matrix j) else upper_of (matrix_at n n matrix j) in
  affine_bijector b mb T (fun _ => 0%Ri) /\
  shp mat = shp matrix /\ wf mat /\ (forall j, inb mb j -> matrix_at n n mat j = T j) /\
  forall j, (\det (T j) = \prod_i matrix_at n n matrix j i i)%Ri.
Proof.
move=> matrix lo mb n mat b S E Hd. have [H1 [H2 [H3 H4]]] := triangular_linear_ok S E Hd.
do 4!split=> //. move=> j. exact: det_tri_of.
Qed.
Print Assumptions C21_triangular_linear.
Theorem C21_triangular_constructor : forall matrix is_lower,
  (is_ok (triangular_linear_init matrix is_lower) = true <-> exists n mb, shp matrix = (mb ++ n :: n :: nil)%list) /\
  (is_ok (triangular_linear_init matrix is_lower) = false -> triangular_linear_init matrix is_lower = Err ValueError).
Proof. exact: triangular_ctor. Qed.
Print Assumptions C21_triangular_constructor.
Theorem C21_diag_constructor : forall diag,
  (shp diag = nil -> diag_linear_init diag = Err ValueError) /\
  (shp diag <> nil -> is_ok (diag_linear_init diag) = true).
Proof. exact: diag_ctor. Qed.
Print Assumptions C21_diag_constructor.

(** ** C22 *)
Theorem C22_lower_upper_triangular_affine : forall matrix bias mb bb n bs b,
  wf bias -> shp matrix = (mb ++ n :: n :: nil)%list -> shp bias = (bb ++ n :: nil)%list -> bshape mb bb = Some bs ->
  (forall j, inb mb j -> forall i, matrix_at n n matrix j i i <> 0) ->
  lu_affine_init matrix bias = Ok b ->
  let A j := (unit_lower_of (matrix_at n n matrix (bindex mb j)) *m upper_of (matrix_at n n matrix (bindex mb j)))%Ri in
  affine_bijector b bs A (fun j => vector_at n bias (bindex bb j)) /\
  (forall j, (\det (A j) = \prod_i matrix_at n n matrix (bindex mb j) i i)%Ri) /\
  (forall j, inb bs j -> (\det (A j))%Ri <> 0).
Proof.
move=> matrix bias mb bb n bs b Wb Sm Sb Hb Hd E A.
have D : forall j, (\det (A j) = \prod_i matrix_at n n matrix (bindex mb j) i i)%Ri.
{ move=> j. by rewrite det_mulmx det_unit_lower_of det_upper_of mul1r. }
split; first exact: lu_affine_ok. split=> // j Hj. rewrite D. apply: prod_neq0 => i. apply: Hd. exact: bindex_inb Hb Hj.
Qed.
Print Assumptions C22_lower_upper_triangular_affine.
Theorem C22_unconstrained_affine : forall matrix bias mb bb n bs b,
  shp matrix = (mb ++ n :: n :: nil)%list -> shp bias = (bb ++ n :: nil)%list -> bshape mb bb = Some bs ->
  unconstrained_affine_init matrix bias = Ok b ->
  affine_bijector b bs (fun j => matrix_at n n matrix (bindex mb j)) (fun j => vector_at n bias (bindex bb j)).
Proof. exact: unconstrained_affine_ok. Qed.
Print Assumptions C22_unconstrained_affine.
Theorem C22_unconstrained_constructor : forall matrix bias,
  (is_ok (unconstrained_affine_init matrix bias) = true <->
   exists n mb bb bs, shp matrix = (mb ++ n :: n :: nil)%list /\ shp bias = (bb ++ n :: nil)%list /\ bshape mb bb = Some bs) /\
  (is_ok (unconstrained_affine_init matrix bias) = false -> unconstrained_affine_init matrix bias = Err ValueError).
Proof. exact: unconstrained_ctor. Qed.
Print Assumptions C22_unconstrained_constructor.
(** The LU constructor checks the trailing dimensions only: incompatible batch shapes are
    noticed when a method is called. *)
Theorem C22_lower_upper_constructor : forall matrix bias,
  (is_ok (lu_affine_init matrix bias) = true <->
   exists n, (exists mb, shp matrix = (mb ++ n :: n :: nil)%list) /\ (exists bb, shp bias = (bb ++ n :: nil)%list)) /\
  (is_ok (lu_affine_init matrix bias) = false -> lu_affine_init matrix bias = Err ValueError).
Proof. exact: lu_ctor. Qed.
Print Assumptions C22_lower_upper_constructor.

(** ** C23 *)
Theorem C23_diag_plus_low_rank : forall diag u v db ub vb n k bs1 bs b,
  wf diag -> shp diag = (db ++ n :: nil)%list -> shp u = (ub ++ n :: k :: nil)%list -> shp v = (vb ++ n :: k :: nil)%list ->
  bshape db ub = Some bs1 -> bshape bs1 vb = Some bs ->
  (forall j, inb db j -> forall i, vector_at n diag j i ord0 <> 0) ->
  let A j := (diag_mx ((vector_at n diag (bindex db j))^T) +
              matrix_at n k u (bindex ub j) *m (matrix_at n k v (bindex vb j))^T)%Ri in
  (forall j, inb bs j -> (\det (A j))%Ri <> 0) ->
  diag_plus_low_rank_init diag u v = Ok b ->
  affine_bijector b bs A (fun _ => 0%Ri).
Proof. exact: diag_plus_low_rank_ok. Qed.
Print Assumptions C23_diag_plus_low_rank.
(** The matrix determinant lemma: A is invertible exactly when the K x K capacitance matrix is. *)
Theorem C23_determinant_lemma : forall n k (d : 'cV[R]_n) (U V : 'M[R]_(n, k)),
  (forall i, d i ord0 <> 0) ->
  (\det (diag_mx d^T + U *m V^T) = (\prod_i d i ord0) * \det (1%:M + V^T *m (invmx (diag_mx d^T) *m U)))%Ri.
Proof.
move=> n k d U V Hd. rewrite -sylvester.
have HD := det_diag_of d. rewrite /diag_of in HD. rewrite -HD -det_mulmx mulmxDr mulmx1 !mulmxA mulmxV ?mul1mx //.
apply: det_unit. rewrite HD. exact: prod_neq0.
Qed.
Print Assumptions C23_determinant_lemma.
Theorem C23_constructor : forall diag u v,
  (is_ok (diag_plus_low_rank_init diag u v) = true <->
   exists n k db ub vb bs1 bs, shp diag = (db ++ n :: nil)%list /\ shp u = (ub ++ n :: k :: nil)%list /\ shp v = (vb ++ n :: k :: nil)%list /\
     bshape db ub = Some bs1 /\ bshape bs1 vb = Some bs) /\
  (is_ok (diag_plus_low_rank_init diag u v) = false -> diag_plus_low_rank_init diag u v = Err ValueError).
Proof. exact: low_rank_ctor. Qed.
Print Assumptions C23_constructor.

(** Non-vacuity: concrete arguments meeting the hypotheses (batched parameters). *)
Lemma is_ok_ex (A : Type) (m : result A) : is_ok m = true -> exists a, m = Ok a.
Proof. case: m => //= a _. by exists a. Qed.
Lemma det2 (A : 'M[R]_2) : (\det A)%Ri = A ord0 ord0 * A (lift ord0 ord0) (lift ord0 ord0) - A ord0 (lift ord0 ord0) * A (lift ord0 ord0) ord0.
Proof.
rewrite (expand_det_row _ ord0) !big_ord_recl big_ord0 /cofactor !det_mx11 !mxE /=.
have -> : lift (lift ord0 ord0) ord0 = ord0 :> 'I_2 by apply: val_inj.
rewrite /bump /= expr0 expr1 addr0 mul1r mulN1r.
have -> : (0%Ri : 'I_1) = ord0 by apply: val_inj. rewrite addRE !mulRE oppRE. toR; ring.
Qed.
Example C21_nonvacuous :
  let m := mkT (2 :: 2 :: 2 :: nil)%nat%list (1 :: 2 :: 3 :: 4 :: -1 :: 5 :: 6 :: -2 :: nil)%list in
  (exists r, triangular_linear_init m true = Ok r) /\ wf m /\ shp m = ((2 :: nil) ++ 2 :: 2 :: nil)%nat%list /\
  (forall j, inb (2 :: nil)%nat%list j -> forall i, matrix_at 2 2 m j i i <> 0) /\
  bshape (2 :: nil)%nat%list (3 :: 1 :: nil)%nat%list = Some (3 :: 2 :: nil)%nat%list.
Proof.
move=> m. split; [|split; [|split; [|split]]] => //.
- apply: is_ok_ex. apply/(proj1 (triangular_ctor m true)). by exists 2%nat, (2 :: nil)%nat%list.
- move=> j Hj i. inversion Hj as [|a b l l' Ha Hl]; subst. inversion Hl; subst.
  rewrite mxE /m /tget. case: i => [[|[|i]] Hi] //; case: a Hj Ha => [|[|a]] Hj Ha; cbn [nat_of_ord List.app ravel shp dat prodl fold_right Nat.mul Nat.add List.nth]; try lra; lia.
Qed.
Example C22_nonvacuous :
  let m := mkT (2 :: 2 :: nil)%nat%list (2 :: 1 :: 1 :: 1 :: nil)%list in
  let c := mkT (3 :: 2 :: nil)%nat%list (1 :: 2 :: 3 :: 4 :: 5 :: 6 :: nil)%list in
  (exists b, lu_affine_init m c = Ok b) /\ (exists b, unconstrained_affine_init m c = Ok b) /\ wf c /\
  (forall j, inb nil j -> forall i, matrix_at 2 2 m j i i <> 0) /\
  (\det (matrix_at 2 2 m nil))%Ri <> 0.
Proof.
move=> m c. split; [|split; [|split; [|split]]] => //.
- apply: is_ok_ex. apply/(proj1 (lu_ctor m c)). exists 2%nat. split; [by exists nil|by exists (3 :: nil)%nat%list].
- apply: is_ok_ex. apply/(proj1 (unconstrained_ctor m c)). by exists 2%nat, nil, (3 :: nil)%nat%list, (3 :: nil)%nat%list.
- move=> j Hj i. inversion Hj; subst. rewrite mxE /m /tget. case: i => [[|[|i]] Hi] //; cbn [nat_of_ord List.app ravel shp dat prodl fold_right Nat.mul Nat.add List.nth]; lra.
- rewrite det2 !mxE /m /tget; cbn [nat_of_ord List.app ravel shp dat prodl fold_right Nat.mul Nat.add List.nth lift bump leq subn addn ord0 nat_of_bool]. cbn. lra.
Qed.
Example C23_nonvacuous :
  let d := mkT (2 :: nil)%nat%list (2 :: 3 :: nil)%list in
  let u := mkT (2 :: 1 :: nil)%nat%list (1 :: 1 :: nil)%list in
  (exists b, diag_plus_low_rank_init d u u = Ok b) /\ wf d /\
  (forall j, inb nil j -> forall i, vector_at 2 d j i ord0 <> 0) /\
  (\det (diag_mx (vector_at 2 d nil)^T + matrix_at 2 1 u nil *m (matrix_at 2 1 u nil)^T))%Ri <> 0.
Proof.
move=> d u. split; [|split; [|split]] => //.
- apply: is_ok_ex. apply/(proj1 (low_rank_ctor d u u)). by exists 2%nat, 1%nat, nil, nil, nil, nil, nil.
- move=> j Hj i. inversion Hj; subst. rewrite mxE /d /tget. case: i => [[|[|i]] Hi] //; cbn [nat_of_ord List.app ravel shp dat prodl fold_right Nat.mul Nat.add List.nth]; lra.
- rewrite det2 !mxE !big_ord1 !mxE /= ?mulr1n ?mulr0n /d /u /tget !addRE !mulRE zeroRE. cbn. lra.
Qed.
