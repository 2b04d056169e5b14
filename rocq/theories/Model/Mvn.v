(** Model of mvn_from_bijector.py, mvn_tri.py, mvn_diag.py, mvn_diag_plus_low_rank.py and mvn_full_covariance.py.
    Arrays hold exact reals; data types are not modelled.  TFP distributions as the other argument of the KL
    divergence (mvn_from_bijector.py:175-176, 188-189, 199-200, 211-220) are not modelled. *)
From mathcomp Require Import all_ssreflect all_algebra.
From Coq Require Import Reals List ZArith ClassicalEpsilon.
From Verif Require Import Base.Result Base.Sums Base.Tensor Base.XR Base.Lift Base.Gauss Base.Cholesky Base.Rmx
  Model.Bijector Model.ScalarBij Model.Linear Model.ScalarDist Model.ArrayDist Model.Distribution Model.Compose Model.Transformed.
Set Implicit Arguments.
Unset Strict Implicit.
Unset Printing Implicit Defensive.
Delimit Scope ring_scope with Ri.
Delimit Scope R_scope with R.
Local Open Scope R_scope.

Definition tdiv (a b : arr) : result arr := tmap2 0 0 Rdiv a b.
(** jnp.expand_dims(x, axis=-1), and jnp.expand_dims(x, axis=list(range(k))) *)
Definition expand_last (x : arr) : arr := mkT (shp x ++ 1%nat :: nil)%list (dat x).
Definition expand_first (k : nat) (x : arr) : arr := mkT (List.repeat 1%nat k ++ shp x)%list (dat x).
Definition tones (s : shape) : arr := tgen s (fun _ => 1).
Definition teye (n : nat) : arr := tgen (n :: n :: nil)%list (fun idx => if Nat.eqb (List.nth 0 idx 0%nat) (List.nth 1 idx 0%nat) then 1 else 0).
(** jnp.vectorize(jnp.diag, signature="(k)->(k,k)") and jnp.vectorize(jnp.diag, signature="(k,k)->(k)") *)
Definition diag_matrices (d : arr) : arr :=
  let n := trail (shp d) in mstack (lead (shp d)) (fun j => diag_mx (vec_at n d j)^T)%Ri.
Definition matrix_diags (m : arr) : arr :=
  let n := mcols (shp m) in vstack (mlead (shp m)) (fun j => \col_(i < n) mat_at n n m j i i)%Ri.
(** jax.vmap(f, in_axes=-2, out_axes=-2)(m) and jax.vmap(f, in_axes=-1, out_axes=-1)(m), for a function of arrays whose
    result shape depends on the argument's shape only: f is applied to every row (column) of m. *)
Definition row_slice (m : arr) (r : nat) : arr :=
  let s := mlead (shp m) in
  tgen (s ++ mcols (shp m) :: nil)%list (fun idx => tget 0 m (firstn (length s) idx ++ r :: List.nth (length s) idx 0%nat :: nil)%list).
Definition col_slice (m : arr) (c : nat) : arr :=
  let s := mlead (shp m) in
  tgen (s ++ mrows (shp m) :: nil)%list (fun idx => tget 0 m (firstn (length s) idx ++ List.nth (length s) idx 0%nat :: c :: nil)%list).
Definition result_or (d : arr) (r : result arr) : arr := match r with Ok a => a | Err _ => d end.
Definition vmap_rows (f : arr -> result arr) (m : arr) : result arr :=
  do y0 <- f (row_slice m 0);
  let s := lead (shp y0) in
  Ok (tgen (s ++ mrows (shp m) :: trail (shp y0) :: nil)%list (fun idx =>
        tget 0 (result_or y0 (f (row_slice m (List.nth (length s) idx 0%nat))))
          (firstn (length s) idx ++ List.nth (S (length s)) idx 0%nat :: nil)%list)).
Definition vmap_cols (f : arr -> result arr) (m : arr) : result arr :=
  do y0 <- f (col_slice m 0);
  let s := lead (shp y0) in
  Ok (tgen (s ++ trail (shp y0) :: mcols (shp m) :: nil)%list (fun idx =>
        tget 0 (result_or y0 (f (col_slice m (List.nth (S (length s)) idx 0%nat))))
          (firstn (length s) idx ++ List.nth (length s) idx 0%nat :: nil)%list)).
(** jnp.sum(x, axis=-1) and jnp.sum(x, axis=[-2, -1]) *)
Definition sum_axis_last (x : arr) : arr :=
  tgen (lead (shp x)) (fun j => sumf (fun k => tget 0 x (j ++ k :: nil)%list) (List.seq 0 (trail (shp x)))).
Definition sum_axes_last2 (x : arr) : arr :=
  tgen (mlead (shp x)) (fun j => sumf (fun i => sumf (fun k => tget 0 x (j ++ i :: k :: nil)%list) (List.seq 0 (mcols (shp x)))) (List.seq 0 (mrows (shp x)))).

(** ** The scale bijectors as linear.Linear sees them (linear.py:28-75) *)
Record scale := mkScale {
  s_bij : bij;
  s_dims : nat;           (* event_dims *)
  s_batch : shape;        (* batch_shape *)
  s_matrix : arr;         (* the matrix property *)
  s_diag : option arr     (* Some diag: the object is a DiagLinear *)
}.
(** DiagLinear, diag_linear.py:44-74 *)
Definition diag_scale (diag : arr) : result scale :=
  do b <- diag_linear_init diag;
  Ok (mkScale b (trail (shp diag)) (lead (shp diag)) (diag_matrices diag) (Some diag)).
(** TriangularLinear, triangular_linear.py:58-86 *)
Definition triangular_scale (matrix : arr) (is_lower : bool) : result scale :=
  do (m, b) <- triangular_linear_init matrix is_lower;
  Ok (mkScale b (mcols (shp matrix)) (mlead (shp matrix)) m None).
(** DiagPlusLowRankLinear, diag_plus_low_rank_linear.py:177-231; the matrix property is 225-231 *)
Definition diag_plus_low_rank_scale (diag u v : arr) : result scale :=
  do b <- diag_plus_low_rank_init diag u v;
  do bs1 <- bcast_shapes (lead (shp diag)) (mlead (shp u));
  do bs <- bcast_shapes bs1 (mlead (shp v));
  let n := trail (shp diag) in let k := mcols (shp u) in
  Ok (mkScale b n bs
       (mstack bs (fun j => diag_mx (vec_at n diag (bindex (lead (shp diag)) j))^T +
          mat_at n k u (bindex (mlead (shp u)) j) *m (mat_at n k v (bindex (mlead (shp v)) j))^T)%Ri) None).

Section Mvn.
Context {K : Type}.
(** jax.random.normal: the array of draws for a key and a shape *)
Variable rng : K -> shape -> arr.

(** Normal(loc, scale), normal.py:52-141, on arrays of reals *)
Definition normal_pdist (loc scale : arr) : result (pdist K arr) :=
  do batch <- bcast_shapes (shp loc) (shp scale);
  let l := tmap Fin loc in let s := tmap Fin scale in
  Ok (mkPdist batch (Some nil)
       (fun v => normal_log_prob_arr (tmap Fin v) l s)
       (fun v => lift3 normal_log_cdf (tmap Fin v) l s)
       (normal_entropy_arr l s)
       (fun key n => do r <- normal_sample_n (tmap Fin (rng key (n :: batch)%list)) l s; Ok (tmap XR.toR r))
       (fun key n => do (y, lp) <- normal_salp (tmap Fin (rng key (n :: batch)%list)) l s; Ok (tmap XR.toR y, lp))
       (bcast_to loc batch) (bcast_to loc batch) (bcast_to loc batch)
       (do s <- bcast_to scale batch; Ok (tmap (fun x => x * x) s)) (bcast_to scale batch)).
Definition dist_of_pdist (d : pdist K arr) : dist K :=
  mkDist (p_batch d) (p_event d) (p_log_prob d) (p_sample d) (p_salp d) (p_mean d) (p_mode d) (p_entropy d).
(** the standard normal base, mvn_from_bijector.py:81-85 *)
Definition std_mvn_dist (s : shape) : result (dist K) :=
  do d <- normal_pdist (tzeros s) (tscalar 1);
  do i <- independent_init d (Some 1%Z);
  Ok (dist_of_pdist (independent_dist i)).

(** ** MultivariateNormalFromBijector *)
Record mvn := mkMvn {
  v_loc : arr;               (* _loc *)
  v_scale : scale;           (* _scale *)
  v_batch : shape;           (* batch_shape *)
  v_dims : nat;              (* event_shape = (v_dims,) *)
  v_dist : dist K            (* the inherited methods of Transformed *)
}.
(** _check_input_parameters_are_valid, 40-48, and __init__, 67-92 *)
Definition mvn_init (loc : arr) (sc : scale) : result mvn :=
  if Nat.ltb (rank loc) 1 then Err ValueError
  else if negb (Nat.eqb (s_dims sc) (trail (shp loc))) then Err ValueError
  else
    let n := trail (shp loc) in
    do batch_shape <- bcast_shapes (s_batch sc) (lead (shp loc));
    do base <- std_mvn_dist (batch_shape ++ n :: nil)%list;
    do sh <- shift_init loc;
    do blk <- block_init sh 1;
    do bijector <- chain_init (blk :: s_bij sc :: nil);
    do ev <- transformed_check base bijector;
    Ok (mkMvn loc sc batch_shape n
          (mkDist batch_shape (Some (n :: nil)) (transformed_log_prob base bijector)
             (transformed_sample_n base bijector) (transformed_salp base bijector)
             (bcast_to loc (batch_shape ++ n :: nil)%list)                         (* mean, 105-107 *)
             (bcast_to loc (batch_shape ++ n :: nil)%list)                         (* mode, 113-115 *)
             (transformed_entropy base bijector ev None))).
(** loc, 99-103; mean, median and mode, 105-115, return it *)
Definition mvn_loc (d : mvn) : result arr := bcast_to (v_loc d) (v_batch d ++ v_dims d :: nil)%list.
Definition mvn_mean (d : mvn) : result arr := mvn_loc d.
Definition mvn_median (d : mvn) : result arr := mvn_loc d.
Definition mvn_mode (d : mvn) : result arr := mvn_loc d.
(** variance, 136-143 *)
Definition mvn_variance (d : mvn) : result arr :=
  let result := match s_diag (v_scale d) with
    | Some diag => tmap (fun x => x * x) diag
    | None => sum_axis_last (tmap (fun x => x * x) (s_matrix (v_scale d)))
    end in
  bcast_to result (v_batch d ++ v_dims d :: nil)%list.
(** covariance, 117-134; [variance] is self.variance() *)
Definition mvn_covariance_with (variance : result arr) (d : mvn) : result arr :=
  do result <- match s_diag (v_scale d) with
    | Some _ => do v <- variance; Ok (diag_matrices v)
    | None => vmap_rows (b_fwd (s_bij (v_scale d))) (s_matrix (v_scale d))
    end;
  bcast_to result (v_batch d ++ v_dims d :: v_dims d :: nil)%list.
Definition mvn_covariance (d : mvn) : result arr := mvn_covariance_with (mvn_variance d) d.
(** stddev, 145-151 *)
Definition mvn_stddev_with (variance : result arr) (d : mvn) : result arr :=
  do result <- match s_diag (v_scale d) with
    | Some diag => Ok (tmap Rabs diag)
    | None => do v <- variance; Ok (tmap sqrt v)
    end;
  bcast_to result (v_batch d ++ v_dims d :: nil)%list.
Definition mvn_stddev (d : mvn) : result arr := mvn_stddev_with (mvn_variance d) d.

(** ** KL, 158-253 *)
(** _squared_frobenius_norm, 158-160 *)
Definition squared_frobenius_norm (x : arr) : arr := sum_axes_last2 (tmap (fun a => a * a) x).
(** _log_abs_determinant, 163-172 *)
Definition log_abs_determinant (d : mvn) : result arr := b_fld (s_bij (v_scale d)) (tzeros (v_dims d :: nil)).
(** _inv_scale_operator, 175-183 *)
Definition inv_scale_operator (d : mvn) (x : arr) : result arr := vmap_cols (b_inv (s_bij (v_scale d))) x.
(** _kl_divergence_mvn_mvn, 216-253 *)
Definition mvn_kl_divergence (dist1 dist2 : mvn) : result arr :=
  let num_dims := v_dims dist1 in
  if negb (Nat.eqb num_dims (v_dims dist2)) then Err ValueError
  else
    do ld2 <- log_abs_determinant dist2;
    do ld1 <- log_abs_determinant dist1;
    do diff_lob_abs_det <- tsub ld2 ld1;
    do b_inv_a <- match s_diag (v_scale dist1), s_diag (v_scale dist2) with
      | Some _, Some _ =>
          do sd1 <- mvn_stddev dist1; do sd2 <- mvn_stddev dist2; do q <- tdiv sd1 sd2; Ok (expand_last q)
      | _, _ => inv_scale_operator dist2 (s_matrix (v_scale dist1))
      end;
    do m2 <- mvn_mean dist2; do m1 <- mvn_mean dist1; do dm <- tsub m2 m1;
    let diff_mean_expanded := expand_last dm in
    do b_inv_diff_mean <- inv_scale_operator dist2 diff_mean_expanded;
    do t <- tadd (tmap (fun x => - INR num_dims + x) (squared_frobenius_norm b_inv_a)) (squared_frobenius_norm b_inv_diff_mean);
    tadd diff_lob_abs_det (tmap (fun x => 1 / 2 * x) t).

(** ** MultivariateNormalTri, mvn_tri.py *)
(** _check_parameters, 33-60 *)
Definition tri_check (loc scale_tri : option arr) : result unit :=
  match loc, scale_tri with
  | None, None => Err ValueError
  | _, _ =>
    if match loc with Some l => Nat.ltb (rank l) 1 | None => false end then Err ValueError
    else if match scale_tri with Some t => Nat.ltb (rank t) 2 | None => false end then Err ValueError
    else if match scale_tri with Some t => negb (Nat.eqb (mcols (shp t)) (mrows (shp t))) | None => false end then Err ValueError
    else match loc, scale_tri with
      | Some l, Some t => if negb (Nat.eqb (mcols (shp t)) (trail (shp l))) then Err ValueError else Ok tt
      | _, _ => Ok tt
      end
  end.
(** __init__, 73-118; the second component is _scale_tri *)
Definition mvn_tri_init (loc scale_tri : option arr) (is_lower : bool) : result (mvn * arr) :=
  do _ <- tri_check loc scale_tri;
  let num_dims := match loc, scale_tri with
    | Some l, _ => trail (shp l) | None, Some t => mcols (shp t) | None, None => 0%nat end in
  let loc := match loc with Some l => l | None => tzeros (num_dims :: nil) end in
  match scale_tri with
  | None => do sc <- diag_scale (tones (trail (shp loc) :: nil)); do d <- mvn_init loc sc; Ok (d, teye num_dims)
  | Some t =>
      let st := if is_lower then trilk false t else triu t in
      do sc <- triangular_scale st is_lower; do d <- mvn_init loc sc; Ok (d, st)
  end.
(** scale_tri, 120-125 *)
Definition mvn_tri_scale_tri (d : mvn * arr) : result arr :=
  bcast_to (snd d) (v_batch (fst d) ++ v_dims (fst d) :: v_dims (fst d) :: nil)%list.

(** ** MultivariateNormalDiag, mvn_diag.py *)
(** _check_parameters, 34-50 (chex.assert_not_both_none raises AssertionError) *)
Definition diag_check (loc scale_diag : option arr) : result unit :=
  match loc, scale_diag with
  | None, None => Err AssertionError
  | _, _ =>
    if match scale_diag with Some d => Nat.eqb (rank d) 0 | None => false end then Err ValueError
    else if match loc with Some l => Nat.eqb (rank l) 0 | None => false end then Err ValueError
    else match loc, scale_diag with
      | Some l, Some d => if negb (Nat.eqb (trail (shp l)) (trail (shp d))) then Err ValueError else Ok tt
      | _, _ => Ok tt
      end
  end.
(** __init__, 58-94; the second component is _scale_diag *)
Definition mvn_diag_init (loc scale_diag : option arr) : result (mvn * arr) :=
  do _ <- diag_check loc scale_diag;
  let '(loc, scale_diag) := match loc, scale_diag with
    | Some l, None => (l, tones (trail (shp l) :: nil))
    | None, Some d => (tzeros (trail (shp d) :: nil), d)
    | Some l, Some d => (l, d)
    | None, None => (tscalar 0, tscalar 0)
    end in
  do broadcasted_shapes <- bcast_shapes (shp loc) (shp scale_diag);
  let loc := expand_first (length broadcasted_shapes - rank loc) loc in
  let scale_diag := expand_first (length broadcasted_shapes - rank scale_diag) scale_diag in
  do sc <- diag_scale scale_diag;
  do d <- mvn_init loc sc; Ok (d, scale_diag).
(** scale_diag, 96-100 *)
Definition mvn_diag_scale_diag (d : mvn * arr) : result arr := bcast_to (snd d) (v_batch (fst d) ++ v_dims (fst d) :: nil)%list.
(** _standardize, 102-103 *)
Definition mvn_diag_standardize (d : mvn * arr) (value : arr) : result arr :=
  do x <- tsub value (v_loc (fst d)); tdiv x (snd d).
(** jnp.prod(x, axis=-1) *)
Definition prod_last (x : arr) : arr :=
  tgen (lead (shp x)) (fun j => rprod (List.map (fun k => tget 0 x (j ++ k :: nil)%list) (List.seq 0 (trail (shp x))))).
(** cdf and log_cdf, 105-112 *)
Definition mvn_diag_cdf (d : mvn * arr) (value : arr) : result arr :=
  do z <- mvn_diag_standardize d value; Ok (prod_last (tmap ncdf z)).
Definition mvn_diag_log_cdf (d : mvn * arr) (value : arr) : result arr :=
  do z <- mvn_diag_standardize d value; Ok (sum_axis_last (tmap (fun x => ln (ncdf x)) z)).

(** ** MultivariateNormalDiagPlusLowRank, mvn_diag_plus_low_rank.py *)
(** _check_parameters, 33-85 *)
Definition onone {A : Type} (o : option A) : bool := match o with None => true | _ => false end.
Definition olt (k : nat) (o : option arr) : bool := match o with Some a => Nat.ltb (rank a) k | None => false end.
Definition dplr_check (loc scale_diag u v : option arr) : result unit :=
  if onone loc && onone scale_diag && onone u then Err ValueError
  else if negb (onone v) && onone u then Err ValueError
  else if olt 1 loc || olt 1 scale_diag || olt 2 u || olt 2 v then Err ValueError
  else if match u, v with Some u, Some v => negb (Nat.eqb (mcols (shp u)) (mcols (shp v))) | _, _ => false end then Err ValueError
  else if match u with Some u => Nat.ltb (mcols (shp u)) 1 | None => false end then Err ValueError
  else
    let dims := (match loc with Some l => trail (shp l) :: nil | None => nil end ++
                 match scale_diag with Some d => trail (shp d) :: nil | None => nil end ++
                 match u with Some u => mrows (shp u) :: nil | None => nil end ++
                 match v with Some v => mrows (shp v) :: nil | None => nil end)%list in
    match dims with
    | nil => Ok tt
    | num_dims :: _ => if List.forallb (Nat.eqb num_dims) dims then Ok tt else Err ValueError
    end.
Record mvn_dplr := mkDplr { dp_mvn : mvn; dp_diag : arr; dp_u : arr; dp_v : arr }.
(** __init__, 109-176 *)
Definition mvn_dplr_init (loc scale_diag u v : option arr) : result mvn_dplr :=
  do _ <- dplr_check loc scale_diag u v;
  let num_dims := match loc, scale_diag, u with
    | Some l, _, _ => trail (shp l) | None, Some d, _ => trail (shp d) | None, None, Some u => mrows (shp u) | None, None, None => 0%nat end in
  let loc := match loc with Some l => l | None => tzeros (num_dims :: nil) end in
  let scale_diag := match scale_diag with Some d => d | None => tones (num_dims :: nil) end in
  let scale_u := match u with Some u => u | None => tzeros (num_dims :: 1%nat :: nil)%list end in
  let scale_v := match v with Some v => v | None => scale_u end in
  do sc <- match u with
    | None => diag_scale scale_diag
    | Some _ => diag_plus_low_rank_scale scale_diag scale_u scale_v
    end;
  do d <- mvn_init loc sc;
  Ok (mkDplr d scale_diag scale_u scale_v).

(** scale_diag, 178-182, scale_u_matrix, 184-189, and scale_v_matrix, 191-196 *)
Definition dplr_scale_diag (d : mvn_dplr) : result arr := bcast_to (dp_diag d) (v_batch (dp_mvn d) ++ v_dims (dp_mvn d) :: nil)%list.
Definition dplr_scale_u (d : mvn_dplr) : result arr :=
  bcast_to (dp_u d) (v_batch (dp_mvn d) ++ mrows (shp (dp_u d)) :: mcols (shp (dp_u d)) :: nil)%list.
Definition dplr_scale_v (d : mvn_dplr) : result arr :=
  bcast_to (dp_v d) (v_batch (dp_mvn d) ++ mrows (shp (dp_v d)) :: mcols (shp (dp_v d)) :: nil)%list.

(** ** MultivariateNormalFullCovariance, mvn_full_covariance.py *)
(** jnp.linalg.cholesky on the last two axes: the lower triangular matrix L with positive diagonal with L L^T = C.
    (JAX returns NaNs when there is none; the model returns zeros.) *)
Definition cholesky_of (n : nat) (C : 'M[R]_n) : 'M[R]_n :=
  match excluded_middle_informative (exists L, chol_shape L /\ (L *m L^T = C)%Ri) with
  | left H => proj1_sig (constructive_indefinite_description _ H)
  | right _ => 0%Ri
  end.
Definition cholesky (c : arr) : arr :=
  let n := mcols (shp c) in mstack (mlead (shp c)) (fun j => cholesky_of (mat_at n n c j)).
(** _check_parameters, 30-57, tests the same conditions as that of MultivariateNormalTri.
    __init__, 74-105; the second component is _covariance_matrix *)
Definition mvn_full_init (loc covariance_matrix : option arr) : result (mvn * arr) :=
  do _ <- tri_check loc covariance_matrix;
  let num_dims := match loc, covariance_matrix with
    | Some l, _ => trail (shp l) | None, Some t => mcols (shp t) | None, None => 0%nat end in
  let loc := match loc with Some l => l | None => tzeros (num_dims :: nil) end in
  match covariance_matrix with
  | None => do (d, _) <- mvn_tri_init (Some loc) None true; Ok (d, teye num_dims)
  | Some c => do (d, _) <- mvn_tri_init (Some loc) (Some (cholesky c)) true; Ok (d, c)
  end.
(** covariance_matrix, 107-112, and covariance, 114-116 *)
Definition mvn_full_covariance (d : mvn * arr) : result arr :=
  bcast_to (snd d) (v_batch (fst d) ++ v_dims (fst d) :: v_dims (fst d) :: nil)%list.
(** variance, 118-121 *)
Definition mvn_full_variance (d : mvn * arr) : result arr := do c <- mvn_full_covariance d; Ok (matrix_diags c).
Definition mvn_full_stddev (d : mvn * arr) : result arr := mvn_stddev_with (mvn_full_variance d) (fst d).

(** ** Slicing: __getitem__, mvn_tri.py:132-138, mvn_diag.py:114-118, mvn_diag_plus_low_rank.py:198-205,
    mvn_full_covariance.py:123-128 *)
Definition mvn_tri_getitem (is_lower : bool) (d : mvn * arr) (ix : list ielem) : result (mvn * arr) :=
  do l <- mvn_loc (fst d); do t <- mvn_tri_scale_tri d;
  do l' <- slice_param 0 (v_batch (fst d)) ix l; do t' <- slice_param 0 (v_batch (fst d)) ix t;
  mvn_tri_init (Some l') (Some t') is_lower.
Definition mvn_diag_getitem (d : mvn * arr) (ix : list ielem) : result (mvn * arr) :=
  do l <- mvn_loc (fst d); do t <- mvn_diag_scale_diag d;
  do l' <- slice_param 0 (v_batch (fst d)) ix l; do t' <- slice_param 0 (v_batch (fst d)) ix t;
  mvn_diag_init (Some l') (Some t').
Definition mvn_dplr_getitem (d : mvn_dplr) (ix : list ielem) : result mvn_dplr :=
  let b := v_batch (dp_mvn d) in
  do l <- mvn_loc (dp_mvn d); do t <- dplr_scale_diag d; do u <- dplr_scale_u d; do v <- dplr_scale_v d;
  do l' <- slice_param 0 b ix l; do t' <- slice_param 0 b ix t; do u' <- slice_param 0 b ix u; do v' <- slice_param 0 b ix v;
  mvn_dplr_init (Some l') (Some t') (Some u') (Some v').
Definition mvn_full_getitem (d : mvn * arr) (ix : list ielem) : result (mvn * arr) :=
  do l <- mvn_loc (fst d); do t <- mvn_full_covariance d;
  do l' <- slice_param 0 (v_batch (fst d)) ix l; do t' <- slice_param 0 (v_batch (fst d)) ix t;
  mvn_full_init (Some l') (Some t').
End Mvn.
