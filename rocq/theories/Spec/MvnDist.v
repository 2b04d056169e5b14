(** Specification vocabulary for batched multivariate normal distribution objects. *)
From mathcomp Require Import all_ssreflect all_algebra.
From Coq Require Import Reals List ZArith.
From Verif Require Import Base.Result Base.Tensor Base.XR Base.Rmx Model.Bijector Model.Transformed Model.Mvn
  Spec.Bijector Spec.Linear Spec.Mvn Spec.Univariate.
Set Implicit Arguments.
Unset Strict Implicit.
Unset Printing Implicit Defensive.
Delimit Scope ring_scope with Ri.
Delimit Scope R_scope with R.
Local Open Scope R_scope.

(** The array holds one n-vector (one n x n matrix) per batch position. *)
Definition vectors_are (n : nat) (a : arr) (bs : shape) (f : list nat -> 'cV[R]_n) : Prop :=
  wf a /\ shp a = (bs ++ n :: nil)%list /\ forall j, inb bs j -> vector_at n a j = f j.
Definition matrices_are (n : nat) (a : arr) (bs : shape) (f : list nat -> 'M[R]_n) : Prop :=
  wf a /\ shp a = (bs ++ n :: n :: nil)%list /\ forall j, inb bs j -> matrix_at n n a j = f j.
Definition numbers_are (a : arr) (bs : shape) (f : list nat -> R) : Prop :=
  wf a /\ shp a = bs /\ forall j, inb bs j -> tget 0 a j = f j.

(** An optional constructor argument: the array given, or one unbatched default. *)
Definition vector_arg (n : nat) (a : option arr) (default : 'cV[R]_n) (bs : shape) (f : list nat -> 'cV[R]_n) : Prop :=
  match a with Some a => vectors_are a bs f | None => bs = nil /\ forall j, f j = default end.
Definition matrix_arg (n : nat) (a : option arr) (default : 'M[R]_n) (bs : shape) (f : list nat -> 'M[R]_n) : Prop :=
  match a with Some a => matrices_are a bs f | None => bs = nil /\ forall j, f j = default end.

(** n x k matrices, one per batch position; the optional factors U and V of a low-rank term U V^T, where U defaults to
    zero and V to U. *)
Definition rectangles_are (n k : nat) (a : arr) (bs : shape) (f : list nat -> 'M[R]_(n, k)) : Prop :=
  wf a /\ shp a = (bs ++ n :: k :: nil)%list /\ forall j, inb bs j -> matrix_at n k a j = f j.
Definition low_rank_args (n k : nat) (u v : option arr) (ub vb : shape) (U V : list nat -> 'M[R]_(n, k)) : Prop :=
  match u, v with
  | None, None => ub = nil /\ vb = nil /\ forall j, U j = 0%Ri /\ V j = 0%Ri
  | Some u, None => (0 < k)%coq_nat /\ rectangles_are u ub U /\ vb = ub /\ forall j, V j = U j
  | Some u, Some v => (0 < k)%coq_nat /\ rectangles_are u ub U /\ rectangles_are v vb V
  | None, Some _ => False
  end.

(** What a scale argument has to be (the contract of linear.Linear): the bijector x |-> A x with A invertible, whose
    matrix property is A, and which says it is diagonal only when A is. *)
Definition linear_scale (sc : scale) (n : nat) (sb : shape) (A : list nat -> 'M[R]_n) : Prop :=
  affine_bijector (s_bij sc) sb A (fun _ => 0%Ri) /\ s_dims sc = n /\ s_batch sc = sb /\
  matrices_are (s_matrix sc) sb A /\ (forall j, inb sb j -> (\det (A j))%Ri <> 0) /\
  match s_diag sc with
  | None => True
  | Some d => vectors_are d sb (fun j => (\col_i A j i i)%Ri) /\ forall j i k, inb sb j -> i <> k -> A j i k = 0
  end.

Section Dist.
Context {K : Type}.
Variable rng : K -> shape -> arr.
(** jax.random.normal returns an array of the requested shape. *)
Definition proper_rng : Prop := forall key s, wf (rng key s) /\ shp (rng key s) = s.

(** The object is, at batch position b, the normal law N(m b, C b): shapes, log_prob on every broadcastable array of
    points, entropy, and the three location statistics. *)
Definition is_normal_law (d : mvn (K := K)) (n : nat) (bs : shape) (m : list nat -> 'cV[R]_n) (C : list nat -> 'M[R]_n) : Prop :=
  v_batch d = bs /\ v_dims d = n /\ d_batch (v_dist d) = bs /\ d_event (v_dist d) = Some (n :: nil) /\
  (forall x xb s, wf x -> shp x = (xb ++ n :: nil)%list -> bshape bs xb = Some s ->
     exists r, d_log_prob (v_dist d) x = Ok r /\
       holds r s (fun i => Fin (ln (mvn_density (m (bindex bs i)) (C (bindex bs i)) (vector_at n x (bindex xb i)))))) /\
  (exists h, d_entropy (v_dist d) = Ok h /\
     holds h bs (fun b => Fin (1 / 2 * ln ((2 * PI * exp 1) ^ n * (\det (C b))%Ri)))) /\
  (exists l, mvn_mean d = Ok l /\ mvn_median d = Ok l /\ mvn_mode d = Ok l /\ d_mean (v_dist d) = Ok l /\ d_mode (v_dist d) = Ok l /\
     vectors_are l bs m).
(** covariance(), variance() and stddev() are C, its diagonal and the square roots of the diagonal. *)
Definition has_covariance (cov var std : result arr) (n : nat) (bs : shape) (C : list nat -> 'M[R]_n) : Prop :=
  (exists c, cov = Ok c /\ matrices_are c bs C) /\
  (exists v, var = Ok v /\ vectors_are v bs (fun b => (\col_i C b i i)%Ri)) /\
  (exists s, std = Ok s /\ vectors_are s bs (fun b => (\col_i sqrt (C b i i))%Ri)).
(** k samples: at (i, b) the vector m b + S b z, z the standard normal draw at (i, b) of the generator;
    sample_and_log_prob returns the same samples and their log_prob. *)
Definition samples_affinely (d : mvn (K := K)) (n : nat) (bs : shape) (m : list nat -> 'cV[R]_n) (S : list nat -> 'M[R]_n) : Prop :=
  forall key k, (0 < k)%coq_nat ->
  exists y r, d_sample_n (v_dist d) key k = Ok y /\ d_salp (v_dist d) key k = Ok (y, r) /\ d_log_prob (v_dist d) y = Ok r /\
    vectors_are y (k :: bs) (fun ib => (m (tail ib) + S (tail ib) *m vector_at n (rng key (k :: bs ++ n :: nil)%list) ib)%Ri).
End Dist.

(** An object built by the constructor of MultivariateNormalFromBijector (which every multivariate normal class calls) with
    mean m and covariance C at each batch position. *)
Definition mvn_object (K : Type) (rng : K -> shape -> arr) (d : mvn (K := K)) (n : nat) (bs : shape) (m : list nat -> 'cV[R]_n) (C : list nat -> 'M[R]_n) : Prop :=
  exists loc lb m0 sc sb A, vectors_are loc lb m0 /\ linear_scale sc sb A /\ bshape sb lb = Some bs /\ mvn_init rng loc sc = Ok d /\
    forall j, inb bs j -> m0 (bindex lb j) = m j /\ (A (bindex sb j) *m (A (bindex sb j))^T)%Ri = C j.
