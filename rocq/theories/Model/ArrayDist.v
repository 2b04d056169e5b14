(** Array level of the univariate distributions: parameters, values and statistics are arrays that are
    broadcast together.  The per-element formulas are those of Model/ScalarDist.v. *)
From Coq Require Import Reals List.
From Verif Require Import Base.Result Base.Tensor Base.XR Base.Lift Model.ScalarDist.
Import ListNotations.

(** elementwise application to 1, 2 or 3 operands, with broadcasting *)
Definition lift1 (f : XR -> XR) (a : tensor XR) : result (tensor XR) :=
  lift (fun l => match l with [x] => f x | _ => NaN end) [a].
Definition lift2 (f : XR -> XR -> XR) (a b : tensor XR) : result (tensor XR) :=
  lift (fun l => match l with [x; y] => f x y | _ => NaN end) [a; b].
Definition lift3 (f : XR -> XR -> XR -> XR) (a b c : tensor XR) : result (tensor XR) :=
  lift (fun l => match l with [x; y; z] => f x y z | _ => NaN end) [a; b; c].
Definition lift4 (f : XR -> XR -> XR -> XR -> XR) (a b c d : tensor XR) : result (tensor XR) :=
  lift (fun l => match l with [x; y; z; w] => f x y z w | _ => NaN end) [a; b; c; d].
(** jnp.broadcast_to *)
Definition broadcast_to (t : tensor XR) (s : shape) : result (tensor XR) :=
  match bshape (shp t) s with
  | Some s' => if list_eq_dec Nat.eq_dec s' s then Ok (tgen s (fun idx => xget t idx)) else Err ValueError
  | None => Err ValueError
  end.
(** jax.lax.broadcast_shapes of the two parameters: batch_shape (normal.py:63, laplace.py:58-59, logistic.py:48-49,
    gumbel.py:49-50, uniform.py:49-50). *)
Definition batch_shape2 (a b : tensor XR) : result shape :=
  match bshape (shp a) (shp b) with Some s => Ok s | None => Err ValueError end.
(** the [loc], [scale], [low], [high] properties: parameter broadcast to the batch shape *)
Definition param (t a b : tensor XR) : result (tensor XR) := do s <- batch_shape2 a b; broadcast_to t s.

(** ** Normal, normal.py *)
(** _sample_n, 78-83: expand_dims only inserts leading unit dimensions, which broadcasting does anyway. *)
Definition normal_sample_n (rnd loc scale : tensor XR) : result (tensor XR) := lift3 normal_sample rnd loc scale.
(** _sample_n_and_log_prob, 85-90 *)
Definition normal_salp (rnd loc scale : tensor XR) : result (tensor XR * tensor XR) :=
  do ys <- lift3 normal_sample rnd loc scale;
  do lp <- lift2 normal_salp_log_prob rnd scale; Ok (ys, lp).
Definition normal_log_prob_arr (v loc scale : tensor XR) := lift3 normal_log_prob v loc scale.  (* 92-96 *)
Definition normal_cdf_arr (v loc scale : tensor XR) := lift3 normal_cdf v loc scale.            (* 98-100 *)
Definition normal_mean_arr (loc scale : tensor XR) := param loc loc scale.                      (* 123-125 *)
Definition normal_variance_arr (loc scale : tensor XR) := do s <- param scale loc scale; lift1 normal_variance s. (* 127-129 *)
Definition normal_stddev_arr (loc scale : tensor XR) := param scale loc scale.                  (* 131-133 *)
Definition normal_entropy_arr (loc scale : tensor XR) := do s <- param scale loc scale; lift1 normal_entropy s. (* 117-121 *)

(** ** Laplace, laplace.py *)
Definition laplace_sample_n (rnd loc scale : tensor XR) := lift3 laplace_sample rnd loc scale.  (* 86-89 *)
Definition laplace_salp (rnd loc scale : tensor XR) : result (tensor XR * tensor XR) :=         (* 91-96 *)
  do ys <- lift3 laplace_sample rnd loc scale;
  do lp <- lift2 laplace_salp_log_prob rnd scale; Ok (ys, lp).
Definition laplace_log_prob_arr (v loc scale : tensor XR) := lift3 laplace_log_prob v loc scale. (* 98-101 *)
Definition laplace_cdf_arr (v loc scale : tensor XR) := lift3 laplace_cdf v loc scale.           (* 107-110 *)
Definition laplace_mean_arr (loc scale : tensor XR) := param loc loc scale.                      (* 125-127 *)
Definition laplace_variance_arr (loc scale : tensor XR) := do s <- param scale loc scale; lift1 laplace_variance s. (* 133-135 *)
Definition laplace_stddev_arr (loc scale : tensor XR) := do s <- param scale loc scale; lift1 laplace_stddev s.     (* 129-131 *)
Definition laplace_entropy_arr (loc scale : tensor XR) := do s <- param scale loc scale; lift1 laplace_entropy s.   (* 103-105 *)

(** ** Logistic, logistic.py (sample_and_log_prob is the inherited default) *)
Definition logistic_sample_n (u loc scale : tensor XR) := lift3 logistic_sample u loc scale.     (* 75-86 *)
Definition logistic_log_prob_arr (v loc scale : tensor XR) : result (tensor XR) :=               (* 72-73, 88-91 *)
  do l <- param loc loc scale; do s <- param scale loc scale; lift3 logistic_log_prob v l s.
Definition logistic_cdf_arr (v loc scale : tensor XR) : result (tensor XR) :=                    (* 97-99 *)
  do l <- param loc loc scale; do s <- param scale loc scale; lift3 logistic_cdf v l s.
Definition logistic_mean_arr (loc scale : tensor XR) := param loc loc scale.                     (* 113-115 *)
Definition logistic_variance_arr (loc scale : tensor XR) := do s <- param scale loc scale; lift1 logistic_variance s. (* 117-119 *)
Definition logistic_stddev_arr (loc scale : tensor XR) := do s <- param scale loc scale; lift1 logistic_stddev s.     (* 121-123 *)
Definition logistic_entropy_arr (loc scale : tensor XR) : result (tensor XR) :=                  (* 93-95 *)
  do s <- param scale loc scale; lift1 logistic_entropy s.

(** ** Gumbel, gumbel.py *)
Definition gumbel_sample_n (rnd loc scale : tensor XR) := lift3 gumbel_sample rnd loc scale.     (* 87-90 *)
Definition gumbel_salp (rnd loc scale : tensor XR) : result (tensor XR * tensor XR) :=           (* 92-97 *)
  do ys <- lift3 gumbel_sample rnd loc scale;
  do lp <- lift2 gumbel_salp_log_prob rnd scale; Ok (ys, lp).
Definition gumbel_log_prob_arr (v loc scale : tensor XR) := lift3 gumbel_log_prob v loc scale.   (* 77-80 *)
Definition gumbel_log_cdf_arr (v loc scale : tensor XR) := lift3 gumbel_log_cdf v loc scale.     (* 103-106 *)
Definition gumbel_mean_arr (eg : R) (loc scale : tensor XR) := lift2 (gumbel_mean eg) loc scale. (* 108-110 *)
Definition gumbel_variance_arr (loc scale : tensor XR) := lift2 (fun _ s => gumbel_variance s) loc scale. (* 116-118, ones_like(loc) *)
Definition gumbel_stddev_arr (loc scale : tensor XR) := lift2 (fun _ s => gumbel_stddev s) loc scale.     (* 112-114 *)
Definition gumbel_mode_arr (loc scale : tensor XR) := param loc loc scale.                       (* 120-122 *)
Definition gumbel_median_arr (loc scale : tensor XR) := lift2 gumbel_median loc scale.           (* 124-126 *)
Definition gumbel_entropy_arr (eg : R) (loc scale : tensor XR) := lift1 (gumbel_entropy eg) scale.  (* 99-101: self._scale, not self.scale *)

(** ** Uniform, uniform.py *)
Definition uniform_sample_n (u low high : tensor XR) : result (tensor XR) :=                     (* 76-83 *)
  do l <- param low low high; do h <- param high low high;
  do range_ <- lift2 uniform_range l h;
  lift3 (fun u l r => xadd l (xmul r u)) u low range_.
(** jnp.repeat(a[None], n, axis=0) *)
Definition repeat0 (n : nat) (a : tensor XR) : tensor XR := mkT (n :: shp a) (concat (repeat (dat a) n)).
Definition uniform_salp (u : tensor XR) (n : nat) (low high : tensor XR) : result (tensor XR * tensor XR) := (* 85-90 *)
  do ys <- uniform_sample_n u low high;
  do l <- param low low high; do h <- param high low high;
  do lp <- lift2 uniform_salp_log_prob l h;
  Ok (ys, repeat0 n lp).
Definition uniform_log_prob_arr (v low high : tensor XR) : result (tensor XR) :=                 (* 92-101 *)
  do l <- param low low high; do h <- param high low high; lift3 uniform_log_prob v l h.
Definition uniform_cdf_arr (v low high : tensor XR) : result (tensor XR) :=                      (* 123-129 *)
  do l <- param low low high; do h <- param high low high; lift3 uniform_cdf v l h.
Definition uniform_mean_arr (low high : tensor XR) := do l <- param low low high; do h <- param high low high; lift2 uniform_mean l h. (* 109 *)
Definition uniform_variance_arr (low high : tensor XR) := do l <- param low low high; do h <- param high low high; lift2 uniform_variance l h. (* 113 *)
Definition uniform_stddev_arr (low high : tensor XR) := do l <- param low low high; do h <- param high low high; lift2 uniform_stddev l h. (* 117 *)
Definition uniform_entropy_arr (low high : tensor XR) := do l <- param low low high; do h <- param high low high; lift2 uniform_entropy l h. (* 105 *)

(** ** Deterministic, deterministic.py (constructed with [atol], [rtol] arrays; batch_shape is loc's shape, 74) *)
Definition det_init (loc atol rtol : tensor XR) : result unit :=                                 (* 56-64 *)
  if Nat.ltb (rank loc) (rank rtol) then Err ValueError
  else if Nat.ltb (rank loc) (rank atol) then Err ValueError else Ok tt.
Definition det_sample_n (n : nat) (loc : tensor XR) : tensor XR := repeat0 n loc.                (* 98-102 *)
Definition det_salp (n : nat) (loc : tensor XR) : tensor XR * tensor XR :=                       (* 104-108 *)
  let samples := det_sample_n n loc in (samples, tmap (fun _ => det_salp_log_prob) samples).
Definition det_log_prob_arr (v loc atol rtol : tensor XR) : result (tensor XR) :=                (* 80-96, 110-117 *)
  do a <- broadcast_to atol (shp loc); do r <- broadcast_to rtol (shp loc); lift4 det_log_prob v loc a r.
