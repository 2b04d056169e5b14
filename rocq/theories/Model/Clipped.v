(** Model of clipped.py, and of the univariate base distributions it and quantized.py wrap. *)
From Coq Require Import List Reals Bool.
From Verif Require Import Base.Result Base.Tensor Base.XR Base.Lift Model.Distribution Model.ScalarDist Model.ArrayDist.
Import ListNotations.

(** A batched distribution as its wrappers use it (distribution.py:34-304); [u_sample key n] is
    [sample(seed=key, sample_shape=n)]. *)
Record udist (K : Type) := mkUdist {
  u_batch : shape;
  u_event : shape;
  u_log_prob : tensor XR -> result (tensor XR);
  u_cdf : tensor XR -> result (tensor XR);
  u_log_cdf : tensor XR -> result (tensor XR);
  u_survival : tensor XR -> result (tensor XR);
  u_log_survival : tensor XR -> result (tensor XR);
  u_sample : K -> nat -> result (tensor XR)
}.
Arguments u_batch {K} _.
Arguments u_event {K} _.
Arguments u_log_prob {K} _ _.
Arguments u_cdf {K} _ _.
Arguments u_log_cdf {K} _ _.
Arguments u_survival {K} _ _.
Arguments u_log_survival {K} _ _.
Arguments u_sample {K} _ _ _.
Arguments mkUdist {K}.

(** jnp.clip(x, lo, hi) = minimum(maximum(x, lo), hi) *)
Definition xclip (x lo hi : XR) : XR := xmin (xmax x lo) hi.

Section Clipped.
Context {K : Type}.
Record clipped := mkClipped { c_dist : udist K; c_min : tensor XR; c_max : tensor XR;
  c_log_prob_min : tensor XR; c_log_prob_max : tensor XR }.
(** __init__, 37-67 *)
Definition clipped_init (d : udist K) (minimum maximum : tensor XR) : result clipped :=
  match u_event d with
  | _ :: _ => Err ValueError
  | [] =>
    if Nat.ltb (length (u_batch d)) (rank minimum) || Nat.ltb (length (u_batch d)) (rank maximum) then Err ValueError
    else
      do lo <- broadcast_to minimum (u_batch d);
      do hi <- broadcast_to maximum (u_batch d);
      do lpmin <- u_log_cdf d minimum;
      do lpmax <- u_log_survival d maximum;
      Ok (mkClipped d lo hi lpmin lpmax)
  end.
(** _sample_n, 69-72 *)
Definition clipped_sample_n (c : clipped) (key : K) (n : nat) : result (tensor XR) :=
  do raw_sample <- u_sample (c_dist c) key n;
  lift3 xclip raw_sample (c_min c) (c_max c).
(** log_prob, 79-95: nested jnp.where, all branches computed *)
Definition clipped_log_prob (c : clipped) (value : tensor XR) : result (tensor XR) :=
  do lp <- u_log_prob (c_dist c) value;
  do inner <- lift4 (fun v hi lpmax lp => if xeqb v hi then lpmax else lp) value (c_max c) (c_log_prob_max c) lp;
  do log_prob <- lift4 (fun v lo lpmin r => if xeqb v lo then lpmin else r) value (c_min c) (c_log_prob_min c) inner;
  lift4 (fun v lo hi r => if xltb v lo || xltb hi v then NInf else r) value (c_min c) (c_max c) log_prob.
(** _sample_n_and_log_prob, 74-77 *)
Definition clipped_sample_n_and_log_prob (c : clipped) (key : K) (n : nat) : result (tensor XR * tensor XR) :=
  do samples <- clipped_sample_n c key n;
  do lp <- clipped_log_prob c samples;
  Ok (samples, lp).
Definition clipped_event_shape (c : clipped) : shape := [].                             (* 109-111 *)
Definition clipped_batch_shape (c : clipped) : shape := u_batch (c_dist c).             (* 113-115 *)
(** __getitem__, 117-123; [base_item] is [distribution[index]], given the converted index *)
Definition clipped_getitem (base_item : list (tensor nat) -> result (udist K)) (c : clipped) (ix : list ielem) : result clipped :=
  do ixs <- to_batch_shape_index (clipped_batch_shape c) ix;
  do d <- base_item ixs;
  clipped_init d (adv_getitem (Fin 0) (c_min c) ixs) (adv_getitem (Fin 0) (c_max c) ixs).
End Clipped.
Arguments clipped K : clear implicits.

(** ** The wrapped distributions of clipped.py:126-141.  [rng key shape] are the standard draws. *)
Section Bases.
Context {K : Type}.
Variable rng : K -> shape -> tensor XR.
(** the interface of Normal(loc, scale), normal.py:52-141; the constructor computes the broadcast shape (63) *)
Definition normal_udist (loc scale : tensor XR) : result (udist K) :=
  do batch <- batch_shape2 loc scale;
  Ok (mkUdist batch []
    (fun v => lift3 normal_log_prob v loc scale)
    (fun v => lift3 normal_cdf v loc scale)
    (fun v => lift3 normal_log_cdf v loc scale)
    (fun v => lift3 normal_survival v loc scale)
    (fun v => lift3 normal_log_survival v loc scale)
    (fun key n => normal_sample_n (rng key (n :: batch)) loc scale)).
(** the interface of Logistic(loc, scale), logistic.py:42-126 *)
Definition logistic_udist (loc scale : tensor XR) : result (udist K) :=
  do batch <- batch_shape2 loc scale;
  Ok (mkUdist batch []
    (fun v => logistic_log_prob_arr v loc scale)
    (fun v => logistic_cdf_arr v loc scale)
    (fun v => do l <- param loc loc scale; do s <- param scale loc scale; lift3 logistic_log_cdf v l s)
    (fun v => do l <- param loc loc scale; do s <- param scale loc scale; lift3 logistic_survival v l s)
    (fun v => do l <- param loc loc scale; do s <- param scale loc scale; lift3 logistic_log_survival v l s)
    (fun key n => logistic_sample_n (rng key (n :: batch)) loc scale)).
(** the interface of Uniform(low, high), uniform.py:40-134; survival functions are the defaults of distribution.py:180-218 *)
Definition uniform_udist (low high : tensor XR) : result (udist K) :=
  do batch <- batch_shape2 low high;
  let cdf v := uniform_cdf_arr v low high in
  Ok (mkUdist batch []
    (fun v => uniform_log_prob_arr v low high) cdf
    (fun v => do c <- cdf v; lift1 xlog c)
    (fun v => do c <- cdf v; lift1 (fun c => xsub (Fin 1) c) c)
    (fun v => do c <- cdf v; lift1 (fun c => xlog1p (xopp c)) c)
    (fun key n => uniform_sample_n (rng key (n :: batch)) low high)).
(** the interface of Deterministic(loc, atol, rtol), deterministic.py:36-149; survival functions are the defaults *)
Definition det_udist (loc atol rtol : tensor XR) : result (udist K) :=
  do _ <- det_init loc atol rtol;
  let cdf v := do a <- broadcast_to atol (shp loc); do r <- broadcast_to rtol (shp loc); lift4 det_cdf v loc a r in
  Ok (mkUdist (shp loc) []
    (fun v => det_log_prob_arr v loc atol rtol) cdf
    (fun v => do c <- cdf v; lift1 xlog c)
    (fun v => do c <- cdf v; lift1 (fun c => xsub (Fin 1) c) c)
    (fun v => do c <- cdf v; lift1 (fun c => xlog1p (xopp c)) c)
    (fun _ n => Ok (det_sample_n n loc))).
Definition clipped_normal_init (loc scale minimum maximum : tensor XR) : result (clipped K) :=   (* 129-132 *)
  do d <- normal_udist loc scale; clipped_init d minimum maximum.
Definition clipped_logistic_init (loc scale minimum maximum : tensor XR) : result (clipped K) := (* 138-141 *)
  do d <- logistic_udist loc scale; clipped_init d minimum maximum.
End Bases.
