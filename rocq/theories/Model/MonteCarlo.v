(** Model of utils/importance_sampling.py and utils/monte_carlo.py.  Distributions are [pdist] objects
    (Model/Compose.v) with array events; [as_distribution] (monte_carlo.py:52-53, 90-92, 116-117, 132) is the identity on
    distrax objects, see C67; [jax.lax.stop_gradient] (96-97) is the identity on values. *)
From Coq Require Import Reals List Arith Bool.
From Verif Require Import Base.Result Base.XR Base.Tensor Model.ArrayDist Model.MathUtils Model.Compose.
Import ListNotations.
Local Open Scope R_scope.

(** jnp.mean(t, axis=0) *)
Definition mean_axis0 (t : tensor XR) : result (tensor XR) :=
  match shp t with
  | [] => Err ValueError
  | n :: s => Ok (tgen s (fun idx => xdiv (xsum (map (fun i => tget (Fin 0) t (i :: idx)) (seq 0 n))) (Fin (INR n))))
  end.

Section MC.
Context {K : Type}.
Notation dist := (pdist K (tensor XR)).
(** importance_sampling_ratios, importance_sampling.py:26-44 *)
Definition importance_sampling_ratios (target_dist sampling_dist : dist) (event : tensor XR) : result (tensor XR) :=
  do log_pi_a <- p_log_prob target_dist event;
  do log_mu_a <- p_log_prob sampling_dist event;
  do d <- lift2 xsub log_pi_a log_mu_a;
  lift1 xexp d.
(** mc_estimate_kl, monte_carlo.py:64-103 *)
Definition mc_estimate_kl (distribution_a distribution_b : dist) (rng_key : K) (num_samples : nat) (proposal : option dist)
  : result (tensor XR) :=
  let proposal := match proposal with None => distribution_a | Some p => p end in
  do (samples, logp_proposal) <- p_salp proposal rng_key num_samples;
  do logp_a <- p_log_prob distribution_a samples;
  do logp_b <- p_log_prob distribution_b samples;
  do d <- lift2 xsub logp_a logp_proposal;
  do importance_weight <- lift1 xexp d;
  do log_ratio <- lift2 xsub logp_b logp_a;
  do minus_weight <- lift1 xopp importance_weight;
  do kl_estimator <- lift2 xmul minus_weight log_ratio;
  mean_axis0 kl_estimator.
(** mc_estimate_kl_with_reparameterized, monte_carlo.py:106-124; [not_reparameterizable]: distribution_a is a TFP
    distribution that is not FULLY_REPARAMETERIZED *)
Definition mc_estimate_kl_with_reparameterized (not_reparameterizable : bool) (distribution_a distribution_b : dist) (rng_key : K)
  (num_samples : nat) : result (tensor XR) :=
  if not_reparameterizable then Err ValueError else
  do (samples, logp_a) <- p_salp distribution_a rng_key num_samples;
  do logp_b <- p_log_prob distribution_b samples;
  do log_ratio <- lift2 xsub logp_b logp_a;
  do kl_estimator <- lift1 xopp log_ratio;
  mean_axis0 kl_estimator.
(** estimate_kl_best_effort, monte_carlo.py:30-61; [exact] is tfd.kl_divergence *)
Definition estimate_kl_best_effort (exact : dist -> dist -> result (tensor XR)) (distribution_a distribution_b : dist) (rng_key : K)
  (num_samples : nat) (proposal : option dist) : result (tensor XR) :=
  match exact distribution_a distribution_b with
  | Err NotImplementedError => mc_estimate_kl distribution_a distribution_b rng_key num_samples proposal
  | r => r
  end.
(** jnp.argmax(t, axis=0); jnp.argmax of an empty axis is an error *)
Definition argmax_axis0 (t : tensor XR) : result (tensor nat) :=
  match shp t with
  | [] => Err ValueError
  | O :: _ => Err ValueError
  | n :: s => Ok (tgen s (fun idx => argmax (map (fun i => tget (Fin 0) t (i :: idx)) (seq 0 n))))
  end.
(** jnp.squeeze(jnp.take_along_axis(samples, index, axis=0), axis=0), where [index] has shape (1,) + s + (1,)*k: the
    sizes other than the first are broadcast *)
Definition take_along_axis0 (samples : tensor XR) (index : tensor nat) : result (tensor XR) :=
  match shp samples, shp index with
  | _ :: s, 1%nat :: s' =>
    match bshape s s' with
    | Some r => Ok (tgen r (fun idx => tget (Fin 0) samples (tget 0%nat index (0%nat :: bindex s' idx) :: bindex s idx)))
    | None => Err ValueError
    end
  | _, _ => Err ValueError
  end.
(** mc_estimate_mode, monte_carlo.py:127-141 *)
Definition mc_estimate_mode (distribution : dist) (rng_key : K) (num_samples : nat) : result (tensor XR) :=
  do (samples, log_probs) <- p_salp distribution rng_key num_samples;
  do am <- argmax_axis0 log_probs;
  let index := mkT (1%nat :: shp am) (dat am) in                                              (* 137 *)
  if Nat.ltb (rank samples) (rank index) then Err TypeError                                   (* (1,) * negative *)
  else
    let index := mkT (shp index ++ repeat 1%nat (rank samples - rank index)) (dat index) in   (* 139 *)
    take_along_axis0 samples index.                                                           (* 140 *)
End MC.
