(** Model of distributions/distribution_from_tfp.py: a TFP distribution is what its public methods return; the wrapper inherits the
    rest from the distribution base class.  [jnp.asarray] is the identity on arrays; events are single arrays. *)
From Coq Require Import List Reals ZArith Bool.
From Verif Require Import Base.Result Base.Tensor Base.Tree Base.XR Model.Distribution Model.TfpCompatible.
Import ListNotations.

Section FromTfp.
Context {K A N : Type}.
Variable prng : Z -> K.
(** The part of the public interface of a TFP distribution the wrapper's own methods use.  prob, log_cdf, entropy, mean, median, variance, stddev and mode
    (distribution_from_tfp.py:77-79, 106-112, 118-136) return TFP's value unchanged and are left out, as is indexing (138-140), which wraps TFP's slice. *)
Record tfp_dist := mkTfp {
  t_sample : K -> shape -> result (tensor A);            (* sample(seed, sample_shape) *)
  t_log_prob : tensor A -> result (tensor XR);
  t_cdf : tensor A -> result (tensor XR);
  t_batch : shape;
  t_event : shape;
  t_name : N
}.

(** DistributionFromTFP, distribution_from_tfp.py:49-140: _sample_n (67-71), log_prob (73-75), event_shape and batch_shape (81-89), name (91-94). *)
Definition from_tfp_sample_n (t : tfp_dist) (key : K) (n : nat) : result (tree (tensor A)) :=
  do x <- t_sample t key [n]; Ok (Leaf x).
Definition from_tfp_log_prob (t : tfp_dist) (value : tree (tensor A)) : result (tensor XR) :=
  match value with Leaf x => t_log_prob t x | Node _ => Err TypeError end.
(** cdf, distribution_from_tfp.py:114-116, an override: the base class would exponentiate log_cdf *)
Definition from_tfp_cdf (t : tfp_dist) (value : tree (tensor A)) : result (tensor XR) :=
  match value with Leaf x => t_cdf t x | Node _ => Err TypeError end.
(** The wrapper as an object: its sample is the base class's (63-65 delegates to super), over the overridden _sample_n. *)
Definition from_tfp (t : tfp_dist) : self_view K A unit N :=
  base_self prng tt (t_batch t) (t_event t) (t_name t) (from_tfp_sample_n t) (from_tfp_log_prob t).
(** sample, sample_and_log_prob, survival_function and log_survival_function of the wrapper *)
Definition from_tfp_sample (t : tfp_dist) (seed : seed_arg K) (ss : shape_arg) : result (tree (tensor A)) :=
  sample prng (from_tfp_sample_n t) seed ss.
Definition from_tfp_sample_and_log_prob (t : tfp_dist) (seed : seed_arg K) (ss : shape_arg) : result (tree (tensor A) * tensor XR) :=
  sample_and_log_prob prng (default_sample_n_and_log_prob (from_tfp_sample_n t) (from_tfp_log_prob t)) seed ss.
Definition from_tfp_survival (t : tfp_dist) (value : tree (tensor A)) : result (tensor XR) :=
  inherited_survival (fun _ => true) (fun _ => from_tfp_cdf t) (from_tfp t) value.
Definition from_tfp_log_survival (t : tfp_dist) (value : tree (tensor A)) : result (tensor XR) :=
  inherited_log_survival (fun _ => true) (fun _ => from_tfp_cdf t) (from_tfp t) value.
End FromTfp.
Arguments tfp_dist : clear implicits.
