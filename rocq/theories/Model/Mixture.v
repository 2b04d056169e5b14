(** Model of mixture_same_family.py, mixture_of_two.py and categorical_uniform.py. *)
From Coq Require Import List Reals Bool.
From Verif Require Import Base.Result Base.Sums Base.Tensor Base.XR Base.Lift Base.Rows Base.Axes Model.MathUtils
  Model.ScalarDist Model.ArrayDist Model.Categorical.
Import ListNotations.

(** A distribution with array events over floats, as these modules use it (distribution.py:34-304).
    [x_sample key n] is [sample(seed=key, sample_shape=n)]. *)
Record xdist (K : Type) := mkXdist {
  x_batch : shape;
  x_event : shape;
  x_log_prob : tensor XR -> result (tensor XR);
  x_sample : K -> nat -> result (tensor XR);
  x_mean : result (tensor XR);
  x_variance : result (tensor XR)
}.
Arguments x_batch {K} _.
Arguments x_event {K} _.
Arguments x_log_prob {K} _ _.
Arguments x_sample {K} _ _ _.
Arguments x_mean {K} _.
Arguments x_variance {K} _.
Arguments mkXdist {K}.
(** The categorical distribution over components: batch_shape, logits_parameter() and sample. *)
Record mixing (K : Type) := mkMixing {
  m_batch : shape;
  m_logits : tensor XR;
  m_sample : K -> nat -> result (tensor XR)
}.
Arguments m_batch {K} _.
Arguments m_logits {K} _.
Arguments m_sample {K} _ _ _.
Arguments mkMixing {K}.

(** ** MixtureSameFamily, mixture_same_family.py *)
Section SameFamily.
Context {K : Type}.
(** jax.random.split(key): the keys for the mixture and for the components *)
Variable split2 : K -> K * K.

(** The constructed object: the two distributions and _mixture_log_probs. *)
Record msf := mkMsf { mx : mixing K; cp : xdist K; log_w : tensor XR }.
(** __init__, 42-71.  Only the batch shapes are compared: nothing relates the number of logits to the number of
    components. *)
Definition msf_init (mixture : mixing K) (components : xdist K) : result msf :=
  let mixture_log_probs := map_last log_softmax (m_logits mixture) in
  if list_eq_dec Nat.eq_dec (m_batch mixture) (removelast (x_batch components))
  then Ok (mkMsf mixture components mixture_log_probs)
  else Err ValueError.
Definition msf_event_shape (c : msf) : shape := x_event (cp c).                       (* 83-86 *)
Definition msf_batch_shape (c : msf) : shape := removelast (x_batch (cp c)).          (* 88-91 *)
Definition ev_rank (c : msf) : nat := length (msf_event_shape c).
(** jax.nn.one_hot on an array of indices *)
Definition one_hot_arr (v : tensor XR) (k : nat) : tensor XR :=
  mkT (shp v ++ [k]) (concat (map (fun x => one_hot x k) (dat v))).
(** _sample_n, 93-114 *)
Definition msf_sample_n (c : msf) (key : K) (n : nat) : result (tensor XR) :=
  let '(key_mix, key_components) := split2 key in
  do mix_sample <- m_sample (mx c) key_mix n;
  match rev (x_batch (cp c)) with
  | [] => Err IndexError                                                              (* batch_shape[-1] *)
  | num_components :: _ =>
    let mask := one_hot_arr mix_sample num_components in
    do samples_all <- x_sample (cp c) key_components n;
    let mask := add_ones (ev_rank c) mask in
    do prod <- lift2 xmul samples_all mask;
    reduce_axis xsum (ev_rank c) prod
  end.
(** log_prob, 116-124 *)
Definition msf_log_prob (c : msf) (value : tensor XR) : result (tensor XR) :=
  let expanded := expand_dims (ev_rank c) value in
  do lp <- x_log_prob (cp c) expanded;
  do a <- lift2 xadd lp (log_w c);
  reduce_axis xlogsumexp 0 a.
(** mean, 126-132 *)
Definition msf_weights (c : msf) : tensor XR := add_ones (ev_rank c) (tmap xexp (log_w c)).
Definition msf_mean (c : msf) : result (tensor XR) :=
  do means <- x_mean (cp c);
  do p <- lift2 xmul means (msf_weights c);
  reduce_axis xsum (ev_rank c) p.
(** variance, 134-150 *)
Definition msf_variance (c : msf) : result (tensor XR) :=
  do means <- x_mean (cp c);
  do variances <- x_variance (cp c);
  let weights := msf_weights c in
  do p <- lift2 xmul means weights;
  do mean <- reduce_axis xsum (ev_rank c) p;
  do q <- lift2 xmul weights variances;
  do mean_cond_var <- reduce_axis xsum (ev_rank c) q;
  do diff <- lift2 xsub means (expand_dims (ev_rank c) mean);
  do sq_diff <- lift1 xsquare diff;
  do r <- lift2 xmul weights sq_diff;
  do var_cond_mean <- reduce_axis xsum (ev_rank c) r;
  lift2 xadd mean_cond_var var_cond_mean.
End SameFamily.
Arguments msf K : clear implicits.

(** ** MixtureOfTwo, mixture_of_two.py *)
Section OfTwo.
Context {K : Type}.
(** jax.random.split(key, num=4) and the uniform draws of jax.random.bernoulli, which returns [uniform < p] *)
Variable split4 : K -> K * K * K * K.
Variable uniform : K -> nat -> list XR.

Record mo2 := mkMo2 { prob_a : XR; comp_a : xdist K; comp_b : xdist K }.
(** __init__, 38-72.  [rank_p] is the rank of prob_a (chex.assert_rank raises AssertionError); data types are numbered. *)
Definition mo2_init (rank_p : nat) (p : XR) (a b : xdist K) (dt_a dt_b : nat) : result mo2 :=
  if negb (Nat.eqb rank_p 0) then Err AssertionError
  else if list_eq_dec Nat.eq_dec (x_event a) (x_event b) then
    if list_eq_dec Nat.eq_dec (x_batch a) (x_batch b) then
      if Nat.eqb dt_a dt_b then Ok (mkMo2 p a b) else Err ValueError
    else Err ValueError
  else Err ValueError.
(** _sample_n, 74-81: the mask, one entry per draw, is expanded to the rank of the samples and selects whole rows. *)
Definition mo2_sample_n (c : mo2) (key : K) (n : nat) : result (tensor XR) :=
  let '(_, key_a, key_b, mask_key) := split4 key in
  let mask_from_a := map (fun u => xltb u (prob_a c)) (uniform mask_key n) in
  do sample_a <- x_sample (comp_a c) key_a n;
  do sample_b <- x_sample (comp_b c) key_b n;
  let mask := add_ones (rank sample_a - 1) (mkT [n] (map (fun m : bool => if m then Fin 1 else Fin 0) mask_from_a)) in
  lift3 (fun m x y => if xeqb m (Fin 1) then x else y) mask sample_a sample_b.
(** log_prob, 83-87 *)
Definition mo2_log_prob (c : mo2) (value : tensor XR) : result (tensor XR) :=
  do la <- x_log_prob (comp_a c) value;
  do logp1 <- lift1 (xadd (xlog (prob_a c))) la;
  do lb <- x_log_prob (comp_b c) value;
  do logp2 <- lift1 (xadd (xlog (xsub (Fin 1) (prob_a c)))) lb;
  lift2 xlogaddexp logp1 logp2.
Definition mo2_event_shape (c : mo2) : shape := x_event (comp_a c).                    (* 89-91 *)
Definition mo2_batch_shape (c : mo2) : shape := x_batch (comp_a c).                    (* 93-95 *)
Definition mo2_prob_b (c : mo2) : XR := xsub (Fin 1) (prob_a c).                       (* 101-103 *)
End OfTwo.
Arguments mo2 K : clear implicits.

(** ** CategoricalUniform, categorical_uniform.py, one batch element: [low] and [high] are numbers, [logits] a vector
    (the properties at 144-156 broadcast the parameters to the batch shape, and every method works on each batch
    element separately). *)
Local Open Scope R_scope.
Record catuni := mkCU { cu_low : XR; cu_high : XR; cu_logits : list XR }.
(** __init__, 48-72: batch element [b] of the object *)
Definition cu_init (low high : XR) (logits : tensor XR) (b : list nat) : result catuni :=
  if Nat.ltb (rank logits) 1 then Err ValueError else Ok (mkCU low high (last_row logits b)).
Definition num_bins (c : catuni) : nat := length (cu_logits c).                        (* 158-160 *)
(** _get_category_limits, 115-117: jnp.linspace interpolates between the ends, the last entry is [high] itself *)
Definition cu_limit (c : catuni) (i : nat) : XR :=
  if Nat.eqb i (num_bins c) then cu_high c
  else let t := Fin (INR i / INR (num_bins c)) in
       xadd (xmul (cu_low c) (xsub (Fin 1) t)) (xmul (cu_high c) t).
Definition cu_limits (c : catuni) : list XR := map (cu_limit c) (seq 0 (num_bins c + 1)).
(** _get_mixture, 119-126 *)
Definition cu_components (c : catuni) : xdist unit :=
  let lows := tvec (removelast (cu_limits c)) in
  let highs := tvec (tl (cu_limits c)) in
  mkXdist [num_bins c] [] (fun x => lift3 uniform_log_prob x lows highs) (fun _ _ => Err NotImplementedError)
    (lift2 uniform_mean lows highs) (lift2 uniform_variance lows highs).
Definition cu_categorical (c : catuni) : categorical := CLogits (normalize_logits (cu_logits c)).
Definition cu_mixture (c : catuni) : result (msf unit) :=
  msf_init (mkMixing [] (tvec (cat_logits (cu_categorical c))) (fun _ _ => Err NotImplementedError)) (cu_components c).
Definition cu_log_prob (c : catuni) (value : tensor XR) : result (tensor XR) := do m <- cu_mixture c; msf_log_prob m value. (* 90-92 *)
Definition cu_mean (c : catuni) : result (tensor XR) := do m <- cu_mixture c; msf_mean m.               (* 101-103 *)
Definition cu_variance (c : catuni) : result (tensor XR) := do m <- cu_mixture c; msf_variance m.       (* 105-107 *)
Definition cu_entropy (c : catuni) : XR :=                                                              (* 94-99 *)
  xadd (cat_entropy (cu_categorical c)) (xlog (xdiv (xsub (cu_high c) (cu_low c)) (Fin (INR (num_bins c))))).
(** jnp.diff *)
Fixpoint xdiff (l : list XR) : list XR :=
  match l with a :: ((b :: _) as l') => xsub b a :: xdiff l' | _ => [] end.
Definition relu (x : XR) : XR := xmax x (Fin 0).
(** _inverse_cdf, 128-142 *)
Definition cu_inverse_cdf (c : catuni) (quantile : XR) : XR :=
  let probs := softmax (cu_logits c) in
  let cum_probs := cumsum probs in
  let quantile_limits := Fin 0 :: cum_probs in
  let domain_diff := xdiff (cu_limits c) in
  let quantile_diff := xdiff quantile_limits in
  let slopes := map2 xdiv domain_diff quantile_diff in
  let quantile_contributions :=
    map2 xmin quantile_diff (map (fun q => relu (xsub quantile q)) (removelast quantile_limits)) in
  xadd (cu_low c) (xsum (map2 xmul slopes quantile_contributions)).
(** _sample_n, 85-88: the inverse cdf of uniform draws *)
Definition cu_sample (c : catuni) (u : XR) : XR := cu_inverse_cdf c u.
