(** C30 (sample_and_log_prob) and C71 (batched statistics) for the univariate distributions. *)
From Coq Require Import Reals List Lia Lra.
From Verif Require Import Base.Result Base.Sums Base.Tensor Base.XR Base.Lift Model.ScalarDist Model.ArrayDist Spec.ArrayDist
  Proofs.Density Proofs.ArrayDist Props.Continuous Props.Laplace Props.Logistic Props.Gumbel Props.Uniform.
Import ListNotations.
Local Open Scope R_scope.

(** ** C30: for every draw, the reported log-probabilities are log_prob of the reported samples, which are
    the samples [sample] would return; both arrays have shape (n,) + batch_shape. *)
Definition salp_consistent (salp : result (tensor XR * tensor XR)) (sample_n : result (tensor XR))
    (log_prob : tensor XR -> result (tensor XR)) (s : shape) : Prop :=
  exists ys lps, salp = Ok (ys, lps) /\ sample_n = Ok ys /\ log_prob ys = Ok lps /\ wf ys /\ shp ys = s /\ shp lps = s.

Lemma lead_absorb (a b : tensor XR) s n : bshape (shp a) (shp b) = Some s -> bshape (shp a) (n :: s) = Some (n :: s) /\ bshape (shp b) (n :: s) = Some (n :: s).
Proof.
  intros B. split; [apply (bshape_trans _ s)|apply (bshape_trans _ s)]; try apply bshape_lead;
    [apply (bshape_absorb_l _ _ _ B)|apply (bshape_absorb_r _ _ _ B)].
Qed.

Theorem C30_normal : forall rnd loc scale n batch, bshape (shp loc) (shp scale) = Some batch -> shp rnd = (n :: batch) ->
  all_finite rnd -> all_finite loc -> all_positive scale ->
  salp_consistent (normal_salp rnd loc scale) (normal_sample_n rnd loc scale)
    (fun ys => normal_log_prob_arr ys loc scale) (n :: batch).
Proof.
  intros rnd loc scale n batch B R Fr Fl Fs. apply salp_generic; auto.
  intros idx Hi. destruct (lead_absorb _ _ _ n B) as [Bl Bs].
  destruct (finite_at rnd (n :: batch) idx Fr ltac:(rewrite R; apply bshape_refl) Hi) as [e ->].
  destruct (finite_at loc (n :: batch) idx Fl Bl Hi) as [l ->]. destruct (positive_at scale (n :: batch) idx Fs Bs Hi) as (s & -> & Hs).
  destruct (C48_normal_sample l s e Hs) as (y & E & _ & L). rewrite E. exact L.
Qed.
Print Assumptions C30_normal.

Theorem C30_laplace : forall rnd loc scale n batch, bshape (shp loc) (shp scale) = Some batch -> shp rnd = (n :: batch) ->
  all_finite rnd -> all_finite loc -> all_positive scale ->
  salp_consistent (laplace_salp rnd loc scale) (laplace_sample_n rnd loc scale)
    (fun ys => laplace_log_prob_arr ys loc scale) (n :: batch).
Proof.
  intros rnd loc scale n batch B R Fr Fl Fs. apply salp_generic; auto.
  intros idx Hi. destruct (lead_absorb _ _ _ n B) as [Bl Bs].
  destruct (finite_at rnd (n :: batch) idx Fr ltac:(rewrite R; apply bshape_refl) Hi) as [e ->].
  destruct (finite_at loc (n :: batch) idx Fl Bl Hi) as [l ->]. destruct (positive_at scale (n :: batch) idx Fs Bs Hi) as (s & -> & Hs).
  destruct (C49_laplace_sample l s e Hs) as (y & E & _ & L). rewrite E. exact L.
Qed.
Print Assumptions C30_laplace.

Theorem C30_gumbel : forall rnd loc scale n batch, bshape (shp loc) (shp scale) = Some batch -> shp rnd = (n :: batch) ->
  all_finite rnd -> all_finite loc -> all_positive scale ->
  salp_consistent (gumbel_salp rnd loc scale) (gumbel_sample_n rnd loc scale)
    (fun ys => gumbel_log_prob_arr ys loc scale) (n :: batch).
Proof.
  intros rnd loc scale n batch B R Fr Fl Fs. apply salp_generic; auto.
  intros idx Hi. destruct (lead_absorb _ _ _ n B) as [Bl Bs].
  destruct (finite_at rnd (n :: batch) idx Fr ltac:(rewrite R; apply bshape_refl) Hi) as [e ->].
  destruct (finite_at loc (n :: batch) idx Fl Bl Hi) as [l ->]. destruct (positive_at scale (n :: batch) idx Fs Bs Hi) as (s & -> & Hs).
  destruct (C51_gumbel_sample l s e Hs) as (y & E & _ & L). rewrite E. exact L.
Qed.
Print Assumptions C30_gumbel.

(** LogStddevNormal inherits Normal's methods; its scale is the exponential of the stored log-scale. *)
Theorem C30_log_stddev_normal : forall rnd loc log_scale max_scale n batch scale,
  match max_scale with Some m => 0 < m | None => True end ->
  lift1 (fun ls => lsn_scale ls max_scale) log_scale = Ok scale ->
  bshape (shp loc) (shp scale) = Some batch -> shp rnd = (n :: batch) ->
  all_finite rnd -> all_finite loc -> all_finite log_scale ->
  salp_consistent (normal_salp rnd loc scale) (normal_sample_n rnd loc scale)
    (fun ys => normal_log_prob_arr ys loc scale) (n :: batch).
Proof.
  intros rnd loc ls ms n batch scale Hm E B R Fr Fl Fs. apply C30_normal; auto.
  rewrite lift1_ok in E. injection E as <-. split; [apply tgen_wf|]. cbn [dat tgen]. apply Forall_map, Forall_forall.
  intros idx Hi. apply in_indices in Hi. destruct (finite_at ls (shp ls) idx Fs (bshape_refl _) Hi) as [r ->].
  destruct (C53_scale r) as [[N _] S]. destruct ms as [m|].
  - destruct (S m Hm) as (sl & s & _ & -> & _ & _ & P & _). exists s; split; auto; lra.
  - rewrite N. exists (exp r); split; auto; apply exp_pos.
Qed.
Print Assumptions C30_log_stddev_normal.

Theorem C30_uniform : forall u low high n batch, bshape (shp low) (shp high) = Some batch -> shp u = (n :: batch) ->
  (forall idx, inb (n :: batch) idx -> exists a b v, xget low idx = Fin a /\ xget high idx = Fin b /\ a < b /\
     xget u idx = Fin v /\ 0 <= v < 1) ->
  salp_consistent (uniform_salp u n low high) (uniform_sample_n u low high)
    (fun ys => uniform_log_prob_arr ys low high) (n :: batch).
Proof.
  intros u low high n batch B R H. destruct (lead_absorb _ _ _ n B) as [Bl Bh].
  pose proof (bshape_absorb_l _ _ _ B) as Al. pose proof (bshape_absorb_r _ _ _ B) as Ah.
  unfold salp_consistent, uniform_salp, uniform_sample_n, uniform_log_prob_arr.
  rewrite !(param_ok low low high batch), !(param_ok high low high batch) by auto. cbn [rbind].
  rewrite (lift2_top uniform_range _ _ batch) by (cbn; auto using bshape_refl).
  rewrite (lift2_top uniform_salp_log_prob _ _ batch) by (cbn; auto using bshape_refl). cbn [rbind].
  assert (Ru : bshape (shp u) (n :: batch) = Some (n :: batch)) by (rewrite R; apply bshape_refl).
  rewrite (lift3_top _ u low _ (n :: batch)) by (cbn; auto using bshape_refl, bshape_lead). cbn [rbind].
  do 2 eexists. split; [reflexivity|]. split; [reflexivity|]. split; [|split; [apply tgen_wf|split; reflexivity]].
  rewrite (lift3_top _ _ _ _ (n :: batch)) by (cbn; auto using bshape_refl, bshape_lead). f_equal.
  apply (tensor_ext (Fin 0)); [apply tgen_wf|apply repeat0_wf, tgen_wf|reflexivity|].
  intros idx Hi. cbn [shp tgen] in Hi. rewrite tget_tgen by auto.
  rewrite !(xget_bparam _ batch (n :: batch)) by (auto using bshape_lead). rewrite xget_tgen_same by auto.
  destruct (H idx Hi) as (a & b & v & Ea & Eb & Hab & Ev & Hv).
  rewrite (xget_tgen batch _ (n :: batch) idx) by (auto using bshape_lead).
  destruct idx as [|i idx]; [inversion Hi|]. apply inb_cons in Hi as [Hi1 Hi2].
  rewrite repeat0_get; [|apply tgen_wf|auto|auto]. rewrite tget_tgen by auto.
  rewrite !xget_tgen_same by (try rewrite bindex_lead; auto). rewrite !bindex_lead by auto.
  assert (Eq : forall t, bshape (shp t) batch = Some batch -> xget t (i :: idx) = xget t idx).
  { intros t Ht. unfold xget. f_equal. rewrite <- (bindex_bindex _ _ _ (i :: idx) Ht). rewrite bindex_lead; auto. }
  rewrite <- (Eq low), <- (Eq high) by auto. rewrite Ea, Eb, Ev.
  destruct (C47_uniform_sample a b v Hab Hv) as (y & Ey & _ & _ & L). unfold uniform_sample in Ey. rewrite Ey. symmetry. exact L.
Qed.
Print Assumptions C30_uniform.

Theorem C30_deterministic : forall n loc atol rtol,
  bshape (shp atol) (shp loc) = Some (shp loc) -> bshape (shp rtol) (shp loc) = Some (shp loc) ->
  all_finite loc ->
  (forall idx, inb (shp loc) idx -> exists a r, xget atol idx = Fin a /\ xget rtol idx = Fin r /\ 0 <= a /\ 0 <= r) ->
  salp_consistent (Ok (det_salp n loc)) (Ok (det_sample_n n loc))
    (fun ys => det_log_prob_arr ys loc atol rtol) (n :: shp loc).
Proof.
  intros n loc at_ rt Ba Br [Wl Fl] H. unfold salp_consistent, det_salp. do 2 eexists. split; [reflexivity|]. split; [reflexivity|].
  split; [|split; [apply repeat0_wf; auto|split; reflexivity]].
  unfold det_log_prob_arr. rewrite !broadcast_to_ok by auto. cbn [rbind].
  rewrite (lift4_top _ _ _ _ _ (n :: shp loc)) by (cbn; auto using bshape_refl, bshape_lead). f_equal.
  apply (tensor_ext (Fin 0)); [apply tgen_wf|apply tmap_wf, repeat0_wf; auto|reflexivity|].
  intros idx Hi. cbn [shp tgen] in Hi. rewrite tget_tgen by auto.
  rewrite (tget_tmap (Fin 0) (Fin 0)) by (try apply repeat0_wf; auto).
  rewrite !(xget_bparam _ (shp loc) (n :: shp loc)) by (auto using bshape_lead).
  destruct idx as [|i idx]; [inversion Hi|]. pose proof Hi as Hi'. apply inb_cons in Hi as [Hi1 Hi2].
  rewrite (xget_same (det_sample_n n loc)) by exact Hi'. unfold det_sample_n. rewrite repeat0_get by auto.
  assert (Eq : forall t, bshape (shp t) (shp loc) = Some (shp loc) -> xget t (i :: idx) = xget t idx).
  { intros t Ht. unfold xget. f_equal. rewrite <- (bindex_bindex _ _ _ (i :: idx) Ht). rewrite bindex_lead; auto. }
  rewrite (Eq loc), (Eq at_), (Eq rt) by (auto using bshape_refl). rewrite (xget_same loc) by auto.
  destruct (H idx Hi2) as (a & r & -> & -> & Ha & Hr).
  destruct (finite_at loc (shp loc) idx (conj Wl Fl) (bshape_refl _) Hi2) as [l E]. rewrite xget_same in E by auto. rewrite E.
  destruct (C52_deterministic l a r Ha Hr) as (_ & _ & S & _). symmetry. exact S.
Qed.
Print Assumptions C30_deterministic.

(** A concrete batched case: two locations, one scale, three draws. *)
Definition ex_loc : tensor XR := mkT [2%nat] [Fin 1; Fin 2].
Definition ex_scale : tensor XR := mkT [] [Fin 3].
Definition ex_rnd : tensor XR := mkT [3%nat; 2%nat] [Fin 0; Fin 1; Fin (-1); Fin 2; Fin 0; Fin 5].
Ltac fin_all := split; [reflexivity|]; repeat constructor; eexists; (split; [reflexivity|lra]) || reflexivity.
Example C30_nonvacuous :
  salp_consistent (normal_salp ex_rnd ex_loc ex_scale) (normal_sample_n ex_rnd ex_loc ex_scale)
    (fun ys => normal_log_prob_arr ys ex_loc ex_scale) [3%nat; 2%nat].
Proof. apply (C30_normal ex_rnd ex_loc ex_scale 3 [2%nat]); try reflexivity; fin_all. Qed.

(** ** C71: statistics of a batched distribution have shape batch_shape and hold, at every batch index, the
    scalar statistic of the parameters at that index; log_prob and cdf broadcast the value against the batch. *)
Theorem C71_normal : forall loc scale batch, bshape (shp loc) (shp scale) = Some batch ->
  (exists t, normal_mean_arr loc scale = Ok t /\ elementwise1 batch normal_mean loc t) /\
  (exists t, normal_variance_arr loc scale = Ok t /\ elementwise1 batch normal_variance scale t) /\
  (exists t, normal_stddev_arr loc scale = Ok t /\ elementwise1 batch normal_stddev scale t) /\
  (exists t, normal_entropy_arr loc scale = Ok t /\ elementwise1 batch normal_entropy scale t) /\
  (forall v s, bshape (shp v) batch = Some s ->
    (exists t, normal_log_prob_arr v loc scale = Ok t /\ elementwise3 s normal_log_prob v loc scale t) /\
    (exists t, normal_cdf_arr v loc scale = Ok t /\ elementwise3 s normal_cdf v loc scale t)).
Proof.
  intros loc scale batch B. pose proof (bshape_absorb_l _ _ _ B). pose proof (bshape_absorb_r _ _ _ B).
  repeat apply conj; try (apply param1; auto); try (apply param_lift1; auto).
  intros v s Hs. split; apply (lift3_stat _ v loc scale batch); auto.
Qed.
Print Assumptions C71_normal.
Theorem C71_laplace : forall loc scale batch, bshape (shp loc) (shp scale) = Some batch ->
  (exists t, laplace_mean_arr loc scale = Ok t /\ elementwise1 batch laplace_mean loc t) /\
  (exists t, laplace_variance_arr loc scale = Ok t /\ elementwise1 batch laplace_variance scale t) /\
  (exists t, laplace_stddev_arr loc scale = Ok t /\ elementwise1 batch laplace_stddev scale t) /\
  (exists t, laplace_entropy_arr loc scale = Ok t /\ elementwise1 batch laplace_entropy scale t) /\
  (forall v s, bshape (shp v) batch = Some s ->
    (exists t, laplace_log_prob_arr v loc scale = Ok t /\ elementwise3 s laplace_log_prob v loc scale t) /\
    (exists t, laplace_cdf_arr v loc scale = Ok t /\ elementwise3 s laplace_cdf v loc scale t)).
Proof.
  intros loc scale batch B. pose proof (bshape_absorb_l _ _ _ B). pose proof (bshape_absorb_r _ _ _ B).
  repeat apply conj; try (apply param1; auto); try (apply param_lift1; auto).
  intros v s Hs. split; apply (lift3_stat _ v loc scale batch); auto.
Qed.
Print Assumptions C71_laplace.
Theorem C71_logistic : forall loc scale batch, bshape (shp loc) (shp scale) = Some batch ->
  (exists t, logistic_mean_arr loc scale = Ok t /\ elementwise1 batch logistic_mean loc t) /\
  (exists t, logistic_variance_arr loc scale = Ok t /\ elementwise1 batch logistic_variance scale t) /\
  (exists t, logistic_stddev_arr loc scale = Ok t /\ elementwise1 batch logistic_stddev scale t) /\
  (exists t, logistic_entropy_arr loc scale = Ok t /\ elementwise1 batch logistic_entropy scale t) /\
  (forall v s, bshape (shp v) batch = Some s ->
    (exists t, logistic_log_prob_arr v loc scale = Ok t /\ elementwise3 s logistic_log_prob v loc scale t) /\
    (exists t, logistic_cdf_arr v loc scale = Ok t /\ elementwise3 s logistic_cdf v loc scale t)).
Proof.
  intros loc scale batch B. pose proof (bshape_absorb_l _ _ _ B). pose proof (bshape_absorb_r _ _ _ B).
  repeat apply conj; try (apply param1; auto); try (apply param_lift1; auto).
  intros v s Hs. split; apply (param_lift3 _ v loc scale batch); auto.
Qed.
Print Assumptions C71_logistic.
Theorem C71_uniform : forall low high batch, bshape (shp low) (shp high) = Some batch ->
  (exists t, uniform_mean_arr low high = Ok t /\ elementwise2 batch uniform_mean low high t) /\
  (exists t, uniform_variance_arr low high = Ok t /\ elementwise2 batch uniform_variance low high t) /\
  (exists t, uniform_stddev_arr low high = Ok t /\ elementwise2 batch uniform_stddev low high t) /\
  (exists t, uniform_entropy_arr low high = Ok t /\ elementwise2 batch uniform_entropy low high t) /\
  (forall v s, bshape (shp v) batch = Some s ->
    (exists t, uniform_log_prob_arr v low high = Ok t /\ elementwise3 s uniform_log_prob v low high t) /\
    (exists t, uniform_cdf_arr v low high = Ok t /\ elementwise3 s uniform_cdf v low high t)).
Proof.
  intros low high batch B.
  repeat apply conj; try (apply param_lift2; auto).
  intros v s Hs. split; apply (param_lift3 _ v low high batch); auto.
Qed.
Print Assumptions C71_uniform.
(** Gumbel: the same for every statistic but entropy... *)
Theorem C71_gumbel_partial : forall eg loc scale batch, bshape (shp loc) (shp scale) = Some batch ->
  (exists t, gumbel_mean_arr eg loc scale = Ok t /\ elementwise2 batch (gumbel_mean eg) loc scale t) /\
  (exists t, gumbel_variance_arr loc scale = Ok t /\ elementwise2 batch (fun _ s => gumbel_variance s) loc scale t) /\
  (exists t, gumbel_stddev_arr loc scale = Ok t /\ elementwise2 batch (fun _ s => gumbel_stddev s) loc scale t) /\
  (exists t, gumbel_mode_arr loc scale = Ok t /\ elementwise1 batch gumbel_mode loc t) /\
  (exists t, gumbel_median_arr loc scale = Ok t /\ elementwise2 batch gumbel_median loc scale t) /\
  (forall v s, bshape (shp v) batch = Some s ->
    (exists t, gumbel_log_prob_arr v loc scale = Ok t /\ elementwise3 s gumbel_log_prob v loc scale t) /\
    (exists t, gumbel_log_cdf_arr v loc scale = Ok t /\ elementwise3 s gumbel_log_cdf v loc scale t)) /\
  (shp scale = batch -> exists t, gumbel_entropy_arr eg loc scale = Ok t /\ elementwise1 batch (gumbel_entropy eg) scale t).
Proof.
  intros eg loc scale batch B. pose proof (bshape_absorb_l _ _ _ B). pose proof (bshape_absorb_r _ _ _ B).
  repeat apply conj; try (apply lift2_stat; auto); try (apply param1; auto).
  - intros v s Hs. split; apply (lift3_stat _ v loc scale batch); auto.
  - intros <-. unfold gumbel_entropy_arr. rewrite lift1_ok. eexists; split; [reflexivity|]. apply elementwise1_tgen.
Qed.
Print Assumptions C71_gumbel_partial.
(** ... and entropy() ignores loc's shape: a batch of two Gumbels sharing one scale reports a scalar entropy. *)
Theorem C71_gumbel_entropy_refuted : forall eg, exists t,
  bshape (shp ex_loc) (shp ex_scale) = Some [2%nat] /\ gumbel_entropy_arr eg ex_loc ex_scale = Ok t /\ shp t = [].
Proof. intros eg. eexists. split; [reflexivity|]. split; [apply lift1_ok|reflexivity]. Qed.

Example C71_nonvacuous : bshape (shp ex_loc) (shp ex_scale) = Some [2%nat] /\ bshape (shp ex_rnd) [2%nat] = Some [3%nat; 2%nat].
Proof. split; reflexivity. Qed.
