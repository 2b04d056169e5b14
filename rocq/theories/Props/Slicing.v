(** C77: indexing a distribution commutes with evaluating it. *)
From Coq Require Import List Reals ZArith Bool Lia.
From Verif Require Import Base.Result Base.Sums Base.Tensor Base.XR Base.Lift Base.Axes Model.Distribution Model.AdvIndex Model.ScalarDist Model.ArrayDist Model.Compose Model.Slicing Model.GammaFamily Model.VonMises
  Spec.Distribution Spec.AdvIndex Spec.Slicing Proofs.Distribution Proofs.ArrayDist Props.AdvIndex Props.MixedIndex.
Import ListNotations.

Lemma any_index_inb s ix rs src : index_ok ix -> any_index s ix = Ok (rs, src) -> forall r, inb rs r -> inb s (src r).
Proof.
  destruct ix as [l|l|m|l]; cbn [any_index index_ok]; intros W E r Hr.
  - apply (addresses_inb _ _ _ _ _ (np_index_spec _ _ _ _ E r Hr)).
  - unfold int_index in E. destruct (Nat.ltb_spec (length s) (length l)) as [|L]; [discriminate|]. destruct (bshapes _) as [bs|] eqn:Eb; [|discriminate].
    destruct (forallb _ _) eqn:F; [|discriminate]. injection E as <- <-. apply legal_forallb in F; [|auto].
    apply inb_app_inv in Hr as (rb & rr & -> & H1 & H2). cbv zeta.
    rewrite <- (inb_length _ _ H1), firstn_app, firstn_all, Nat.sub_diag, skipn_app, skipn_all, Nat.sub_diag. cbn [firstn skipn app]. rewrite app_nil_r.
    rewrite <- (firstn_skipn (length l) s) at 1. apply inb_app; [|auto]. apply (selected_coords s l bs rb); auto.
  - unfold mask_index in E. destruct list_eq_dec as [Es|]; [|discriminate]. injection E as <- <-.
    inversion Hr as [|k ? r' ? Hk Hr']; subst. cbn [hd tl]. rewrite <- (firstn_skipn (rank m) s) at 1. apply inb_app; [|auto]. rewrite Es.
    assert (Hi : In (nth k (mask_hits m) []) (mask_hits m)) by (apply nth_In; auto). apply filter_In in Hi as [Hi _]. apply in_indices; auto.
  - apply (mixed_reads_inb _ _ _ _ _ (mixed_index_reads _ _ _ _ W E r Hr)).
Qed.
(** the sliced array *)
Definition at_src (rs : shape) (src : list nat -> list nat) (t : tensor XR) : tensor XR := tgen rs (fun r => xget t (src r)).
Lemma slice_full batch ix rs src t : index_ok ix -> batch <> [] -> any_index batch ix = Ok (rs, src) -> bshape (shp t) batch = Some batch ->
  slice_param_any (Fin 0) batch ix (tgen batch (fun i => xget t i)) = Ok (at_src rs src t).
Proof.
  intros W Hne E Hb. destruct (slice_any_ok (Fin 0) batch [] ix rs src (tgen batch (fun i => xget t i)) Hne E (any_index_inb _ _ _ _ W E) ltac:(cbn; rewrite app_nil_r; auto)) as (q & -> & Wq & Sq & Hq).
  f_equal. rewrite app_nil_r in Sq. rewrite <- (tgen_tget (Fin 0) q Wq), Sq. apply tgen_ext. intros r Hr. specialize (Hq r [] Hr (Forall2_nil _)). rewrite !app_nil_r in Hq. rewrite Hq.
  apply tget_tgen. eapply any_index_inb; eauto.
Qed.
Lemma pair_getitem_ok p q batch ix rs src : index_ok ix -> bshape (shp p) (shp q) = Some batch -> batch <> [] -> any_index batch ix = Ok (rs, src) ->
  pair_getitem p q ix = Ok (at_src rs src p, at_src rs src q).
Proof.
  intros W Hb Hne E. pose proof (bshape_absorb_l _ _ _ Hb) as H1. pose proof (bshape_absorb_r _ _ _ Hb) as H2.
  unfold pair_getitem, param, batch_shape2. rewrite Hb. cbn [rbind]. rewrite (broadcast_to_ok _ _ H1), (broadcast_to_ok _ _ H2). cbn [rbind].
  rewrite (slice_full batch ix rs src p), (slice_full batch ix rs src q) by auto. reflexivity.
Qed.
Lemma pair_getitem_err p q batch ix e : bshape (shp p) (shp q) = Some batch -> batch <> [] -> any_index batch ix = Err e -> pair_getitem p q ix = Err e.
Proof.
  intros Hb Hne E. pose proof (bshape_absorb_l _ _ _ Hb) as H1. pose proof (bshape_absorb_r _ _ _ Hb) as H2.
  unfold pair_getitem, param, batch_shape2. rewrite Hb. cbn [rbind]. rewrite (broadcast_to_ok _ _ H1), (broadcast_to_ok _ _ H2). cbn [rbind].
  rewrite (slice_any_err _ _ _ _ _ Hne E). reflexivity.
Qed.
Lemma item_value x batch ix rs src : shp x = batch -> index_ok ix -> any_index batch ix = Ok (rs, src) -> any_getitem (Fin 0) x ix = Ok (at_src rs src x).
Proof.
  intros S W E. unfold any_getitem. rewrite S, E. cbn [rbind]. f_equal. apply tgen_ext. intros r Hr. rewrite xget_same; [auto|]. rewrite S. eapply any_index_inb; eauto.
Qed.
Lemma xget_at_src rs src t r : inb rs r -> xget (at_src rs src t) r = xget t (src r).
Proof. intros H. apply (xget_tgen_same rs (fun r => xget t (src r)) r H). Qed.
Lemma item_tgen F batch ix rs src : index_ok ix -> any_index batch ix = Ok (rs, src) -> any_getitem (Fin 0) (tgen batch F) ix = Ok (tgen rs (fun r => F (src r))).
Proof.
  intros W E. rewrite (item_value _ batch ix rs src) by auto. f_equal. apply tgen_ext. intros r Hr. apply xget_tgen_same. eapply any_index_inb; eauto.
Qed.

(** Every method of a univariate distribution is an elementwise function of the broadcast value and parameters; this is all the proof needs. *)
Definition elementwise3 (ev : tensor XR -> tensor XR -> tensor XR -> result (tensor XR)) (F : XR -> XR -> XR -> XR) : Prop :=
  forall x p q batch S, bshape (shp p) (shp q) = Some batch -> shp x = S ++ batch -> ev x p q = Ok (tgen (S ++ batch) (fun i => F (xget x i) (xget p i) (xget q i))).
Definition elementwise2 (st : tensor XR -> tensor XR -> result (tensor XR)) (F : XR -> XR -> XR) : Prop :=
  forall p q batch, bshape (shp p) (shp q) = Some batch -> st p q = Ok (tgen batch (fun i => F (xget p i) (xget q i))).
Lemma value_commutes ev F p q batch ix x : elementwise3 ev F -> index_ok ix -> batch_shape2 p q = Ok batch -> batch <> [] -> shp x = batch ->
  indexing_commutes (pair_getitem p q ix) ix (fun x => ev x p q) (fun d x => ev x (fst d) (snd d)) x.
Proof.
  intros HF W Hb Hne S. assert (Hb' : bshape (shp p) (shp q) = Some batch) by (unfold batch_shape2 in Hb; destruct bshape; congruence). clear Hb. rename Hb' into Hb.
  unfold indexing_commutes. rewrite (HF x p q batch []) by auto. cbn [rbind app]. destruct (any_index batch ix) as [[rs src]|e] eqn:E.
  - rewrite (pair_getitem_ok p q batch ix rs src), (item_value x batch ix rs src), (item_tgen _ batch ix rs src) by auto. cbn [rbind fst snd].
    rewrite (HF _ _ _ rs []) by (auto; apply bshape_refl). cbn [app]. f_equal. apply tgen_ext. intros r Hr. rewrite !xget_at_src by auto. reflexivity.
  - rewrite (pair_getitem_err p q batch ix e) by auto. unfold any_getitem. cbn [shp tgen]. rewrite E. reflexivity.
Qed.
Lemma stat_commutes st F p q batch ix : elementwise2 st F -> index_ok ix -> batch_shape2 p q = Ok batch -> batch <> [] ->
  statistic_commutes (pair_getitem p q ix) ix (st p q) (fun d => st (fst d) (snd d)).
Proof.
  intros HF W Hb Hne. assert (Hb' : bshape (shp p) (shp q) = Some batch) by (unfold batch_shape2 in Hb; destruct bshape; congruence). clear Hb. rename Hb' into Hb.
  unfold statistic_commutes. rewrite (HF p q batch) by auto. cbn [rbind]. destruct (any_index batch ix) as [[rs src]|e] eqn:E.
  - rewrite (pair_getitem_ok p q batch ix rs src), (item_tgen _ batch ix rs src) by auto. cbn [rbind fst snd].
    rewrite (HF _ _ rs) by apply bshape_refl. f_equal. apply tgen_ext. intros r Hr. rewrite !xget_at_src by auto. reflexivity.
  - rewrite (pair_getitem_err p q batch ix e) by auto. unfold any_getitem. cbn [shp tgen]. rewrite E. reflexivity.
Qed.
Ltac below := match goal with H : bshape ?a ?b = Some ?s |- bshape ?a ?s = Some ?s => exact (bshape_absorb_l _ _ _ H) | H : bshape ?a ?b = Some ?s |- bshape ?b ?s = Some ?s => exact (bshape_absorb_r _ _ _ H)
  | |- bshape ?s ?s = Some ?s => apply bshape_refl | H : shp ?x = ?s |- bshape (shp ?x) ?s = _ => rewrite H; apply bshape_refl end.
Lemma bshape_suffix S s : bshape s (S ++ s) = Some (S ++ s).
Proof.
  unfold bshape. rewrite rev_app_distr. assert (H : forall r t, bshape_rev r (r ++ t) = Some (r ++ t)).
  { induction r as [|x r IH]; intros t; cbn; [destruct t; auto|]. rewrite IH. unfold bdim. rewrite Nat.eqb_refl. reflexivity. }
  rewrite H. cbn. rewrite rev_app_distr, !rev_involutive. reflexivity.
Qed.
Lemma bshape_len s t : bshape s t = Some t -> length s <= length t.
Proof.
  unfold bshape. destruct (bshape_rev (rev s) (rev t)) as [r|] eqn:E; [|discriminate]. cbn. intros [= H].
  assert (G : forall a b c, bshape_rev a b = Some c -> length a <= length c).
  { induction a as [|x a IH]; intros [|y b] c; cbn; try (intros [= <-]; cbn; lia). destruct (bdim x y); [|discriminate]. destruct (bshape_rev a b) as [r'|] eqn:Er; [|discriminate].
    intros [= <-]. apply IH in Er. cbn. lia. }
  apply G in E. rewrite <- H, rev_length. rewrite rev_length in E. auto.
Qed.
Lemma bindex_prefix s p i : length s <= length i -> bindex s (p ++ i) = bindex s i.
Proof.
  intros L. unfold bindex. f_equal. rewrite rev_app_distr. rewrite <- (rev_length s), <- (rev_length i) in L. revert L. generalize (rev s), (rev i), (rev p). clear.
  induction l as [|d l IH]; intros [|j m] q L; cbn in *; auto; [lia|]. rewrite IH by lia. reflexivity.
Qed.
Lemma xget_prefix t batch s i : bshape (shp t) batch = Some batch -> inb batch i -> xget t (s ++ i) = xget t i.
Proof. intros H Hi. unfold xget. rewrite bindex_prefix; [auto|]. rewrite (inb_length _ _ Hi). apply bshape_len; auto. Qed.
Lemma ew3_lift F : elementwise3 (fun x p q => lift3 F x p q) F.
Proof.
  intros x p q batch S Hb Sx. rewrite (lift3_top F x p q (S ++ batch)); [reflexivity|rewrite Sx; apply bshape_refl| | |left; auto]; (eapply bshape_trans; [|apply bshape_suffix]); below.
Qed.
Lemma ew3_param F : elementwise3 (fun x p q => do l <- param p p q; do s <- param q p q; lift3 F x l s) F.
Proof.
  intros x p q batch S Hb Sx. rewrite (param_ok p p q batch Hb), (param_ok q p q batch Hb) by below. cbn [rbind].
  rewrite (lift3_top F _ _ _ (S ++ batch)); [|rewrite Sx; apply bshape_refl|apply bshape_suffix|apply bshape_suffix|left; auto]. f_equal. apply tgen_ext. intros i Hi.
  rewrite (xget_bparam p batch (S ++ batch)), (xget_bparam q batch (S ++ batch)); try reflexivity; auto using bshape_suffix; below.
Qed.
Lemma draws_ok ev F p q batch : elementwise3 ev F -> batch_shape2 p q = Ok batch -> batch <> [] -> draws_commute ev (pair_getitem p q) p q batch.
Proof.
  intros HF Hb Hne S ix rs x x' d' W Ed Wx Wx' Sx Sx' [src E] Hx. assert (Hb' : bshape (shp p) (shp q) = Some batch) by (unfold batch_shape2 in Hb; destruct bshape; congruence). clear Hb. rename Hb' into Hb.
  rewrite (pair_getitem_ok p q batch ix rs src) in Ed by auto. injection Ed as <-. cbn [fst snd].
  rewrite (HF x p q batch S), (HF x' _ _ rs S) by (auto; apply bshape_refl). eexists _, _. split; [reflexivity|]. split; [reflexivity|]. split; [reflexivity|]. split; [reflexivity|].
  intros s r c Hs Hp. pose proof (Hx s r c Hs Hp) as Hv. destruct Hp as (src' & E' & Hr & ->). rewrite E in E'. injection E' as <-. pose proof (any_index_inb _ _ _ _ W E r Hr) as Hc.
  rewrite !tget_tgen by (apply inb_app; auto). rewrite (xget_prefix (at_src rs src p) rs s r), (xget_prefix (at_src rs src q) rs s r) by (auto; apply bshape_refl). rewrite !xget_at_src by auto.
  rewrite (xget_prefix p batch), (xget_prefix q batch) by (auto; below). f_equal. rewrite !xget_same; [auto|rewrite Sx; apply inb_app; auto|rewrite Sx'; apply inb_app; auto].
Qed.
Lemma ew2_first : elementwise2 (fun p q => param p p q) (fun a _ => a).
Proof. intros p q batch Hb. rewrite (param_ok p p q batch Hb) by below. reflexivity. Qed.
Lemma ew2_second : elementwise2 (fun p q => param q p q) (fun _ b => b).
Proof. intros p q batch Hb. rewrite (param_ok q p q batch Hb) by below. reflexivity. Qed.
Lemma lift1_ok f t : lift1 f t = Ok (tgen (shp t) (fun i => f (xget t i))).
Proof. unfold lift1, lift. cbn [map]. rewrite bshapes_cons. cbn [bshapes fold_right obind]. rewrite bshape_nil_r. reflexivity. Qed.
Lemma ew2_second_lift F : elementwise2 (fun p q => do s <- param q p q; lift1 F s) (fun _ b => F b).
Proof.
  intros p q batch Hb. rewrite (param_ok q p q batch Hb) by below. cbn [rbind]. rewrite lift1_ok. f_equal. cbn [shp tgen]. apply tgen_ext. intros i Hi. rewrite xget_tgen_same by auto. reflexivity.
Qed.
Lemma ew2_lift F : elementwise2 (fun p q => lift2 F p q) F.
Proof. intros p q batch Hb. unfold lift2, lift. cbn [map]. rewrite bshapes_perm2, Hb. reflexivity. Qed.
Lemma ew2_params F : elementwise2 (fun p q => do l <- param p p q; do h <- param q p q; lift2 F l h) F.
Proof.
  intros p q batch Hb. rewrite (param_ok p p q batch Hb), (param_ok q p q batch Hb) by below. cbn [rbind]. rewrite (ew2_lift F _ _ batch) by apply bshape_refl.
  f_equal. apply tgen_ext. intros i Hi. rewrite !xget_tgen_same by auto. reflexivity.
Qed.

(** [d.method(x)] for log_prob (and cdf or log_cdf), with and without leading sample axes, and the statistics. *)
Theorem C77_normal : forall loc scale batch ix x, index_ok ix -> batch_shape2 loc scale = Ok batch -> batch <> [] -> shp x = batch ->
  let item := pair_getitem loc scale ix in
  indexing_commutes item ix (fun x => normal_log_prob_arr x loc scale) (fun d x => normal_log_prob_arr x (fst d) (snd d)) x /\
  indexing_commutes item ix (fun x => normal_cdf_arr x loc scale) (fun d x => normal_cdf_arr x (fst d) (snd d)) x /\
  statistic_commutes item ix (normal_mean_arr loc scale) (fun d => normal_mean_arr (fst d) (snd d)) /\
  statistic_commutes item ix (normal_variance_arr loc scale) (fun d => normal_variance_arr (fst d) (snd d)) /\
  statistic_commutes item ix (normal_stddev_arr loc scale) (fun d => normal_stddev_arr (fst d) (snd d)) /\
  statistic_commutes item ix (normal_entropy_arr loc scale) (fun d => normal_entropy_arr (fst d) (snd d)) /\
  draws_commute normal_log_prob_arr (pair_getitem loc scale) loc scale batch /\
  draws_commute normal_cdf_arr (pair_getitem loc scale) loc scale batch.
Proof.
  intros loc scale batch ix x W Hb Hne S item. repeat split.
  - exact (value_commutes _ _ _ _ _ _ _ (ew3_lift normal_log_prob) W Hb Hne S).
  - exact (value_commutes _ _ _ _ _ _ _ (ew3_lift normal_cdf) W Hb Hne S).
  - exact (stat_commutes _ _ _ _ _ _ ew2_first W Hb Hne).
  - exact (stat_commutes _ _ _ _ _ _ (ew2_second_lift normal_variance) W Hb Hne).
  - exact (stat_commutes _ _ _ _ _ _ ew2_second W Hb Hne).
  - exact (stat_commutes _ _ _ _ _ _ (ew2_second_lift normal_entropy) W Hb Hne).
  - exact (draws_ok _ _ _ _ _ (ew3_lift normal_log_prob) Hb Hne).
  - exact (draws_ok _ _ _ _ _ (ew3_lift normal_cdf) Hb Hne).
Qed.
Print Assumptions C77_normal.
Theorem C77_laplace : forall loc scale batch ix x, index_ok ix -> batch_shape2 loc scale = Ok batch -> batch <> [] -> shp x = batch ->
  let item := pair_getitem loc scale ix in
  indexing_commutes item ix (fun x => laplace_log_prob_arr x loc scale) (fun d x => laplace_log_prob_arr x (fst d) (snd d)) x /\
  indexing_commutes item ix (fun x => laplace_cdf_arr x loc scale) (fun d x => laplace_cdf_arr x (fst d) (snd d)) x /\
  statistic_commutes item ix (laplace_mean_arr loc scale) (fun d => laplace_mean_arr (fst d) (snd d)) /\
  statistic_commutes item ix (laplace_variance_arr loc scale) (fun d => laplace_variance_arr (fst d) (snd d)) /\
  statistic_commutes item ix (laplace_stddev_arr loc scale) (fun d => laplace_stddev_arr (fst d) (snd d)) /\
  statistic_commutes item ix (laplace_entropy_arr loc scale) (fun d => laplace_entropy_arr (fst d) (snd d)) /\
  draws_commute laplace_log_prob_arr (pair_getitem loc scale) loc scale batch.
Proof.
  intros loc scale batch ix x W Hb Hne S item. repeat split.
  - exact (value_commutes _ _ _ _ _ _ _ (ew3_lift laplace_log_prob) W Hb Hne S).
  - exact (value_commutes _ _ _ _ _ _ _ (ew3_lift laplace_cdf) W Hb Hne S).
  - exact (stat_commutes _ _ _ _ _ _ ew2_first W Hb Hne).
  - exact (stat_commutes _ _ _ _ _ _ (ew2_second_lift laplace_variance) W Hb Hne).
  - exact (stat_commutes _ _ _ _ _ _ (ew2_second_lift laplace_stddev) W Hb Hne).
  - exact (stat_commutes _ _ _ _ _ _ (ew2_second_lift laplace_entropy) W Hb Hne).
  - exact (draws_ok _ _ _ _ _ (ew3_lift laplace_log_prob) Hb Hne).
Qed.
Print Assumptions C77_laplace.
Theorem C77_logistic : forall loc scale batch ix x, index_ok ix -> batch_shape2 loc scale = Ok batch -> batch <> [] -> shp x = batch ->
  let item := pair_getitem loc scale ix in
  indexing_commutes item ix (fun x => logistic_log_prob_arr x loc scale) (fun d x => logistic_log_prob_arr x (fst d) (snd d)) x /\
  indexing_commutes item ix (fun x => logistic_cdf_arr x loc scale) (fun d x => logistic_cdf_arr x (fst d) (snd d)) x /\
  statistic_commutes item ix (logistic_mean_arr loc scale) (fun d => logistic_mean_arr (fst d) (snd d)) /\
  statistic_commutes item ix (logistic_variance_arr loc scale) (fun d => logistic_variance_arr (fst d) (snd d)) /\
  statistic_commutes item ix (logistic_stddev_arr loc scale) (fun d => logistic_stddev_arr (fst d) (snd d)) /\
  statistic_commutes item ix (logistic_entropy_arr loc scale) (fun d => logistic_entropy_arr (fst d) (snd d)) /\
  draws_commute logistic_log_prob_arr (pair_getitem loc scale) loc scale batch.
Proof.
  intros loc scale batch ix x W Hb Hne S item. repeat split.
  - exact (value_commutes _ _ _ _ _ _ _ (ew3_param logistic_log_prob) W Hb Hne S).
  - exact (value_commutes _ _ _ _ _ _ _ (ew3_param logistic_cdf) W Hb Hne S).
  - exact (stat_commutes _ _ _ _ _ _ ew2_first W Hb Hne).
  - exact (stat_commutes _ _ _ _ _ _ (ew2_second_lift logistic_variance) W Hb Hne).
  - exact (stat_commutes _ _ _ _ _ _ (ew2_second_lift logistic_stddev) W Hb Hne).
  - exact (stat_commutes _ _ _ _ _ _ (ew2_second_lift logistic_entropy) W Hb Hne).
  - exact (draws_ok _ _ _ _ _ (ew3_param logistic_log_prob) Hb Hne).
Qed.
Print Assumptions C77_logistic.
Theorem C77_gumbel : forall eg loc scale batch ix x, index_ok ix -> batch_shape2 loc scale = Ok batch -> batch <> [] -> shp x = batch ->
  let item := pair_getitem loc scale ix in
  indexing_commutes item ix (fun x => gumbel_log_prob_arr x loc scale) (fun d x => gumbel_log_prob_arr x (fst d) (snd d)) x /\
  indexing_commutes item ix (fun x => gumbel_log_cdf_arr x loc scale) (fun d x => gumbel_log_cdf_arr x (fst d) (snd d)) x /\
  statistic_commutes item ix (gumbel_mean_arr eg loc scale) (fun d => gumbel_mean_arr eg (fst d) (snd d)) /\
  statistic_commutes item ix (gumbel_variance_arr loc scale) (fun d => gumbel_variance_arr (fst d) (snd d)) /\
  statistic_commutes item ix (gumbel_stddev_arr loc scale) (fun d => gumbel_stddev_arr (fst d) (snd d)) /\
  statistic_commutes item ix (gumbel_mode_arr loc scale) (fun d => gumbel_mode_arr (fst d) (snd d)) /\
  statistic_commutes item ix (gumbel_median_arr loc scale) (fun d => gumbel_median_arr (fst d) (snd d)) /\
  draws_commute gumbel_log_prob_arr (pair_getitem loc scale) loc scale batch.
Proof.
  intros eg loc scale batch ix x W Hb Hne S item. repeat split.
  - exact (value_commutes _ _ _ _ _ _ _ (ew3_lift gumbel_log_prob) W Hb Hne S).
  - exact (value_commutes _ _ _ _ _ _ _ (ew3_lift gumbel_log_cdf) W Hb Hne S).
  - exact (stat_commutes _ _ _ _ _ _ (ew2_lift (gumbel_mean eg)) W Hb Hne).
  - exact (stat_commutes _ _ _ _ _ _ (ew2_lift (fun _ s => gumbel_variance s)) W Hb Hne).
  - exact (stat_commutes _ _ _ _ _ _ (ew2_lift (fun _ s => gumbel_stddev s)) W Hb Hne).
  - exact (stat_commutes _ _ _ _ _ _ ew2_first W Hb Hne).
  - exact (stat_commutes _ _ _ _ _ _ (ew2_lift gumbel_median) W Hb Hne).
  - exact (draws_ok _ _ _ _ _ (ew3_lift gumbel_log_prob) Hb Hne).
Qed.
Print Assumptions C77_gumbel.
(** Gumbel.entropy does not broadcast its scale (C71): with loc of shape (2,) and scale of shape (), entropy() has shape (), so entropy()[0:1]
    raises although d[0:1].entropy() works. *)
Theorem C77_gumbel_entropy_refuted : ~ forall eg loc scale batch ix, index_ok ix -> batch_shape2 loc scale = Ok batch -> batch <> [] ->
  statistic_commutes (pair_getitem loc scale ix) ix (gumbel_entropy_arr eg loc scale) (fun d => gumbel_entropy_arr eg (fst d) (snd d)).
Proof.
  intros H. specialize (H 0%R (mkT [2] [Fin 0; Fin 0]) (mkT [] [Fin 1]) [2] (IxBasic [ISlice (Some 0%Z) (Some 1%Z) None]) I eq_refl ltac:(discriminate)).
  unfold statistic_commutes in H.
  rewrite (pair_getitem_ok (mkT [2] [Fin 0; Fin 0]) (mkT [] [Fin 1]) [2] (IxBasic [ISlice (Some 0%Z) (Some 1%Z) None]) [1] _ I eq_refl ltac:(discriminate) eq_refl) in H. cbn [rbind fst snd] in H. unfold gumbel_entropy_arr in H. rewrite !lift1_ok in H. cbn [rbind] in H. discriminate H.
Qed.
Theorem C77_uniform : forall low high batch ix x, index_ok ix -> batch_shape2 low high = Ok batch -> batch <> [] -> shp x = batch ->
  let item := pair_getitem low high ix in
  indexing_commutes item ix (fun x => uniform_log_prob_arr x low high) (fun d x => uniform_log_prob_arr x (fst d) (snd d)) x /\
  indexing_commutes item ix (fun x => uniform_cdf_arr x low high) (fun d x => uniform_cdf_arr x (fst d) (snd d)) x /\
  statistic_commutes item ix (uniform_mean_arr low high) (fun d => uniform_mean_arr (fst d) (snd d)) /\
  statistic_commutes item ix (uniform_variance_arr low high) (fun d => uniform_variance_arr (fst d) (snd d)) /\
  statistic_commutes item ix (uniform_stddev_arr low high) (fun d => uniform_stddev_arr (fst d) (snd d)) /\
  statistic_commutes item ix (uniform_entropy_arr low high) (fun d => uniform_entropy_arr (fst d) (snd d)) /\
  draws_commute uniform_log_prob_arr (pair_getitem low high) low high batch.
Proof.
  intros low high batch ix x W Hb Hne S item. repeat split.
  - exact (value_commutes _ _ _ _ _ _ _ (ew3_param uniform_log_prob) W Hb Hne S).
  - exact (value_commutes _ _ _ _ _ _ _ (ew3_param uniform_cdf) W Hb Hne S).
  - exact (stat_commutes _ _ _ _ _ _ (ew2_params uniform_mean) W Hb Hne).
  - exact (stat_commutes _ _ _ _ _ _ (ew2_params uniform_variance) W Hb Hne).
  - exact (stat_commutes _ _ _ _ _ _ (ew2_params uniform_stddev) W Hb Hne).
  - exact (stat_commutes _ _ _ _ _ _ (ew2_params uniform_entropy) W Hb Hne).
  - exact (draws_ok _ _ _ _ _ (ew3_param uniform_log_prob) Hb Hne).
Qed.
Print Assumptions C77_uniform.

(** ** Deterministic *)
Theorem C77_deterministic : forall loc atol rtol ix x, index_ok ix -> shp loc <> [] -> wf loc ->
  bshape (shp atol) (shp loc) = Some (shp loc) -> bshape (shp rtol) (shp loc) = Some (shp loc) -> shp x = shp loc ->
  indexing_commutes (det_getitem loc atol rtol ix) ix (fun x => det_log_prob_arr x loc atol rtol) (fun d x => let '(l, a, r) := d in det_log_prob_arr x l a r) x.
Proof.
  intros loc atol rtol ix x W Hne Wl Ha Hr Sx. unfold indexing_commutes, det_getitem.
  rewrite (broadcast_to_ok _ _ Ha), (broadcast_to_ok _ _ Hr). cbn [rbind].
  assert (EL : det_log_prob_arr x loc atol rtol = Ok (tgen (shp loc) (fun i => det_log_prob (xget x i) (xget loc i) (xget atol i) (xget rtol i)))).
  { unfold det_log_prob_arr. rewrite (broadcast_to_ok _ _ Ha), (broadcast_to_ok _ _ Hr). cbn [rbind]. rewrite (lift4_top _ _ _ _ _ (shp loc)); try (cbn [shp tgen]; rewrite ?Sx; apply bshape_refl); [|auto].
    f_equal. apply tgen_ext. intros i Hi. rewrite !xget_tgen_same by auto. reflexivity. }
  rewrite EL. cbn [rbind]. destruct (any_index (shp loc) ix) as [[rs src]|e] eqn:E.
  - assert (EW : loc = tgen (shp loc) (fun i => xget loc i)).
    { rewrite <- (tgen_tget (Fin 0) loc Wl) at 1. apply tgen_ext. intros i Hi. rewrite xget_same; auto. }
    replace (slice_param_any (Fin 0) (shp loc) ix loc) with (slice_param_any (Fin 0) (shp loc) ix (tgen (shp loc) (fun i => xget loc i))) by (f_equal; auto).
    rewrite (slice_full _ ix rs src loc), (slice_full _ ix rs src atol), (slice_full _ ix rs src rtol), (item_value x (shp loc) ix rs src), (item_tgen _ (shp loc) ix rs src) by (auto; apply bshape_refl). cbn [rbind].
    assert (G : forall t, broadcast_to (at_src rs src t) (shp (at_src rs src loc)) = Ok (tgen rs (fun i => xget (at_src rs src t) i))) by (intros t; apply broadcast_to_ok, bshape_refl).
    unfold det_log_prob_arr. rewrite !G. cbn [rbind]. rewrite (lift4_top _ _ _ _ _ rs); try (cbn [shp at_src tgen]; apply bshape_refl); [|auto].
    f_equal. apply tgen_ext. intros i Hi. rewrite !xget_tgen_same by auto. rewrite !xget_at_src by auto. reflexivity.
  - rewrite (slice_any_err _ _ _ _ _ Hne E). cbn [rbind]. unfold any_getitem. cbn [shp tgen]. rewrite E. reflexivity.
Qed.
Print Assumptions C77_deterministic.

(** ** Independent: the index addresses the axes that are left, and the wrapped distribution is indexed with a tuple of arrays. *)
Lemma nth_error_seq0 n j : j < n -> nth_error (seq 0 n) j = Some j.
Proof. intros H. rewrite (nth_error_nth' _ 0) by (rewrite seq_length; auto). rewrite seq_nth; auto. Qed.
Lemma tuple_index_ok bs inner rs src : bs <> [] -> (forall r, inb rs r -> inb bs (src r)) ->
  let l := map (fun k => tgen rs (fun r => nth k (src r) 0)) (seq 0 (length bs)) in
  index_ok (tuple_index l) /\ exists src', any_index (bs ++ inner) (tuple_index l) = Ok (rs ++ inner, src') /\ forall r e, inb rs r -> inb inner e -> src' (r ++ e) = src r ++ e.
Proof.
  intros Hne Hin l. unfold tuple_index. set (lz := map (tmap Z.of_nat) l).
  assert (Ll : length lz = length bs) by (unfold lz, l; rewrite !map_length, seq_length; auto).
  assert (Nz : forall j t, nth_error lz j = Some t -> j < length bs /\ t = tmap Z.of_nat (tgen rs (fun r => nth j (src r) 0))).
  { intros j t Hj. assert (j < length bs) by (rewrite <- Ll; apply nth_error_Some; congruence). split; [auto|]. unfold lz, l in Hj. rewrite !nth_error_map, nth_error_seq0 in Hj by auto. cbn in Hj. congruence. }
  assert (Wz : Forall wf lz).
  { apply Forall_forall. intros t Ht. apply In_nth_error in Ht as [j Hj]. apply Nz in Hj as [_ ->]. apply tmap_wf, tgen_wf. }
  assert (Bz : bshapes (map shp lz) = Some rs).
  { destruct lz as [|t lz'] eqn:El; [destruct bs; [congruence|discriminate Ll]|]. cbn [map].
    assert (Q : forall u, In u (t :: lz') -> shp u = rs) by (intros u Hu; apply In_nth_error in Hu as [j Hj]; apply Nz in Hj as [_ ->]; reflexivity).
    rewrite (Q t) by (left; auto). apply bshapes_top. apply Forall_map, Forall_forall. intros u Hu. rewrite (Q u) by (right; auto). apply bshape_refl. }
  assert (Leg : legal_arrays (bs ++ inner) lz).
  { split; [rewrite app_length; lia|]. intros j d t z H1 H2 Hz. apply Nz in H2 as [Lj ->]. rewrite nth_error_app1 in H1 by auto. cbn [dat tmap tgen] in Hz.
    rewrite map_map in Hz. apply in_map_iff in Hz as (r & <- & Hr). apply in_indices in Hr. apply Hin in Hr.
    assert (nth j (src r) 0 < d); [|lia]. unfold inb in Hr. clear -Hr H1. revert j H1. induction Hr as [|x y s b Hxy Hr IH]; intros [|j] H1; cbn in *; try discriminate; [congruence|auto]. }
  split; [exact Wz|]. cbn [any_index]. unfold int_index. destruct (Nat.ltb_spec (length (bs ++ inner)) (length lz)) as [L|L]; [destruct Leg; lia|].
  rewrite Bz. rewrite (proj2 (legal_forallb _ _ (proj1 Leg)) Leg).
  assert (Sk : skipn (length lz) (bs ++ inner) = inner) by (rewrite Ll, skipn_app, skipn_all, Nat.sub_diag; reflexivity). rewrite Sk.
  eexists. split; [reflexivity|]. intros r e Hr He. cbv beta zeta. rewrite <- (inb_length _ _ Hr). rewrite firstn_app, firstn_all, Nat.sub_diag, skipn_app, skipn_all, Nat.sub_diag. cbn [firstn skipn app]. rewrite app_nil_r. f_equal.
  pose proof (Hin r Hr) as Hb. apply nth_ext with (d := 0) (d' := 0).
  - rewrite map_length, combine_length, app_length, (inb_length _ _ Hb). lia.
  - intros j Hj. rewrite map_length, combine_length, app_length in Hj. assert (Lj : j < length bs) by lia.
    assert (exists d t, nth_error (bs ++ inner) j = Some d /\ nth_error lz j = Some t) as (d & t & H1 & H2).
    { destruct (nth_error (bs ++ inner) j) as [d|] eqn:E1; [|apply nth_error_None in E1; rewrite app_length in E1; lia]. destruct (nth_error lz j) as [t|] eqn:E2; [|apply nth_error_None in E2; lia]. eauto. }
    pose proof (nth_combine_some _ _ _ _ _ H1 H2) as H3. apply Nz in H2 as [_ ->].
    erewrite nth_error_nth; [|rewrite nth_error_map, H3; reflexivity]. cbn [fst snd]. cbn [shp tmap tgen].
    rewrite bindex_refl by auto. rewrite (tget_tmap 0 0%Z Z.of_nat) by (auto; apply tgen_wf). rewrite tget_tgen by auto. unfold wrap. destruct (Z.ltb_spec (Z.of_nat (nth j (src r) 0)) 0); lia.
Qed.
Lemma sum_last_tgen k outer inner F : length inner = k -> sum_last_axes k (tgen (outer ++ inner) F) = Ok (tgen outer (fun i => xsum (map (fun e => F (i ++ e)) (indices inner)))).
Proof.
  intros <-. unfold sum_last_axes, rank. cbn [shp tgen]. rewrite app_length. destruct (Nat.leb_spec (length inner) (length outer + length inner)); [|lia].
  replace (length outer + length inner - length inner) with (length outer) by lia. rewrite firstn_app, firstn_all, Nat.sub_diag, skipn_app, skipn_all, Nat.sub_diag. cbn [firstn skipn app]. rewrite app_nil_r.
  f_equal. apply tgen_ext. intros i Hi. f_equal. apply map_ext_in. intros e He. apply tget_tgen. apply inb_app; [auto|apply in_indices; auto].
Qed.
Lemma independent_commutes ev F p q outer inner ix x : elementwise3 ev F -> index_ok ix -> batch_shape2 p q = Ok (outer ++ inner) -> outer <> [] -> wf x -> shp x = outer ++ inner ->
  (do d' <- independent_getitem_any (pair_getitem p q) (outer ++ inner) (length inner) ix;
   do x' <- slice_param_any (Fin 0) outer ix x; do lp <- ev x' (fst d') (snd d'); sum_last_axes (length inner) lp)
  = (do lp <- ev x p q; do y <- sum_last_axes (length inner) lp; any_getitem (Fin 0) y ix).
Proof.
  intros HF W Hb Hne Wx Sx. assert (Hb' : bshape (shp p) (shp q) = Some (outer ++ inner)) by (unfold batch_shape2 in Hb; destruct bshape as [b0|]; [injection Hb as ->; auto|discriminate Hb]). clear Hb. rename Hb' into Hb.
  unfold independent_getitem_any. rewrite app_length. replace (length outer + length inner - length inner) with (length outer) by lia. rewrite firstn_app, firstn_all, Nat.sub_diag. cbn [firstn]. rewrite app_nil_r.
  rewrite (HF x p q (outer ++ inner) []) by auto. cbn [rbind app]. rewrite sum_last_tgen by auto. cbn [rbind].
  destruct (any_index outer ix) as [[rs src]|e] eqn:E.
  - pose proof (any_index_inb _ _ _ _ W E) as Hin. rewrite (any_batch_ok outer ix rs src E Hin). cbn [rbind].
    destruct (tuple_index_ok outer inner rs src Hne Hin) as (W' & src' & E' & Hs').
    assert (Hne' : outer ++ inner <> []) by (destruct outer; [congruence|discriminate]).
    rewrite (pair_getitem_ok p q (outer ++ inner) _ (rs ++ inner) src' W' Hb Hne' E'). cbn [rbind fst snd].
    destruct (slice_any_ok (Fin 0) outer inner ix rs src x Hne E Hin Sx) as (x' & -> & Wx' & Sx' & Hx'). cbn [rbind].
    rewrite (HF x' _ _ (rs ++ inner) []) by (auto; apply bshape_refl). cbn [rbind app]. rewrite sum_last_tgen by auto.
    rewrite (item_tgen _ outer ix rs src) by auto. f_equal. apply tgen_ext. intros r Hr. f_equal. apply map_ext_in. intros e He. apply in_indices in He.
    rewrite !xget_at_src by (apply inb_app; auto). rewrite Hs' by auto. f_equal. rewrite !xget_same; [auto|rewrite Sx|rewrite Sx']; apply inb_app; auto.
  - unfold np_indices. destruct outer as [|o outer']; [congruence|]. cbn [length seq map]. rewrite rmapM_err with (e := e); [|unfold any_getitem; cbn [shp tgen]; rewrite E; auto].
    cbn [rbind]. unfold any_getitem. cbn [shp tgen]. rewrite E. reflexivity.
Qed.

(** Independent(d, k)[ix].log_prob(x[ix]) = Independent(d, k).log_prob(x)[ix] and the same for the entropy, [x[ix]] taking whole events. *)
Definition independent_indexing (ev : tensor XR -> tensor XR -> tensor XR -> result (tensor XR)) : Prop :=
  forall p q outer inner ix x, index_ok ix -> batch_shape2 p q = Ok (outer ++ inner) -> outer <> [] -> wf x -> shp x = outer ++ inner ->
  let k := length inner in
  (do d' <- independent_getitem_any (pair_getitem p q) (outer ++ inner) k ix;
   do x' <- slice_param_any (Fin 0) outer ix x; do lp <- ev x' (fst d') (snd d'); sum_last_axes k lp)
  = (do lp <- ev x p q; do y <- sum_last_axes k lp; any_getitem (Fin 0) y ix).
Theorem C77_independent : forall lgamma,
  independent_indexing normal_log_prob_arr /\ independent_indexing laplace_log_prob_arr /\ independent_indexing logistic_log_prob_arr /\
  independent_indexing gumbel_log_prob_arr /\ independent_indexing uniform_log_prob_arr /\
  independent_indexing (gamma_log_prob_arr lgamma) /\ independent_indexing (beta_log_prob_arr lgamma).
Proof.
  intros lgamma. repeat split; intros p q outer inner ix x W Hb Hne Wx Sx.
  - exact (independent_commutes _ _ p q outer inner ix x (ew3_lift normal_log_prob) W Hb Hne Wx Sx).
  - exact (independent_commutes _ _ p q outer inner ix x (ew3_lift laplace_log_prob) W Hb Hne Wx Sx).
  - exact (independent_commutes _ _ p q outer inner ix x (ew3_param logistic_log_prob) W Hb Hne Wx Sx).
  - exact (independent_commutes _ _ p q outer inner ix x (ew3_lift gumbel_log_prob) W Hb Hne Wx Sx).
  - exact (independent_commutes _ _ p q outer inner ix x (ew3_param uniform_log_prob) W Hb Hne Wx Sx).
  - exact (independent_commutes _ _ p q outer inner ix x (ew3_lift (gamma_log_prob lgamma)) W Hb Hne Wx Sx).
  - exact (independent_commutes _ _ p q outer inner ix x (ew3_lift (beta_log_prob lgamma)) W Hb Hne Wx Sx).
Qed.
Print Assumptions C77_independent.

(** ** Gamma, Beta and VonMises, whatever the special functions *)
Theorem C77_gamma : forall lgamma digamma conc rate batch ix x, index_ok ix -> batch_shape2 conc rate = Ok batch -> batch <> [] -> shp x = batch ->
  let item := pair_getitem conc rate ix in
  indexing_commutes item ix (fun x => gamma_log_prob_arr lgamma x conc rate) (fun d x => gamma_log_prob_arr lgamma x (fst d) (snd d)) x /\
  statistic_commutes item ix (gamma_entropy_arr lgamma digamma conc rate) (fun d => gamma_entropy_arr lgamma digamma (fst d) (snd d)) /\
  statistic_commutes item ix (gamma_mean_arr conc rate) (fun d => gamma_mean_arr (fst d) (snd d)) /\
  statistic_commutes item ix (gamma_variance_arr conc rate) (fun d => gamma_variance_arr (fst d) (snd d)) /\
  statistic_commutes item ix (gamma_stddev_arr conc rate) (fun d => gamma_stddev_arr (fst d) (snd d)) /\
  statistic_commutes item ix (gamma_mode_arr conc rate) (fun d => gamma_mode_arr (fst d) (snd d)) /\
  draws_commute (gamma_log_prob_arr lgamma) (pair_getitem conc rate) conc rate batch.
Proof.
  intros lgamma digamma conc rate batch ix x W Hb Hne S item. repeat split.
  - exact (value_commutes _ _ _ _ _ _ _ (ew3_lift (gamma_log_prob lgamma)) W Hb Hne S).
  - exact (stat_commutes _ _ _ _ _ _ (ew2_lift (gamma_entropy lgamma digamma)) W Hb Hne).
  - exact (stat_commutes _ _ _ _ _ _ (ew2_lift gamma_mean) W Hb Hne).
  - exact (stat_commutes _ _ _ _ _ _ (ew2_lift gamma_variance) W Hb Hne).
  - exact (stat_commutes _ _ _ _ _ _ (ew2_lift gamma_stddev) W Hb Hne).
  - exact (stat_commutes _ _ _ _ _ _ (ew2_lift gamma_mode) W Hb Hne).
  - exact (draws_ok _ _ _ _ _ (ew3_lift (gamma_log_prob lgamma)) Hb Hne).
Qed.
Print Assumptions C77_gamma.
Theorem C77_beta : forall lgamma digamma alpha beta batch ix x, index_ok ix -> batch_shape2 alpha beta = Ok batch -> batch <> [] -> shp x = batch ->
  let item := pair_getitem alpha beta ix in
  indexing_commutes item ix (fun x => beta_log_prob_arr lgamma x alpha beta) (fun d x => beta_log_prob_arr lgamma x (fst d) (snd d)) x /\
  statistic_commutes item ix (beta_entropy_arr lgamma digamma alpha beta) (fun d => beta_entropy_arr lgamma digamma (fst d) (snd d)) /\
  statistic_commutes item ix (beta_mean_arr alpha beta) (fun d => beta_mean_arr (fst d) (snd d)) /\
  statistic_commutes item ix (beta_variance_arr alpha beta) (fun d => beta_variance_arr (fst d) (snd d)) /\
  statistic_commutes item ix (beta_mode_arr alpha beta) (fun d => beta_mode_arr (fst d) (snd d)) /\
  draws_commute (beta_log_prob_arr lgamma) (pair_getitem alpha beta) alpha beta batch.
Proof.
  intros lgamma digamma conc rate batch ix x W Hb Hne S item. repeat split.
  - exact (value_commutes _ _ _ _ _ _ _ (ew3_lift (beta_log_prob lgamma)) W Hb Hne S).
  - exact (stat_commutes _ _ _ _ _ _ (ew2_lift (beta_entropy lgamma digamma)) W Hb Hne).
  - exact (stat_commutes _ _ _ _ _ _ (ew2_lift beta_mean) W Hb Hne).
  - exact (stat_commutes _ _ _ _ _ _ (ew2_lift beta_variance) W Hb Hne).
  - exact (stat_commutes _ _ _ _ _ _ (ew2_lift beta_mode) W Hb Hne).
  - exact (draws_ok _ _ _ _ _ (ew3_lift (beta_log_prob lgamma)) Hb Hne).
Qed.
Print Assumptions C77_beta.
Theorem C77_von_mises : forall i0 i0e loc conc batch ix x, index_ok ix -> batch_shape2 loc conc = Ok batch -> batch <> [] -> shp x = batch ->
  let item := pair_getitem loc conc ix in
  indexing_commutes item ix (fun x => vm_log_prob_arr i0 x loc conc) (fun d x => vm_log_prob_arr i0 x (fst d) (snd d)) x /\
  indexing_commutes item ix (fun x => vm_prob_arr i0e x loc conc) (fun d x => vm_prob_arr i0e x (fst d) (snd d)) x /\
  statistic_commutes item ix (vm_mean_arr loc conc) (fun d => vm_mean_arr (fst d) (snd d)) /\
  draws_commute (vm_log_prob_arr i0) (pair_getitem loc conc) loc conc batch.
Proof.
  intros i0 i0e loc conc batch ix x W Hb Hne S item. repeat split.
  - exact (value_commutes _ _ _ _ _ _ _ (ew3_lift (vm_log_prob i0)) W Hb Hne S).
  - exact (value_commutes _ _ _ _ _ _ _ (ew3_lift (vm_prob i0e)) W Hb Hne S).
  - exact (stat_commutes _ _ _ _ _ _ ew2_first W Hb Hne).
  - exact (draws_ok _ _ _ _ _ (ew3_lift (vm_log_prob i0)) Hb Hne).
Qed.
Print Assumptions C77_von_mises.

(** Normal with loc of shape (3, 1) and scale of shape (2,), batch (3, 2): d[[2, -3]] has batch (2, 2), rows 2 and 0; Independent over the last axis
    indexed by the mask (True, False, True) *)
Example C77_nonvacuous :
  let loc := mkT [3; 1] [Fin 0; Fin 1; Fin 2] in let scale := mkT [2] [Fin 1; Fin 3] in
  batch_shape2 loc scale = Ok [3; 2] /\
  pair_getitem loc scale (IxArrays [mkT [2] [2; -3]%Z]) = Ok (mkT [2; 2] [Fin 2; Fin 2; Fin 0; Fin 0], mkT [2; 2] [Fin 1; Fin 3; Fin 1; Fin 3]) /\
  independent_getitem_any (pair_getitem loc scale) [3; 2] 1 (IxMask (mkT [3] [true; false; true])) = Ok (mkT [2; 2] [Fin 0; Fin 0; Fin 2; Fin 2], mkT [2; 2] [Fin 1; Fin 3; Fin 1; Fin 3]) /\
  pair_getitem loc scale (IxBasic [IInt 3]) = Err IndexError.
Proof. cbv zeta. repeat split. Qed.
