(** C43 CategoricalUniform. *)
From Coq Require Import Reals List Bool Lra Lia.
From Coquelicot Require Import Coquelicot.
From Verif Require Import Base.Result Base.Sums Base.Tensor Base.XR Base.Lift Base.Axes Base.Integral Model.MathUtils
  Model.ScalarDist Model.ArrayDist Model.Categorical Model.Mixture Spec.Categorical Spec.Density Spec.Mixture
  Spec.CategoricalUniform Proofs.MathUtils Proofs.ArrayDist Proofs.Mixture Proofs.Categorical Proofs.Density Props.Uniform
  Props.Mixture Proofs.CategoricalUniform.
Import ListNotations.
Local Open Scope R_scope.

Definition bin_probs (l : list XR) : list R := normalised (map weight l).

(** Logits must have at least one axis, whose length is the number of bins. *)
Theorem C43_constructor : forall low high logits b,
  (shp logits = [] /\ cu_init low high logits b = Err ValueError) \/
  (exists bs K, shp logits = (bs ++ [K])%list /\ exists c, cu_init low high logits b = Ok c /\
     num_bins c = K /\ forall k, (k < K)%nat -> nth k (cu_logits c) NaN = tget (Fin 0) logits (b ++ [k])).
Proof.
  intros low high logits b. unfold cu_init, rank. destruct (shp logits) as [|d s] eqn:E; [left; auto|right].
  destruct (exists_last (l := d :: s)) as (bs & K & EK); [discriminate|]. rewrite EK in E. exists bs, K. split; [exact EK|].
  cbn [length Nat.ltb Nat.leb]. eexists. split; [reflexivity|]. unfold num_bins. cbn [cu_logits].
  split; [eapply last_row_length; eauto|]. intros k Hk. eapply last_row_nth; eauto.
Qed.
Print Assumptions C43_constructor.

(** log_prob is the log of the piecewise-uniform density, at every entry that is not a right end of a bin. *)
Theorem C43_log_prob : forall a b l x s (v : list nat -> R), a < b -> legal_logits l ->
  wf x -> shp x = s -> (forall i, inb s i -> tget (Fin 0) x i = Fin (v i)) ->
  (forall i k, inb s i -> (1 <= k <= length l)%nat -> v i <> edge a b (length l) k) ->
  exists r, cu_log_prob (mkCU (Fin a) (Fin b) l) x = Ok r /\ shp r = s /\ wf r /\
    forall i, inb s i -> tget (Fin 0) r i = rlog (piecewise_density (bin_probs l) a b (v i)).
Proof.
  intros a b l x s v Hab Hl Wx Sx Hv He.
  destruct (cu_log_prob_at a b l Hab Hl x s v Wx Sx Hv) as (r & Er & Sr & Wr & Hr). exists r. split; [exact Er|]. split; [exact Sr|].
  split; [exact Wr|]. intros i Hi. rewrite (Hr i Hi). f_equal. apply density_off_edges; auto.
Qed.
Print Assumptions C43_log_prob.
(** At an edge between two bins the code adds both densities: with two equally likely bins on [0, 1] the
    documented density at 1/2 is 1, log_prob gives log 2. *)
Theorem C43_edge_density_refuted : exists l x,
  legal_logits l /\ piecewise_density (bin_probs l) 0 1 x = 1 /\
  cu_log_prob (mkCU (Fin 0) (Fin 1) l) (tscalar (Fin x)) = Ok (tscalar (rlog 2)).
Proof.
  set (l := [Fin 0; Fin 0]). assert (Hl : legal_logits l).
  { split; [|exists 0; left; reflexivity]. intros a [<-|[<-|[]]]; right; exists 0; reflexivity. }
  assert (Ep : bin_probs l = [1 / 2; 1 / 2]). { unfold bin_probs, normalised, l. cbn. rewrite exp_0. repeat f_equal; lra. }
  assert (INR 2 = 2) as E2 by (cbn; lra).
  exists l, (1 / 2). split; [exact Hl|]. split.
  - rewrite Ep. unfold piecewise_density, sumf. cbn [length seq map rsum fold_right nth].
    rewrite (bin_out (edge 0 1 2 0)); [|right; unfold edge; cbn; lra]. rewrite bin_in; [|unfold edge; cbn; lra].
    unfold bin_width. cbn. lra.
  - destruct (cu_log_prob_at 0 1 l ltac:(lra) Hl (tscalar (Fin (1 / 2))) [] (fun _ => 1 / 2)) as (r & Er & Sr & Wr & Hr); [reflexivity|reflexivity| |].
    { intros i Hi. apply inb_nil_inv in Hi. subst i. reflexivity. }
    rewrite Er. f_equal. apply (tensor_ext (Fin 0)); auto; [reflexivity|]. intros i Hi. rewrite Sr in Hi. rewrite (Hr i Hi).
    apply inb_nil_inv in Hi. subst i. cbn [tget]. unfold tget. cbn [tscalar shp dat ravel nth]. f_equal.
    unfold closed_density. fold (bin_probs l). rewrite Ep. unfold sumf, l. cbn [length seq map rsum fold_right nth].
    rewrite !uniform_density_in by (unfold edge; cbn; lra). unfold edge. cbn. field.
Qed.
Print Assumptions C43_edge_density_refuted.
(** The density is non-negative, zero outside [a, b), p_k / C in bin k, and integrates to one. *)
Theorem C43_density : forall a b l, a < b -> legal_logits l ->
  let p := bin_probs l in let K := length l in
  is_pmf p /\ length p = K /\
  (forall x, 0 <= piecewise_density p a b x) /\ integral (piecewise_density p a b) 1 /\
  (forall k x, (k < K)%nat -> edge a b K k <= x < edge a b K (S k) -> piecewise_density p a b x = nth k p 0 / bin_width a b K) /\
  (forall x, x < a \/ b <= x -> piecewise_density p a b x = 0).
Proof.
  intros a b l Hab Hl p K. split; [apply p_pmf; auto|]. split; [apply p_length|]. split; [intros; apply piecewise_nonneg; auto|].
  pose proof (C_pos a b l Hab Hl) as HC. split; [|split].
  - eapply integral_ext; [|apply (piecewise_expectation a b l Hab Hl (fun _ => 1) (fun x => x) 1)].
    + intros x. cbn beta. apply Rmult_1_r.
    + intros x. apply (@is_derive_id R_AbsRing).
    + intros x. apply continuous_const.
    + transitivity (sumf (fun k => nth k (normalised (map weight l)) 0) (seq 0 (length l))); [|symmetry; apply (sum_p l Hl)] || (transitivity (sumf (fun k => nth k (normalised (map weight l)) 0) (seq 0 (length l))); [|apply (sum_p l Hl)]). apply sumf_ext. intros k Hk. rewrite edge_S. field. lra.
  - intros k x Hk Hx. unfold p, bin_probs. rewrite piecewise_bins.
    destruct (bins_choice a b l Hab Hl x (fun k => nth k (normalised (map weight l)) 0 / bin_width a b (length l))) as [(j & Hj & B & E)|[D E]].
    + rewrite E. assert (j = k) as ->; [|reflexivity]. destruct (Nat.lt_total j k) as [L|[L|L]]; [|exact L|].
      * pose proof (edge_mono a b l Hab Hl (S j) k L). unfold K in Hx. lra.
      * pose proof (edge_mono a b l Hab Hl (S k) j L). unfold K in Hx. lra.
    + destruct (D k Hk); unfold K in Hx; lra.
  - intros x Hx. unfold p, bin_probs. rewrite piecewise_bins. apply sumf_zero. intros k Hk. apply in_seq in Hk.
    rewrite bin_out; [ring|]. pose proof (edge_mono a b l Hab Hl 0 k ltac:(lia)) as E0. pose proof (edge_mono a b l Hab Hl (S k) (length l) ltac:(lia)) as E1.
    rewrite edge_K in E1 by auto. unfold edge at 1 in E0. cbn in E0. lra.
Qed.
Print Assumptions C43_density.

(** mean, variance and entropy are those of that density. *)
Lemma cu_component_moments a b l : a < b -> legal_logits l ->
  exists means vars, x_mean (cu_components (mkCU (Fin a) (Fin b) l)) = Ok means /\ x_variance (cu_components (mkCU (Fin a) (Fin b) l)) = Ok vars /\
  component_reals means [] (length l) [] (fun _ k _ => (edge a b (length l) k + edge a b (length l) (S k)) / 2) /\
  component_reals vars [] (length l) [] (fun _ k _ => bin_width a b (length l) ^ 2 / 12).
Proof.
  intros Hab Hl. cbn [x_mean x_variance cu_components]. rewrite lows_eq, highs_eq by auto.
  set (lows := map (edge a b (length l)) (seq 0 (length l))). set (highs := map (fun i => edge a b (length l) (S i)) (seq 0 (length l))).
  assert (SL : shp (tvec (map Fin lows)) = [length l]) by (cbn; unfold lows; rewrite !map_length, seq_length; reflexivity).
  assert (SH : shp (tvec (map Fin highs)) = [length l]) by (cbn; unfold highs; rewrite !map_length, seq_length; reflexivity).
  rewrite !(lift2_top _ (tvec (map Fin lows)) (tvec (map Fin highs)) [length l]) by (rewrite ?SL, ?SH; auto using bshape_refl).
  do 2 eexists. split; [reflexivity|]. split; [reflexivity|].
  assert (XL : forall k, (k < length l)%nat -> xget (tvec (map Fin lows)) [k] = Fin (edge a b (length l) k)).
  { intros k Hk. rewrite xget_self by (rewrite SL; repeat constructor; auto). rewrite tvec_at, nth_fin by (unfold lows; rewrite !map_length, seq_length; auto).
    f_equal. apply (lows_at a b l); auto. }
  assert (XH : forall k, (k < length l)%nat -> xget (tvec (map Fin highs)) [k] = Fin (edge a b (length l) (S k))).
  { intros k Hk. rewrite xget_self by (rewrite SH; repeat constructor; auto). rewrite tvec_at, nth_fin by (unfold highs; rewrite !map_length, seq_length; auto).
    f_equal. apply (highs_at a b l); auto. }
  split; (split; [reflexivity|]); intros bb k e Hb Hk He; apply inb_nil_inv in Hb; apply inb_nil_inv in He; subst bb e; cbn [app];
    rewrite tget_tgen by (repeat constructor; auto); rewrite XL, XH by auto.
  - unfold uniform_mean. cbn [xadd]. rewrite xdiv_fin by lra. reflexivity.
  - unfold uniform_variance, uniform_range, xsquare. cbn [xsub xadd xopp xmul]. rewrite xdiv_fin by lra. f_equal. rewrite edge_S. field.
Qed.
Theorem C43_mean_variance : forall a b l, a < b -> legal_logits l ->
  exists m v rm rv, cu_mean (mkCU (Fin a) (Fin b) l) = Ok rm /\ cu_variance (mkCU (Fin a) (Fin b) l) = Ok rv /\
    rm = tscalar (Fin m) /\ rv = tscalar (Fin v) /\ a <= m <= b /\ 0 <= v /\
    expectation (piecewise_density (bin_probs l) a b) (fun x => x) m /\
    expectation (piecewise_density (bin_probs l) a b) (fun x => (x - m) ^ 2) v.
Proof.
  intros a b l Hab Hl. destruct (cu_component_moments a b l Hab Hl) as (means & vars & EM & EV & CM & CV).
  destruct (cu_mixture_of a b l Hl) as (M & mm & Em & Im).
  destruct (C41_mean _ _ _ _ _ _ _ _ _ M Im EM CM) as (rm & Erm & Srm & Wrm & Vrm).
  destruct (C41_variance _ _ _ _ _ _ _ _ _ _ _ M Im EM CM EV CV) as (rv & Erv & (Srv & Wrv & Vrv) & Pv).
  specialize (Vrm [] [] ltac:(constructor) ltac:(constructor)). specialize (Vrv [] [] ltac:(constructor) ltac:(constructor)).
  specialize (Pv [] [] ltac:(constructor) ltac:(constructor)).
  set (K := length l) in *. set (p := bin_probs l). set (C := bin_width a b K) in *.
  pose proof (C_pos a b l Hab Hl) as HC. fold K C in HC.
  assert (HW : forall (h : nat -> R), sumf (fun k => mixture_weight (m_logits (mkMixing [] (tvec (map rlog (normalised (map weight l)))) (fun (_ : unit) (_ : nat) => Err NotImplementedError))) K [] k * h k) (seq 0 K)
     = sumf (fun k => nth k p 0 * h k) (seq 0 K)).
  { intros h. apply sumf_ext. intros k Hk. apply in_seq in Hk. f_equal. apply (cu_weight l Hl). unfold K in Hk. lia. }
  set (mid k := (edge a b K k + edge a b K (S k)) / 2).
  set (m := sumf (fun k => nth k p 0 * mid k) (seq 0 K)).
  rewrite HW in Vrm. fold m in Vrm. rewrite HW in Vrv, Pv.
  assert (Em' : sumf (fun k => mixture_weight (m_logits (mkMixing [] (tvec (map rlog (normalised (map weight l)))) (fun (_ : unit) (_ : nat) => Err NotImplementedError))) K [] k * mid k) (seq 0 K) = m) by apply HW.
  set (v := sumf (fun k => nth k p 0 * (C ^ 2 / 12 + (mid k - m) ^ 2)) (seq 0 K)).
  assert (Ev : forall X, X = m -> sumf (fun k => nth k p 0 * (C ^ 2 / 12 + (mid k - X) ^ 2)) (seq 0 K) = v) by (intros X ->; reflexivity).
  assert (Vrv' : tget (Fin 0) rv [] = Fin v). { etransitivity; [exact Vrv|]. f_equal. apply Ev, Em'. }
  exists m, v, rm, rv.
  unfold cu_mean, cu_variance. rewrite Em. cbn [rbind]. split; [exact Erm|]. split; [exact Erv|].
  split; [apply (tensor_ext (Fin 0)); [exact Wrm|reflexivity|exact Srm|]; intros i Hi; rewrite Srm in Hi; apply inb_nil_inv in Hi; subst i; exact Vrm|].
  split; [apply (tensor_ext (Fin 0)); [exact Wrv|reflexivity|exact Srv|]; intros i Hi; rewrite Srv in Hi; apply inb_nil_inv in Hi; subst i; exact Vrv'|].
  assert (Pp : forall k, 0 <= nth k p 0).
  { intros k. destruct (nth_in_or_default k p 0) as [H| ->]; [apply (p_pmf l Hl), H|lra]. }
  assert (S1 : sumf (fun k => nth k p 0) (seq 0 K) = 1) by apply (sum_p l Hl).
  split.
  { assert (B : forall k, In k (seq 0 K) -> a <= mid k <= b).
    { intros k Hk. apply in_seq in Hk. pose proof (edge_mono a b l Hab Hl 0 k ltac:(lia)) as E0. pose proof (edge_mono a b l Hab Hl (S k) K ltac:(lia)) as E1.
      pose proof (edge_lt a b l Hab Hl k) as EL. unfold K in E1. rewrite edge_K in E1 by auto. unfold edge at 1 in E0. cbn in E0. unfold mid, K in *. lra. }
    unfold m. split.
    - replace a with (a * sumf (fun k => nth k p 0) (seq 0 K)) by (rewrite S1; ring). rewrite <- sumf_scal. apply sumf_le.
      intros k Hk. specialize (B k Hk). specialize (Pp k). nra.
    - apply (Rle_trans _ (b * sumf (fun k => nth k p 0) (seq 0 K))); [|rewrite S1; lra]. rewrite <- sumf_scal. apply sumf_le.
      intros k Hk. specialize (B k Hk). specialize (Pp k). nra. }
  split.
  { apply sumf_nonneg. intros k _. apply Rmult_le_pos; [apply Pp|]. pose proof (pow2_ge_0 (mid k - m)). pose proof (pow2_ge_0 C). lra. }
  split.
  - apply (piecewise_expectation a b l Hab Hl _ (fun x => x ^ 2 / 2)).
    + intros x. auto_derive; [auto|]. field.
    + intros x. apply continuous_id.
    + unfold m. apply sumf_ext. intros k Hk. change (normalised (map weight l)) with p. fold K C. unfold mid. replace (edge a b K (S k)) with (edge a b K k + C) by (symmetry; apply edge_S). field. lra.
  - apply (piecewise_expectation a b l Hab Hl _ (fun x => (x - m) ^ 3 / 3)).
    + intros x. auto_derive; [auto|]. field.
    + intros x. apply (@ex_derive_continuous R_AbsRing R_NormedModule). auto_derive. auto.
    + unfold v. apply sumf_ext. intros k Hk. change (normalised (map weight l)) with p. fold K C. unfold mid. replace (edge a b K (S k)) with (edge a b K k + C) by (symmetry; apply edge_S). field. lra.
Qed.
Print Assumptions C43_mean_variance.
Theorem C43_entropy : forall a b l, a < b -> legal_logits l ->
  exists h, cu_entropy (mkCU (Fin a) (Fin b) l) = Fin h /\ is_entropy (piecewise_density (bin_probs l) a b) h.
Proof.
  intros a b l Hab Hl. pose proof (C_pos a b l Hab Hl) as HC. pose proof (INR_K l Hl) as HK.
  exists (shannon_entropy (bin_probs l) + ln (bin_width a b (length l))). split.
  - unfold cu_entropy. rewrite (rep_entropy _ _ (cu_represents a b l Hl)). cbn [cu_high cu_low xsub xadd xopp]. unfold num_bins. cbn [cu_logits].
    rewrite xdiv_fin by lra. cbn [xlog]. replace (b + - a) with (b - a) by ring. fold (bin_width a b (length l)). rewrite rlog_pos by exact HC. reflexivity.
  - unfold is_entropy, expectation.
    set (C := bin_width a b (length l)) in *.
    assert (E : shannon_entropy (bin_probs l) + ln C =
      sumf (fun k => (fun y => y * - ln y) (nth k (bin_probs l) 0 / C) * (edge a b (length l) (S k) - edge a b (length l) k)) (seq 0 (length l))).
    { unfold shannon_entropy. assert (E1 : ln C = ln C * sumf (fun k => nth k (bin_probs l) 0) (seq 0 (length l))) by (rewrite (sum_p l Hl : sumf (fun k => nth k (bin_probs l) 0) (seq 0 (length l)) = 1); ring). rewrite E1 at 1.
      rewrite <- sumf_scal. change (rsum (map xlnx (bin_probs l))) with (sumf xlnx (bin_probs l)).
      assert (EL : sumf xlnx (bin_probs l) = sumf (fun k => xlnx (nth k (bin_probs l) 0)) (seq 0 (length l))).
      { rewrite <- (p_length l). fold (bin_probs l). change (sumf xlnx (bin_probs l)) with (rsum (map xlnx (bin_probs l))). rewrite <- (sumf_nth (map xlnx (bin_probs l)) 0), map_length. apply sumf_ext. intros k Hk. apply in_seq in Hk.
        rewrite (nth_indep _ _ (xlnx 0)) by (rewrite map_length; lia). apply (map_nth xlnx). }
      rewrite EL, <- sumf_opp, <- sumf_plus. apply sumf_ext. intros k _. rewrite edge_S. fold C. cbv beta.
      assert (P : 0 <= nth k (bin_probs l) 0). { destruct (nth_in_or_default k (bin_probs l) 0) as [H| ->]; [apply (p_pmf l Hl), H|lra]. }
      unfold xlnx. destruct (Req_EM_T (nth k (bin_probs l) 0) 0) as [-> |Hn]; [unfold Rdiv; ring|]. rewrite ln_quot by lra. field. lra. }
    rewrite E. eapply integral_ext; [|apply (piecewise_integral a b l Hab Hl (fun _ => 1) (fun x => x) (fun y => y * - ln y))].
    + intros x. cbv beta. apply Rmult_1_r.
    + ring.
    + intros x. apply (@is_derive_id R_AbsRing).
    + intros x. apply continuous_const.
Qed.
Print Assumptions C43_entropy.

(** Sampling: when every bin has positive probability, the draw u with cumulative mass in bin k gives a point of
    bin k whose cdf (the integral of the density up to it) is u; the sample is below x exactly when u is at most cdf(x). *)
Theorem C43_sample : forall a b l u, a < b -> legal_logits l -> 0 <= u < 1 ->
  (forall k, (k < length l)%nat -> 0 < nth k (bin_probs l) 0) ->
  exists F : R -> R, (forall x0 x, x0 <= a -> x0 <= x -> is_RInt (piecewise_density (bin_probs l) a b) x0 x (F x)) /\
  exists k y, (k < length l)%nat /\ mass_before (bin_probs l) k <= u < mass_before (bin_probs l) (S k) /\
    cu_sample (mkCU (Fin a) (Fin b) l) (Fin u) = Fin y /\
    edge a b (length l) k <= y < edge a b (length l) (S k) /\ a <= y < b /\ F y = u /\
    forall x, a <= x -> (y <= x <-> u <= F x).
Proof.
  intros a b l u Hab Hl Hu Hp. exists (cuF a b l). split; [intros; apply cuF_integral; auto|].
  destruct (find_bin l Hl u Hu) as (k & Hk & B). pose proof (C_pos a b l Hab Hl) as HC.
  exists k, (edge a b (length l) k + bin_width a b (length l) * ((u - mass_before (bin_probs l) k) / nth k (bin_probs l) 0)).
  split; [exact Hk|]. split; [exact B|]. split; [apply (inverse_in a b l Hl u k Hp Hk B)|].
  fold (bin_probs l) in B. rewrite (mass_before_S l k Hk : mass_before (bin_probs l) (S k) = _) in B. fold (bin_probs l) in B.
  pose proof (Hp k Hk) as Pk. set (t := (u - mass_before (bin_probs l) k) / nth k (bin_probs l) 0) in *.
  assert (Ht : 0 <= t < 1).
  { unfold t. split; [apply Rdiv_nonneg; lra|]. apply (Rmult_lt_reg_r (nth k (bin_probs l) 0)); [exact Pk|].
    unfold Rdiv. rewrite Rmult_assoc, Rinv_l, Rmult_1_r by lra. lra. }
  set (C := bin_width a b (length l)) in *. set (y := edge a b (length l) k + C * t).
  assert (Hy : edge a b (length l) k <= y < edge a b (length l) (S k)).
  { rewrite edge_S. fold C. unfold y. nra. }
  split; [exact Hy|].
  assert (Hy' : a <= y < b).
  { pose proof (edge_mono a b l Hab Hl 0 k ltac:(lia)) as E0. pose proof (edge_mono a b l Hab Hl (S k) (length l) ltac:(lia)) as E1.
    rewrite edge_K in E1 by auto. unfold edge at 1 in E0. cbn in E0. lra. }
  split; [exact Hy'|].
  assert (Fy : cuF a b l y = u).
  { rewrite (cuF_in a b l Hab Hl k y Hk) by lra. fold (bin_probs l). fold C. unfold y, t. field. lra. }
  split; [exact Fy|].
  (* the cdf is non-decreasing, and strictly increasing up to y *)
  assert (Rm : forall v w z1 z2, z1 <= z2 -> ramp v w z1 <= ramp v w z2).
  { intros v w z1 z2 Hz. unfold ramp. apply Rle_max_compat_l. unfold Rmin. destruct (Rle_dec (z1 - v) (w - v)), (Rle_dec (z2 - v) (w - v)); lra. }
  assert (Pn : forall j, 0 <= nth j (bin_probs l) 0 / C).
  { intros j. apply Rdiv_nonneg; [|exact HC]. destruct (nth_in_or_default j (bin_probs l) 0) as [H| ->]; [apply (p_pmf l Hl), H|lra]. }
  assert (Fm : forall z1 z2, z1 <= z2 -> cuF a b l z1 <= cuF a b l z2).
  { intros z1 z2 Hz. unfold cuF. apply sumf_le. intros j _. apply Rmult_le_compat_l; [apply Pn|apply Rm, Hz]. }
  intros x Hx. split; [intros H; rewrite <- Fy; apply Fm, H|].
  intros H. apply Rnot_lt_le. intros Hlt. apply (Rlt_irrefl u). apply Rle_lt_trans with (cuF a b l x); [exact H|]. rewrite <- Fy.
  (* x lies in some bin j *)
  destruct (bins_choice a b l Hab Hl x (fun _ => 0)) as [(j & Hj & Bx & _)|[D _]].
  - assert (j <= k)%nat. { destruct (Nat.le_gt_cases j k); [auto|]. pose proof (edge_mono a b l Hab Hl (S k) j ltac:(lia)). lra. }
    apply Rlt_le_trans with (cuF a b l (Rmin y (edge a b (length l) (S j)))); [|apply Fm, Rmin_l].
    assert (Hm : x < Rmin y (edge a b (length l) (S j))) by (apply Rmin_glb_lt; lra).
    rewrite (cuF_in a b l Hab Hl j x Hj) by lra. rewrite (cuF_in a b l Hab Hl j _ Hj) by (split; [lra|apply Rmin_r]).
    apply Rplus_lt_compat_l. apply Rmult_lt_compat_l; [apply Hp; exact Hj|]. fold C. unfold Rdiv. apply Rmult_lt_compat_r; [apply Rinv_0_lt_compat; exact HC|lra].
  - exfalso. assert (Dn : forall n, (n <= length l)%nat -> x < edge a b (length l) n -> False).
    { induction n as [|n IH]; intros Hn Hxn; [unfold edge in Hxn; cbn in Hxn; lra|]. destruct (D n ltac:(lia)); [apply IH; [lia|auto]|lra]. }
    apply (Dn (length l)); [lia|]. rewrite edge_K by auto. lra.
Qed.
Print Assumptions C43_sample.
(** A bin of probability zero: its slope is C / 0 = inf and its contribution inf * 0 = NaN, so every sample is NaN. *)
Theorem C43_zero_probability_bin_refuted : exists l, legal_logits l /\ bin_probs l = [1; 0] /\
  forall u, 0 <= u < 1 -> cu_sample (mkCU (Fin 0) (Fin 1) l) (Fin u) = NaN.
Proof.
  exists [Fin 0; NInf]. assert (Hl : legal_logits [Fin 0; NInf]).
  { split; [|exists 0; left; reflexivity]. intros a [<-|[<-|[]]]; [right; exists 0; reflexivity|left; reflexivity]. }
  assert (Ep : bin_probs [Fin 0; NInf] = [1; 0]). { unfold bin_probs, normalised. cbn. rewrite exp_0. repeat f_equal; field. }
  split; [exact Hl|]. split; [exact Ep|]. intros u Hu. unfold cu_sample, cu_inverse_cdf. cbn [cu_logits].
  rewrite (quantile_limits _ Hl), (limits_eq 0 1 _ Hl). rewrite !xdiff_seq, removelast_seq, map_map, !map2_seq. fold (bin_probs [Fin 0; NInf]). rewrite Ep.
  cbn [length seq map mass_before firstn rsum fold_right cu_low]. unfold mass_before. cbn [firstn rsum fold_right].
  cbn [xsub xadd xopp]. replace (1 + (0 + 0) + - (1 + 0)) with 0 by ring. unfold relu. rewrite !xmax_fin, !xmin_fin.
  rewrite (xdiv_fin _ (1 + 0 + - 0)) by lra.
  assert (E : xdiv (Fin (edge 0 1 2 2 + - edge 0 1 2 1)) (Fin 0) = PInf).
  { unfold xdiv. destruct (Req_EM_T 0 0); [|lra]. unfold inf_times. destruct Rlt_dec; [reflexivity|]. exfalso. apply n. unfold edge. cbn. lra. }
  rewrite E. rewrite (Rmin_left 0) by (apply Rmax_r). cbn [xmul xsum fold_right xadd]. unfold inf_times.
  destruct (Rlt_dec 0 0); [lra|]. cbn. reflexivity.
Qed.
Print Assumptions C43_zero_probability_bin_refuted.
Example C43_nonvacuous : legal_logits [Fin 0; Fin (ln 3)] /\ (0 < 1) /\ bin_probs [Fin 0; Fin (ln 3)] = [1 / 4; 3 / 4] /\
  (forall k, (1 <= k <= 2)%nat -> 1 / 3 <> edge 0 1 2 k) /\
  (forall k, (k < 2)%nat -> 0 < nth k (bin_probs [Fin 0; Fin (ln 3)]) 0).
Proof.
  assert (E : bin_probs [Fin 0; Fin (ln 3)] = [1 / 4; 3 / 4]).
  { unfold bin_probs, normalised. cbn. rewrite exp_0, exp_ln by lra. repeat f_equal; lra. }
  split; [|split; [lra|split; [exact E|split]]].
  - split; [|exists 0; left; reflexivity]. intros a [<-|[<-|[]]]; right; eexists; reflexivity.
  - intros k Hk. destruct k as [|[|[|k]]]; try lia; unfold edge; cbn; lra.
  - intros k Hk. rewrite E. destruct k as [|[|k]]; cbn; try lra; lia.
Qed.
