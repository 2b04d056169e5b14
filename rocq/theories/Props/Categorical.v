(** C34-C37, C39: Categorical and OneHotCategorical. *)
From Coq Require Import Reals List Bool ZArith Lia Lra.
From Verif Require Import Base.Result Base.XR Base.Sums Model.MathUtils Model.ScalarDist Model.Categorical Model.Distribution
  Spec.Categorical Proofs.MathUtils Proofs.Categorical.
Import ListNotations.
Local Open Scope R_scope.

(** ** C34 *)
(** The constructor accepts exactly one parameter and an integer or floating dtype. *)
Theorem C34_constructor logits probs dt :
  (exists d, cat_init logits probs dt = Ok d) <->
  ((logits = None <-> probs <> None) /\ (dt = DInt \/ dt = DFloat)).
Proof.
  split.
  - intros [d H]. destruct logits, probs, dt; cbn in H; try discriminate; repeat split; intros; auto; congruence.
  - intros [[H1 H2] Hd]. destruct logits as [l|], probs as [p|]; [exfalso; assert (Some l = None) by (apply H2; discriminate); discriminate| | |exfalso; apply H1; auto];
      destruct Hd as [-> | ->]; cbn; eauto.
Qed.
(** probs is the normalised vector of weights: non-negative, summing to one; logits is its logarithm. *)
Theorem C34_probs logits probs dt w d : parametrises logits probs w -> cat_init logits probs dt = Ok d ->
  cat_probs d = map Fin (normalised w) /\ cat_logits d = map rlog (normalised w) /\
  is_pmf (normalised w) /\ num_categories d = length w.
Proof.
  intros Hw Hd. pose proof (init_represents _ _ _ _ _ Hw Hd) as R.
  repeat split; [apply rep_probs|apply rep_logits|apply R|apply R|]; auto.
  rewrite (rep_num _ _ R). apply map_length.
Qed.
(** prob(k) is the k-th probability (0 outside 0..K-1) and log_prob(k) its logarithm (-inf for probability 0). *)
Theorem C34_log_prob logits probs dt w d k : parametrises logits probs w -> cat_init logits probs dt = Ok d ->
  cat_prob d (Fin (IZR k)) = Fin (pmf_at (normalised w) k) /\
  cat_log_prob d (Fin (IZR k)) = rlog (pmf_at (normalised w) k).
Proof.
  intros Hw Hd. pose proof (init_represents _ _ _ _ _ Hw Hd) as R.
  split; [apply rep_prob|apply rep_log_prob]; auto.
Qed.
(** Adding a constant to the logits, or scaling the probs, gives the very same distribution. *)
Lemma legal_shift l c : legal_logits l -> legal_logits (map (fun a => xadd a (Fin c)) l).
Proof.
  intros [H [x Hx]]. split.
  - intros a Ha. apply in_map_iff in Ha as [b [<- Hb]]. destruct (H b Hb) as [-> |[y ->]]; cbn; eauto.
  - exists (x + c). apply in_map_iff. exists (Fin x). auto.
Qed.
Theorem C34_shift_invariant l c dt : legal_logits l ->
  cat_init (Some (map (fun a => xadd a (Fin c)) l)) None dt = cat_init (Some l) None dt.
Proof.
  intros H. assert (E : normalize_logits (map (fun a => xadd a (Fin c)) l) = normalize_logits l).
  { unfold normalize_logits. rewrite !log_softmax_legal by auto using legal_shift.
    pose proof (legal_total l H) as HW. set (W := rsum (map weight l)) in *.
    assert (Ew : rsum (map weight (map (fun a => xadd a (Fin c)) l)) = W * exp c).
    { rewrite map_map. unfold W. rewrite (map_ext_in _ (fun a => weight a * exp c)).
      - apply (sumf_scal_r (exp c) weight l).
      - intros a Ha. destruct (proj1 H a Ha) as [-> |[x ->]]; cbn; [ring|apply exp_plus]. }
    rewrite Ew, map_map. apply map_ext_in. intros a Ha. f_equal.
    pose proof (exp_pos c).
    destruct (proj1 H a Ha) as [-> |[x ->]]; cbn; [unfold Rdiv; ring|rewrite exp_plus; field; lra]. }
  destruct dt; cbn; rewrite ?E; reflexivity.
Qed.
Theorem C34_scale_invariant w c dt : legal_probs w -> 0 < c ->
  cat_init None (Some (map Fin (map (Rmult c) w))) dt = cat_init None (Some (map Fin w)) dt.
Proof.
  intros [Hw Hs] Hc. assert (Es : rsum (map (Rmult c) w) = c * rsum w).
  { rewrite (rsum_sumf w). apply (sumf_scal c (fun x => x) w). }
  assert (E : normalize_probs (map Fin (map (Rmult c) w)) = normalize_probs (map Fin w)).
  { rewrite !normalize_probs_fin; auto; [|rewrite Es; apply Rmult_lt_0_compat; auto].
    unfold normalised. rewrite Es, !map_map. apply map_ext. intros a. f_equal. field. lra. }
  destruct dt; cbn; rewrite ?E; reflexivity.
Qed.
(** A sample is a category of positive probability: the one maximising noise + log-probability. *)
Theorem C34_sample logits probs dt w d g : parametrises logits probs w -> cat_init logits probs dt = Ok d ->
  length g = length w ->
  exists k, cat_sample (map Fin g) d = Fin (INR k) /\ (k < length w)%nat /\ 0 < nth k (normalised w) 0 /\
    forall j, (j < length w)%nat -> 0 < nth j (normalised w) 0 ->
      nth j g 0 + ln (nth j (normalised w) 0) <= nth k g 0 + ln (nth k (normalised w) 0).
Proof.
  intros Hw Hd Hg. pose proof (init_represents _ _ _ _ _ Hw Hd) as R.
  assert (HL : length (normalised w) = length w) by apply map_length.
  destruct (rep_draw d (normalised w) R g) as [k [H1 [H2 [H3 H4]]]]; [congruence|].
  exists k. unfold cat_sample. rewrite (rep_valid _ _ R), H1. rewrite HL in *. auto.
Qed.
(** The mode is a category of maximal probability. *)
Theorem C34_mode logits probs dt w d : parametrises logits probs w -> cat_init logits probs dt = Ok d ->
  exists k, cat_mode d = Fin (INR k) /\ (k < length w)%nat /\
    forall j, (j < length w)%nat -> nth j (normalised w) 0 <= nth k (normalised w) 0.
Proof.
  intros Hw Hd. pose proof (init_represents _ _ _ _ _ Hw Hd) as R.
  assert (HL : length (normalised w) = length w) by apply map_length.
  destruct (rep_mode d (normalised w) R) as [k H]. exists k. rewrite HL in H. auto.
Qed.
(** non-vacuity: an impossible category among logits, and unnormalised probs *)
Example C34_nonvacuous_logits : parametrises (Some [Fin 0; NInf; Fin 1]) None [exp 0; 0; exp 1].
Proof.
  left. exists [Fin 0; NInf; Fin 1]. repeat split; auto; [|exists 0; simpl; auto].
  intros a [<-|[<-|[<-|[]]]]; eauto.
Qed.
Example C34_nonvacuous_probs : parametrises None (Some (map Fin [1; 0; 3])) [1; 0; 3].
Proof. right. repeat split; auto; [intros x [<-|[<-|[<-|[]]]]; lra|unfold rsum; simpl; lra]. Qed.
Example C34_nonvacuous_value : forall d, cat_init None (Some (map Fin [1; 0; 3])) DInt = Ok d ->
  cat_prob d (Fin (IZR 2)) = Fin (3 / 4) /\ cat_log_prob d (Fin (IZR 1)) = NInf /\ cat_log_prob d (Fin (IZR 7)) = NInf.
Proof.
  intros d Hd.
  destruct (C34_log_prob _ _ _ _ _ 2 C34_nonvacuous_probs Hd) as [E _].
  destruct (C34_log_prob _ _ _ _ _ 1 C34_nonvacuous_probs Hd) as [_ E1].
  destruct (C34_log_prob _ _ _ _ _ 7 C34_nonvacuous_probs Hd) as [_ E7].
  rewrite E, E1, E7. unfold pmf_at, normalised, rsum; cbn.
  change (Pos.to_nat 2) with 2%nat. change (Pos.to_nat 1) with 1%nat. cbn. repeat split.
  - f_equal. field.
  - replace (0 / (1 + (0 + (3 + 0)))) with 0 by field. apply rlog_0.
  - apply rlog_0.
Qed.

(** ** C35 *)
Theorem C35_cdf logits probs dt w d k : parametrises logits probs w -> cat_init logits probs dt = Ok d ->
  cat_cdf d (Fin (IZR k)) = Fin (cumulative (normalised w) k) /\
  cat_log_cdf d (Fin (IZR k)) = rlog (cumulative (normalised w) k) /\
  ((k < 0)%Z -> cat_cdf d (Fin (IZR k)) = Fin 0) /\
  ((Z.of_nat (length w) - 1 <= k)%Z -> cat_cdf d (Fin (IZR k)) = Fin 1).
Proof.
  intros Hw Hd. pose proof (init_represents _ _ _ _ _ Hw Hd) as R.
  pose proof (rep_cdf d _ R k) as E. unfold cat_log_cdf. rewrite E. repeat split; auto.
  - intros H. rewrite cumulative_neg; auto.
  - intros H. rewrite (cumulative_end d _ R); auto. unfold normalised; rewrite map_length; auto.
Qed.
Theorem C35_cdf_monotone logits probs dt w d k k' a b : parametrises logits probs w -> cat_init logits probs dt = Ok d ->
  (k <= k')%Z -> cat_cdf d (Fin (IZR k)) = Fin a -> cat_cdf d (Fin (IZR k')) = Fin b -> 0 <= a <= b /\ b <= 1.
Proof.
  intros Hw Hd Hk Ha Hb. pose proof (init_represents _ _ _ _ _ Hw Hd) as R.
  rewrite (rep_cdf d _ R) in Ha, Hb. injection Ha as <-. injection Hb as <-.
  set (p := normalised w) in *.
  assert (Hnn : forall z, 0 <= pmf_at p z).
  { intros z. unfold pmf_at. destruct (_ && _)%bool eqn:E; [|lra]. apply R, nth_In. apply (in_range p z E). }
  assert (M : forall x y, (x <= y)%Z -> cumulative p x <= cumulative p y).
  { intros x y H. unfold cumulative.
    replace (Z.to_nat (y + 1)) with (Z.to_nat (x + 1) + (Z.to_nat (y + 1) - Z.to_nat (x + 1)))%nat by lia.
    rewrite seq_app, map_app, rsum_app.
    assert (0 <= sumf (fun j => pmf_at p (Z.of_nat j)) (seq (0 + Z.to_nat (x + 1)) (Z.to_nat (y + 1) - Z.to_nat (x + 1))))
      by (apply sumf_nonneg; auto).
    unfold sumf in H0. lra. }
  pose proof (M k k' Hk). pose proof (M (Z.min k (-1)) k (Z.le_min_l _ _)).
  pose proof (M k' (Z.max k' (Z.of_nat (length p) - 1)) (Z.le_max_l _ _)).
  rewrite (cumulative_neg p (Z.min k (-1))) in H0 by lia.
  rewrite (cumulative_end d p R (Z.max k' _)) in H1 by lia. lra.
Qed.
Example C35_nonvacuous : forall d, cat_init None (Some (map Fin [1; 0; 3])) DInt = Ok d ->
  cat_cdf d (Fin (IZR 1)) = Fin (1 / 4).
Proof.
  intros d Hd. destruct (C35_cdf _ _ _ _ _ 1 C34_nonvacuous_probs Hd) as [E _]. rewrite E.
  unfold cumulative, normalised, rsum, pmf_at; cbn. change (Pos.to_nat 2) with 2%nat. change (Pos.to_nat 1) with 1%nat.
  cbn. change (Pos.to_nat 1) with 1%nat. cbn. f_equal. field.
Qed.

(** ** C36 *)
Theorem C36_entropy logits probs dt w d : parametrises logits probs w -> cat_init logits probs dt = Ok d ->
  cat_entropy d = Fin (shannon_entropy (normalised w)) /\
  0 <= shannon_entropy (normalised w) <= ln (INR (length w)).
Proof.
  intros Hw Hd. pose proof (init_represents _ _ _ _ _ Hw Hd) as R.
  repeat split; [apply rep_entropy; auto|apply entropy_nonneg, R|].
  replace (length w) with (length (normalised w)) by apply map_length. apply entropy_le_log, R.
Qed.
Theorem C36_kl l1 p1 dt1 w1 d1 l2 p2 dt2 w2 d2 :
  parametrises l1 p1 w1 -> cat_init l1 p1 dt1 = Ok d1 -> parametrises l2 p2 w2 -> cat_init l2 p2 dt2 = Ok d2 ->
  let p := normalised w1 in let q := normalised w2 in
  (length w1 <> length w2 -> cat_kl d1 d2 = Err ValueError) /\
  (length w1 = length w2 -> ~ absolutely_continuous p q -> cat_kl d1 d2 = Ok PInf) /\
  (length w1 = length w2 -> absolutely_continuous p q ->
     cat_kl d1 d2 = Ok (Fin (kullback_leibler p q)) /\ 0 <= kullback_leibler p q /\
     (kullback_leibler p q = 0 <-> p = q) /\
     default_cross_entropy (Fin (kullback_leibler p q)) (cat_entropy d1) = Fin (cross_entropy_of p q)).
Proof.
  intros Hw1 Hd1 Hw2 Hd2 p q.
  pose proof (init_represents _ _ _ _ _ Hw1 Hd1) as R1. pose proof (init_represents _ _ _ _ _ Hw2 Hd2) as R2.
  assert (L1 : length p = length w1) by apply map_length. assert (L2 : length q = length w2) by apply map_length.
  split; [|split].
  - intros H. apply (rep_kl_mismatch d1 d2 p q); auto. congruence.
  - intros H Hn. apply (rep_kl d1 d2 p q); auto. congruence.
  - intros H Hac. assert (HL : length p = length q) by congruence.
    split; [apply (rep_kl d1 d2 p q); auto|]. split; [apply gibbs; auto; [apply R1|apply R2]|].
    split; [apply gibbs_eq; auto; [apply R1|apply R2]|].
    rewrite (rep_entropy d1 p R1). unfold default_cross_entropy. cbn [xadd]. f_equal.
    rewrite (ce_decomposition p q); auto; [|apply R1]. ring.
Qed.
(** KL is infinite only when some possible category of the first is impossible under the second *)
Theorem C36_kl_infinite_iff l1 p1 dt1 w1 d1 l2 p2 dt2 w2 d2 :
  parametrises l1 p1 w1 -> cat_init l1 p1 dt1 = Ok d1 -> parametrises l2 p2 w2 -> cat_init l2 p2 dt2 = Ok d2 ->
  length w1 = length w2 ->
  (cat_kl d1 d2 = Ok PInf <->
   exists k, (k < length w1)%nat /\ 0 < nth k (normalised w1) 0 /\ nth k (normalised w2) 0 = 0).
Proof.
  intros Hw1 Hd1 Hw2 Hd2 HL. set (p := normalised w1). set (q := normalised w2).
  destruct (C36_kl _ _ _ _ _ _ _ _ _ _ Hw1 Hd1 Hw2 Hd2) as [_ [Hinf Hfin]]. fold p q in Hinf, Hfin.
  pose proof (init_represents _ _ _ _ _ Hw2 Hd2) as R2. fold q in R2.
  assert (L1 : length p = length w1) by apply map_length. assert (L2 : length q = length w2) by apply map_length.
  split.
  - intros H. destruct (existsb (fun k => if Rlt_dec 0 (nth k p 0) then if Req_EM_T (nth k q 0) 0 then true else false else false)
                    (seq 0 (length w1))) eqn:E.
    + apply existsb_exists in E as [k [Hk E]]. apply in_seq in Hk. exists k.
      destruct (Rlt_dec 0 (nth k p 0)); [|discriminate]. destruct (Req_EM_T (nth k q 0) 0); [|discriminate].
      repeat split; auto; lia.
    + exfalso. assert (Hac : absolutely_continuous p q).
      { intros k Hk. destruct (lt_dec k (length w1)) as [Hlt|Hge]; [|rewrite nth_overflow in Hk by lia; lra].
        assert (Hq : 0 <= nth k q 0) by (apply R2, nth_In; lia). destruct (Req_EM_T (nth k q 0) 0) as [Z|]; [|lra].
        exfalso. apply not_true_iff_false in E. apply E. apply existsb_exists. exists k. split; [apply in_seq; lia|].
        destruct (Rlt_dec 0 (nth k p 0)); [|lra]. destruct (Req_EM_T (nth k q 0) 0); [auto|lra]. }
      destruct (Hfin HL Hac) as [F _]. congruence.
  - intros [k [Hk [Hp Hq]]]. apply Hinf; auto. intros Hac. specialize (Hac k Hp). lra.
Qed.
Example C36_nonvacuous : absolutely_continuous (normalised [1; 0; 3]) (normalised [2; 1; 1]) /\
  ~ absolutely_continuous (normalised [2; 1; 1]) (normalised [1; 0; 3]).
Proof.
  unfold absolutely_continuous, normalised, rsum; cbn. split.
  - intros [|[|[|[|k]]]] H; cbn in *; lra.
  - intros H. specialize (H 1%nat). cbn in H. lra.
Qed.

(** ** C37: on integer-valued inputs log_prob = log prob and cdf sums prob; on other floats inside the
    accepted interval the three methods contradict each other. *)
Theorem C37_integers_agree_partial logits probs dt w d k : parametrises logits probs w -> cat_init logits probs dt = Ok d ->
  cat_log_prob d (Fin (IZR k)) = xlog (cat_prob d (Fin (IZR k))) /\
  cat_cdf d (Fin (IZR k)) = xsum (map (fun j => cat_prob d (Fin (IZR (Z.of_nat j)))) (seq 0 (Z.to_nat (k + 1)))).
Proof.
  intros Hw Hd. pose proof (init_represents _ _ _ _ _ Hw Hd) as R.
  rewrite (rep_log_prob d _ R), (rep_prob d _ R), (rep_cdf d _ R). split; [reflexivity|].
  rewrite (map_ext _ (fun j => Fin (pmf_at (normalised w) (Z.of_nat j)))) by (intros; apply rep_prob; auto).
  rewrite xsum_map_fin. reflexivity.
Qed.
(** log_prob(v) = 0 (certainty), prob(v) = 0 and cdf(v) = 0 for every non-integer v strictly between 0 and K-1,
    whatever the parameters: log_prob is not the log of prob, and cdf misses the mass of category 0. *)
Theorem C37_floats_disagree_refuted logits probs dt w d v : parametrises logits probs w -> cat_init logits probs dt = Ok d ->
  0 < v < INR (length w) - 1 -> (forall k : nat, v <> INR k) ->
  cat_log_prob d (Fin v) = Fin 0 /\ cat_prob d (Fin v) = Fin 0 /\ cat_cdf d (Fin v) = Fin 0.
Proof.
  intros Hw Hd Hv Hk. pose proof (init_represents _ _ _ _ _ Hw Hd) as R. set (p := normalised w) in *.
  assert (HL : length p = length w) by apply map_length.
  assert (Hk' : forall k n, (k < n)%nat -> Fin v <> Fin (INR k)) by (intros k n _ E; injection E; apply Hk).
  unfold cat_log_prob, cat_prob, cat_cdf, last_cat. rewrite (rep_logits d p R), (rep_num d p R), (rep_probs d p R), HL.
  replace (xltb (Fin v) (Fin 0)) with false by (symmetry; apply xltb_fin_f; lra).
  replace (xltb (Fin (INR (length w) - 1)) (Fin v)) with false by (symmetry; apply xltb_fin_f; lra).
  replace (xleb (Fin (INR (length w) - 1)) (Fin v)) with false by (symmetry; apply xleb_fin_f; lra).
  assert (Ec : xclip (Fin v) (Fin 0) (Fin (INR (length w) - 1)) = Fin v).
  { unfold xclip, xmax; cbn [xis_nan orb].
    replace (xltb (Fin v) (Fin 0)) with false by (symmetry; apply xltb_fin_f; lra).
    unfold xmin; cbn [xis_nan orb].
    replace (xltb (Fin (INR (length w) - 1)) (Fin v)) with false by (symmetry; apply xltb_fin_f; lra). reflexivity. }
  rewrite Ec. cbn [orb]. repeat split.
  - replace (length w) with (length (map rlog p)) by (rewrite map_length; auto). apply one_hot_select_none; eauto.
  - replace (length w) with (length (map Fin p)) by (rewrite map_length; auto). apply one_hot_select_none; eauto.
  - replace (length w) with (length (cumsum (map Fin p))) by (unfold cumsum; rewrite cumsum_from_length, map_length; auto).
    apply one_hot_select_none; eauto.
Qed.
Example C37_refuted_instance : forall d, cat_init None (Some (map Fin [1; 0; 3])) DFloat = Ok d ->
  cat_log_prob d (Fin (1 / 2)) = Fin 0 /\ cat_prob d (Fin (1 / 2)) = Fin 0 /\ cat_cdf d (Fin (1 / 2)) = Fin 0.
Proof.
  intros d Hd. apply (C37_floats_disagree_refuted _ _ _ _ _ _ C34_nonvacuous_probs Hd); [cbn; lra|].
  intros k E. destruct k as [|k]; [cbn in E; lra|]. rewrite S_INR in E. pose proof (pos_INR k). lra.
Qed.

(** ** C39: OneHotCategorical *)
Theorem C39_agrees logits probs dt w d k : parametrises logits probs w -> cat_init logits probs dt = Ok d ->
  (k < length w)%nat ->
  let e := indicator k (length w) in
  ohc_log_prob d e = cat_log_prob d (Fin (INR k)) /\ ohc_prob d e = cat_prob d (Fin (INR k)) /\
  ohc_cdf d e = cat_cdf d (Fin (INR k)).
Proof.
  intros Hw Hd Hk e. pose proof (init_represents _ _ _ _ _ Hw Hd) as R. set (p := normalised w) in *.
  assert (HL : length p = length w) by apply map_length.
  rewrite INR_IZR_INZ, (rep_log_prob d p R), (rep_prob d p R), (rep_cdf d p R).
  unfold ohc_log_prob, ohc_prob, ohc_cdf, e. rewrite (rep_logits d p R), (rep_probs d p R), <- one_hot_indicator.
  rewrite (pmf_at_nat p k) by lia. rewrite (cumulative_in p k) by lia. repeat split.
  - replace (length w) with (length (map rlog p)) by (rewrite map_length; auto).
    rewrite one_hot_select_nat by (rewrite map_length; lia). apply nth_map_rlog; lia.
  - replace (length w) with (length (map Fin p)) by (rewrite map_length; auto).
    rewrite one_hot_select_nat by (rewrite map_length; lia). apply nth_map_fin.
  - unfold cumsum. replace (length w) with (length (cumsum_from (Fin 0) (map Fin p))) by (rewrite cumsum_from_length, map_length; auto).
    rewrite one_hot_select_nat by (rewrite cumsum_from_length, map_length; lia).
    rewrite cumsum_from_nth by lia. f_equal; ring.
Qed.
(** Samples are the one-hot vectors of Categorical's samples (same noise), the mode that of Categorical's mode. *)
Theorem C39_sample_mode logits probs dt w d g : parametrises logits probs w -> cat_init logits probs dt = Ok d ->
  length g = length w ->
  (exists k, ohc_sample (map Fin g) d = indicator k (length w) /\ cat_sample (map Fin g) d = Fin (INR k) /\
             (k < length w)%nat /\ 0 < nth k (normalised w) 0) /\
  (exists m, ohc_mode d = indicator m (length w) /\ cat_mode d = Fin (INR m) /\ (m < length w)%nat /\
             forall j, (j < length w)%nat -> nth j (normalised w) 0 <= nth m (normalised w) 0).
Proof.
  intros Hw Hd Hg. pose proof (init_represents _ _ _ _ _ Hw Hd) as R.
  destruct (C34_probs _ _ _ _ _ Hw Hd) as [_ [_ [_ Hn]]].
  split.
  - destruct (C34_sample _ _ _ _ _ _ Hw Hd Hg) as [k [E [Hk [Hp _]]]]. exists k. split; [|auto].
    unfold cat_sample in E. unfold ohc_sample. rewrite (rep_valid _ _ R) in E |- *. rewrite E, Hn. apply one_hot_indicator.
  - destruct (C34_mode _ _ _ _ _ Hw Hd) as [m [E Hm]]. exists m. split; [|auto].
    unfold cat_mode in E. unfold ohc_mode. rewrite E, Hn. apply one_hot_indicator.
Qed.
Example C39_nonvacuous : indicator 1 3 = [Fin 0; Fin 1; Fin 0]. Proof. reflexivity. Qed.

Print Assumptions C34_constructor. Print Assumptions C34_probs. Print Assumptions C34_log_prob.
Print Assumptions C34_shift_invariant. Print Assumptions C34_scale_invariant. Print Assumptions C34_sample.
Print Assumptions C34_mode. Print Assumptions C35_cdf. Print Assumptions C35_cdf_monotone.
Print Assumptions C36_entropy. Print Assumptions C36_kl. Print Assumptions C36_kl_infinite_iff.
Print Assumptions C37_integers_agree_partial. Print Assumptions C37_floats_disagree_refuted.
Print Assumptions C39_agrees. Print Assumptions C39_sample_mode.
