(** Lemmas behind Props/Categorical.v *)
From Coq Require Import Reals List Bool ZArith Lia Lra.
From Verif Require Import Base.Result Base.XR Base.Sums Model.MathUtils Model.ScalarDist Model.Categorical
  Spec.Categorical Proofs.MathUtils.
Import ListNotations.
Local Open Scope R_scope.

Definition represents (d : categorical) (p : list R) : Prop :=
  (d = CProbs (map Fin p) \/ d = CLogits (map rlog p)) /\ is_pmf p.

Lemma init_represents logits probs dt d w : parametrises logits probs w -> cat_init logits probs dt = Ok d ->
  represents d (normalised w).
Proof.
  intros [[l [-> [-> [Hl ->]]]]|[-> [-> Hw]]] H.
  - assert (E : d = CLogits (normalize_logits l)) by (destruct dt; cbn in H; congruence).
    assert (Hw : legal_probs (map weight l)).
    { split; [|apply legal_total; auto]. intros x Hx. apply in_map_iff in Hx as [a [<- _]]. apply weight_nonneg. }
    split; [right|apply normalised_pmf; auto]. rewrite E. unfold normalize_logits.
    rewrite log_softmax_legal by auto. unfold normalised. rewrite !map_map. reflexivity.
  - assert (E : d = CProbs (normalize_probs (map Fin w))) by (destruct dt; cbn in H; congruence).
    split; [left|apply normalised_pmf; auto]. rewrite E, normalize_probs_fin by apply Hw. reflexivity.
Qed.
Lemma xlog_map_fin p : map xlog (map Fin p) = map rlog p.
Proof. rewrite map_map. reflexivity. Qed.
Section Rep.
  Variables (d : categorical) (p : list R).
  Hypothesis HR : represents d p.
  Let Hp : is_pmf p := proj2 HR.

  Lemma rep_probs : cat_probs d = map Fin p.
  Proof. destruct (proj1 HR) as [-> | ->]; cbn; [auto|apply softmax_rlog; auto]. Qed.
  Lemma rep_logits : cat_logits d = map rlog p.
  Proof. destruct (proj1 HR) as [-> | ->]; cbn; [apply xlog_map_fin|auto]. Qed.
  Lemma rep_num : num_categories d = length p.
  Proof. destruct (proj1 HR) as [-> | ->]; cbn; apply map_length. Qed.
  Lemma rep_last : last_cat d = Fin (IZR (Z.of_nat (length p) - 1)).
  Proof. unfold last_cat. rewrite rep_num, minus_IZR, <- INR_IZR_INZ. reflexivity. Qed.

  Lemma nth_map_fin k : nth k (map Fin p) (Fin 0) = Fin (nth k p 0).
  Proof. apply (map_nth Fin). Qed.
  Lemma nth_map_rlog k : (k < length p)%nat -> nth k (map rlog p) (Fin 0) = rlog (nth k p 0).
  Proof. intros H. rewrite (nth_indep _ (Fin 0) (rlog 0)) by (rewrite map_length; auto). apply (map_nth rlog). Qed.
  Lemma in_range k : ((0 <=? k)%Z && (k <? Z.of_nat (length p))%Z)%bool = true ->
    (Z.to_nat k < length p)%nat /\ IZR k = INR (Z.to_nat k).
  Proof.
    intros H. apply andb_true_iff in H as [H1 H2]. apply Z.leb_le in H1. apply Z.ltb_lt in H2. split; [lia|].
    rewrite INR_IZR_INZ, Z2Nat.id by auto. reflexivity.
  Qed.
  Lemma out_of_range k : ((0 <=? k)%Z && (k <? Z.of_nat (length p))%Z)%bool = false ->
    forall n, (n < length p)%nat -> Fin (IZR k) <> Fin (INR n).
  Proof.
    intros H n Hn E. injection E as E. rewrite INR_IZR_INZ in E. apply eq_IZR in E. subst k.
    apply andb_false_iff in H as [H|H]; [apply Z.leb_gt in H|apply Z.ltb_ge in H]; lia.
  Qed.
  Lemma rep_prob k : cat_prob d (Fin (IZR k)) = Fin (pmf_at p k).
  Proof.
    unfold cat_prob, pmf_at. rewrite rep_probs, rep_num.
    replace (length p) with (length (map Fin p)) at 1 by apply map_length.
    destruct ((0 <=? k)%Z && (k <? Z.of_nat (length p))%Z)%bool eqn:E.
    - apply in_range in E as [E1 E2]. rewrite E2, one_hot_select_nat by (rewrite map_length; auto). apply nth_map_fin.
    - rewrite one_hot_select_none; auto. rewrite map_length. apply out_of_range; auto.
  Qed.
  Lemma rep_log_prob k : cat_log_prob d (Fin (IZR k)) = rlog (pmf_at p k).
  Proof.
    unfold cat_log_prob, pmf_at. rewrite rep_logits, rep_num, rep_last.
    destruct ((0 <=? k)%Z && (k <? Z.of_nat (length p))%Z)%bool eqn:E.
    - destruct (in_range k E) as [E1 E2].
      replace (xltb (Fin (IZR k)) (Fin 0)) with false; [|symmetry; apply xltb_fin_f; apply IZR_le; apply andb_true_iff in E as [E _]; lia].
      replace (xltb _ (Fin (IZR k))) with false;
        [|symmetry; apply xltb_fin_f; apply IZR_le; apply andb_true_iff in E as [_ E]; apply Z.ltb_lt in E; lia].
      cbn [orb]. rewrite E2. replace (length p) with (length (map rlog p)) at 1 by apply map_length.
      rewrite one_hot_select_nat by (rewrite map_length; auto). apply nth_map_rlog; auto.
    - replace (xltb (Fin (IZR k)) (Fin 0) || xltb (Fin (IZR (Z.of_nat (length p) - 1))) (Fin (IZR k)))%bool with true;
        [symmetry; apply rlog_0|].
      symmetry. apply orb_true_iff. rewrite !xltb_fin.
      apply andb_false_iff in E as [E|E]; [left|right]; apply IZR_lt; [apply Z.leb_gt in E|apply Z.ltb_ge in E]; lia.
  Qed.

  (** cdf *)
  Lemma pmf_at_nat j : (j < length p)%nat -> pmf_at p (Z.of_nat j) = nth j p 0.
  Proof.
    intros H. unfold pmf_at. replace ((0 <=? Z.of_nat j)%Z && (Z.of_nat j <? Z.of_nat (length p))%Z)%bool with true.
    - rewrite Nat2Z.id; auto.
    - symmetry; apply andb_true_iff; split; [apply Z.leb_le|apply Z.ltb_lt]; lia.
  Qed.
  Lemma pmf_at_beyond j : (length p <= j)%nat -> pmf_at p (Z.of_nat j) = 0.
  Proof.
    intros H. unfold pmf_at. replace ((0 <=? Z.of_nat j)%Z && (Z.of_nat j <? Z.of_nat (length p))%Z)%bool with false; auto.
    symmetry; apply andb_false_iff; right; apply Z.ltb_ge; lia.
  Qed.
  Lemma cumulative_in k : (k < length p)%nat -> cumulative p (Z.of_nat k) = rsum (firstn (S k) p).
  Proof.
    intros H. unfold cumulative. rewrite rsum_firstn by lia.
    replace (Z.to_nat (Z.of_nat k + 1)) with (S k) by lia.
    apply sumf_ext. intros j Hj. apply in_seq in Hj. apply pmf_at_nat; lia.
  Qed.
  Lemma cumulative_neg k : (k < 0)%Z -> cumulative p k = 0.
  Proof. intros H. unfold cumulative. replace (Z.to_nat (k + 1)) with O by lia. reflexivity. Qed.
  Lemma cumulative_end k : (Z.of_nat (length p) - 1 <= k)%Z -> cumulative p k = 1.
  Proof.
    intros H. unfold cumulative.
    replace (Z.to_nat (k + 1)) with (length p + (Z.to_nat (k + 1) - length p))%nat by lia.
    rewrite seq_app, map_app, rsum_app, Nat.add_0_l.
    change (sumf (fun j => pmf_at p (Z.of_nat j)) (seq 0 (length p)) +
            sumf (fun j => pmf_at p (Z.of_nat j)) (seq (length p) (Z.to_nat (k + 1) - length p)) = 1).
    rewrite (sumf_zero _ (seq (length p) _)) by (intros j Hj; apply in_seq in Hj; apply pmf_at_beyond; lia).
    rewrite (sumf_ext _ (fun j => nth j p 0)) by (intros j Hj; apply in_seq in Hj; apply pmf_at_nat; lia).
    rewrite sumf_nth, (proj2 Hp). ring.
  Qed.
  Lemma rep_cdf k : cat_cdf d (Fin (IZR k)) = Fin (cumulative p k).
  Proof.
    assert (HK := pmf_length p Hp).
    unfold cat_cdf. rewrite rep_last, rep_probs, rep_num.
    destruct (xltb (Fin (IZR k)) (Fin 0)) eqn:E1.
    { apply xltb_fin, lt_IZR in E1. rewrite cumulative_neg; auto. }
    apply xltb_fin_f, le_IZR in E1.
    destruct (xleb _ (Fin (IZR k))) eqn:E2.
    { apply xleb_fin, le_IZR in E2. rewrite cumulative_end; auto. }
    apply xleb_fin_f, lt_IZR in E2.
    assert (Ec : xclip (Fin (IZR k)) (Fin 0) (Fin (IZR (Z.of_nat (length p) - 1))) = Fin (INR (Z.to_nat k))).
    { rewrite INR_IZR_INZ, Z2Nat.id by auto. unfold xclip.
      assert (xmax (Fin (IZR k)) (Fin 0) = Fin (IZR k)) as ->.
      { unfold xmax; cbn [xis_nan orb]. destruct (xltb (Fin (IZR k)) (Fin 0)) eqn:E; [|auto].
        apply xltb_fin, lt_IZR in E. lia. }
      unfold xmin; cbn [xis_nan orb]. destruct (xltb _ _) eqn:E; [|auto]. apply xltb_fin, lt_IZR in E. lia. }
    rewrite Ec. unfold cumsum.
    replace (length p) with (length (cumsum_from (Fin 0) (map Fin p))) by (rewrite cumsum_from_length, map_length; auto).
    rewrite one_hot_select_nat by (rewrite cumsum_from_length, map_length; lia).
    rewrite cumsum_from_nth by lia. rewrite Rplus_0_l, <- cumulative_in by lia. rewrite Z2Nat.id by auto. reflexivity.
  Qed.

  (** entropy *)
  Lemma rep_entropy : cat_entropy d = Fin (shannon_entropy p).
  Proof.
    unfold cat_entropy.
    replace (match d with CProbs p => map xlog p | CLogits l => log_softmax l end) with (map rlog p)
      by (destruct (proj1 HR) as [-> | ->]; [symmetry; apply xlog_map_fin|symmetry; apply log_softmax_rlog; auto]).
    rewrite map2_same, map_map. unfold shannon_entropy.
    rewrite (map_ext_in _ (fun a => Fin (xlnx a))).
    - rewrite xsum_map_fin. reflexivity.
    - intros x Hx. unfold xlnx. destruct (Req_EM_T x 0) as [->|Hn]; [apply mul_exp_rlog_zero|].
      assert (0 < x) by (destruct (proj1 Hp x Hx); [auto|congruence]).
      rewrite (rlog_pos x) at 1 by auto. rewrite mul_exp_fin by auto. f_equal; ring.
  Qed.

  (** mode and samples *)
  Lemma nth_error_map_rlog k c : nth_error (map rlog p) k = Some c -> (k < length p)%nat /\ c = rlog (nth k p 0).
  Proof.
    intros H. assert (Hk : (k < length p)%nat) by (rewrite <- (map_length rlog); apply nth_error_Some; congruence).
    split; auto. rewrite <- nth_map_rlog by auto. symmetry. apply nth_error_nth; auto.
  Qed.
  Lemma rlog_not_nan x : 0 <= x -> rlog x <> NaN.
  Proof. intros [H|<-]; [rewrite rlog_pos by auto; discriminate|rewrite rlog_0; discriminate]. Qed.
  Lemma rep_mode : exists k, cat_mode d = Fin (INR k) /\ (k < length p)%nat /\ forall j, (j < length p)%nat -> nth j p 0 <= nth k p 0.
  Proof.
    assert (HK := pmf_length p Hp). unfold cat_mode.
    destruct (proj1 HR) as [-> | ->]; eexists; split; try reflexivity.
    - destruct (argmax_spec (map Fin p)) as [c [H1 H2]].
      + destruct p; [cbn in HK; lia|discriminate].
      + intros b Hb. apply in_map_iff in Hb as [x [<- _]]. discriminate.
      + assert (Hk : (argmax (map Fin p) < length p)%nat) by (rewrite <- (map_length Fin); apply nth_error_Some; congruence).
        split; auto. intros j Hj. apply nth_error_nth with (d := Fin 0) in H1. rewrite nth_map_fin in H1. subst c.
        specialize (H2 (Fin (nth j p 0))). apply xltb_fin_f, H2. apply in_map, nth_In; auto.
    - destruct (argmax_spec (map rlog p)) as [c [H1 H2]].
      + destruct p; [cbn in HK; lia|discriminate].
      + intros b Hb. apply in_map_iff in Hb as [x [<- Hx]]. apply rlog_not_nan, Hp, Hx.
      + apply nth_error_map_rlog in H1 as [Hk ->]. split; auto. intros j Hj.
        set (k := argmax _) in *. specialize (H2 (rlog (nth j p 0))).
        assert (Hin : In (nth j p 0) p) by (apply nth_In; auto).
        assert (Hik : In (nth k p 0) p) by (apply nth_In; auto).
        specialize (H2 (in_map rlog _ _ Hin)). destruct (proj1 Hp _ Hin) as [Hj'|Hj'].
        * rewrite (rlog_pos (nth j p 0)) in H2 by auto. destruct (proj1 Hp _ Hik) as [Hk'|Hk'].
          -- rewrite rlog_pos in H2 by auto. apply xltb_fin_f in H2.
             apply Rnot_lt_le. intros L. apply ln_increasing in L; auto. lra.
          -- rewrite <- Hk', rlog_0 in H2. cbn in H2. discriminate.
        * rewrite <- Hj'. apply Hp; auto.
  Qed.
  Lemma rep_valid : cat_is_valid d = true.
  Proof.
    unfold cat_is_valid. rewrite rep_probs. apply andb_true_iff. split; apply forallb_forall; intros a Ha;
      apply in_map_iff in Ha as [x [<- Hx]]; [reflexivity|apply xleb_fin, Hp, Hx].
  Qed.
  Lemma rep_draw g : length g = length p -> exists k,
    random_categorical (map Fin g) (cat_logits d) = k /\ (k < length p)%nat /\ 0 < nth k p 0 /\
    forall j, (j < length p)%nat -> 0 < nth j p 0 -> nth j g 0 + ln (nth j p 0) <= nth k g 0 + ln (nth k p 0).
  Proof.
    intros Hg. assert (HK := pmf_length p Hp). eexists; split; [reflexivity|].
    unfold random_categorical. rewrite rep_logits, map2_map.
    set (l := map2 _ g p).
    assert (Hlen : length l = length p) by (unfold l; rewrite map2_length; auto).
    assert (Hat : forall j, (j < length p)%nat -> nth j l NaN = xadd (Fin (nth j g 0)) (rlog (nth j p 0)))
      by (intros j Hj; unfold l; rewrite (map2_nth _ _ _ _ 0 0) by lia; reflexivity).
    destruct (argmax_spec l) as [c [H1 H2]].
    - destruct l; [cbn in Hlen; lia|discriminate].
    - intros b Hb. apply (In_nth _ _ NaN) in Hb as [j [Hj <-]]. rewrite Hat by lia.
      assert (Hn := rlog_not_nan (nth j p 0) (proj1 Hp _ (nth_In p 0 (eq_ind _ (fun n => (j < n)%nat) Hj _ Hlen)))).
      destruct (rlog (nth j p 0)); cbn; congruence.
    - assert (Hk : (argmax l < length p)%nat) by (rewrite <- Hlen; apply nth_error_Some; congruence).
      apply nth_error_nth with (d := NaN) in H1. rewrite Hat in H1 by auto. set (k := argmax l) in *.
      assert (Hge : forall j, (j < length p)%nat -> xltb c (xadd (Fin (nth j g 0)) (rlog (nth j p 0))) = false)
        by (intros j Hj; rewrite <- Hat by auto; apply H2, nth_In; lia).
      assert (Hkp : 0 < nth k p 0).
      { destruct (proj1 Hp (nth k p 0) (nth_In _ _ Hk)) as [H|H]; auto. exfalso.
        rewrite <- H, rlog_0 in H1. cbn in H1. subst c.
        destruct (pmf_nonempty p Hp) as [x [Hx Hxp]]. apply (In_nth _ _ 0) in Hx as [j [Hj <-]].
        specialize (Hge j Hj). rewrite rlog_pos in Hge by auto. cbn in Hge. discriminate. }
      repeat split; auto. intros j Hj Hjp. specialize (Hge j Hj). rewrite rlog_pos in Hge by auto.
      rewrite rlog_pos in H1 by auto. cbn [xadd] in *. subst c. apply xltb_fin_f in Hge. exact Hge.
  Qed.
End Rep.

(** *** Gibbs' inequality *)
Lemma ln_lt_pred t : 0 < t -> t <> 1 -> ln t < t - 1.
Proof.
  intros Ht Hn. assert (Hl : ln t <> 0) by (intros E; apply Hn; rewrite <- (exp_ln t), E, exp_0; auto).
  pose proof (exp_ineq1 (ln t) Hl) as H. rewrite exp_ln in H by auto. lra.
Qed.
(** the non-negative gap whose sum is the divergence *)
Definition gap (pq : R * R) : R := kl_term pq - fst pq + snd pq.
Lemma gap_pos p q : 0 <= p -> 0 <= q -> (0 < p -> 0 < q) -> p <> q -> 0 < gap (p, q).
Proof.
  intros Hp Hq Hac Hn. unfold gap, kl_term; cbn [fst snd]. destruct (Req_EM_T p 0) as [->|Hp0]; [lra|].
  assert (P : 0 < p) by lra. assert (Q : 0 < q) by auto.
  assert (Hr : ln (q / p) < q / p - 1).
  { apply ln_lt_pred; [apply Rdiv_lt_0_compat; auto|]. intros E. apply Hn.
    apply (Rmult_eq_reg_r (/ p)); [|apply Rinv_neq_0_compat; lra]. unfold Rdiv in E. rewrite E. field. lra. }
  rewrite ln_quot in Hr |- * by auto. apply (Rmult_lt_compat_l p) in Hr; auto.
  replace (p * (q / p - 1)) with (q - p) in Hr by (field; lra). lra.
Qed.
Lemma gap_eq p : 0 <= p -> gap (p, p) = 0.
Proof.
  intros Hp. unfold gap, kl_term; cbn [fst snd]. destruct (Req_EM_T p 0); [lra|].
  replace (p / p) with 1 by (field; auto). rewrite ln_1. ring.
Qed.
Lemma combine_in_nth (p q : list R) pq : length p = length q -> In pq (combine p q) ->
  exists k, (k < length p)%nat /\ pq = (nth k p 0, nth k q 0).
Proof.
  intros HL H. apply (In_nth _ _ (0, 0)) in H as [k [Hk <-]]. rewrite combine_length, <- HL, Nat.min_id in Hk.
  exists k. split; auto. apply combine_nth; auto.
Qed.
Lemma sumf_fst (p q : list R) : length p = length q -> sumf fst (combine p q) = rsum p.
Proof.
  revert q; induction p as [|a p IH]; intros [|b q] H; cbn in H; try discriminate; auto.
  cbn [combine]. rewrite sumf_cons. rewrite IH by lia. reflexivity.
Qed.
Lemma sumf_snd (p q : list R) : length p = length q -> sumf snd (combine p q) = rsum q.
Proof.
  revert q; induction p as [|a p IH]; intros [|b q] H; cbn in H; try discriminate; auto.
  cbn [combine]. rewrite sumf_cons. rewrite IH by lia. reflexivity.
Qed.
Lemma kl_gap p q : is_pmf p -> is_pmf q -> length p = length q ->
  kullback_leibler p q = sumf gap (combine p q).
Proof.
  intros [_ Hp] [_ Hq] HL. unfold kullback_leibler.
  rewrite (sumf_ext gap (fun pq => (kl_term pq - fst pq) + snd pq)) by reflexivity.
  rewrite sumf_plus, (sumf_minus kl_term fst), sumf_fst, sumf_snd by auto. rewrite Hp, Hq. unfold sumf. ring.
Qed.
Section Gibbs.
  Variables p q : list R.
  Hypotheses (Hp : is_pmf p) (Hq : is_pmf q) (HL : length p = length q) (Hac : absolutely_continuous p q).
  Lemma gap_nonneg pq : In pq (combine p q) -> 0 <= gap pq.
  Proof.
    intros H. apply combine_in_nth in H as [k [Hk ->]]; auto.
    assert (Hpk : 0 <= nth k p 0) by (apply Hp, nth_In; auto).
    assert (Hqk : 0 <= nth k q 0) by (apply Hq, nth_In; lia).
    destruct (Req_EM_T (nth k p 0) (nth k q 0)) as [E|E].
    - rewrite <- E, gap_eq; auto. lra.
    - left; apply gap_pos; auto.
  Qed.
  Lemma gibbs : 0 <= kullback_leibler p q.
  Proof. rewrite kl_gap by auto. apply sumf_nonneg, gap_nonneg. Qed.
  Lemma gibbs_eq : kullback_leibler p q = 0 <-> p = q.
  Proof.
    rewrite kl_gap by auto. split; intros H.
    - apply (nth_ext _ _ 0 0); auto. intros k Hk.
      destruct (Req_EM_T (nth k p 0) (nth k q 0)) as [E|E]; auto. exfalso.
      assert (Hin : In (nth k p 0, nth k q 0) (combine p q)).
      { rewrite <- combine_nth by auto. apply nth_In. rewrite combine_length; lia. }
      pose proof (sumf_nonneg_zero gap _ _ gap_nonneg H Hin) as Z.
      pose proof (gap_pos (nth k p 0) (nth k q 0)) as P. rewrite Z in P.
      assert (0 < 0); [|lra]. apply P; auto; [apply Hp, nth_In; auto|apply Hq, nth_In; lia].
    - subst q. apply sumf_zero. intros pq Hin. apply combine_in_nth in Hin as [k [Hk ->]]; auto.
      apply gap_eq. apply Hp, nth_In; auto.
  Qed.
End Gibbs.

(** *** KL divergence of the model *)
Lemma kl_summand x y : 0 <= x -> 0 <= y ->
  mul_exp (xsub (rlog x) (rlog y)) (rlog x) =
  (if Req_EM_T x 0 then Fin 0 else if Req_EM_T y 0 then PInf else Fin (x * ln (x / y))).
Proof.
  intros Hx Hy. destruct (Req_EM_T x 0) as [->|Hx0]; [apply mul_exp_rlog_zero|].
  assert (X : 0 < x) by lra. destruct (Req_EM_T y 0) as [->|Hy0].
  - rewrite rlog_0, (rlog_pos x) at 1 by auto. cbn [xsub xopp xadd]. apply mul_exp_pinf; auto.
  - assert (Y : 0 < y) by lra. rewrite (rlog_pos y), (rlog_pos x) at 1 by auto. cbn [xsub xopp xadd].
    rewrite mul_exp_fin by auto. rewrite ln_quot by auto. f_equal; ring.
Qed.
Lemma xsum_pinf l : (forall a, In a l -> a = PInf \/ exists x, a = Fin x) -> In PInf l -> xsum l = PInf.
Proof.
  induction l as [|a l IH]; intros H Hi; [destruct Hi|]. rewrite xsum_cons.
  assert (Hl : xsum l = PInf \/ exists x, xsum l = Fin x).
  { clear - H. assert (H' : forall a, In a l -> a = PInf \/ exists x, a = Fin x) by (intros; apply H; simpl; auto).
    clear H. induction l as [|b l IH]; [right; exists 0; reflexivity|].
    rewrite xsum_cons. destruct IH as [-> |[x ->]]; [intros; apply H'; simpl; auto| |];
      destruct (H' b) as [-> |[y ->]]; cbn; simpl; auto; right; eauto. }
  destruct Hi as [->|Hi].
  - destruct Hl as [-> |[x ->]]; reflexivity.
  - rewrite IH; auto; [|intros; apply H; simpl; auto]. destruct (H a) as [-> |[x ->]]; simpl; auto.
Qed.
Lemma rep_kl d1 d2 p q : represents d1 p -> represents d2 q -> length p = length q ->
  (absolutely_continuous p q -> cat_kl d1 d2 = Ok (Fin (kullback_leibler p q))) /\
  (~ absolutely_continuous p q -> cat_kl d1 d2 = Ok PInf).
Proof.
  intros H1 H2 HL. pose proof (proj2 H1) as Hp. pose proof (proj2 H2) as Hq.
  unfold cat_kl. rewrite (rep_logits d1 p), (rep_logits d2 q) by auto. rewrite !map_length, HL, Nat.eqb_refl.
  rewrite !log_softmax_rlog by auto. rewrite map2_map.
  set (summ := fun pq : R * R => let (x, y) := pq in
                 if Req_EM_T x 0 then Fin 0 else if Req_EM_T y 0 then PInf else Fin (x * ln (x / y))).
  assert (E : map2 mul_exp (map2 (fun a b => xsub (rlog a) (rlog b)) p q) (map rlog p) = map summ (combine p q)).
  { clear - HL Hp Hq. destruct Hp as [Hp _], Hq as [Hq _]. revert q HL Hq.
    induction p as [|a p IH]; intros [|b q] HL Hq; cbn in HL; try discriminate; auto.
    cbn [map2 combine map]. rewrite kl_summand by (first [apply Hp; left; reflexivity|apply Hq; left; reflexivity]).
    rewrite IH; [reflexivity|intros; apply Hp; right; auto|lia|intros; apply Hq; right; auto]. }
  rewrite E. clear E.
  assert (Hz : forall k, (k < length p)%nat -> 0 < nth k p 0 -> nth k q 0 = 0 -> In PInf (map summ (combine p q))).
  { intros k Hk Hpk Hqk. apply in_map_iff. exists (nth k p 0, nth k q 0). split.
    - unfold summ. destruct (Req_EM_T (nth k p 0) 0); [lra|]. destruct (Req_EM_T (nth k q 0) 0); [auto|lra].
    - rewrite <- combine_nth by auto. apply nth_In. rewrite combine_length; lia. }
  split; intros Hac; f_equal.
  - rewrite (map_ext_in _ (fun pq => Fin (kl_term pq))); [apply xsum_map_fin|].
    intros pq Hin. apply combine_in_nth in Hin as [k [Hk ->]]; auto. unfold summ, kl_term.
    destruct (Req_EM_T (nth k p 0) 0) as [|Hn]; auto. destruct (Req_EM_T (nth k q 0) 0) as [Z|]; auto. exfalso.
    assert (0 < nth k q 0); [|lra]. apply Hac. assert (0 <= nth k p 0) by (apply Hp, nth_In; auto). lra.
  - apply xsum_pinf.
    + intros a Ha. apply in_map_iff in Ha as [[x y] [<- _]]. unfold summ.
      destruct (Req_EM_T x 0); [right; eauto|]. destruct (Req_EM_T y 0); [left; auto|right; eauto].
    + assert (Hd : exists k, (k < length p)%nat /\ 0 < nth k p 0 /\ nth k q 0 = 0).
      { destruct (existsb (fun k => if Rlt_dec 0 (nth k p 0) then if Req_EM_T (nth k q 0) 0 then true else false else false)
                    (seq 0 (length p))) eqn:E.
        - apply existsb_exists in E as [k [Hk E]]. apply in_seq in Hk. exists k.
          destruct (Rlt_dec 0 (nth k p 0)); [|discriminate]. destruct (Req_EM_T (nth k q 0) 0); [|discriminate].
          repeat split; auto; lia.
        - exfalso. apply Hac. intros k Hk. destruct (lt_dec k (length p)) as [Hlt|Hge].
          + assert (Hqk : 0 <= nth k q 0) by (apply Hq, nth_In; lia).
            destruct (Req_EM_T (nth k q 0) 0) as [Z|]; [|lra]. exfalso.
            assert (existsb (fun k => if Rlt_dec 0 (nth k p 0) then if Req_EM_T (nth k q 0) 0 then true else false else false)
                    (seq 0 (length p)) = true); [|congruence].
            apply existsb_exists. exists k. split; [apply in_seq; lia|].
            destruct (Rlt_dec 0 (nth k p 0)); [|lra]. destruct (Req_EM_T (nth k q 0) 0); [auto|lra].
          + rewrite nth_overflow in Hk by lia. lra. }
      destruct Hd as [k [H3 [H4 H5]]]. eapply Hz; eauto.
Qed.
Lemma rep_kl_mismatch d1 d2 p q : represents d1 p -> represents d2 q -> length p <> length q ->
  cat_kl d1 d2 = Err ValueError.
Proof.
  intros H1 H2 HL. unfold cat_kl. rewrite (rep_logits d1 p), (rep_logits d2 q) by auto. rewrite !map_length.
  destruct (Nat.eqb_spec (length p) (length q)); [contradiction|auto].
Qed.
Lemma sumf_combine_l (f : R -> R) (p q : list R) : length p = length q ->
  sumf (fun pq => f (fst pq)) (combine p q) = rsum (map f p).
Proof.
  revert q; induction p as [|a p IH]; intros [|b q] H; cbn in H; try discriminate; auto.
  cbn [combine]. rewrite sumf_cons, IH by lia. reflexivity.
Qed.
Lemma ce_decomposition p q : is_pmf p -> length p = length q -> absolutely_continuous p q ->
  cross_entropy_of p q = shannon_entropy p + kullback_leibler p q.
Proof.
  intros Hp HL Hac. unfold cross_entropy_of, shannon_entropy, kullback_leibler.
  rewrite <- (sumf_combine_l xlnx p q HL).
  change (sumf ce_term (combine p q) = - sumf (fun pq => xlnx (fst pq)) (combine p q) + sumf kl_term (combine p q)).
  rewrite <- sumf_opp, <- sumf_plus. apply sumf_ext. intros pq Hin.
  apply combine_in_nth in Hin as [k [Hk ->]]; auto. unfold ce_term, kl_term, xlnx; cbn [fst].
  destruct (Req_EM_T (nth k p 0) 0) as [|Hn]; [ring|].
  assert (0 < nth k p 0) by (assert (0 <= nth k p 0) by (apply Hp, nth_In; auto); lra).
  rewrite ln_quot by auto. ring.
Qed.
Lemma entropy_nonneg p : is_pmf p -> 0 <= shannon_entropy p.
Proof.
  intros Hp. unfold shannon_entropy. change (0 <= - sumf xlnx p). rewrite <- sumf_opp. apply sumf_nonneg.
  intros x Hx. unfold xlnx. destruct (Req_EM_T x 0); [lra|].
  assert (0 <= x) by (apply Hp; auto).
  assert (x <= 1) by (rewrite <- (proj2 Hp), rsum_sumf; apply (sumf_ge_elem (fun y => y)); [intros; apply Hp|]; auto).
  assert (ln x <= 0).
  { destruct (Req_dec x 1) as [->|]; [rewrite ln_1; lra|]. left. rewrite <- ln_1. apply ln_increasing; lra. }
  assert (0 <= x * (- ln x)) by (apply Rmult_le_pos; lra). lra.
Qed.
Lemma uniform_pmf n : (0 < n)%nat -> is_pmf (repeat (/ INR n) n).
Proof.
  intros H. assert (HI : 0 < INR n) by (apply lt_0_INR; auto). split.
  - intros x Hx. apply repeat_spec in Hx. subst. left; apply Rinv_0_lt_compat; auto.
  - assert (E : forall m c, rsum (repeat c m) = INR m * c).
    { induction m as [|m IH]; intros c; [unfold rsum; simpl; ring|]. rewrite S_INR. cbn [repeat].
      change (rsum (c :: repeat c m)) with (c + rsum (repeat c m)). rewrite IH; ring. }
    rewrite E. field. lra.
Qed.
Lemma entropy_le_log p : is_pmf p -> shannon_entropy p <= ln (INR (length p)).
Proof.
  intros Hp. assert (HK := pmf_length p Hp). assert (HI : 0 < INR (length p)) by (apply lt_0_INR; auto).
  set (u := repeat (/ INR (length p)) (length p)).
  assert (HL : length p = length u) by (unfold u; rewrite repeat_length; auto).
  assert (Hu : is_pmf u) by (apply uniform_pmf; auto).
  assert (Hat : forall k, (k < length p)%nat -> nth k u 0 = / INR (length p)).
  { intros k Hk. unfold u. rewrite (nth_indep _ 0 (/ INR (length p))) by (rewrite repeat_length; auto). apply nth_repeat. }
  assert (Hac : absolutely_continuous p u).
  { intros k Hk. destruct (lt_dec k (length p)) as [Hlt|Hge]; [|rewrite nth_overflow in Hk by lia; lra].
    rewrite Hat by auto. apply Rinv_0_lt_compat; auto. }
  pose proof (gibbs p u Hp Hu HL Hac) as G. pose proof (ce_decomposition p u Hp HL Hac) as C.
  assert (E : cross_entropy_of p u = ln (INR (length p))).
  { unfold cross_entropy_of. change (sumf ce_term (combine p u) = ln (INR (length p))).
    rewrite (sumf_ext _ (fun pq => fst pq * ln (INR (length p)))).
    - rewrite sumf_scal_r, sumf_fst, (proj2 Hp) by auto. ring.
    - intros pq Hin. apply combine_in_nth in Hin as [k [Hk ->]]; auto. unfold ce_term; cbn [fst].
      rewrite Hat, ln_Rinv by auto.
      destruct (Req_EM_T _ _) as [E|]; [rewrite E; ring|ring]. }
  lra.
Qed.
