(** C41 MixtureSameFamily, C42 MixtureOfTwo. *)
From Coq Require Import Reals List Bool Lra Lia.
From Coquelicot Require Import Coquelicot.
From Verif Require Import Base.Result Base.Sums Base.Tensor Base.XR Base.Lift Base.Axes Base.Rows Base.Integral Model.MathUtils
  Model.ScalarDist Model.ArrayDist Model.Categorical Model.Mixture Spec.Categorical Spec.Density Spec.Mixture Proofs.MathUtils
  Proofs.ArrayDist Proofs.Mixture.
Import ListNotations.
Local Open Scope R_scope.

(** ** C41 *)
(** The constructor compares the batch shape of the mixture with that of the components without its last axis. *)
Theorem C41_constructor : forall key (mix : mixing key) comp,
  (m_batch mix = removelast (x_batch comp) /\ exists c, msf_init mix comp = Ok c /\
     msf_batch_shape c = m_batch mix /\ msf_event_shape c = x_event comp) \/
  (m_batch mix <> removelast (x_batch comp) /\ msf_init mix comp = Err ValueError).
Proof.
  intros key mix comp. unfold msf_init. destruct list_eq_dec as [E|N]; [left|right; auto].
  split; [exact E|]. eexists. split; [reflexivity|]. unfold msf_batch_shape, msf_event_shape. cbn. auto.
Qed.
Print Assumptions C41_constructor.
(** The weights used are a probability vector for every batch element. *)
Theorem C41_weights : forall t bs K b, legal_mixture t bs K -> inb bs b ->
  (forall k, 0 <= mixture_weight t K b k) /\ sumf (mixture_weight t K b) (seq 0 K) = 1.
Proof. intros t bs K b L Hb. split; [intros k; eapply weight_ge0; eauto|eapply weights_sum; eauto]. Qed.
Print Assumptions C41_weights.

Lemma init_ok {key} (mix : mixing key) comp bs K es c : mixture_of mix comp bs K es -> msf_init mix comp = Ok c ->
  c = mkMsf mix comp (map_last log_softmax (m_logits mix)) /\ x_event (cp c) = es /\ shp (log_w c) = (bs ++ [K])%list /\ wf (log_w c) /\
  forall b k, inb bs b -> (k < K)%nat -> tget (Fin 0) (log_w c) (b ++ [k]) = rlog (mixture_weight (m_logits mix) K b k) /\
    0 <= mixture_weight (m_logits mix) K b k.
Proof.
  intros (L & Hm & Hx & He) H. unfold msf_init in H. destruct list_eq_dec; [|discriminate]. injection H as <-. cbn [cp log_w].
  split; [reflexivity|]. split; [exact He|]. split; [apply L|]. split; [apply tgen_wf|].
  intros b k Hb Hk. split; [apply (log_w_at _ bs); auto|eapply weight_ge0; eauto].
Qed.

(** exp(log_prob(x)) = sum_k w_k exp(component_k.log_prob(x)), for every event of an array of any sample shape. *)
Theorem C41_log_prob : forall key (mix : mixing key) comp bs K es c D f s x,
  mixture_of mix comp bs K es -> msf_init mix comp = Ok c -> has_densities D comp bs K es f ->
  wf x -> List.Forall D (dat x) -> shp x = (s ++ bs ++ es)%list ->
  exists r, msf_log_prob c x = Ok r /\ shp r = (s ++ bs)%list /\ wf r /\
    forall i b, inb s i -> inb bs b ->
      tget (Fin 0) r (i ++ b) =
      rlog (sumf (fun k => mixture_weight (m_logits mix) K b k * f b k (event_at es x (i ++ b))) (seq 0 K)).
Proof.
  intros key mix comp bs K es c D f s x M H [Hf HD] Wx Dx Hx.
  destruct (init_ok mix comp bs K es c M H) as (-> & He & Hl & Wl & Hw). cbn [cp log_w] in *.
  unfold msf_log_prob, ev_rank, msf_event_shape. cbn [cp log_w]. rewrite He.
  rewrite app_assoc in Hx.
  destruct (HD s (expand_dims (length es) x)) as (lp & E & Slp & Hlp).
  { eapply expand_wf; eauto. }
  { exact Dx. }
  { unfold expand_dims. cbn [shp]. rewrite Hx, ins_end_app, <- app_assoc by auto. reflexivity. }
  rewrite E. cbn [rbind].
  assert (BW : bshape (shp (map_last log_softmax (m_logits mix))) (s ++ bs ++ [K]) = Some (s ++ bs ++ [K])%list).
  { rewrite Hl. apply bshape_drop. }
  rewrite (lift2_top xadd lp _ (s ++ bs ++ [K])%list) by (rewrite ?Slp; auto using bshape_refl). cbn [rbind].
  match goal with |- context [reduce_axis _ _ ?P] =>
    destruct (reduce_axis_ok xlogsumexp 0 P (s ++ bs)%list K [] ltac:(cbn; rewrite <- app_assoc; reflexivity) eq_refl) as (r & Er & Sr & Wr & Hr) end.
  exists r. rewrite app_nil_r in Sr. split; [exact Er|]. split; [exact Sr|]. split; [exact Wr|].
  intros i b Hi Hb. specialize (Hr (i ++ b) [] (inb_app _ _ _ _ Hi Hb) ltac:(constructor)). rewrite app_nil_r in Hr. rewrite Hr.
  rewrite (logsumexp_rlog _ (fun k => f b k (event_at es x (i ++ b))) (fun k => mixture_weight (m_logits mix) K b k)).
  { reflexivity. }
  intros k Hk. rewrite <- app_assoc. cbn [app].
  assert (Hin : inb (s ++ bs ++ [K]) (i ++ b ++ [k])) by (apply inb_app; auto; apply inb_app; auto; repeat constructor; auto).
  split; [|split; [apply Hf|apply (Hw b k Hb Hk)]].
  rewrite tget_tgen by exact Hin. f_equal.
  - rewrite xget_self by (rewrite Slp; exact Hin). rewrite Hlp by auto. f_equal. f_equal.
    unfold event_at. apply tgen_ext. intros e He'.
    replace ((i ++ b ++ [0%nat]) ++ e)%list with ((i ++ b) ++ 0%nat :: e)%list by (rewrite <- !app_assoc; reflexivity).
    apply (tget_expand _ x (s ++ bs) es (i ++ b) e Hx); auto. apply inb_app; auto.
  - unfold xget. rewrite Hl. rewrite <- (app_nil_l (bs ++ [K])) at 1.
    rewrite bindex_app by (rewrite !app_length, (inb_length _ _ Hb); reflexivity).
    rewrite bindex_nil, bindex_refl by (apply inb_app; auto; repeat constructor; auto). apply Hw; auto.
Qed.
Print Assumptions C41_log_prob.

Lemma component_holds t bs K es m : component_reals t bs K es m ->
  holds_reals t (bs ++ K :: es) (fun i => m (firstn (length bs) i) (nth (length bs) i 0%nat) (skipn (S (length bs)) i)).
Proof.
  intros [Hs H]. split; [exact Hs|]. intros i Hi.
  destruct (inb_app_len _ _ _ Hi) as (b & e & -> & Hb & He). destruct e as [|k e]; [inversion He|]. apply inb_cons in He as [Hk He].
  pose proof (inb_length _ _ Hb) as Lb. rewrite H by auto. f_equal. rewrite <- Lb.
  rewrite firstn_app, Nat.sub_diag, firstn_all, app_nil_r, app_nth2, Nat.sub_diag by lia. cbn [nth firstn].
  rewrite skipn_app, skipn_all2 by lia. replace (S (length b) - length b)%nat with 1%nat by lia. reflexivity.
Qed.
Lemma split_mid (b e : list nat) k :
  firstn (length b) (b ++ k :: e) = b /\ nth (length b) (b ++ k :: e) 0%nat = k /\ skipn (S (length b)) (b ++ k :: e) = e.
Proof.
  rewrite firstn_app, Nat.sub_diag, firstn_all, app_nil_r, app_nth2, Nat.sub_diag by lia. split; [auto|split; [auto|]].
  rewrite skipn_app, skipn_all2 by lia. replace (S (length b) - length b)%nat with 1%nat by lia. reflexivity.
Qed.
Lemma split_two (b e : list nat) : firstn (length b) (b ++ e) = b /\ skipn (length b) (b ++ e) = e.
Proof. rewrite firstn_app, skipn_app, Nat.sub_diag, firstn_all, skipn_all. cbn. rewrite app_nil_r. auto. Qed.

(** mean = sum_k w_k mean_k for every batch element and event coordinate. *)
Theorem C41_mean : forall key (mix : mixing key) comp bs K es c means m,
  mixture_of mix comp bs K es -> msf_init mix comp = Ok c ->
  x_mean comp = Ok means -> component_reals means bs K es m ->
  exists r, msf_mean c = Ok r /\
    event_reals r bs es (fun b e => sumf (fun k => mixture_weight (m_logits mix) K b k * m b k e) (seq 0 K)).
Proof.
  intros key mix comp bs K es c means m M H HM CM.
  destruct (init_ok mix comp bs K es c M H) as (Ec & He & Hl & Wl & Hw).
  unfold msf_mean. replace (cp c) with comp by (subst c; reflexivity). rewrite HM. cbn [rbind].
  destruct (weighted_sum c bs K es He Hl _ Hw Wl _ _ (component_holds _ _ _ _ _ CM)) as (p & r & -> & Hr & Wr & Sr & Vr).
  cbn [rbind]. exists r. split; [exact Hr|]. split; [exact Sr|]. split; [exact Wr|]. intros b e Hb He'.
  rewrite Vr by (apply inb_app; auto). f_equal. pose proof (inb_length _ _ Hb) as Lb. rewrite <- Lb.
  destruct (split_two b e) as [-> ->]. apply sumf_ext. intros k _. destruct (split_mid b e k) as (-> & -> & ->). reflexivity.
Qed.
Print Assumptions C41_mean.

(** variance = sum_k w_k (variance_k + (mean_k - mean)^2), and it is not negative. *)
Theorem C41_variance : forall key (mix : mixing key) comp bs K es c means m variances v,
  mixture_of mix comp bs K es -> msf_init mix comp = Ok c ->
  x_mean comp = Ok means -> component_reals means bs K es m ->
  x_variance comp = Ok variances -> component_reals variances bs K es v ->
  let w := mixture_weight (m_logits mix) K in
  let mean b e := sumf (fun k => w b k * m b k e) (seq 0 K) in
  let var b e := sumf (fun k => w b k * (v b k e + (m b k e - mean b e) ^ 2)) (seq 0 K) in
  exists r, msf_variance c = Ok r /\ event_reals r bs es var /\
    forall b e, inb bs b -> inb es e -> (forall k, (k < K)%nat -> 0 <= v b k e) -> 0 <= var b e.
Proof.
  intros key mix comp bs K es c means m variances v M H HM CM HV CV w mean var.
  destruct (init_ok mix comp bs K es c M H) as (Ec & He & Hl & Wl & Hw).
  unfold msf_variance. replace (cp c) with comp by (subst c; reflexivity). rewrite HM, HV. cbn [rbind].
  destruct (weighted_sum c bs K es He Hl _ Hw Wl _ _ (component_holds _ _ _ _ _ CM)) as (p & r & -> & Hr & Wr & Sr & Vr).
  cbn [rbind]. rewrite Hr. cbn [rbind].
  destruct (weighted_sum' c bs K es He Hl _ Hw Wl _ _ (component_holds _ _ _ _ _ CV)) as (p2 & r2 & -> & Hr2 & Wr2 & Sr2 & Vr2).
  cbn [rbind]. rewrite Hr2. cbn [rbind].
  assert (ER : ev_rank c = length es) by (apply ev_rank_eq; auto). rewrite ER in *.
  rewrite (lift2_top xsub means _ (bs ++ K :: es)).
  2:{ rewrite (proj1 CM). apply bshape_refl. }
  2:{ unfold expand_dims. cbn [shp]. rewrite Sr. apply expand_bshape. }
  2:{ left; apply CM. }
  cbn [rbind]. rewrite lift1_ok. cbn [rbind].
  match goal with |- context [lift2 xmul (msf_weights c) ?T] => set (sq := T) end.
  assert (CS : component_reals sq bs K es (fun b k e => (m b k e - mean b e) ^ 2)).
  { split; [reflexivity|]. intros b k e Hb Hk He'. unfold sq. cbn [shp tgen].
    assert (Hin : inb (bs ++ K :: es) (b ++ k :: e)) by (apply inb_mid; auto).
    rewrite tget_tgen by exact Hin. rewrite xget_tgen_same by exact Hin.
    rewrite xget_self by (rewrite (proj1 CM); exact Hin). rewrite (proj2 CM) by auto.
    rewrite (xget_expand r bs es b k e Sr Hb He'). rewrite Vr by (apply inb_app; auto).
    pose proof (inb_length _ _ Hb) as Lb. rewrite <- Lb.
    destruct (split_two b e) as [-> ->].
    rewrite (sumf_ext _ (fun k => w b k * m b k e)) by (intros j _; destruct (split_mid b e j) as (-> & -> & ->); reflexivity).
    fold (mean b e). cbn. unfold xsquare. cbn. f_equal. ring. }
  destruct (weighted_sum' c bs K es He Hl _ Hw Wl _ _ (component_holds _ _ _ _ _ CS)) as (p3 & r3 & -> & Hr3 & Wr3 & Sr3 & Vr3).
  cbn [rbind]. rewrite ER in Hr3. rewrite Hr3. cbn [rbind].
  rewrite (lift2_top xadd r2 r3 (bs ++ es)) by (rewrite ?Sr2, ?Sr3; auto using bshape_refl).
  eexists. split; [reflexivity|]. split.
  - split; [reflexivity|]. split; [apply tgen_wf|]. intros b e Hb He'.
    assert (Hin : inb (bs ++ es) (b ++ e)) by (apply inb_app; auto).
    rewrite tget_tgen by exact Hin. rewrite !xget_self by (rewrite ?Sr2, ?Sr3; exact Hin). rewrite Vr2, Vr3 by exact Hin.
    cbn [xadd]. f_equal. pose proof (inb_length _ _ Hb) as Lb. rewrite <- Lb. destruct (split_two b e) as [-> ->].
    rewrite <- sumf_plus. apply sumf_ext. intros k _. destruct (split_mid b e k) as (-> & -> & ->). fold w. ring.
  - intros b e Hb _ Hv. apply sumf_nonneg. intros k Hk. apply in_seq in Hk. apply Rmult_le_pos; [apply Hw; auto; lia|].
    pose proof (pow2_ge_0 (m b k e - mean b e)). specialize (Hv k ltac:(lia)). lra.
Qed.
Print Assumptions C41_variance.

(** Those numbers are the mean and the variance of the mixture: averages under the mixture are the weighted averages of
    the components' averages (law of total variance). *)
Lemma mix_averaging {X} K w (E : nat -> (X -> R) -> R -> Prop) : (forall k, (k < K)%nat -> averaging (E k)) ->
  sumf w (seq 0 K) = 1 -> averaging (mixture_average K w E).
Proof.
  intros A S. split.
  - exists (fun _ => 1). split; [intros; apply A; auto|]. transitivity (sumf w (seq 0 K)); [auto|]. apply sumf_ext. intros; ring.
  - intros c g u (us & Hu & ->). exists (fun k => c * us k). split; [intros; apply A; auto|].
    rewrite <- sumf_scal. apply sumf_ext. intros; ring.
  - intros g h u v (us & Hu & ->) (vs & Hv & ->). exists (fun k => us k + vs k). split; [intros; apply A; auto|].
    rewrite <- sumf_plus. apply sumf_ext. intros; ring.
  - intros g h u Hgh (us & Hu & ->). exists us. split; [|reflexivity]. intros k Hk. eapply avg_ext; [apply A; auto|exact Hgh|auto].
Qed.
Theorem C41_total_variance : forall X (coord : X -> R) K w (E : nat -> (X -> R) -> R -> Prop) (m v : nat -> R),
  (forall k, (k < K)%nat -> averaging (E k)) -> sumf w (seq 0 K) = 1 ->
  (forall k, (k < K)%nat -> E k coord (m k) /\ E k (fun x => (coord x - m k) ^ 2) (v k)) ->
  let mean := sumf (fun k => w k * m k) (seq 0 K) in
  averaging (mixture_average K w E) /\
  mean_of (mixture_average K w E) coord mean /\
  variance_of (mixture_average K w E) coord (sumf (fun k => w k * (v k + (m k - mean) ^ 2)) (seq 0 K)).
Proof.
  intros X coord K w E m v A S H mean. split; [apply mix_averaging; auto|].
  assert (Hm : mean_of (mixture_average K w E) coord mean). { exists m. split; [intros; apply H; auto|reflexivity]. }
  split; [exact Hm|]. exists mean. split; [exact Hm|].
  exists (fun k => v k + (m k - mean) ^ 2). split; [|reflexivity].
  intros k Hk. destruct (H k Hk) as [H1 H2]. pose proof (A k Hk) as Ak.
  replace (v k + (m k - mean) ^ 2) with (v k + (2 * (m k - mean) * m k + ((m k - mean) ^ 2 - 2 * (m k - mean) * m k) * 1)) by ring.
  apply (avg_ext _ Ak (fun x => (coord x - m k) ^ 2 + (2 * (m k - mean) * coord x + ((m k - mean) ^ 2 - 2 * (m k - mean) * m k) * 1))).
  - intros x. ring.
  - apply (avg_plus _ Ak); [exact H2|]. apply (avg_plus _ Ak); [apply (avg_scale _ Ak), H1|].
    exact (avg_scale _ Ak _ _ _ (avg_one _ Ak)).
Qed.
Print Assumptions C41_total_variance.
(** Densities on the line: the mixture density integrates to one, and averages under it are mixture averages. *)
Lemma density_averaging f : integral f 1 -> averaging (expectation f).
Proof.
  intros H. split.
  - apply (integral_ext f); [intros; ring|exact H].
  - intros c g u Hg. apply (integral_ext (fun x => c * (f x * g x))); [intros; ring|]. apply integral_scal, Hg.
  - intros g h u v Hg Hh. apply (integral_ext (fun x => f x * g x + f x * h x)); [intros; ring|]. apply integral_plus; auto.
  - intros g h u E Hg. apply (integral_ext (fun x => f x * g x)); [intros; rewrite E; ring|exact Hg].
Qed.
Lemma integral_sumf (w : nat -> R) (f : nat -> R -> R) (u : nat -> R) n :
  (forall k, (k < n)%nat -> integral (f k) (u k)) ->
  integral (fun x => sumf (fun k => w k * f k x) (seq 0 n)) (sumf (fun k => w k * u k) (seq 0 n)).
Proof.
  induction n as [|n IH]; intros H.
  - cbn. unfold sumf; cbn. unfold integral, is_RInt_gen. intros P HP. unfold filtermapi. apply filter_forall. intros [a b].
    exists 0. split; [|apply locally_singleton, HP]. cbn [fst snd].
    pose proof (is_RInt_const (V := R_NormedModule) a b 0) as C. unfold scal in C; cbn in C; unfold mult in C; cbn in C.
    rewrite Rmult_0_r in C. exact C.
  - rewrite seq_S, sumf_app, Nat.add_0_l. cbn [sumf].
    apply (integral_ext (fun x => sumf (fun k => w k * f k x) (seq 0 n) + w n * f n x)).
    + intros x. rewrite sumf_app. unfold sumf at 3. cbn. ring.
    + unfold sumf at 2. cbn. rewrite Rplus_0_r. apply integral_plus; [apply IH; auto|apply integral_scal, H; lia].
Qed.
Theorem C41_mixture_density : forall K (w : nat -> R) (f : nat -> R -> R),
  (forall k, (k < K)%nat -> 0 <= w k) -> sumf w (seq 0 K) = 1 ->
  (forall k, (k < K)%nat -> (forall x, 0 <= f k x) /\ integral (f k) 1) ->
  let mix x := sumf (fun k => w k * f k x) (seq 0 K) in
  (forall x, 0 <= mix x) /\ integral mix 1 /\
  forall g v, mixture_average K w (fun k => expectation (f k)) g v -> expectation mix g v.
Proof.
  intros K w f Hw S Hf mix. split; [|split].
  - intros x. apply sumf_nonneg. intros k Hk. apply in_seq in Hk. apply Rmult_le_pos; [apply Hw|apply Hf]; lia.
  - assert (S' : sumf (fun k => w k * 1) (seq 0 K) = 1) by (transitivity (sumf w (seq 0 K)); [apply sumf_ext; intros; ring|exact S]).
    rewrite <- S' at 1. apply integral_sumf. intros; apply Hf; auto.
  - intros g v (u & Hu & ->). apply (integral_ext (fun x => sumf (fun k => w k * (f k x * g x)) (seq 0 K))).
    + intros x. unfold mix. rewrite <- sumf_scal_r. apply sumf_ext. intros; ring.
    + apply (integral_sumf w (fun k x => f k x * g x)). exact Hu.
Qed.
Print Assumptions C41_mixture_density.

(** A sample is the sample of the component with the drawn index. *)
Lemma one_hot_arr_at v s k i j : shp v = s -> wf v -> inb s i -> (j < k)%nat ->
  tget (Fin 0) (one_hot_arr v k) (i ++ [j]) = nth j (one_hot (tget (Fin 0) v i) k) (Fin 0).
Proof.
  intros Hs W Hi Hj. unfold one_hot_arr, tget. cbn [shp dat]. rewrite Hs. rewrite ravel_app by (apply inb_length, Hi). cbn [ravel prodl fold_right].
  pose proof (ravel_lt _ _ Hi) as Hr.
  assert (LL : forall x, length (one_hot x k) = k) by (intros x; unfold one_hot; rewrite map_length, seq_length; reflexivity).
  replace (ravel s i * (k * 1) + (j * 1 + 0))%nat with (ravel s i * k + j)%nat by lia.
  assert (Hl : (ravel s i < length (dat v))%nat) by (rewrite W, Hs; exact Hr).
  generalize dependent (ravel s i). intros r _ Hl. generalize dependent (dat v). intros l. revert r.
  induction l as [|a l IH]; intros r Hl; [cbn in Hl; lia|]. cbn [map concat]. destruct r as [|r].
  - cbn [nth]. rewrite app_nth1 by (rewrite LL; lia). f_equal.
  - rewrite app_nth2 by (rewrite LL; cbn; lia). rewrite LL. replace (S r * k + j - k)%nat with (r * k + j)%nat by (cbn; lia).
    cbn [nth]. apply IH. cbn in Hl; lia.
Qed.
Lemma select_finite (g : nat -> R) K k : (k < K)%nat ->
  xsum (map (fun j => xmul (Fin (g j)) (nth j (one_hot (Fin (INR k)) K) (Fin 0))) (seq 0 K)) = Fin (g k).
Proof.
  intros Hk. rewrite (xsum_ext _ (fun j => Fin (if Nat.eqb j k then g j else 0))).
  - rewrite xsum_map_fin. rewrite (sumf_seq_single _ K k Hk); [rewrite Nat.eqb_refl; reflexivity|].
    intros j _ Hj. destruct (Nat.eqb_spec j k); congruence.
  - intros j Hj. rewrite one_hot_indicator. unfold indicator.
    rewrite (nth_indep _ _ (if Nat.eqb 0 k then Fin 1 else Fin 0)) by (rewrite map_length, seq_length; auto).
    rewrite (map_nth (fun i => if Nat.eqb i k then Fin 1 else Fin 0)). rewrite seq_nth by auto. cbn [Nat.add].
    destruct (Nat.eqb j k); cbn; f_equal; ring.
Qed.
Theorem C41_sample : forall key split2 (mix : mixing key) comp bs K es c kk n ms sa (idx : list nat -> nat) (g : list nat -> nat -> list nat -> R),
  mixture_of mix comp bs K es -> msf_init mix comp = Ok c ->
  m_sample mix (fst (split2 kk)) n = Ok ms -> wf ms -> shp ms = (n :: bs) ->
  (forall i, inb (n :: bs) i -> tget (Fin 0) ms i = Fin (INR (idx i)) /\ (idx i < K)%nat) ->
  x_sample comp (snd (split2 kk)) n = Ok sa -> component_reals sa (n :: bs) K es g ->
  exists r, msf_sample_n split2 c kk n = Ok r /\ shp r = (n :: bs ++ es) /\ wf r /\
    forall i e, inb (n :: bs) i -> inb es e -> tget (Fin 0) r (i ++ e) = tget (Fin 0) sa (i ++ idx i :: e).
Proof.
  intros key split2 mix comp bs K es c kk n ms sa idx g M H Hm Wm Sm Him Hs Hg.
  destruct (init_ok mix comp bs K es c M H) as (Ec & He & _). destruct M as (_ & _ & Hx & _).
  unfold msf_sample_n. destruct (split2 kk) as [k1 k2]. cbn [fst snd] in *.
  replace (mx c) with mix by (subst c; reflexivity). replace (cp c) with comp by (subst c; reflexivity).
  rewrite Hm. cbn [rbind]. rewrite Hx, rev_app_distr. cbn [rev app]. rewrite Hs. cbn [rbind].
  assert (ER : ev_rank c = length es) by (apply ev_rank_eq; auto). rewrite ER.
  assert (SO : shp (one_hot_arr ms K) = ((n :: bs) ++ [K])%list) by (unfold one_hot_arr; cbn [shp]; rewrite Sm; reflexivity).
  rewrite (lift2_top xmul sa _ ((n :: bs) ++ K :: es)%list).
  2:{ rewrite (proj1 Hg). apply bshape_refl. }
  2:{ unfold add_ones. cbn [shp]. rewrite SO. apply add_ones_bshape. }
  2:{ left. apply Hg. }
  cbn [rbind].
  match goal with |- context [reduce_axis _ _ ?P] => destruct (reduce_axis_ok xsum (length es) P (n :: bs) K es eq_refl eq_refl) as (r & Er & Sr & Wr & Hr) end.
  exists r. split; [exact Er|]. split; [exact Sr|]. split; [exact Wr|]. intros i e Hi He'.
  rewrite (Hr i e Hi He'). destruct (Him i Hi) as [Ei Li].
  rewrite (xsum_ext _ (fun j => xmul (Fin (g i j e)) (nth j (one_hot (Fin (INR (idx i))) K) (Fin 0)))).
  - rewrite (select_finite (fun j => g i j e)) by auto. symmetry. apply Hg; auto.
  - intros j Hj. assert (Hin : inb ((n :: bs) ++ K :: es) (i ++ j :: e)) by (apply inb_mid; auto).
    rewrite tget_tgen by exact Hin. rewrite xget_self by (rewrite (proj1 Hg); exact Hin). rewrite (proj2 Hg) by auto.
    rewrite (xget_add_ones _ (n :: bs) K es) by auto. rewrite (one_hot_arr_at ms (n :: bs) K i j) by auto. rewrite Ei. reflexivity.
Qed.
Print Assumptions C41_sample.

(** *** A concrete mixture: [K] uniform components over one batch element. *)
Definition uniform_components (lows highs : list R) : xdist unit :=
  mkXdist [length lows] [] (fun x => lift3 uniform_log_prob x (tvec (map Fin lows)) (tvec (map Fin highs)))
    (fun _ n => Ok (tgen [n; length lows] (fun i => Fin (nth (nth 1 i 0%nat) lows 0))))
    (Ok (tvec (map (fun ab => Fin ((fst ab + snd ab) / 2)) (combine lows highs))))
    (Ok (tvec (map (fun ab => Fin ((snd ab - fst ab) ^ 2 / 12)) (combine lows highs)))).
Lemma uniform_prob_any v a b : a < b -> exists p, uniform_prob v (Fin a) (Fin b) = Fin p /\ 0 <= p.
Proof.
  intros H. unfold uniform_prob, uniform_range, xwhere. destruct (_ || _)%bool; [exists 0; split; [auto|lra]|].
  cbn. destruct (Req_EM_T (b + - a) 0); [lra|]. eexists. split; [reflexivity|].
  apply Rmult_le_pos; [lra|]. apply Rlt_le, Rinv_0_lt_compat. lra.
Qed.
Lemma uniform_log_prob_rlog v a b : a < b -> uniform_log_prob v (Fin a) (Fin b) = rlog (toR (uniform_prob v (Fin a) (Fin b))).
Proof. intros H. unfold uniform_log_prob. destruct (uniform_prob_any v a b H) as (p & -> & _). reflexivity. Qed.
Lemma tvec_at (l : list XR) k : (k < length l)%nat -> tget (Fin 0) (tvec l) [k] = nth k l (Fin 0).
Proof. intros H. unfold tget, tvec. cbn. f_equal. lia. Qed.
Lemma nth_fin l k : nth k (map Fin l) (Fin 0) = Fin (nth k l 0).
Proof. apply (map_nth Fin l 0 k). Qed.
Lemma uniform_has_densities d lows highs : length lows = length highs ->
  (forall x, x_log_prob d x = lift3 uniform_log_prob x (tvec (map Fin lows)) (tvec (map Fin highs))) ->
  (forall k, (k < length lows)%nat -> nth k lows 0 < nth k highs 0) ->
  @has_densities unit (fun _ => True) d [] (length lows) []
    (fun _ k v => if (k <? length lows)%nat then toR (uniform_prob (tget (Fin 0) v []) (Fin (nth k lows 0)) (Fin (nth k highs 0))) else 0).
Proof.
  intros HL HD Hlt. split.
  - intros b k v. destruct (Nat.ltb_spec k (length lows)); [|lra].
    destruct (uniform_prob_any (tget (Fin 0) v []) (nth k lows 0) (nth k highs 0)) as (p & -> & P); auto.
  - intros s x Wx _ Hx. cbn [app] in *. rewrite HD. set (K := length lows) in *.
    assert (B1 : bshape (shp x) (s ++ [K]) = Some (s ++ [K])%list).
    { rewrite Hx. apply bshape_app; [reflexivity|apply bshape_refl|apply (bshape_ones [K])]. }
    assert (SL : shp (tvec (map Fin lows)) = [K]) by (cbn; rewrite map_length; reflexivity).
    assert (SH : shp (tvec (map Fin highs)) = [K]) by (cbn; rewrite map_length, <- HL; reflexivity).
    assert (BL : bshape (shp (tvec (map Fin lows))) (s ++ [K]) = Some (s ++ [K])%list) by (rewrite SL; apply bshape_drop).
    assert (BH : bshape (shp (tvec (map Fin highs))) (s ++ [K]) = Some (s ++ [K])%list) by (rewrite SH; apply bshape_drop).
    assert (B23 : bshape (shp (tvec (map Fin lows))) (shp (tvec (map Fin highs))) = Some [K]) by (rewrite SL, SH; apply bshape_refl).
    assert (B4 : bshape (shp x) [K] = Some (s ++ [K])%list).
    { rewrite Hx. change [K] with ([] ++ [K])%list at 1. apply bshape_app; [reflexivity|rewrite bshape_comm; apply bshape_nil_l|apply (bshape_ones [K])]. }
    rewrite (lift3_ok _ x _ _ _ B23 _ B4). eexists. split; [reflexivity|]. split; [reflexivity|].
    intros i b k Hi Hb Hk. apply inb_nil_inv in Hb. subst b. cbn [app].
    assert (Hin : inb (s ++ [K]) (i ++ [k])) by (apply inb_app; auto; repeat constructor; auto).
    rewrite tget_tgen by exact Hin. rewrite (proj2 (Nat.ltb_lt _ _) Hk).
    assert (X1 : xget x (i ++ [k]) = tget (Fin 0) (event_at [] x (i ++ [0%nat])) []).
    { unfold event_at. rewrite tget_tgen by constructor. rewrite app_nil_r. unfold xget. rewrite Hx. rewrite bindex_app by reflexivity.
      rewrite bindex_refl by exact Hi. reflexivity. }
    assert (X2 : forall l, length l = K -> xget (tvec (map Fin l)) (i ++ [k]) = Fin (nth k l 0)).
    { intros l Hl. unfold xget. cbn [shp tvec]. rewrite map_length, Hl. change [K] with ([] ++ [K])%list. rewrite bindex_app by reflexivity.
      rewrite bindex_nil, bindex_refl by (repeat constructor; auto). cbn [app]. rewrite tvec_at by (rewrite map_length; lia). apply nth_fin. }
    rewrite X1, !X2 by auto. apply uniform_log_prob_rlog. apply Hlt; auto.
Qed.
Definition two_logits : tensor XR := tvec [Fin 0; NInf; Fin (ln 3)].
Example C41_nonvacuous : exists c,
  let mix := mkMixing [] two_logits (fun (_ : unit) n => Ok (tgen [n] (fun _ => Fin (INR 2)))) in
  let comp := uniform_components [0; 1; 2] [1; 2; 5] in
  mixture_of mix comp [] 3 [] /\ msf_init mix comp = Ok c /\ (exists f, has_densities (fun _ => True) comp [] 3 [] f) /\
  mixture_weight two_logits 3 [] 2 = 3 / 4 /\
  (exists means m, x_mean comp = Ok means /\ component_reals means [] 3 [] m) /\
  (exists vars v, x_variance comp = Ok vars /\ component_reals vars [] 3 [] v) /\
  (exists ms, m_sample mix tt 5 = Ok ms /\ wf ms /\ shp ms = [5%nat] /\ forall i, inb [5%nat] i -> tget (Fin 0) ms i = Fin (INR 2)) /\
  exists sa g, x_sample comp tt 5 = Ok sa /\ component_reals sa [5%nat] 3 [] g.
Proof.
  eexists. cbv zeta. split; [|split; [reflexivity|split; [|split; [|split; [|split; [|split]]]]]].
  - split; [|auto]. split; [reflexivity|]. intros b Hb. apply inb_nil_inv in Hb. subst b. split.
    + intros a Ha. destruct Ha as [<-|[<-|[<-|[]]]]; [right; exists 0; reflexivity|left; reflexivity|right; exists (ln 3); reflexivity].
    + exists 0. left. reflexivity.
  - eexists. apply (uniform_has_densities (uniform_components [0; 1; 2] [1; 2; 5]) [0; 1; 2] [1; 2; 5]); [reflexivity|reflexivity|].
    intros k Hk. destruct k as [|[|[|k]]]; cbn in *; try lra; lia.
  - unfold mixture_weight, logits_at. cbn. unfold tget; cbn. rewrite exp_0, exp_ln by lra. lra.
  - do 2 eexists. split; [reflexivity|]. split; [reflexivity|]. intros b k e Hb Hk He. apply inb_nil_inv in Hb. apply inb_nil_inv in He. subst. cbn [app].
    instantiate (1 := fun b k e => nth k [(0 + 1) / 2; (1 + 2) / 2; (2 + 5) / 2] 0). destruct k as [|[|[|k]]]; [reflexivity..|lia].
  - do 2 eexists. split; [reflexivity|]. split; [reflexivity|]. intros b k e Hb Hk He. apply inb_nil_inv in Hb. apply inb_nil_inv in He. subst. cbn [app].
    instantiate (1 := fun b k e => nth k [(1 - 0) ^ 2 / 12; (2 - 1) ^ 2 / 12; (5 - 2) ^ 2 / 12] 0). destruct k as [|[|[|k]]]; [reflexivity..|lia].
  - eexists. split; [reflexivity|]. split; [reflexivity|]. split; [reflexivity|]. intros i Hi. rewrite tget_tgen by exact Hi. reflexivity.
  - do 2 eexists. split; [reflexivity|]. split; [reflexivity|]. intros b k e Hb Hk He. apply inb_nil_inv in He. subst e.
    rewrite tget_tgen by (apply (inb_app [5%nat] [3%nat]); [exact Hb|]; apply inb_cons; split; [exact Hk|constructor]).
    instantiate (1 := fun b k e => nth k [0; 1; 2] 0). cbn. f_equal.
    pose proof (inb_length _ _ Hb) as L. destruct b as [|i [|? ?]]; try discriminate L. reflexivity.
Qed.

(** With an infinite sample in a component that was not drawn, the masked sum gives NaN, not the drawn sample. *)
Theorem C41_infinite_sample_refuted : exists (mix : mixing unit) comp c,
  msf_init mix comp = Ok c /\ m_sample mix tt 1 = Ok (tvec [Fin (INR 0)]) /\
  x_sample comp tt 1 = Ok (mkT [1; 2]%nat [Fin 7; PInf]) /\
  msf_sample_n (fun k => (k, k)) c tt 1 = Ok (tvec [NaN]).
Proof.
  exists (mkMixing [] (tvec [Fin 0; Fin 0]) (fun _ _ => Ok (tvec [Fin (INR 0)]))).
  exists (mkXdist [2%nat] [] (fun _ => Err ValueError) (fun _ _ => Ok (mkT [1; 2]%nat [Fin 7; PInf])) (Err ValueError) (Err ValueError)).
  eexists. split; [reflexivity|]. split; [reflexivity|]. split; [reflexivity|]. cbn.
  unfold reduce_axis, lift2, lift, one_hot_arr, tget, xget, tget; cbn. unfold tvec. cbn.
  destruct (Req_EM_T 0 0); [|lra]. destruct (Req_EM_T 0 1); [lra|]. unfold inf_times.
  destruct (Rlt_dec 0 0); [lra|]. unfold tgen, indices. cbn. destruct (Req_EM_T 0 0); [|lra]. reflexivity.
Qed.
Print Assumptions C41_infinite_sample_refuted.
(** The number of logits is not compared with the number of components: one logit with two Uniform(0,1) components is
    accepted, and the "density" is 2 on (0, 1), so its mass is 2. *)
Theorem C41_component_count_refuted : exists (mix : mixing unit) c,
  m_logits mix = tvec [Fin 0] /\ msf_init mix (uniform_components [0; 0] [1; 1]) = Ok c /\
  forall x, 0 <= x <= 1 -> msf_log_prob c (tscalar (Fin x)) = Ok (tscalar (rlog 2)).
Proof.
  exists (mkMixing [] (tvec [Fin 0]) (fun _ _ => Err ValueError)). eexists. split; [reflexivity|]. split; [reflexivity|].
  intros x Hx. cbn. unfold reduce_axis, lift2, lift3, lift, map_last, last_row, tget, xget, tget; cbn. unfold tscalar, tgen; cbn.
  assert (EU : uniform_log_prob (Fin x) (Fin 0) (Fin 1) = Fin 0).
  { unfold uniform_log_prob, uniform_prob, xwhere, uniform_range. rewrite !(proj2 (xltb_fin_f _ _)) by lra. cbn.
    destruct (Req_EM_T (1 + - 0) 0); [lra|]. cbn [xlog]. replace (1 / (1 + - 0)) with 1 by field. rewrite rlog_pos, ln_1 by lra. reflexivity. }
  rewrite EU. replace (0 + - 0) with 0 by ring. rewrite exp_0, Rplus_0_r, rlog_pos, ln_1 by lra. cbn. do 3 f_equal.
  unfold xlogsumexp. cbn. replace (0 + (0 + - 0)) with 0 by ring. rewrite exp_0. f_equal. ring.
Qed.
Print Assumptions C41_component_count_refuted.

(** ** C42 *)
Theorem C42_constructor : forall key rank_p p (a b : xdist key) dta dtb,
  (rank_p = 0%nat /\ x_event a = x_event b /\ x_batch a = x_batch b /\ dta = dtb /\
     exists c, mo2_init rank_p p a b dta dtb = Ok c /\ mo2_event_shape c = x_event a /\ mo2_batch_shape c = x_batch a /\
       prob_a c = p /\ comp_a c = a /\ comp_b c = b) \/
  ((rank_p <> 0%nat /\ mo2_init rank_p p a b dta dtb = Err AssertionError) \/
   ((x_event a <> x_event b \/ x_batch a <> x_batch b \/ dta <> dtb) /\ mo2_init rank_p p a b dta dtb = Err ValueError)).
Proof.
  intros key r p a b dta dtb. unfold mo2_init. destruct (Nat.eqb_spec r 0) as [Hr|Hr]; cbn [negb]; [|right; left; auto].
  destruct list_eq_dec; [|right; right; auto]. destruct list_eq_dec; [|right; right; auto].
  destruct (Nat.eqb_spec dta dtb); [|right; right; auto].
  left. repeat (split; [auto|]). eexists. split; [reflexivity|]. cbn. auto.
Qed.
Print Assumptions C42_constructor.
(** the two weights sum to one *)
Theorem C42_prob_b : forall key rank_p p (a b : xdist key) dta dtb c, mo2_init rank_p (Fin p) a b dta dtb = Ok c -> 0 <= p <= 1 ->
  exists q, mo2_prob_b c = Fin q /\ p + q = 1 /\ 0 <= q <= 1.
Proof.
  intros key rank_p p a b dta dtb c H Hp. unfold mo2_init in H. repeat match type of H with (if ?x then _ else _) = _ => destruct x; [|try discriminate] | (do _ <- ?m; _) = _ => destruct m; cbn [rbind] in H end; try discriminate.
  all: injection H as <-; exists (1 - p); unfold mo2_prob_b; cbn; split; [reflexivity|lra].
Qed.
(** exp(log_prob(x)) = p exp(lp_a(x)) + (1-p) exp(lp_b(x)), entry by entry. *)
Theorem C42_log_prob : forall key (a b : xdist key) p x la lb s (fa fb : list nat -> R),
  0 <= p <= 1 ->
  x_log_prob a x = Ok la -> x_log_prob b x = Ok lb -> shp la = s -> shp lb = s ->
  (forall i, inb s i -> 0 <= fa i /\ 0 <= fb i /\ tget (Fin 0) la i = rlog (fa i) /\ tget (Fin 0) lb i = rlog (fb i)) ->
  exists r, mo2_log_prob (mkMo2 (Fin p) a b) x = Ok r /\ shp r = s /\ wf r /\
    forall i, inb s i -> tget (Fin 0) r i = rlog (p * fa i + (1 - p) * fb i).
Proof.
  intros key a b p x la lb s fa fb Hp Ea Eb Sa Sb H. unfold mo2_log_prob. cbn [prob_a comp_a comp_b]. rewrite Ea, Eb. cbn [rbind].
  rewrite !lift1_ok. cbn [rbind]. rewrite (lift2_top _ _ _ s) by (cbn; rewrite ?Sa, ?Sb; auto using bshape_refl).
  eexists. split; [reflexivity|]. split; [reflexivity|]. split; [apply tgen_wf|]. intros i Hi. destruct (H i Hi) as (Pa & Pb & Va & Vb).
  rewrite tget_tgen by exact Hi. rewrite !xget_tgen_same by (rewrite ?Sa, ?Sb; exact Hi). rewrite !xget_self by (rewrite ?Sa, ?Sb; exact Hi).
  rewrite Va, Vb. unfold xlogaddexp. change (xlog (Fin p)) with (rlog p). cbn [xsub xadd xopp]. change (xlog (Fin (1 + - p))) with (rlog (1 + - p)).
  rewrite !xexp_rlog_add by lra. cbn [xadd]. reflexivity.
Qed.
Print Assumptions C42_log_prob.
(** Draw number i comes from a exactly when its uniform draw is below prob_a, otherwise from b. *)
Theorem C42_sample : forall key split4 uniform (a b : xdist key) p kk k0 ka kb km n sa sb s (u : nat -> R),
  split4 kk = (k0, ka, kb, km) ->
  x_sample a ka n = Ok sa -> x_sample b kb n = Ok sb -> shp sa = (n :: s) -> shp sb = (n :: s) ->
  uniform km n = map (fun i => Fin (u i)) (seq 0 n) ->
  exists r, mo2_sample_n split4 uniform (mkMo2 (Fin p) a b) kk n = Ok r /\ shp r = (n :: s) /\ wf r /\
    forall i e, (i < n)%nat -> inb s e ->
      (u i < p -> tget (Fin 0) r (i :: e) = tget (Fin 0) sa (i :: e)) /\
      (p <= u i -> tget (Fin 0) r (i :: e) = tget (Fin 0) sb (i :: e)).
Proof.
  intros key split4 uniform a b p kk k0 ka kb km n sa sb s u Ek Ea Eb Sa Sb Hu.
  unfold mo2_sample_n. rewrite Ek. cbn [prob_a comp_a comp_b]. rewrite Ea, Eb. cbn [rbind]. rewrite Hu, !map_map.
  unfold rank. rewrite Sa. cbn [length]. replace (S (length s) - 1)%nat with (length s) by lia.
  set (mask := mkT [n] _).
  assert (BM : bshape (shp (add_ones (length s) mask)) (n :: s) = Some (n :: s)).
  { unfold add_ones. cbn [shp mask]. apply (add_ones_bshape [] n s). }
  rewrite (lift3_top _ _ _ _ (n :: s)) by (rewrite ?Sa, ?Sb; auto using bshape_refl).
  eexists. split; [reflexivity|]. split; [reflexivity|]. split; [apply tgen_wf|]. intros i e Hi He.
  assert (Hin : inb (n :: s) (i :: e)) by (apply inb_cons; auto).
  rewrite tget_tgen by exact Hin. rewrite !(xget_self sa), !(xget_self sb) by (rewrite ?Sa, ?Sb; exact Hin).
  assert (X : xget (add_ones (length s) mask) (i :: e) = tget (Fin 0) mask ([] ++ [i])) by
    (apply (xget_add_ones mask [] n s [] i e); auto; constructor).
  rewrite X. clear X.
  assert (EM : tget (Fin 0) mask ([] ++ [i]) = if xltb (Fin (u i)) (Fin p) then Fin 1 else Fin 0).
  { unfold mask, tget. cbn [shp dat app ravel prodl fold_right]. replace (i * 1 + 0)%nat with i by lia.
    rewrite (nth_indep _ _ ((fun j => if xltb (Fin (u j)) (Fin p) then Fin 1 else Fin 0) 0%nat)) by (rewrite map_length, seq_length; auto).
    rewrite (map_nth (fun j => if xltb (Fin (u j)) (Fin p) then Fin 1 else Fin 0)). rewrite seq_nth by auto. reflexivity. }
  rewrite EM. split; intros Hup.
  - rewrite (proj2 (xltb_fin _ _)) by exact Hup. rewrite (proj2 (xeqb_fin 1 1)) by reflexivity. reflexivity.
  - rewrite (proj2 (xltb_fin_f _ _)) by exact Hup. destruct (xeqb (Fin 0) (Fin 1)) eqn:E; [apply xeqb_fin in E; lra|reflexivity].
Qed.
Print Assumptions C42_sample.
(** The mixture density integrates to one, and its averages are the weighted averages. *)
Theorem C42_mixture_density : forall p (fa fb : R -> R), 0 <= p <= 1 ->
  (forall x, 0 <= fa x) -> (forall x, 0 <= fb x) -> integral fa 1 -> integral fb 1 ->
  let mix x := p * fa x + (1 - p) * fb x in
  (forall x, 0 <= mix x) /\ integral mix 1 /\
  forall g u v, expectation fa g u -> expectation fb g v -> expectation mix g (p * u + (1 - p) * v).
Proof.
  intros p fa fb Hp Pa Pb Ia Ib mix. split; [|split].
  - intros x. unfold mix. specialize (Pa x). specialize (Pb x). pose proof (Rmult_le_pos p (fa x)). pose proof (Rmult_le_pos (1 - p) (fb x)). lra.
  - replace 1 with (p * 1 + (1 - p) * 1) at 1 by ring. apply integral_plus; apply integral_scal; auto.
  - intros g u v Hu Hv. apply (integral_ext (fun x => p * (fa x * g x) + (1 - p) * (fb x * g x))); [intros; unfold mix; ring|].
    apply integral_plus; apply integral_scal; auto.
Qed.
Print Assumptions C42_mixture_density.
Example C42_nonvacuous : exists (a b : xdist unit) x la lb (fa fb : list nat -> R),
  x_log_prob a x = Ok la /\ x_log_prob b x = Ok lb /\ shp la = [1%nat] /\ shp lb = [1%nat] /\
  forall i, inb [1%nat] i -> 0 <= fa i /\ 0 <= fb i /\ tget (Fin 0) la i = rlog (fa i) /\ tget (Fin 0) lb i = rlog (fb i).
Proof.
  exists (uniform_components [0] [2]), (uniform_components [1] [3]), (tvec [Fin (1/2)]). do 2 eexists.
  exists (fun _ => 1 / 2), (fun _ => 0). split; [reflexivity|]. split; [reflexivity|]. split; [reflexivity|]. split; [reflexivity|].
  intros i Hi. destruct i as [|j [|? ?]]; [inversion Hi| |inversion Hi; subst; match goal with H : List.Forall2 _ (_ :: _) [] |- _ => inversion H end].
  apply inb_cons in Hi as [Hj _]. assert (j = 0%nat) by lia. subst j. split; [lra|]. split; [lra|].
  split; unfold tget, xget, tget; cbn; unfold uniform_log_prob, uniform_prob, xwhere, uniform_range.
  - rewrite !(proj2 (xltb_fin_f _ _)) by lra. cbn. destruct (Req_EM_T (2 + - 0) 0); [lra|]. cbn [xlog]. apply f_equal. field.
  - rewrite (proj2 (xltb_fin _ _)) by lra. reflexivity.
Qed.
