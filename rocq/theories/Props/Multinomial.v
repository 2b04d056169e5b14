(** C56: the multinomial distribution. *)
From Coq Require Import Reals List ZArith Arith Bool Lia Lra.
From Verif Require Import Base.Result Base.Tensor Base.XR Base.Sums Model.MathUtils Model.MathMore Model.Categorical Model.Multinomial
  Spec.Categorical Spec.FiniteLaw Spec.Multinomial Proofs.MathUtils Proofs.Categorical Proofs.FiniteLaw Proofs.Multinomial Proofs.Compose Props.MathUtils.
Import ListNotations.
Local Open Scope R_scope.

(** ** Construction *)
Lemma multi_init_inv total logits probs dt d : multi_init total logits probs dt = Ok d ->
  exists c, cat_init logits probs dt = Ok c /\ d = mkMulti (as_dtype dt total) c.
Proof.
  unfold multi_init, cat_init. destruct logits as [l|], probs as [p|]; try discriminate.
  - destruct (Nat.ltb _ _); [discriminate|]. destruct dt; intros H; try discriminate; injection H as <-; eauto.
  - destruct (Nat.ltb _ _); [discriminate|]. destruct dt; intros H; try discriminate; injection H as <-; eauto.
Qed.
Lemma rtrunc_nat n : rtrunc (INR n) = INR n.
Proof. unfold rtrunc. destruct (Rle_dec 0 (INR n)) as [_|H]; [rewrite Int_part_INR, <- INR_IZR_INZ; reflexivity|]. exfalso. apply H, pos_INR. Qed.
Lemma as_dtype_nat dt n : as_dtype dt (Fin (INR n)) = Fin (INR n).
Proof. destruct dt; cbn; auto. rewrite rtrunc_nat. reflexivity. Qed.
Definition options_length (logits probs : option (list XR)) : nat :=
  match logits, probs with Some l, _ => length l | _, Some p => length p | _, _ => O end.
(** Exactly one of logits and probs, with at least two categories, and an integer or floating-point dtype. *)
Theorem C56_constructor total logits probs dt :
  (exists d, multi_init total logits probs dt = Ok d) <->
  ((logits = None <-> probs <> None) /\ (dt = DInt \/ dt = DFloat) /\ (2 <= options_length logits probs)%nat).
Proof.
  unfold multi_init, options_length. destruct logits as [l|], probs as [p|].
  - split; [intros [d H]; discriminate|]. intros [[_ H] _]. assert (Some l = None) by (apply H; discriminate). discriminate.
  - destruct (Nat.ltb_spec (length l) 2) as [Hl|Hl].
    + split; [intros [d H]; discriminate|intros (_ & _ & H); lia].
    + split; [|intros (_ & [-> | ->] & _); eauto]. intros [d H]. split; [split; [discriminate|congruence]|]. split; [|auto]. destruct dt; auto; discriminate.
  - destruct (Nat.ltb_spec (length p) 2) as [Hl|Hl].
    + split; [intros [d H]; discriminate|intros (_ & _ & H); lia].
    + split; [|intros (_ & [-> | ->] & _); eauto]. intros [d H]. split; [split; [discriminate|auto]|]. split; [|auto]. destruct dt; auto; discriminate.
  - split; [intros [d H]; discriminate|]. intros [[H _] _]. exfalso. apply H; auto.
Qed.
Section Valid.
(** a multinomial distribution over [length w] categories with weights [w], and [n] trials *)
Variables (logits probs : option (list XR)) (dt : dtype) (w : list R) (n : nat) (d : multinomial).
Hypothesis Hw : parametrises logits probs w.
Hypothesis Hd : multi_init (Fin (INR n)) logits probs dt = Ok d.
Let p := normalised w.
Let K := length w.
Lemma multi_rep : represents (mu_cat d) p /\ mu_total d = Fin (INR n) /\ length p = K.
Proof.
  destruct (multi_init_inv _ _ _ _ _ Hd) as (c & Hc & E). rewrite E. cbn [mu_cat mu_total]. rewrite as_dtype_nat.
  split; [apply (init_represents _ _ _ _ _ Hw Hc)|]. split; [auto|]. unfold p, normalised. apply map_length.
Qed.
Lemma multi_pmf : is_pmf p. Proof. apply multi_rep. Qed.
Lemma multi_logits_eq : multi_logits d = map rlog p. Proof. apply rep_logits, multi_rep. Qed.
Lemma multi_probs_eq : multi_probs d = map Fin p. Proof. apply rep_probs, multi_rep. Qed.

(** ** Samples *)
Lemma count_app j l m : count j (l ++ m) = (count j l + count j m)%nat.
Proof. unfold count. rewrite filter_app, app_length. reflexivity. Qed.
Lemma add_one_hot (l : list Z) i k0 : k0 = K -> map2 xadd (natvec (counts k0 l)) (one_hot (Fin (INR i)) k0) = natvec (counts k0 (l ++ [Z.of_nat i])).
Proof.
  intros _. unfold natvec, counts, one_hot. rewrite !map_map. generalize (seq 0 k0). intros s. induction s as [|j s IH]; [reflexivity|].
  cbn [map map2]. rewrite IH. f_equal. rewrite count_app. replace (count j [Z.of_nat i]) with (if Nat.eqb i j then 1 else 0)%nat
    by (rewrite (count_cons j i []); unfold count; cbn; destruct (Nat.eqb i j); reflexivity).
  rewrite plus_INR. destruct (xeqb (Fin (INR i)) (Fin (INR j))) eqn:E.
  - apply xeqb_fin in E. apply INR_eq in E. subst. rewrite Nat.eqb_refl. reflexivity.
  - destruct (Nat.eqb_spec i j) as [->|]; [|cbn; f_equal; ring]. assert (xeqb (Fin (INR j)) (Fin (INR j)) = true) by (apply xeqb_fin; auto). congruence.
Qed.
Lemma sample_loop (gumbel : nat -> list XR) (c : categorical) x m fuel : length (cat_logits c) = K -> (forall i, INR i < x <-> (i < m)%nat) -> (m <= fuel)%nat ->
  multi_sample gumbel (mkMulti (Fin x) c) fuel =
  Some (natvec (counts K (map (fun i => Z.of_nat (random_categorical (gumbel i) (cat_logits c))) (seq 0 m)))).
Proof.
  intros HK Hx Hf. unfold multi_sample, multi_logits. cbn [mu_cat mu_total]. rewrite HK.
  set (cond := fun s : nat * list XR => _). set (body := fun s : nat * list XR => _).
  assert (G : forall r i fuel, (i + r = m)%nat -> (r <= fuel)%nat ->
    while_loop cond body fuel (i, natvec (counts K (map (fun i => Z.of_nat (random_categorical (gumbel i) (cat_logits c))) (seq 0 i)))) =
    Some (m, natvec (counts K (map (fun i => Z.of_nat (random_categorical (gumbel i) (cat_logits c))) (seq 0 m))))).
  { induction r as [|r IH]; intros i f Hi Hr.
    - assert (i = m) by lia. subst i. assert (E : cond (m, natvec (counts K (map (fun i => Z.of_nat (random_categorical (gumbel i) (cat_logits c))) (seq 0 m)))) = false).
      { unfold cond. cbn [fst]. destruct (xltb (Fin (INR m)) (Fin x)) eqn:E; [|auto]. apply xltb_fin in E. apply Hx in E. lia. }
      destruct f; cbn [while_loop]; rewrite E; reflexivity.
    - destruct f as [|f]; [lia|]. cbn [while_loop].
      assert (E : cond (i, natvec (counts K (map (fun i => Z.of_nat (random_categorical (gumbel i) (cat_logits c))) (seq 0 i)))) = true).
      { unfold cond. cbn [fst]. apply xltb_fin, Hx. lia. }
      rewrite E. unfold body at 2. cbn [fst snd]. rewrite add_one_hot by auto. rewrite <- (IH (S i) f) by lia. f_equal. f_equal.
      rewrite seq_S, map_app. reflexivity. }
  specialize (G m O fuel ltac:(lia) Hf). cbn [seq map] in G.
  replace (natvec (counts K [])) with (repeat (Fin 0) K) in G; [rewrite G; reflexivity|].
  unfold natvec, counts, count. rewrite map_map. cbn [filter length INR]. clear. generalize 0%nat. induction K; intros s; [reflexivity|]. cbn. f_equal. apply IHn.
Qed.
(** Whatever the random draws, a sample is the vector of counts of the [n] categories drawn, each of them the argmax of
    the Gumbel noise plus the log probabilities and of positive probability. *)
Theorem C56_sample (g : nat -> list R) (fuel : nat) : (forall i, (i < n)%nat -> length (g i) = K) -> (n <= fuel)%nat ->
  exists ks : list nat, length ks = n /\
    (forall i k, nth_error ks i = Some k -> (k < K)%nat /\ 0 < nth k p 0 /\
       forall j, (j < K)%nat -> 0 < nth j p 0 -> nth j (g i) 0 + ln (nth j p 0) <= nth k (g i) 0 + ln (nth k p 0)) /\
    multi_sample (fun i => map Fin (g i)) d fuel = Some (natvec (counts K (map Z.of_nat ks))) /\
    count_vector n K (counts K (map Z.of_nat ks)) /\
    forall j, (j < K)%nat -> nth j p 0 = 0 -> nth j (counts K (map Z.of_nat ks)) O = O.
Proof.
  intros Hg Hf. destruct multi_rep as (HR & Ht & HK). destruct d as [t c]. cbn [mu_cat mu_total] in *. subst t.
  set (sel := fun i => random_categorical (map Fin (g i)) (cat_logits c)).
  assert (Hsel : forall i, (i < n)%nat -> (sel i < K)%nat /\ 0 < nth (sel i) p 0 /\
    forall j, (j < K)%nat -> 0 < nth j p 0 -> nth j (g i) 0 + ln (nth j p 0) <= nth (sel i) (g i) 0 + ln (nth (sel i) p 0)).
  { intros i Hi. destruct (rep_draw c p HR (g i)) as (k & <- & H); [rewrite HK; auto|]. rewrite HK in H. exact H. }
  exists (map sel (seq 0 n)). split; [rewrite map_length, seq_length; auto|]. split; [|split; [|split]].
  - intros i k E. assert (Hi : (i < n)%nat) by (assert (i < length (map sel (seq 0 n)))%nat by (apply nth_error_Some; congruence); rewrite map_length, seq_length in *; auto).
    rewrite (nth_error_nth' _ (sel O)) in E by (rewrite map_length, seq_length; auto). injection E as <-. rewrite (map_nth sel), seq_nth by auto. apply Hsel; auto.
  - rewrite (sample_loop _ c (INR n) n); auto.
    + rewrite map_map. reflexivity.
    + rewrite (rep_logits c p HR), map_length. auto.
    + intros i. split; [apply INR_lt|apply lt_INR].
  - split; [apply counts_length|]. change (nsum (counts K (map Z.of_nat (map sel (seq 0 n)))) = n). rewrite counts_sum.
    + rewrite !map_length, seq_length. auto.
    + intros z Hz. apply in_map_iff in Hz as (k & <- & Hk). apply in_map_iff in Hk as (i & <- & Hi). apply in_seq in Hi. destruct (Hsel i ltac:(lia)) as [H _]. lia.
  - intros j Hj Hz. rewrite counts_nth by auto. unfold count. destruct (filter _ _) as [|z l] eqn:E; [reflexivity|exfalso].
    assert (Hin : In z (filter (Z.eqb (Z.of_nat j)) (map Z.of_nat (map sel (seq 0 n))))) by (rewrite E; left; auto).
    apply filter_In in Hin as [Hin Ez]. apply Z.eqb_eq in Ez. apply in_map_iff in Hin as (k & Ek & Hk). apply in_map_iff in Hk as (i & Ei & Hi).
    apply in_seq in Hi. destruct (Hsel i ltac:(lia)) as (_ & H & _). rewrite Ei in H. assert (k = j) by lia. subst. lra.
Qed.
(** The counts of [n] independent categorical draws have the multinomial law ... *)
Theorem C56_law (k : list nat) : count_vector n K k ->
  chance (fun l => if list_eq_dec Nat.eq_dec (counts K l) k then true else false) (iid n (categorical_law p)) = multinomial_pmf n p k.
Proof.
  intros [H1 H2]. destruct multi_rep as (HR & _ & HK). rewrite <- HK. apply chance_counts; [apply HR|lia|exact H2].
Qed.
(** ... whose masses sum to one over all count vectors (of which there is a finite list). *)
Theorem C56_normalised : (exists L, enumerates L n K) /\ forall L, enumerates L n K -> sumf (multinomial_pmf n p) L = 1.
Proof.
  destruct multi_rep as (HR & _ & HK). split; [exists (compositions n K); apply compositions_enumerate|]. intros L HL. rewrite <- HK in HL.
  pose proof (expect_counts p (proj2 HR) n L (fun _ => 1) HL) as E. cbv beta in E. rewrite expect_const in E by (apply draws_law, HR).
  rewrite E. apply sumf_ext. intros; ring.
Qed.

(** ** log_prob *)
Variable lgamma : XR -> XR.
Hypothesis Hlg : lgamma_at_integers lgamma.
Lemma lgamma_plus1 c : lgamma (xadd (Fin (INR c)) (Fin 1)) = Fin (ln (INR (fact c))).
Proof. cbn [xadd]. rewrite <- S_INR. apply Hlg. Qed.
Lemma mul_rlog a c : 0 <= a -> multiply_no_nan (rlog a) (Fin (INR c)) = rlog (a ^ c).
Proof.
  intros Ha. unfold multiply_no_nan. destruct c as [|c].
  - cbn [INR pow]. assert (xeqb (Fin 0) (Fin 0) = true) as -> by (apply xeqb_fin; auto). rewrite rlog_pos, ln_1 by lra. reflexivity.
  - pose proof (lt_0_INR (S c) ltac:(lia)) as Hc. destruct (xeqb (Fin (INR (S c))) (Fin 0)) eqn:E; [apply xeqb_fin in E; lra|].
    destruct Ha as [Ha|<-].
    + rewrite !rlog_pos by (auto; apply pow_lt; auto). cbn [xmul]. rewrite ln_pow by auto. f_equal. ring.
    + replace (0 ^ S c) with 0 by (cbn; ring). rewrite rlog_0. cbn [xmul]. unfold inf_times.
      destruct (Rlt_dec 0 (- INR (S c))); [lra|]. destruct (Rlt_dec (- INR (S c)) 0); [reflexivity|lra].
Qed.
(** for any non-negative integer vector, whatever its sum *)
Lemma log_prob_formula (k : list nat) : length k = K -> multi_log_prob lgamma d (natvec k) = rlog (multinomial_pmf n p k).
Proof.
  intros Hk. destruct multi_rep as (HR & Ht & HK). unfold multi_log_prob. rewrite multi_logits_eq, Ht, lgamma_plus1.
  unfold natvec at 1. rewrite map_map. rewrite (map_ext _ (fun c => Fin (ln (INR (fact c))))) by (intros; apply lgamma_plus1).
  rewrite xsum_map_fin. cbn [xsub xopp xadd].
  assert (E : map2 multiply_no_nan (map rlog p) (natvec k) = map (fun i => rlog (nth i p 0 ^ nth i k O)) (seq 0 K)).
  { apply (nth_ext _ _ NaN NaN).
    - rewrite map2_length, !map_length, seq_length; [auto|]. unfold natvec. rewrite !map_length. lia.
    - intros i Hi. rewrite map2_length, map_length in Hi by (unfold natvec; rewrite !map_length; lia).
      rewrite (map2_nth _ _ _ _ NaN NaN) by (unfold natvec; rewrite !map_length; lia).
      rewrite (nth_indep (map (fun i => rlog (nth i p 0 ^ nth i k O)) _) NaN ((fun i => rlog (nth i p 0 ^ nth i k O)) O)) by (rewrite map_length, seq_length; lia).
      rewrite (map_nth (fun i => rlog (nth i p 0 ^ nth i k O))), seq_nth by lia.
      rewrite (nth_indep _ NaN (rlog 0)) by (rewrite map_length; auto). rewrite (map_nth rlog).
      unfold natvec. rewrite (nth_indep _ NaN (Fin (INR O))) by (rewrite map_length; lia). rewrite (map_nth (fun c => Fin (INR c))).
      apply mul_rlog, p_nonneg, HR. }
  rewrite E, xsum_rlog by (intros; apply pow_le, p_nonneg, HR).
  unfold multinomial_pmf. rewrite HK.
  assert (ES : sumf (fun a => ln (INR (fact a))) k = ln (prodf (fun i => INR (fact (nth i k O))) (seq 0 K))).
  { unfold prodf. rewrite ln_rprod; [|intros x Hx; apply in_map_iff in Hx as (i & <- & _); apply fact_pos]. rewrite map_map. rewrite <- Hk. clear.
    change (sumf (fun a => ln (INR (fact a))) k = sumf (fun i => ln (INR (fact (nth i k O)))) (seq 0 (length k))).
    induction k as [|c k IH]; [reflexivity|]. cbn [length seq]. rewrite !sumf_cons, sumf_seq_shift. cbn [nth]. rewrite IH. reflexivity. }
  rewrite ES. assert (HA : 0 < prodf (fun i => INR (fact (nth i k O))) (seq 0 K)) by (apply prodf_pos; intros; apply fact_pos).
  rewrite <- rlog_mult; [|apply Rlt_le, Rdiv_lt_0_compat; [apply fact_pos|auto]|apply prodf_nonneg; intros; apply pow_le, p_nonneg, HR].
  rewrite (rlog_pos (INR (fact n) / _)) by (apply Rdiv_lt_0_compat; [apply fact_pos|auto]).
  unfold Rdiv. rewrite ln_mult, ln_Rinv; [reflexivity|auto|apply fact_pos|apply Rinv_0_lt_compat; auto].
Qed.
(** On count vectors log_prob is the log of the mass (-inf when it is zero). *)
Theorem C56_log_prob_partial (k : list nat) : count_vector n K k -> multi_log_prob lgamma d (natvec k) = rlog (multinomial_pmf n p k).
Proof. intros [H _]. apply log_prob_formula; auto. Qed.
(** The sum of the counts is not checked: any vector of non-negative integers supported on the possible categories gets
    positive probability, whatever its sum. *)
Theorem C56_log_prob_refuted (k : list nat) : length k = K -> (forall j, nth j p 0 = 0 -> nth j k O = O) -> fold_right plus O k <> n ->
  exists x, multi_log_prob lgamma d (natvec k) = Fin x /\
    chance (fun l => if list_eq_dec Nat.eq_dec (counts K l) k then true else false) (iid n (categorical_law p)) = 0.
Proof.
  intros Hk Hz Hs. destruct multi_rep as (HR & Ht & HK). rewrite log_prob_formula by auto. rewrite rlog_pos; [eexists; split; [reflexivity|]|].
  - unfold chance. rewrite (expect_ext _ (fun _ => 0)); [apply expect_const, draws_law, HR|].
    intros l u Hin. destruct (draws_in p n l u Hin) as [Hl Hr]. destruct (list_eq_dec _ _ _) as [E|]; [|auto]. exfalso. apply Hs.
    rewrite <- E. change (nsum (counts K l) = n). rewrite counts_sum; [auto|]. rewrite <- HK. auto.
  - unfold multinomial_pmf. apply Rmult_lt_0_compat; [apply Rdiv_lt_0_compat; [apply fact_pos|apply prodf_pos; intros; apply fact_pos]|].
    apply prodf_pos. intros j _. destruct (p_nonneg p (proj2 HR) j) as [Hj|Hj]; [apply pow_lt; auto|]. rewrite (Hz j) by auto. cbn. lra.
Qed.
(** A negative count is impossible (when every category is possible). *)
Theorem C56_log_prob_negative (v : list Z) : length v = K -> (forall j, (j < K)%nat -> 0 < nth j p 0) -> (exists z, In z v /\ (z < 0)%Z) ->
  multi_log_prob lgamma d (map (fun z => Fin (IZR z)) v) = NInf.
Proof.
  intros Hv Hpos (z & Hz & Hneg). destruct multi_rep as (HR & Ht & HK). unfold multi_log_prob. rewrite multi_logits_eq, Ht, lgamma_plus1, map_map.
  assert (EZ : forall z, lgamma (xadd (Fin (IZR z)) (Fin 1)) = if Z.ltb z 0 then PInf else Fin (ln (INR (fact (Z.to_nat z))))).
  { intros y. destruct (Z.ltb_spec y 0).
    - cbn [xadd]. replace (IZR y + 1) with (- INR (Z.to_nat (- y - 1))); [apply Hlg|]. rewrite INR_IZR_INZ, Z2Nat.id by lia.
      rewrite minus_IZR, opp_IZR. ring.
    - rewrite <- (Z2Nat.id y) at 1 by auto. rewrite <- INR_IZR_INZ. apply lgamma_plus1. }
  rewrite (map_ext _ _ EZ). rewrite xsum_pinf.
  - cbn [xsub xopp xadd].
    assert (E : map2 multiply_no_nan (map rlog p) (map (fun z => Fin (IZR z)) v) = map (fun i => Fin (ln (nth i p 0) * IZR (nth i v 0%Z))) (seq 0 K)).
    { apply (nth_ext _ _ NaN NaN).
      - rewrite map2_length, !map_length, seq_length; [auto|]. rewrite !map_length. lia.
      - intros i Hi. rewrite map2_length, map_length in Hi by (rewrite !map_length; lia).
        rewrite (map2_nth _ _ _ _ NaN NaN) by (rewrite !map_length; lia). set (F := fun i => Fin (ln (nth i p 0) * IZR (nth i v 0%Z))).
        rewrite (nth_indep (map F _) NaN (F O)) by (rewrite map_length, seq_length; lia). rewrite (map_nth F), seq_nth by lia. unfold F.
        rewrite (nth_indep _ NaN (rlog 0)) by (rewrite map_length; auto). rewrite (map_nth rlog).
        rewrite (nth_indep _ NaN (Fin (IZR 0))) by (rewrite map_length; lia). rewrite (map_nth (fun z => Fin (IZR z))).
        rewrite rlog_pos by (apply Hpos; lia). unfold multiply_no_nan. destruct (xeqb _ _) eqn:E; [|reflexivity]. apply xeqb_fin in E. cbn [Nat.add]. rewrite E. f_equal. ring. }
    rewrite E, xsum_map_fin. reflexivity.
  - intros a Ha. apply in_map_iff in Ha as (y & <- & _). destruct (Z.ltb y 0); eauto.
  - apply in_map_iff. exists z. split; [|auto]. apply Z.ltb_lt in Hneg. rewrite Hneg. reflexivity.
Qed.

(** ** Moments *)
Let mu (j : nat) : R := expect (fun l => INR (count j l)) (iid n (categorical_law p)).
Let cov (i j : nat) : R := expect (fun l => (INR (count i l) - mu i) * (INR (count j l) - mu j)) (iid n (categorical_law p)).
Lemma mu_eq j : (j < K)%nat -> mu j = INR n * nth j p 0.
Proof. intros Hj. destruct multi_rep as (HR & _ & HK). apply mean_count; [apply HR|rewrite HK; auto]. Qed.
Lemma cov_eq i j : (i < K)%nat -> (j < K)%nat -> cov i j = INR n * (nth i p 0 * delta i j - nth i p 0 * nth j p 0).
Proof.
  intros Hi Hj. destruct multi_rep as (HR & _ & HK). unfold cov.
  rewrite (expect_ext _ (fun l => INR (count i l) * INR (count j l) - (mu j * INR (count i l) + (mu i * INR (count j l) - mu i * mu j)))) by (intros; ring).
  rewrite expect_minus, expect_plus, expect_minus, !expect_scal, expect_const by apply draws_law, HR.
  fold (mu i) (mu j). rewrite second_moment by (try apply HR; rewrite HK; auto). rewrite !mu_eq by auto. ring.
Qed.
(** mean, variance and covariance are those of the multinomial law. *)
Theorem C56_moments i j : (i < K)%nat -> (j < K)%nat ->
  nth_error (multi_mean d) i = Some (Fin (mu i)) /\
  nth_error (multi_variance d) i = Some (Fin (cov i i)) /\
  exists row, nth_error (multi_covariance d) i = Some row /\ nth_error row j = Some (Fin (cov i j)).
Proof.
  intros Hi Hj. destruct multi_rep as (HR & Ht & HK).
  assert (Hn : forall {X} (f : XR -> X) k, (k < K)%nat -> nth_error (map f (map Fin p)) k = Some (f (Fin (nth k p 0)))).
  { intros X f k Hk. rewrite map_map. rewrite (nth_error_nth' _ (f (Fin 0))) by (rewrite map_length; lia). rewrite (map_nth (fun x => f (Fin x))). reflexivity. }
  unfold multi_mean, multi_variance, multi_covariance. rewrite multi_probs_eq, Ht.
  split; [rewrite Hn by auto; rewrite mu_eq by auto; reflexivity|]. split.
  - rewrite Hn by auto. rewrite cov_eq by auto. unfold delta. rewrite Nat.eqb_refl. cbn. do 2 f_equal. ring.
  - assert (Hs : forall {X} (f : nat -> X) k, (k < K)%nat -> nth_error (map f (seq 0 (length (map Fin p)))) k = Some (f k)).
    { intros X f k Hk. rewrite (nth_error_nth' _ (f O)) by (rewrite map_length, seq_length, map_length; lia). rewrite (map_nth f), seq_nth by (rewrite map_length; lia). reflexivity. }
    assert (HP : forall k, (k < K)%nat -> nth k (map Fin p) NaN = Fin (nth k p 0)).
    { intros k Hk. rewrite (nth_indep _ NaN (Fin 0)) by (rewrite map_length; lia). apply (map_nth Fin). }
    rewrite Hs by auto. eexists. split; [reflexivity|]. rewrite Hs by auto. rewrite !HP by auto. rewrite cov_eq by auto. unfold delta.
    destruct (Nat.eqb i j); cbn; do 2 f_equal; ring.
Qed.
(** The covariance matrix is symmetric, with rows summing to zero and the variances on the diagonal. *)
Theorem C56_covariance : (forall i j, (i < K)%nat -> (j < K)%nat -> nth j (nth i (multi_covariance d) []) NaN = nth i (nth j (multi_covariance d) []) NaN) /\
  (forall row, In row (multi_covariance d) -> xsum row = Fin 0) /\
  (forall i, (i < K)%nat -> nth i (nth i (multi_covariance d) []) NaN = nth i (multi_variance d) NaN).
Proof.
  destruct multi_rep as (HR & Ht & HK).
  assert (E : forall i j, (i < K)%nat -> (j < K)%nat -> nth j (nth i (multi_covariance d) []) NaN = Fin (cov i j)).
  { intros i j Hi Hj. destruct (C56_moments i j Hi Hj) as (_ & _ & row & E1 & E2). rewrite (nth_error_nth _ _ _ E1). apply (nth_error_nth _ _ _ E2). }
  split; [|split].
  - intros i j Hi Hj. rewrite !E by auto. f_equal. unfold cov. apply expect_ext. intros; ring.
  - intros row Hrow. apply In_nth with (d := []) in Hrow as (i & Hi & <-).
    assert (HL : length (multi_covariance d) = K) by (unfold multi_covariance; rewrite map_length, seq_length, multi_probs_eq, map_length; auto). rewrite HL in Hi.
    assert (ER : nth i (multi_covariance d) [] = map (fun j => Fin (cov i j)) (seq 0 K)).
    { apply (nth_ext _ _ NaN NaN).
      - destruct (C56_moments i i Hi Hi) as (_ & _ & row & E1 & _). rewrite (nth_error_nth _ _ _ E1). apply nth_error_In in E1.
        unfold multi_covariance in E1. apply in_map_iff in E1 as (i' & <- & _). rewrite !map_length, !seq_length, multi_probs_eq, map_length. auto.
      - intros j Hj. assert (HjK : (j < K)%nat).
        { revert Hj. destruct (C56_moments i i Hi Hi) as (_ & _ & row & E1 & _). rewrite (nth_error_nth _ _ _ E1). apply nth_error_In in E1.
          unfold multi_covariance in E1. apply in_map_iff in E1 as (i' & <- & _). rewrite !map_length, !seq_length, multi_probs_eq, map_length. lia. }
        rewrite E by auto. set (F := fun j => Fin (cov i j)). rewrite (nth_indep _ NaN (F O)) by (rewrite map_length, seq_length; auto).
        rewrite (map_nth F), seq_nth by auto. reflexivity. }
    rewrite ER, xsum_map_fin. f_equal. rewrite (sumf_ext _ (fun j => INR n * (nth i p 0 * delta i j) - INR n * nth i p 0 * nth j p 0)).
    + rewrite sumf_minus, !sumf_scal. rewrite (sumf_seq_single (delta i) K i Hi).
      * unfold delta. rewrite Nat.eqb_refl, <- HK, sumf_nth, (proj2 (proj2 HR)). ring.
      * intros j _ Hn. unfold delta. destruct (Nat.eqb_spec i j); [congruence|auto].
    + intros j Hj. apply in_seq in Hj. rewrite cov_eq by lia. ring.
  - intros i Hi. rewrite E by auto. destruct (C56_moments i i Hi Hi) as (_ & E1 & _). symmetry. apply (nth_error_nth _ _ _ E1).
Qed.

(** ** Entropy *)
Lemma C_integer m : forall x, (x <= m)%nat -> exists c : nat, Binomial.C m x = INR c.
Proof.
  induction m as [|m IH]; intros x Hx.
  - assert (x = O) by lia. subst. exists 1%nat. unfold Binomial.C. cbn. field.
  - destruct x as [|x].
    + exists 1%nat. unfold Binomial.C. rewrite Nat.sub_0_r. change (INR (fact 0)) with 1. cbn [INR]. field. apply INR_fact_neq_0.
    + destruct (Nat.eq_dec x m) as [->|Hne].
      * exists 1%nat. unfold Binomial.C. rewrite Nat.sub_diag. change (INR (fact 0)) with 1. cbn [INR]. field. apply INR_fact_neq_0.
      * destruct (IH x ltac:(lia)) as [a Ha]. destruct (IH (S x) ltac:(lia)) as [b Hb]. exists (a + b)%nat. rewrite plus_INR, <- Ha, <- Hb. symmetry. apply pascal. lia.
Qed.
Lemma rround_nat c : rround (INR c) = INR c.
Proof. unfold rround. rewrite Int_part_INR, <- INR_IZR_INZ. destruct (Rlt_dec (INR c - INR c) (1 / 2)); lra. Qed.
Lemma comb_eq x : (x <= n)%nat ->
  xround (xexp (xsub (xsub (Fin (ln (INR (fact n)))) (Fin (ln (INR (fact x))))) (Fin (ln (INR (fact (n - x))))))) = Fin (Binomial.C n x).
Proof.
  intros Hx. cbn [xsub xopp xadd xexp xround]. f_equal.
  replace (exp (ln (INR (fact n)) + - ln (INR (fact x)) + - ln (INR (fact (n - x))))) with (Binomial.C n x).
  - destruct (C_integer n x Hx) as [c ->]. apply rround_nat.
  - rewrite !exp_plus, !exp_Ropp, !exp_ln by apply fact_pos. unfold Binomial.C. field. split; apply INR_fact_neq_0.
Qed.
Lemma lgamma_diff x : (x <= n)%nat -> lgamma (xadd (xsub (Fin (INR n)) (Fin (INR x))) (Fin 1)) = Fin (ln (INR (fact (n - x)))).
Proof. intros Hx. rewrite <- lgamma_plus1. f_equal. cbn. f_equal. rewrite minus_INR by auto. ring. Qed.
Let lik (x : nat) (q : R) : R := q ^ x * (1 - q) ^ (n - x).
Lemma power_nat (a : R) x : power_no_nan (Fin a) (Fin (INR x)) = Fin (a ^ x). Proof. apply C65_power_no_nan. Qed.
Lemma power_diff (q : R) x : (x <= n)%nat -> power_no_nan (xsub (Fin 1) (Fin q)) (xsub (Fin (INR n)) (Fin (INR x))) = Fin ((1 - q) ^ (n - x)).
Proof.
  intros Hx. rewrite <- power_nat. cbn [xsub xopp xadd]. replace (INR n + - INR x) with (INR (n - x)) by (rewrite minus_INR by auto; ring).
  replace (1 + - q) with (1 - q) by ring. reflexivity.
Qed.
Let term (x : nat) (q : R) : R := Binomial.C n x * ln (INR (fact x)) * lik x q.
Lemma body_eq x (acc : R -> R) : (x <= n)%nat ->
  entropy_body lgamma (Fin (ln (INR (fact n)))) (Fin (INR n)) (map Fin p) (x, map (fun q => Fin (acc q)) p) = (S x, map (fun q => Fin (acc q + term x q)) p).
Proof.
  intros Hx. unfold entropy_body. cbn [fst snd]. f_equal. rewrite !lgamma_plus1, lgamma_diff, comb_eq by auto. rewrite !map_map.
  induction p as [|q l IH]; [reflexivity|]. cbn [map map2]. f_equal; [|exact IH]. rewrite power_nat, power_diff by auto. reflexivity.
Qed.
Lemma entropy_loop fuel : (S n <= fuel)%nat ->
  while_loop (fun s : nat * list XR => xleb (Fin (INR (fst s))) (Fin (INR n))) (entropy_body lgamma (Fin (ln (INR (fact n)))) (Fin (INR n)) (map Fin p)) fuel
    (O, map (fun _ => Fin 0) (map Fin p)) = Some (S n, map (fun q => Fin (sumf (fun x => term x q) (seq 0 (S n)))) p).
Proof.
  intros Hf. assert (G : forall r x fuel, (x + r = S n)%nat -> (r <= fuel)%nat ->
    while_loop (fun s : nat * list XR => xleb (Fin (INR (fst s))) (Fin (INR n))) (entropy_body lgamma (Fin (ln (INR (fact n)))) (Fin (INR n)) (map Fin p)) fuel
      (x, map (fun q => Fin (sumf (fun x => term x q) (seq 0 x))) p) = Some (S n, map (fun q => Fin (sumf (fun x => term x q) (seq 0 (S n)))) p)).
  { induction r as [|r IH]; intros x f Hx Hr.
    - assert (x = S n) by lia. subst x. assert (E : xleb (Fin (INR (S n))) (Fin (INR n)) = false).
      { destruct (xleb _ _) eqn:E; [|auto]. apply xleb_fin in E. apply INR_le in E. lia. }
      destruct f; cbn [while_loop fst]; rewrite E; reflexivity.
    - destruct f as [|f]; [lia|]. cbn [while_loop fst]. assert (E : xleb (Fin (INR x)) (Fin (INR n)) = true) by (apply xleb_fin, le_INR; lia).
      rewrite E, body_eq by lia. rewrite <- (IH (S x) f) by lia. f_equal. f_equal. apply map_ext. intros q. f_equal.
      rewrite seq_S, sumf_app. unfold sumf at 3. cbn. ring. }
  rewrite map_map. apply (G (S n) O fuel); lia.
Qed.
Lemma nprobs_eq : xsum (map (fun x => xmul (Fin (INR n)) x) (map2 multiply_no_nan (map rlog p) (map Fin p))) = Fin (sumf (fun q => INR n * (q * ln q)) p).
Proof.
  destruct multi_rep as (HR & _ & _). rewrite <- xsum_map_fin. f_equal. assert (Hq : forall q, In q p -> 0 <= q) by apply HR. clear - Hq.
  induction p as [|q l IH]; [reflexivity|]. cbn [map map2]. f_equal; [|apply IH; intros; apply Hq; right; auto].
  unfold multiply_no_nan. destruct (xeqb (Fin q) (Fin 0)) eqn:E.
  - apply xeqb_fin in E. subst. cbn. f_equal. ring.
  - destruct (Hq q ltac:(left; auto)) as [H|H]; [|subst; assert (xeqb (Fin 0) (Fin 0) = true) by (apply xeqb_fin; auto); congruence].
    rewrite rlog_pos by auto. cbn. f_equal. ring.
Qed.
(** the entropy of the law of the counts *)
Lemma shannon_eq L : enumerates L n K ->
  - sumf (fun k => xlnx (multinomial_pmf n p k)) L =
  - ln (INR (fact n)) - sumf (fun q => INR n * (q * ln q)) p + sumf (fun q => sumf (fun x => term x q) (seq 0 (S n))) p.
Proof.
  intros HL. destruct multi_rep as (HR & _ & HK).
  set (F := fun k : list nat => ln (INR (fact n)) - sumf (fun i => ln (INR (fact (nth i k O)))) (seq 0 K) + sumf (fun i => ln (nth i p 0) * INR (nth i k O)) (seq 0 K)).
  assert (E : sumf (fun k => xlnx (multinomial_pmf n p k)) L = sumf (fun k => multinomial_pmf n p k * F k) L).
  { apply sumf_ext. intros k Hk. unfold xlnx. destruct (Req_EM_T (multinomial_pmf n p k) 0) as [E|E]; [rewrite E; ring|]. f_equal.
    unfold multinomial_pmf in *. rewrite HK in *. assert (HA : 0 < prodf (fun i => INR (fact (nth i k O))) (seq 0 K)) by (apply prodf_pos; intros; apply fact_pos).
    assert (HB : prodf (fun i => nth i p 0 ^ nth i k O) (seq 0 K) <> 0) by (intros H; apply E; rewrite H; ring).
    assert (HBi : forall i, In i (seq 0 K) -> 0 < nth i p 0 ^ nth i k O).
    { intros i Hi. destruct (pow_le (nth i p 0) (nth i k O) (p_nonneg p (proj2 HR) i)) as [H|H]; [auto|]. exfalso. apply (prodf_neq0 _ _ HB i Hi). auto. }
    rewrite ln_mult; [|apply Rdiv_lt_0_compat; [apply fact_pos|auto]|apply prodf_pos; auto]. unfold Rdiv.
    rewrite ln_mult, ln_Rinv; [|auto|apply fact_pos|apply Rinv_0_lt_compat; auto]. unfold F, prodf.
    rewrite !ln_rprod by (intros x Hx; apply in_map_iff in Hx as (i & <- & Hi); first [apply fact_pos | apply HBi; auto]). rewrite !map_map.
    change (rsum (map ?f ?l)) with (sumf f l). unfold Rminus. f_equal. apply sumf_ext. intros i Hi.
    destruct (p_nonneg p (proj2 HR) i) as [H|H]; [rewrite ln_pow by auto; ring|]. specialize (HBi i Hi). rewrite <- H in *.
    destruct (nth i k O); [cbn; rewrite ln_1; ring|]. cbn in HBi. lra. }
  rewrite E. rewrite <- HK in HL. rewrite <- (expect_counts p (proj2 HR) n L F HL). unfold F. rewrite HK.
  rewrite expect_plus, expect_minus, !expect_sum, expect_const by apply draws_law, HR.
  rewrite (sumf_ext (fun b => expect (fun a => ln (INR (fact (nth b (counts K a) O)))) (iid n (categorical_law p))) (fun i => sumf (fun x => term x (nth i p 0)) (seq 0 (S n)))).
  2: { intros i Hi. apply in_seq in Hi. rewrite (expect_ext _ (fun l => ln (INR (fact (count i l))))) by (intros; rewrite counts_nth by lia; auto).
       rewrite (binomial_count p (proj2 HR) n i (fun c => ln (INR (fact c)))) by lia. apply sumf_ext. intros x _. unfold term, lik. ring. }
  rewrite (sumf_ext (fun b => expect (fun a => ln (nth b p 0) * INR (nth b (counts K a) O)) (iid n (categorical_law p))) (fun i => INR n * (nth i p 0 * ln (nth i p 0)))).
  2: { intros i Hi. apply in_seq in Hi. rewrite expect_scal. rewrite (expect_ext _ (fun l => INR (count i l))) by (intros; rewrite counts_nth by lia; auto).
       fold (mu i). rewrite mu_eq by lia. ring. }
  assert (N : forall f : R -> R, sumf (fun i => f (nth i p 0)) (seq 0 K) = sumf f p).
  { intros f. rewrite <- HK. clear. induction p as [|q l IH]; [reflexivity|]. cbn [length seq]. rewrite !sumf_cons, sumf_seq_shift. cbn [nth]. rewrite IH. reflexivity. }
  rewrite (N (fun q => sumf (fun x => term x q) (seq 0 (S n)))), (N (fun q => INR n * (q * ln q))). ring.
Qed.
(** entropy() and the unused closed-form variant are the Shannon entropy of the multinomial law. *)
Theorem C56_entropy (fuel : nat) L : (S n <= fuel)%nat -> enumerates L n K ->
  multi_entropy lgamma d fuel = Some (Fin (- sumf (fun k => xlnx (multinomial_pmf n p k)) L)) /\
  entropy_scalar lgamma n (multi_probs d) (multi_logits d) = Fin (- sumf (fun k => xlnx (multinomial_pmf n p k)) L).
Proof.
  intros Hf HL. destruct multi_rep as (HR & Ht & HK). rewrite (shannon_eq L HL). split.
  - unfold multi_entropy. rewrite Ht, multi_probs_eq, multi_logits_eq, lgamma_plus1, entropy_loop by auto. cbn [snd].
    rewrite xsum_map_fin, nprobs_eq. reflexivity.
  - unfold entropy_scalar. rewrite multi_probs_eq, multi_logits_eq, nprobs_eq.
    rewrite (map_map (fun i => Fin (INR i))). rewrite (map_ext _ (fun i => Fin (ln (INR (fact i))))) by (intros; apply lgamma_plus1).
    assert (EL : last (map (fun i => Fin (ln (INR (fact i)))) (seq 0 (n + 1))) NaN = Fin (ln (INR (fact n)))).
    { rewrite Nat.add_1_r, seq_S, map_app. cbn [map]. apply last_last. }
    rewrite EL. rewrite <- map_rev.
    assert (ER : map (fun i => Fin (ln (INR (fact i)))) (rev (seq 0 (n + 1))) = map (fun i => Fin (ln (INR (fact (n - i))))) (seq 0 (n + 1))).
    { rewrite Nat.add_1_r. clear. apply (nth_ext _ _ NaN NaN); [rewrite !map_length, rev_length; reflexivity|]. intros i Hi. rewrite map_length, rev_length, seq_length in Hi.
      set (F := fun i => Fin (ln (INR (fact i)))). set (G := fun i => Fin (ln (INR (fact (n - i))))).
      rewrite (nth_indep _ NaN (F O)) by (rewrite map_length, rev_length, seq_length; auto). rewrite (map_nth F).
      rewrite (nth_indep _ NaN (G O)) by (rewrite map_length, seq_length; auto). rewrite (map_nth G).
      rewrite rev_nth by (rewrite seq_length; auto). rewrite seq_length, !seq_nth by lia. unfold F, G. replace (0 + (S n - S i))%nat with (n - (0 + i))%nat by lia. reflexivity. }
    rewrite ER, !map_map.
    assert (EC : forall l, (forall i, In i l -> (i <= n)%nat) ->
      xsum (map2 xmul (map2 xmul (map (fun a => xround (xexp a)) (map2 xsub (map (fun x => xsub (Fin (ln (INR (fact n)))) (Fin (ln (INR (fact x))))) l)
          (map (fun i => Fin (ln (INR (fact (n - i))))) l))) (map (fun i => Fin (ln (INR (fact i)))) l))
        (map (fun x => xsum (map (fun p0 => xmul (power_no_nan p0 (Fin (INR x))) (power_no_nan (xsub (Fin 1) p0) (xsub (Fin (INR n)) (Fin (INR x))))) (map Fin p))) l))
      = Fin (sumf (fun x => sumf (term x) p) l)).
    { induction l as [|x l IH]; intros Hl; [reflexivity|]. cbn [map map2]. rewrite sumf_cons. change (xsum (?a :: ?b)) with (xadd a (xsum b)).
      rewrite IH by (intros; apply Hl; right; auto). rewrite comb_eq by (apply Hl; left; auto).
      rewrite map_map, (map_ext _ (fun q => Fin (lik x q))) by (intros q; rewrite power_nat, power_diff by (apply Hl; left; auto); reflexivity).
      rewrite xsum_map_fin. cbn [xmul xadd]. do 2 f_equal. unfold term. rewrite sumf_scal. reflexivity. }
    rewrite EC by (intros i Hi; apply in_seq in Hi; lia). rewrite Nat.add_1_r, (sumf_swap (fun x q => term x q)). reflexivity.
Qed.
(** Indexing a batch rebuilds each element from its stored parameters: nothing changes. *)
Theorem C56_getitem : multi_getitem d dt = Ok d.
Proof.
  destruct multi_rep as (HR & Ht & HK). destruct d as [t c]. cbn [mu_cat mu_total] in *. subst t.
  assert (Hl : (2 <= K)%nat /\ (dt = DInt \/ dt = DFloat)).
  { assert (H := proj1 (C56_constructor _ _ _ _) (ex_intro _ _ Hd)). destruct H as (H1 & H2 & H3). split; [|auto].
    unfold K. destruct Hw as [(l & -> & -> & _ & ->)|(-> & -> & _)]; cbn in H3; rewrite map_length in *; auto. }
  destruct Hl as [Hl Hdt]. unfold multi_getitem. cbn [mu_cat mu_total]. destruct (proj1 HR) as [->| ->]; unfold multi_init; rewrite map_length, HK;
    (destruct (Nat.ltb_spec K 2); [lia|]); destruct Hdt as [-> | ->]; rewrite as_dtype_nat.
  - f_equal. f_equal. f_equal. rewrite normalize_probs_fin by (rewrite (proj2 (proj2 HR)); lra). f_equal. unfold normalised at 1. rewrite (proj2 (proj2 HR)).
    rewrite <- (map_id p) at 2. apply map_ext. intros x. field.
  - f_equal. f_equal. f_equal. rewrite normalize_probs_fin by (rewrite (proj2 (proj2 HR)); lra). f_equal. unfold normalised at 1. rewrite (proj2 (proj2 HR)).
    rewrite <- (map_id p) at 2. apply map_ext. intros x. field.
  - do 3 f_equal. apply log_softmax_rlog, HR.
  - do 3 f_equal. apply log_softmax_rlog, HR.
Qed.
End Valid.

(** A floating-point dtype keeps a fractional total_count, and the samples then sum to the next integer. *)
Theorem C56_fractional_total_refuted (w : list R) d (g : nat -> list R) : legal_probs w ->
  multi_init (Fin (5 / 2)) None (Some (map Fin w)) DFloat = Ok d -> (forall i, length (g i) = length w) ->
  mu_total d = Fin (5 / 2) /\ exists c, multi_sample (fun i => map Fin (g i)) d 3 = Some (natvec c) /\ count_vector 3 (length w) c.
Proof.
  intros Hw Hd Hg. destruct (multi_init_inv _ _ _ _ _ Hd) as (c & Hc & ->). cbn [as_dtype mu_total]. split; [reflexivity|].
  assert (Hp : parametrises None (Some (map Fin w)) w) by (right; auto).
  pose proof (init_represents _ _ _ _ _ Hp Hc) as HR. assert (HK : length (normalised w) = length w) by (unfold normalised; apply map_length).
  eexists. split.
  - apply (sample_loop w) with (m := 3%nat); [rewrite (rep_logits _ _ HR), map_length; auto| |lia].
    intros i. split; intros H.
    + apply INR_lt. cbn. lra.
    + assert (i = 0 \/ i = 1 \/ i = 2)%nat as [->|[->| ->]] by lia; cbn; lra.
  - split; [apply counts_length|]. change (nsum (counts (length w) (map (fun i => Z.of_nat (random_categorical (map Fin (g i)) (cat_logits c))) (seq 0 3))) = 3%nat).
    rewrite counts_sum; [rewrite map_length; reflexivity|]. intros z Hz. apply in_map_iff in Hz as (i & <- & _).
    destruct (rep_draw c _ HR (g i)) as (k & <- & Hk & _); [rewrite HK; auto|]. lia.
Qed.
(** The batch shape is the broadcast of the shapes of total_count and of the parameters without their last axis. *)
Theorem C56_shapes total_shape (B : shape) K :
  multi_shapes total_shape (B ++ [K]) = match bshape B total_shape with Some b => Ok (b, [K]) | None => Err ValueError end /\
  multi_shapes total_shape [] = Err ValueError.
Proof. split; [|reflexivity]. unfold multi_shapes. rewrite rev_app_distr. cbn [rev app]. rewrite rev_involutive. reflexivity. Qed.
(** Non-vacuity: a log-gamma function at the integers exists, and three trials over four categories, one impossible. *)
Example C56_nonvacuous : exists lg, lgamma_at_integers lg /\ exists d,
  multi_init (Fin (INR 3)) None (Some (map Fin [1; 0; 2; 1])) DInt = Ok d /\ parametrises None (Some (map Fin [1; 0; 2; 1])) [1; 0; 2; 1] /\
  multi_log_prob lg d (natvec [1; 0; 2; 0]%nat) = Fin (ln (3 / 16)) /\
  multi_log_prob lg d (natvec [1; 0; 2; 5]%nat) <> NInf.
Proof.
  exists (fun v => match v with Fin x => if Z.leb (Int_part x) 0 then PInf else Fin (ln (INR (fact (Z.to_nat (Int_part x) - 1)))) | _ => v end).
  assert (HL : lgamma_at_integers (fun v => match v with Fin x => if Z.leb (Int_part x) 0 then PInf else Fin (ln (INR (fact (Z.to_nat (Int_part x) - 1)))) | _ => v end)).
  { split; intros n.
    - rewrite Int_part_INR. destruct (Z.leb_spec (Z.of_nat (S n)) 0); [lia|]. rewrite Nat2Z.id. cbn [Nat.sub]. rewrite Nat.sub_0_r. reflexivity.
    - assert (Int_part (- INR n) = (- Z.of_nat n)%Z) as ->.
      { unfold Int_part. rewrite <- (tech_up (- INR n) (- Z.of_nat n + 1)); [ring|rewrite plus_IZR, opp_IZR, <- INR_IZR_INZ; lra..]. }
      destruct (Z.leb_spec (- Z.of_nat n) 0); [reflexivity|lia]. }
  split; [exact HL|]. eexists. split; [reflexivity|].
  assert (HP : parametrises None (Some (map Fin [1; 0; 2; 1])) [1; 0; 2; 1]).
  { right. split; [auto|]. split; [auto|]. split; [|unfold rsum; cbn; lra]. intros x Hx. cbn in Hx. lra. }
  assert (HN : normalised [1; 0; 2; 1] = [1 / 4; 0; 1 / 2; 1 / 4]).
  { unfold normalised, rsum. cbn. repeat (f_equal; try lra). }
  split; [exact HP|]. split.
  - rewrite (C56_log_prob_partial None (Some (map Fin [1; 0; 2; 1])) DInt [1; 0; 2; 1] 3 _ HP eq_refl _ HL) by (split; reflexivity). rewrite HN.
    unfold multinomial_pmf, prodf, rprod. cbn [length seq map fold_right nth pow fact Nat.mul Nat.add INR]. rewrite rlog_pos by lra. do 2 f_equal. field.
  - destruct (C56_log_prob_refuted None (Some (map Fin [1; 0; 2; 1])) DInt [1; 0; 2; 1] 3 _ HP eq_refl _ HL [1; 0; 2; 5]%nat) as (x & -> & _); [reflexivity| |cbn; lia|discriminate].
    rewrite HN. intros [|[|[|[|j]]]] H; cbn in *; auto; try lra. destruct j; auto.
Qed.
