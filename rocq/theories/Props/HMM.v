(** C61-C64: hidden Markov models. *)
From Coq Require Import Reals List Arith Bool ZArith Lia Lra.
From Verif Require Import Base.Result Base.XR Base.Sums Base.Tensor Model.MathUtils Model.Categorical Model.HMM
  Spec.Categorical Spec.HMM Proofs.MathUtils Proofs.Categorical Proofs.HMM Proofs.Compose Proofs.Viterbi.
Import ListNotations.
Local Open Scope R_scope.

(** ** Construction *)
Lemma shape_is_refl s : shape_is s s = true.
Proof. unfold shape_is. destruct (list_eq_dec Nat.eq_dec s s); congruence. Qed.
(** The constructor accepts exactly: integer dtypes, an unbatched initial distribution, and transition and
    observation distributions with one batch element per state. *)
Theorem C61_constructor {E} (init trans : cat_batch) (obs : obs_dist E) d0 : cb_rows init = [d0] ->
  (exists h, hmm_init init trans obs = Ok h) <->
  (cb_dtype init = DInt /\ cb_dtype trans = DInt /\ cb_batch init = [] /\ ob_batch obs = [cb_num init] /\
   cb_batch trans = [cb_num init] /\ cb_num trans = cb_num init).
Proof.
  intros Hr. unfold hmm_init. rewrite Hr. split.
  - intros [h H]. destruct (cb_dtype init); cbn in H; try discriminate. destruct (cb_dtype trans); cbn in H; try discriminate.
    destruct (cb_batch init); [|discriminate].
    unfold shape_is in H.
    destruct (list_eq_dec Nat.eq_dec (ob_batch obs) [cb_num init]); cbn [negb] in H; [|discriminate].
    destruct (list_eq_dec Nat.eq_dec (cb_batch trans) [cb_num init]); cbn [negb] in H; [|discriminate].
    destruct (Nat.eqb_spec (cb_num trans) (cb_num init)); cbn in H; [|discriminate]. auto 10.
  - intros (-> & -> & -> & -> & -> & ->). cbn [is_int negb]. rewrite shape_is_refl, Nat.eqb_refl. cbn [negb]. eexists. reflexivity.
Qed.
(** An HMM built from legal parameters reports the normalised weights as its probabilities. *)
Theorem C61_parameters {E} (init trans : cat_batch) (obs : obs_dist E) h l0 p0 w0 d0 dts lps ws (b : E -> list R) :
  hmm_init init trans obs = Ok h ->
  parametrises l0 p0 w0 -> cat_init l0 p0 (cb_dtype init) = Ok d0 -> cb_rows init = [d0] -> cb_num init = length w0 ->
  length lps = length ws -> length lps = length (cb_rows trans) -> length ws = cb_num init ->
  (forall i w, nth_error ws i = Some w -> length w = cb_num trans /\
     exists l p d, nth_error lps i = Some (l, p) /\ nth_error (cb_rows trans) i = Some d /\
       parametrises l p w /\ cat_init l p dts = Ok d) ->
  (forall x, ob_prob obs x = map Fin (b x) /\ ob_log_prob obs x = map rlog (b x) /\
             length (b x) = cb_num init /\ forall y, In y (b x) -> 0 <= y) ->
  describes h (normalised w0) (map normalised ws) b.
Proof.
  intros H Hp0 Hc0 Hr Hn Hl1 Hl2 Hl3 Hrows Hobs.
  assert (Hok : exists h, hmm_init init trans obs = Ok h) by eauto.
  apply (C61_constructor init trans obs d0 Hr) in Hok as (D1 & D2 & B1 & B2 & B3 & B4).
  unfold hmm_init in H. rewrite D1, D2, B1, B2, B3, B4, Hr, Nat.eqb_refl, shape_is_refl in H. cbn [is_int negb] in H.
  injection H as <-.
  pose proof (init_represents _ _ _ _ _ Hp0 Hc0) as R0.
  assert (L0 : length (normalised w0) = length w0) by apply map_length.
  assert (Hrep : forall i, (i < length ws)%nat ->
     exists d, nth_error (cb_rows trans) i = Some d /\ represents d (normalised (nth i ws [])) /\ length (nth i ws []) = cb_num trans).
  { intros i Hi. destruct (nth_error ws i) as [w|] eqn:Ew; [|apply nth_error_None in Ew; lia].
    destruct (Hrows i w Ew) as [Hlw (l & p & d & _ & E2 & E3 & E4)]. exists d.
    rewrite (nth_error_nth ws i [] Ew). repeat split; auto; apply (init_represents _ _ _ _ _ E3 E4). }
  assert (Hmap : forall {B} (f : categorical -> B) (g : list R -> B), (forall d p, represents d p -> f d = g p) ->
            map f (cb_rows trans) = map g (map normalised ws)).
  { intros B f g Hfg. destruct (map f (cb_rows trans)) as [|z zs] eqn:Ez.
    - assert (length (map f (cb_rows trans)) = 0%nat) as HH by (rewrite Ez; auto). rewrite map_length in HH.
      destruct ws; [auto|cbn in *; lia].
    - rewrite <- Ez. apply (nth_ext _ _ z z); [rewrite !map_length; lia|]. intros i Hi. rewrite map_length in Hi.
      destruct (Hrep i) as [d [Ed [Rd _]]]; [lia|].
      rewrite (nth_error_nth _ _ z (map_nth_error f i _ Ed)).
      assert (Ew : nth_error ws i = Some (nth i ws [])) by (apply nth_error_nth'; lia).
      rewrite (nth_error_nth _ _ z (map_nth_error g i _ (map_nth_error normalised i _ Ew))). auto. }
  unfold describes. cbn [h_n h_init h_trans h_obs].
  split; [congruence|]. split; [apply rep_probs; auto|]. split; [apply rep_logits; auto|].
  split; [apply Hmap; intros; apply rep_probs; auto|].
  split; [apply (Hmap _ cat_logits (map rlog)); intros; apply rep_logits; auto|].
  split; [intros; apply Hobs|]. split; [intros; apply Hobs|].
  split; [apply R0|]. split; [rewrite map_length; congruence|]. split.
  - intros row Hin. apply in_map_iff in Hin as [w [<- Hw]]. apply In_nth with (d := []) in Hw as [i [Hi <-]].
    destruct (Hrep i Hi) as [d [_ [Rd Hlw]]]. split; [apply Rd|]. unfold normalised at 1. rewrite map_length. congruence.
  - intros x. destruct (Hobs x) as (_ & _ & Hlx & Hy). split; [congruence|auto].
Qed.

(** ** Forward *)
Section Forward.
Context {E : Type}.
Variables (pi : list R) (A : list (list R)) (b : E -> list R) (h : hmm E).
Hypothesis Hd : describes h pi A b.
Notation N := (length pi).

Lemma Hs : stochastic pi A b. Proof. apply Hd. Qed.
Lemma forward_none obs : forward h obs None = forward h obs (Some (Z.of_nat (length obs))).
Proof. destruct obs; reflexivity. Qed.
Lemma backward_none obs : backward h obs None = backward h obs (Some (Z.of_nat (length obs))).
Proof. reflexivity. Qed.
Lemma Lt_all obs : Lt pi A b obs (length obs) = likelihood pi A b obs.
Proof. unfold Lt. rewrite firstn_all. reflexivity. Qed.
Lemma xvec_filtering x0 obs L m t : (Z.of_nat m <= L)%Z -> (m <= length obs)%nat -> 0 < Lt pi A b obs m ->
  (forall t j, (t < m)%nat -> (j < N)%nat -> resolvable hmm_eps (SJ pi A b obs t j / Lt pi A b obs t)) ->
  (t < m)%nat ->
  xvec pi (alpha pi A b x0 obs L t) = map (fun j => Fin (filtering pi A b obs t j)) (seq 0 N).
Proof.
  intros HL Hm Hp Hres Ht. apply xvec_ext. intros j Hj.
  apply (alpha_exact pi A b Hs x0 obs L m HL Hm Hp Hres t Ht); auto.
Qed.

(** ** C61 *)
(** The log-likelihood is the log of the sum over all hidden paths and the alphas are the filtering
    distributions, provided no message falls strictly between 0 and the clipping threshold 1e-15.  (The full
    claim has no such proviso: it is refuted below, and C61_bounds says what remains true.) *)
Theorem C61_forward_partial obs : obs <> [] -> 0 < likelihood pi A b obs -> forward_resolvable pi A b hmm_eps obs ->
  forward h obs None =
  Ok (Fin (ln (likelihood pi A b obs)),
      map (fun t => map (fun j => Fin (filtering pi A b obs t j)) (seq 0 N)) (seq 0 (length obs))).
Proof.
  intros Hne Hp Hres. assert (exists x0 : E, True) as [x0 _] by (destruct obs as [|x o]; [contradiction|exists x; auto]).
  rewrite forward_none. rewrite (forward_real pi A b Hs x0 obs _ h Hd Hne).
  rewrite <- Lt_all in Hp.
  pose proof (alpha_exact pi A b Hs x0 obs (Z.of_nat (length obs)) (length obs) (Z.le_refl _) (le_n _) Hp Hres) as Hex.
  f_equal. f_equal.
  - f_equal. rewrite <- Lt_all. apply ln_tot_telescope; auto.
    + intros t Ht. apply Hex; auto.
    + intros t Ht. apply (Lt_pos_prefix pi A b Hs x0 obs t (length obs)); auto.
  - apply map_ext_in. intros t Ht. apply in_seq in Ht. apply (xvec_filtering x0 obs _ (length obs)); auto; lia.
Qed.
(** Whatever is clipped, the reported log-likelihood never underestimates; for observation probabilities at
    most 1 (discrete observations) it overestimates the likelihood by at most (1 + N * 1e-15)^T - 1. *)
Theorem C61_bounds obs : obs <> [] ->
  exists ll alphas, forward h obs None = Ok (Fin ll, alphas) /\
    likelihood pi A b obs <= exp ll /\
    (0 < likelihood pi A b obs -> (forall s x, emit b s x <= 1) ->
     exp ll <= likelihood pi A b obs + ((1 + INR N * hmm_eps) ^ length obs - 1)).
Proof.
  intros Hne. assert (exists x0 : E, True) as [x0 _] by (destruct obs as [|x o]; [contradiction|exists x; auto]).
  rewrite forward_none. rewrite (forward_real pi A b Hs x0 obs _ h Hd Hne).
  eexists. eexists. split; [reflexivity|].
  change (exp (sumf (fun t => ln (tot pi (msg pi A b x0 obs (Z.of_nat (length obs)) t))) (seq 0 (length obs))))
    with (prodc pi A b x0 obs (Z.of_nat (length obs)) (length obs)).
  rewrite <- Lt_all. split.
  - apply (likelihood_lower pi A b Hs); lia.
  - intros Hp Hb1. assert (HT : (0 < length obs)%nat) by (destruct obs; [contradiction|cbn; lia]).
    pose proof (excess_bound pi A b Hs x0 obs (Z.of_nat (length obs)) Hb1 (length obs) (le_n _) (Z.le_refl _) Hp
                  (length obs - 1) ltac:(lia)) as Hx.
    pose proof (prodc_excess pi A b Hs x0 obs (Z.of_nat (length obs)) (length obs - 1)) as Hy.
    replace (S (length obs - 1)) with (length obs) in * by lia.
    rewrite Hy; auto; try lia. lra.
Qed.
(** ** C62 *)
(** The four results of forward_backward: the filtering distributions, the future likelihoods up to one factor per
    time step, the posterior marginals and the log-likelihood. *)
Theorem C62_posterior_partial obs : obs <> [] -> 0 < likelihood pi A b obs ->
  forward_resolvable pi A b hmm_eps obs -> backward_resolvable pi A b hmm_eps obs -> product_resolvable pi A b hmm_eps obs ->
  forward_backward h obs None =
    Ok (map (fun t => map (fun j => Fin (filtering pi A b obs t j)) (seq 0 N)) (seq 0 (length obs)),
        map (fun t => map (fun j => Fin (future pi A b obs t j / future_total pi A b obs t)) (seq 0 N)) (seq 0 (length obs)),
        map (fun t => map (fun j => Fin (posterior pi A b obs t j)) (seq 0 N)) (seq 0 (length obs)),
        Fin (ln (likelihood pi A b obs))) /\
  forall t, (t < length obs)%nat -> sumf (posterior pi A b obs t) (seq 0 N) = 1.
Proof.
  intros Hne Hp Hfr Hbr Hpr.
  assert (exists x0 : E, True) as [x0 _] by (destruct obs as [|x o]; [contradiction|exists x; auto]).
  unfold forward_backward. rewrite (C61_forward_partial obs Hne Hp Hfr). cbn [rbind].
  rewrite backward_none, (backward_real pi A b Hs x0 obs _ h Hd Hne).
  split.
  2:{ intros t Ht. unfold posterior, Rdiv. rewrite sumf_scal_r, (sj_total pi A b) by auto. field. lra. }
  assert (HB : map (fun t => xvec pi (beta pi A b x0 obs (Z.of_nat (length obs)) (length obs - 1 - t))) (seq 0 (length obs)) =
     map (fun t => map (fun j => Fin (future pi A b obs t j / future_total pi A b obs t)) (seq 0 N)) (seq 0 (length obs))).
  { apply map_ext_in. intros t Ht. apply in_seq in Ht. apply xvec_ext. intros j Hj.
    assert (HLt : 0 < Lt pi A b obs (length obs)) by (rewrite Lt_all; auto).
    destruct (beta_exact pi A b Hs x0 obs (Z.of_nat (length obs)) (Z.le_refl _) HLt Hbr (length obs - 1 - t)) as [_ Hbe]; [lia|].
    replace (length obs - 1 - (length obs - 1 - t))%nat with t in Hbe by lia. rewrite Hbe by auto. reflexivity. }
  rewrite <- HB.
  f_equal. f_equal. f_equal. rewrite map_map. apply map_ext_in. intros t Ht. apply in_seq in Ht.
  clear HB. set (T := length obs) in *.
  rewrite (nth_indep _ [] (map (fun j => Fin (filtering pi A b obs O j)) (seq 0 N))) by (rewrite map_length, seq_length; lia).
  rewrite (map_nth (fun t => map (fun j => Fin (filtering pi A b obs t j)) (seq 0 N))), seq_nth by lia.
  rewrite (nth_indep _ [] (xvec pi (beta pi A b x0 obs (Z.of_nat T) (T - 1 - O)))) by (rewrite map_length, seq_length; lia).
  rewrite (map_nth (fun t => xvec pi (beta pi A b x0 obs (Z.of_nat T) (T - 1 - t)))), seq_nth by lia. cbn [Nat.add].
  unfold xvec. rewrite map2_seq. cbn [xmul].
  set (g := fun j => filtering pi A b obs t j * beta pi A b x0 obs (Z.of_nat T) (T - 1 - t) j).
  change (map (fun j => Fin (filtering pi A b obs t j * beta pi A b x0 obs (Z.of_nat T) (T - 1 - t) j)) (seq 0 N)) with (xvec pi g).
  rewrite normalize_xvec. cbn [fst]. apply xvec_ext. intros j Hj.
  assert (HLt : 0 < Lt pi A b obs T) by (unfold T; rewrite Lt_all; auto).
  destruct (beta_exact pi A b Hs x0 obs (Z.of_nat T) (Z.le_refl _) HLt Hbr (T - 1 - t)) as [Hft Hbe]; [unfold T in *; lia|].
  replace (length obs - 1 - (T - 1 - t))%nat with t in * by (unfold T in *; lia).
  assert (Hg : forall i, (i < N)%nat -> g i = filtering pi A b obs t i * (future pi A b obs t i / future_total pi A b obs t)).
  { intros i Hi. unfold g. rewrite Hbe by auto. reflexivity. }
  assert (HLS : 0 < Lt pi A b obs (S t)) by (apply (Lt_pos_prefix pi A b Hs x0 obs (S t) T); auto; lia).
  assert (Hgs : forall i, (i < N)%nat -> g i = state_joint pi A b obs t i * / (Lt pi A b obs (S t) * future_total pi A b obs t)).
  { intros i Hi. rewrite Hg, (sj_split pi A b) by (auto; lia). unfold filtering, SJ, Fu. fold (Lt pi A b obs (S t)).
    field. split; lra. }
  assert (Hsum : sumf (fun i => clip (g i)) (seq 0 N) = likelihood pi A b obs * / (Lt pi A b obs (S t) * future_total pi A b obs t)).
  { rewrite (sumf_ext _ (fun i => state_joint pi A b obs t i * / (Lt pi A b obs (S t) * future_total pi A b obs t))).
    - rewrite sumf_scal_r, (sj_total pi A b) by lia. reflexivity.
    - intros i Hi. apply in_seq in Hi. rewrite <- Hgs by lia. rewrite Hg by lia. apply clip_res, Hpr; lia. }
  assert (Hq : 0 < likelihood pi A b obs * / (Lt pi A b obs (S t) * future_total pi A b obs t)).
  { apply Rmult_lt_0_compat; auto. apply Rinv_0_lt_compat, Rmult_lt_0_compat; auto. }
  unfold norm, tot. rewrite Hsum. destruct (Req_EM_T _ 0); [lra|].
  rewrite clip_res by (rewrite Hg by auto; apply Hpr; lia). rewrite Hgs by auto. unfold posterior. field. repeat split; lra.
Qed.
(** ** C63 *)
(** [forward] with length L ignores everything after the first L observations, exactly (clipping or not):
    same log-likelihood and alphas as on the prefix, and zero alphas afterwards. *)
Lemma alpha_prefix x0 obs m t : (m <= length obs)%nat -> (t < m)%nat -> forall j, (j < N)%nat ->
  msg pi A b x0 obs (Z.of_nat m) t j = msg pi A b x0 (firstn m obs) (Z.of_nat m) t j /\
  alpha pi A b x0 obs (Z.of_nat m) t j = alpha pi A b x0 (firstn m obs) (Z.of_nat m) t j.
Proof.
  intros Hm. assert (Hn : forall t, (t < m)%nat -> nth t (firstn m obs) x0 = nth t obs x0).
  { intros u Hu. rewrite <- (firstn_skipn m obs) at 2. rewrite app_nth1; auto. rewrite firstn_length_le; auto. }
  induction t as [|t IH]; intros Ht j Hj.
  - assert (Hmsg : forall j, msg pi A b x0 obs (Z.of_nat m) 0 j = msg pi A b x0 (firstn m obs) (Z.of_nat m) 0 j).
    { intros i. cbn [msg]. rewrite Hn by auto. reflexivity. }
    split; [auto|]. rewrite !alpha_norm. unfold norm. rewrite Hmsg. f_equal. apply tot_ext; auto.
  - assert (Hmsg : forall j, (j < N)%nat -> msg pi A b x0 obs (Z.of_nat m) (S t) j = msg pi A b x0 (firstn m obs) (Z.of_nat m) (S t) j).
    { intros i Hi. unfold msg. destruct (_ <? _)%Z; [|auto]. rewrite Hn by auto. f_equal. apply sumf_ext. intros k Hk.
      apply in_seq in Hk. f_equal. apply IH; lia. }
    split; [auto|]. rewrite !alpha_norm. unfold norm. rewrite Hmsg by auto. f_equal. apply tot_ext; auto.
Qed.
Theorem C63_forward obs L : (0 < L <= length obs)%nat ->
  exists ll alphas, forward h (firstn L obs) None = Ok (ll, alphas) /\ length alphas = L /\
    forward h obs (Some (Z.of_nat L)) = Ok (ll, alphas ++ repeat (repeat (Fin 0) N) (length obs - L)).
Proof.
  intros [HL0 HL].
  assert (Hne : obs <> []) by (destruct obs; [cbn in HL; lia|discriminate]).
  assert (exists x0 : E, True) as [x0 _] by (destruct obs as [|x o]; [contradiction|exists x; auto]).
  assert (Hlf : length (firstn L obs) = L) by (apply firstn_length_le; auto).
  assert (Hne' : firstn L obs <> []) by (intros H; rewrite H in Hlf; cbn in Hlf; lia).
  rewrite forward_none, Hlf, (forward_real pi A b Hs x0 (firstn L obs) _ h Hd Hne'), Hlf.
  rewrite (forward_real pi A b Hs x0 obs _ h Hd Hne).
  eexists. eexists. split; [reflexivity|]. split; [rewrite map_length, seq_length; auto|].
  replace (length obs) with (L + (length obs - L))%nat at 1 2 by lia.
  rewrite seq_app, sumf_app, map_app. cbn [Nat.add]. f_equal. f_equal.
  - f_equal. rewrite (sumf_zero _ (seq L (length obs - L))).
    + rewrite Rplus_0_r. apply sumf_ext. intros t Ht. apply in_seq in Ht. f_equal. apply tot_ext. intros j Hj.
      apply alpha_prefix; auto; lia.
    + intros t Ht. apply in_seq in Ht. destruct (msg_beyond pi A b x0 obs (Z.of_nat L) t) as [-> _]; [lia|lia|]. apply ln_1.
  - f_equal.
    + apply map_ext_in. intros t Ht. apply in_seq in Ht. apply xvec_ext. intros j Hj. apply alpha_prefix; auto; lia.
    + assert (Hz : forall t, (L <= t)%nat -> xvec pi (alpha pi A b x0 obs (Z.of_nat L) t) = repeat (Fin 0) N).
      { intros t Ht. destruct (msg_beyond pi A b x0 obs (Z.of_nat L) t) as [_ Hz]; [lia|lia|].
        rewrite (xvec_ext pi _ (fun _ => 0)) by auto. unfold xvec. generalize N 0%nat. intros n.
        induction n as [|n IHn]; intros k; [reflexivity|]. cbn [seq map repeat]. f_equal. apply IHn. }
      clear -Hz. revert Hz. generalize (length obs - L)%nat. intros n.
      assert (forall s, (L <= s)%nat -> (forall t, (L <= t)%nat -> xvec pi (alpha pi A b x0 obs (Z.of_nat L) t) = repeat (Fin 0) N) ->
        map (fun t => xvec pi (alpha pi A b x0 obs (Z.of_nat L) t)) (seq s n) = repeat (repeat (Fin 0) N) n) as H.
      { induction n as [|n IHn]; intros s Hsx Hz; [reflexivity|]. cbn [seq map repeat]. rewrite Hz by auto. f_equal. apply IHn; auto. }
      intros Hz. apply H; auto.
Qed.
(** The backward part of the claim is false, for every model and every sequence: with length < seq_len the
    all-zero beta used for the padding is carried into the valid prefix, so every beta but the last and every
    gamma is zero (hmm.py:221-226). *)
Theorem C63_forward_backward_refuted obs L : (0 < L < length obs)%nat ->
  exists alphas betas ll, forward_backward h obs (Some (Z.of_nat L)) =
    Ok (alphas, betas, repeat (repeat (Fin 0) N) (length obs), ll) /\
    forward h obs (Some (Z.of_nat L)) = Ok (ll, alphas) /\
    forall t, (t < length obs - 1)%nat -> nth t betas [] = repeat (Fin 0) N.
Proof.
  intros [HL0 HL].
  assert (Hne : obs <> []) by (destruct obs; [cbn in HL; lia|discriminate]).
  assert (exists x0 : E, True) as [x0 _] by (destruct obs as [|x o]; [contradiction|exists x; auto]).
  unfold forward_backward. rewrite (forward_real pi A b Hs x0 obs _ h Hd Hne). cbn [rbind].
  rewrite (backward_real pi A b Hs x0 obs _ h Hd Hne). set (T := length obs) in *.
  assert (Hrep : forall f, (forall j, (j < N)%nat -> f j = 0) -> xvec pi f = repeat (Fin 0) N).
  { intros f Hf. rewrite (xvec_ext pi f (fun _ => 0)) by auto. unfold xvec. generalize N 0%nat. intros n.
    induction n as [|n IHn]; intros k; [reflexivity|]. cbn [seq map repeat]. f_equal. apply IHn. }
  eexists. eexists. eexists. split.
  - f_equal. f_equal. f_equal. rewrite map_map.
    rewrite (map_ext_in _ (fun _ => repeat (Fin 0) N)).
    + unfold T. generalize (length obs), 0%nat. intros n. induction n as [|n IHn]; intros k; [reflexivity|].
      cbn [seq map repeat]. f_equal. apply IHn.
    + intros t Ht. apply in_seq in Ht.
      rewrite (nth_indep _ [] (xvec pi (alpha pi A b x0 obs (Z.of_nat L) O))) by (rewrite map_length, seq_length; lia).
      rewrite (map_nth (fun t => xvec pi (alpha pi A b x0 obs (Z.of_nat L) t))), seq_nth by lia.
      rewrite (nth_indep _ [] (xvec pi (beta pi A b x0 obs (Z.of_nat L) (T - 1 - O)))) by (rewrite map_length, seq_length; lia).
      rewrite (map_nth (fun t => xvec pi (beta pi A b x0 obs (Z.of_nat L) (T - 1 - t)))), seq_nth by lia. cbn [Nat.add].
      unfold xvec. rewrite map2_seq. cbn [xmul].
      set (g := fun j => alpha pi A b x0 obs (Z.of_nat L) t j * beta pi A b x0 obs (Z.of_nat L) (T - 1 - t) j).
      change (map (fun j => Fin (alpha pi A b x0 obs (Z.of_nat L) t j * beta pi A b x0 obs (Z.of_nat L) (T - 1 - t) j)) (seq 0 N))
        with (xvec pi g).
      rewrite normalize_xvec. cbn [fst]. apply Hrep. intros j Hj.
      assert (Hg : g j = 0).
      { unfold g. destruct (Nat.eq_dec t (T - 1)) as [-> |Hn].
        - destruct (msg_beyond pi A b x0 obs (Z.of_nat L) (T - 1)) as [_ Hz]; [lia|lia|]. rewrite Hz. ring.
        - rewrite (beta_short pi A b x0 obs (Z.of_nat L)); [ring|fold T; lia|lia]. }
      unfold norm. rewrite Hg, clip_0. unfold Rdiv. ring.
  - split; [reflexivity|]. intros t Ht.
    rewrite (nth_indep _ [] (xvec pi (beta pi A b x0 obs (Z.of_nat L) (T - 1 - O)))) by (rewrite map_length, seq_length; lia).
    rewrite (map_nth (fun t => xvec pi (beta pi A b x0 obs (Z.of_nat L) (T - 1 - t)))), seq_nth by lia. cbn [Nat.add].
    apply Hrep. intros j Hj. apply (beta_short pi A b x0 obs (Z.of_nat L)); [fold T; lia|lia].
Qed.
(** ** C64 *)
(** The returned path is a state sequence of the right length and no state sequence is more probable. *)
Theorem C64_viterbi obs : obs <> [] ->
  exists p, viterbi h obs = Ok p /\ In p (paths N (length obs)) /\
    forall q, In q (paths N (length obs)) -> path_prob pi A b obs q <= path_prob pi A b obs p.
Proof.
  intros Hne. destruct obs as [|x0 o]; [contradiction|]. clear Hne.
  unfold viterbi. rewrite (trans_log pi A b h Hd), (first_log pi A b h Hd).
  set (v := fun j => start pi j * emit b j x0).
  assert (Hv : nonneg pi v) by (intros i _; apply Rmult_le_pos; [apply (start_nonneg pi A b Hs)|apply (emit_nonneg pi A b Hs)]).
  assert (Hh : h_n h = N) by apply Hd.
  destruct (viterbi_inv pi A b h Hd o v Hv) as (vf & srcs & Hscan & Hnn & Hpath & Hopt).
  destruct (argmax_rlog vf N (N_pos pi A b h Hd)) as [Hlt [Hle _]]; [exact Hnn|]. fold (lvec pi vf) in *.
  set (jf := argmax (lvec pi vf)) in *.
  destruct (Hpath jf Hlt) as (c & ys & rest & Hb & Hy & Hl & Hin & Hval).
  assert (Hbest : forall q, In q (paths N (S (length o))) -> path_prob pi A b (x0 :: o) q <= path_prob pi A b (x0 :: o) (c :: rest)).
  { intros q Hq. apply in_paths in Hq as [Hql Hq]. destruct q as [|s p]; [discriminate|].
    cbn [path_prob]. change (start pi s * emit b s x0) with (v s). change (start pi c * emit b c x0) with (v c).
    rewrite Hval. apply Rle_trans with (vf (last p s)).
    - apply Hopt; auto.
    - apply Hle. apply Hq. destruct p as [|m p]; [left; auto|].
      destruct (exists_last (l := m :: p)) as [l' [z Ez]]; [discriminate|]. rewrite Ez, last_last. right. apply in_or_app; right; left; auto. }
  assert (Hp : In (c :: rest) (paths N (S (length o)))) by (apply in_paths; cbn; auto).
  destruct o as [|x1 o].
  - exists [argmax (lvec pi v)]. split; [reflexivity|].
    cbn [scan] in Hscan. injection Hscan as Evf Esr. subst srcs. cbn in Hb. injection Hb as <- <-. cbn in Hy. injection Hy as <-.
    assert (Ej : argmax (lvec pi v) = jf) by (unfold jf; rewrite <- Evf; reflexivity). rewrite Ej. auto.
  - exists (c :: rest). rewrite Hscan. cbn [tl]. fold jf. rewrite Hb, Hy. auto.
Qed.
End Forward.

(** Observation models enter only through their values, so an HMM exists for every stochastic (pi, A, b). *)
Definition hmm_of {E} (pi : list R) (A : list (list R)) (b : E -> list R) : hmm E :=
  mkHMM (CProbs (map Fin pi)) (map (fun row => CProbs (map Fin row)) A)
        (mkObs [length pi] (fun x => map Fin (b x)) (fun x => map rlog (b x))) (length pi).
Lemma hmm_of_describes {E} pi A (b : E -> list R) : stochastic pi A b -> describes (hmm_of pi A b) pi A b.
Proof.
  intros H. unfold describes, hmm_of. cbn [h_n h_init h_trans h_obs cat_probs cat_logits ob_prob ob_log_prob]. rewrite !map_map.
  split; [auto|]. split; [auto|]. split; [reflexivity|]. split; [reflexivity|]. split; [|auto].
  apply map_ext. intros row. cbn [cat_logits]. rewrite map_map. reflexivity.
Qed.

(** *** Refutations and non-vacuity *)
Definition ex_pi : list R := [1 / 2; 1 / 2].
Definition ex_A : list (list R) := [[1 / 2; 1 / 2]; [1 / 2; 1 / 2]].
Definition tiny (_ : unit) : list R := [hmm_eps / 4; 3 * hmm_eps / 4].
Lemma ex_stochastic {E} (b : E -> list R) : (forall x, length (b x) = 2%nat /\ forall y, In y (b x) -> 0 <= y) ->
  stochastic ex_pi ex_A b.
Proof.
  intros Hb. unfold stochastic, ex_pi, ex_A. split.
  - split; [intros x [<-|[<-|[]]]; lra|unfold rsum; cbn; lra].
  - split; [auto|]. split; [|exact Hb].
    intros row [<-|[<-|[]]]; (split; [split; [intros x [<-|[<-|[]]]; lra|unfold rsum; cbn; lra]|auto]).
Qed.
(** Observation densities of order 1e-16 (ordinary for multivariate observations): both messages are clipped
    to 1e-15, the log-likelihood is off by log 4 and the posterior is 1/2, 1/2 instead of 1/4, 3/4. *)
Lemma tiny_forward : exists al, forward (hmm_of ex_pi ex_A tiny) [tt] None = Ok (Fin (ln (2 * hmm_eps)), al) /\ al = [[Fin (1 / 2); Fin (1 / 2)]].
Proof.
  pose proof eps_pos as He.
  eexists. split; [|reflexivity]. unfold forward, hmm_of, hmm_normalize; cbn -[hmm_eps Rdiv Rmult Rplus].
  repeat match goal with |- context [Req_EM_T ?x 0] => destruct (Req_EM_T x 0); [exfalso; lra|] end.
  repeat match goal with |- context [Rlt_dec ?x hmm_eps] => destruct (Rlt_dec x hmm_eps); [|exfalso; lra] end.
  cbn -[hmm_eps Rdiv Rmult Rplus].
  repeat match goal with |- context [Req_EM_T ?x 0] => destruct (Req_EM_T x 0); [exfalso; lra|] end.
  cbn -[hmm_eps Rdiv Rmult Rplus].
  repeat match goal with |- context [Req_EM_T ?x 0] => destruct (Req_EM_T x 0); [exfalso; lra|] end.
  rewrite rlog_pos by lra. replace (hmm_eps / (hmm_eps + (hmm_eps + 0))) with (1 / 2) by (field; lra).
  replace (hmm_eps + (hmm_eps + 0)) with (2 * hmm_eps) by ring. reflexivity.
Qed.
Lemma tiny_likelihood : likelihood ex_pi ex_A tiny [tt] = hmm_eps / 2.
Proof. unfold likelihood, sumf, rsum, path_prob, start, emit, ex_pi, tiny; cbn -[hmm_eps]. field. Qed.
Theorem C61_clipping_refuted : exists (pi : list R) A (b : unit -> list R) obs ll al,
  stochastic pi A b /\ obs <> [] /\ 0 < likelihood pi A b obs /\
  forward (hmm_of pi A b) obs None = Ok (Fin ll, al) /\ ll = ln (likelihood pi A b obs) + ln 4.
Proof.
  pose proof eps_pos as He. destruct tiny_forward as [al [Hf _]].
  exists ex_pi, ex_A, tiny, [tt], (ln (2 * hmm_eps)), al. rewrite tiny_likelihood.
  split; [|split; [discriminate|split; [lra|split; [auto|]]]].
  - apply ex_stochastic. intros x. split; [auto|]. intros y [<-|[<-|[]]]; lra.
  - rewrite <- ln_mult by lra. f_equal. field.
Qed.
Theorem C62_clipping_refuted : exists (pi : list R) A (b : unit -> list R) obs al be ll,
  stochastic pi A b /\ 0 < likelihood pi A b obs /\
  forward_backward (hmm_of pi A b) obs None = Ok (al, be, [[Fin (1 / 2); Fin (1 / 2)]], ll) /\
  posterior pi A b obs 0 0 = 1 / 4 /\ posterior pi A b obs 0 1 = 3 / 4.
Proof.
  pose proof eps_pos as He. destruct tiny_forward as [al [Hf Ha]].
  assert (Hlt : hmm_eps < 1 / 2).
  { unfold hmm_eps. replace (1 / 2) with (/ 2) by lra. apply Rinv_lt_contravar; [|cbn; lra]. cbn; lra. }
  exists ex_pi, ex_A, tiny, [tt]. eexists. eexists. eexists. rewrite tiny_likelihood. split; [|split; [lra|split; [|split]]].
  - apply ex_stochastic. intros x. split; [auto|]. intros y [<-|[<-|[]]]; lra.
  - unfold forward_backward. rewrite Hf, Ha. cbn [rbind]. unfold hmm_normalize; cbn -[hmm_eps Rdiv Rmult Rplus].
    repeat match goal with |- context [Req_EM_T ?x 0] => destruct (Req_EM_T x 0); [exfalso; lra|] end.
    repeat match goal with |- context [Rlt_dec ?x hmm_eps] => destruct (Rlt_dec x hmm_eps); [exfalso; lra|] end.
    cbn -[hmm_eps Rdiv Rmult Rplus].
    repeat match goal with |- context [Req_EM_T ?x 0] => destruct (Req_EM_T x 0); [exfalso; lra|] end.
    cbn -[hmm_eps Rdiv Rmult Rplus].
    repeat match goal with |- context [Req_EM_T ?x 0] => destruct (Req_EM_T x 0); [exfalso; lra|] end.
    replace (1 / 2 * 1 / (1 / 2 * 1 + (1 / 2 * 1 + 0))) with (1 / 2) by (field; lra). reflexivity.
  - unfold posterior. rewrite tiny_likelihood.
    unfold state_joint, sumf, rsum, path_prob, start, emit, ex_pi, tiny; cbn -[hmm_eps]. field. lra.
  - unfold posterior. rewrite tiny_likelihood.
    unfold state_joint, sumf, rsum, path_prob, start, emit, ex_pi, tiny; cbn -[hmm_eps]. field. lra.
Qed.
(** An impossible observation: the likelihood is 0 but the reported log-likelihood is 0 = log 1 rather than
    -inf (the zero normaliser is replaced by one, hmm.py:43). *)
Theorem C61_impossible_refuted : exists (pi : list R) A (b : unit -> list R) obs al,
  stochastic pi A b /\ obs <> [] /\ likelihood pi A b obs = 0 /\
  forward (hmm_of pi A b) obs None = Ok (Fin 0, al).
Proof.
  exists ex_pi, ex_A, (fun _ => [0; 0]), [tt]. eexists. split; [|split; [discriminate|split]].
  - apply ex_stochastic. intros x. split; [auto|]. intros y [<-|[<-|[]]]; lra.
  - unfold likelihood, sumf, rsum, path_prob, start, emit; cbn. lra.
  - unfold forward, hmm_of, hmm_normalize; cbn -[hmm_eps Rdiv Rmult Rplus].
    rewrite !Rmult_0_r. repeat match goal with |- context [Req_EM_T ?x 0] => destruct (Req_EM_T x 0); [|exfalso; lra] end.
    cbn -[hmm_eps Rdiv Rmult Rplus].
    repeat match goal with |- context [Req_EM_T ?x 0] => destruct (Req_EM_T x 0); try (exfalso; lra) end.
    cbn -[hmm_eps Rdiv Rmult Rplus].
    repeat match goal with |- context [Req_EM_T ?x 0] => destruct (Req_EM_T x 0); try (exfalso; lra) end.
    rewrite rlog_pos, ln_1 by lra. reflexivity.
Qed.
(** Length zero is treated as length one (alpha_0 is not masked, hmm.py:186-187). *)
Theorem C63_length_zero_refuted {E} pi A b (h : hmm E) obs : describes h pi A b -> obs <> [] ->
  forward h obs (Some 0%Z) = forward h obs (Some 1%Z).
Proof.
  intros Hd Hne. destruct obs as [|x0 o]; [contradiction|]. unfold forward.
  destruct (hmm_normalize _) as [a0 c0].
  match goal with |- (let '(_, _) := ?p in _) = (let '(_, _) := ?q in _) => assert (p = q) as ->; [|reflexivity] end.
  assert (Hs : forall ts (c : list XR * XR), (forall t, In t ts -> (1 <= t)%nat) -> 
     forall f g : list XR * XR -> nat -> (list XR * XR) * list XR, (forall c t, (1 <= t)%nat -> f c t = g c t) -> scan f c ts = scan g c ts).
  { induction ts as [|t ts IH]; intros c Ht f g Hfg; [reflexivity|]. cbn [scan]. rewrite Hfg by (apply Ht; left; auto).
    destruct (g c t) as [c1 y]. rewrite (IH c1) with (g := g); auto. intros; apply Ht; right; auto. }
  apply Hs.
  - intros t Ht. apply in_seq in Ht. lia.
  - intros [c1 c2] t Ht. destruct (Z.ltb_spec (Z.of_nat t) 0), (Z.ltb_spec (Z.of_nat t) 1); auto; lia.
Qed.
(** a two-state model and a two-step sequence meeting every hypothesis *)
Definition fair (_ : unit) : list R := [1 / 2; 1 / 4].
Lemma eps_small : hmm_eps < 1 / 100.
Proof.
  unfold hmm_eps. replace (1 / 100) with (/ 100) by lra. apply Rinv_lt_contravar; [|cbn; lra]. cbn; lra.
Qed.
Example C61_nonvacuous : describes (hmm_of ex_pi ex_A fair) ex_pi ex_A fair /\
  likelihood ex_pi ex_A fair [tt; tt] = 9 / 64 /\ forward_resolvable ex_pi ex_A fair hmm_eps [tt; tt] /\
  backward_resolvable ex_pi ex_A fair hmm_eps [tt; tt] /\ product_resolvable ex_pi ex_A fair hmm_eps [tt; tt].
Proof.
  pose proof eps_small as Hsm.
  assert (L2 : likelihood ex_pi ex_A fair [tt; tt] = 9 / 64).
  { unfold likelihood, sumf, rsum, path_prob, continue_prob, start, step, emit, ex_pi, ex_A, fair; cbn. lra. }
  assert (L1 : likelihood ex_pi ex_A fair [tt] = 3 / 8).
  { unfold likelihood, sumf, rsum, path_prob, continue_prob, start, step, emit, ex_pi, ex_A, fair; cbn. lra. }
  assert (L0 : likelihood ex_pi ex_A fair [] = 1).
  { unfold likelihood, sumf, rsum, path_prob; cbn. lra. }
  assert (S00 : state_joint ex_pi ex_A fair [tt] 0 0 = 1 / 4) by (unfold state_joint, sumf, rsum, path_prob, continue_prob, start, step, emit, ex_pi, ex_A, fair; cbn; lra).
  assert (S01 : state_joint ex_pi ex_A fair [tt] 0 1 = 1 / 8) by (unfold state_joint, sumf, rsum, path_prob, continue_prob, start, step, emit, ex_pi, ex_A, fair; cbn; lra).
  assert (S10 : state_joint ex_pi ex_A fair [tt; tt] 1 0 = 3 / 32) by (unfold state_joint, sumf, rsum, path_prob, continue_prob, start, step, emit, ex_pi, ex_A, fair; cbn; lra).
  assert (S11 : state_joint ex_pi ex_A fair [tt; tt] 1 1 = 3 / 64) by (unfold state_joint, sumf, rsum, path_prob, continue_prob, start, step, emit, ex_pi, ex_A, fair; cbn; lra).
  assert (F0 : forall i, (i < 2)%nat -> future ex_pi ex_A fair [tt; tt] 0 i = 3 / 8).
  { intros [|[|i]] Hi; try lia; unfold future, sumf, rsum, path_prob, continue_prob, start, step, emit, ex_pi, ex_A, fair; cbn; lra. }
  assert (F1 : forall i, (i < 2)%nat -> future ex_pi ex_A fair [tt; tt] 1 i = 1).
  { intros [|[|i]] Hi; try lia; unfold future, sumf, rsum, path_prob, continue_prob, start, step, emit, ex_pi, ex_A, fair; cbn; lra. }
  assert (T1 : future_total ex_pi ex_A fair [tt; tt] 1 = 1) by reflexivity.
  assert (T0 : future_total ex_pi ex_A fair [tt; tt] 0 = 3 / 4).
  { unfold future_total. cbn [Nat.eqb length]. change (length ex_pi) with 2%nat. cbn [seq].
    rewrite !sumf_cons, sumf_nil, !F0 by lia. lra. }
  split; [apply hmm_of_describes, ex_stochastic; intros x; split; [auto|]; intros y [<-|[<-|[]]]; lra|].
  split; [auto|]. split; [|split].
  - intros [|[|t]] [|[|j]] Ht Hj; cbn in Ht, Hj; try lia; right; cbn [firstn]; rewrite ?S00, ?S01, ?S10, ?S11, ?L0, ?L1; lra.
  - intros [|t] i Ht Hi; cbn in Ht, Hi; try lia. right. rewrite T1, F0 by lia. lra.
  - intros [|[|t]] [|[|j]] Ht Hj; cbn in Ht, Hj; try lia; right; unfold filtering; cbn [firstn];
      rewrite ?S00, ?S01, ?S10, ?S11, ?L1, ?L2, ?T0, ?T1, ?F0, ?F1 by lia; lra.
Qed.
(** zero transition probabilities and a zero observation probability are admissible for Viterbi *)
Example C64_nonvacuous : exists b : bool -> list R,
  describes (hmm_of [1; 0] [[0; 1]; [1 / 2; 1 / 2]] b) [1; 0] [[0; 1]; [1 / 2; 1 / 2]] b /\
  viterbi (hmm_of [1; 0] [[0; 1]; [1 / 2; 1 / 2]] b) [true; false] = Ok [0; 1]%nat.
Proof.
  exists (fun x => if x : bool then [1 / 2; 0] else [1; 1 / 3]).
  assert (Hst : stochastic [1; 0] [[0; 1]; [1 / 2; 1 / 2]] (fun x : bool => if x then [1 / 2; 0] else [1; 1 / 3])).
  { split; [split; [intros x [<-|[<-|[]]]; lra|unfold rsum; cbn; lra]|]. split; [auto|]. split.
    - intros row [<-|[<-|[]]]; (split; [split; [intros x [<-|[<-|[]]]; lra|unfold rsum; cbn; lra]|auto]).
    - intros [|]; (split; [auto|]); intros y [<-|[<-|[]]]; lra. }
  pose proof (hmm_of_describes _ _ _ Hst) as Hd. split; [auto|].
  destruct (C64_viterbi _ _ _ _ Hd [true; false]) as [p [Hv [Hp Hbest]]]; [discriminate|].
  rewrite Hv. f_equal. specialize (Hbest [0; 1]%nat). cbn in Hp.
  destruct Hp as [<-|[<-|[<-|[<-|[]]]]]; auto; exfalso;
    (assert (In [0; 1]%nat (paths 2 2)) as HI by (cbn; auto)); apply Hbest in HI;
    unfold path_prob, continue_prob, start, step, emit in HI; cbn in HI; lra.
Qed.
Print Assumptions C61_bounds.
Print Assumptions C62_posterior_partial.
Print Assumptions C64_viterbi.
