(** C47 Uniform, C52 Deterministic, C53 LogStddevNormal. *)
From Coq Require Import Reals List Bool Lra Lia.
From Coquelicot Require Import Coquelicot.
From Verif Require Import Base.Result Base.Tensor Base.XR Base.Lift Base.Integral Base.Gauss Model.ScalarDist
  Model.Distribution Spec.Density Proofs.Density Props.Continuous.
Import ListNotations.
Local Open Scope R_scope.

(** ** C47 *)
Lemma uniform_density_in a b x : a <= x <= b -> uniform_density a b x = 1 / (b - a).
Proof. intros H. unfold uniform_density. destruct Rle_dec; [|lra]. destruct Rle_dec; lra. Qed.
Lemma uniform_density_out a b x : x < a \/ b < x -> uniform_density a b x = 0.
Proof. intros H. unfold uniform_density. destruct (Rle_dec a x); [|lra]. destruct Rle_dec; lra. Qed.

Lemma is_RInt_zero (f : R -> R) a b : a <= b -> (forall x, a < x < b -> f x = 0) -> is_RInt f a b 0.
Proof.
  intros H Hf. apply (is_RInt_ext (fun _ => 0)).
  - intros x. rewrite Rmin_left, Rmax_right by lra. intros Hx. symmetry; auto.
  - pose proof (is_RInt_const (V := R_NormedModule) a b 0) as C. unfold scal in C; cbn in C; unfold mult in C; cbn in C.
    rewrite Rmult_0_r in C. exact C.
Qed.
Lemma integral_compact (f : R -> R) a b (v : R) : a <= b -> (forall x, x < a \/ b < x -> f x = 0) -> is_RInt f a b v -> integral f v.
Proof.
  intros Hab Hz Hi. unfold integral, is_RInt_gen. intros P HP. unfold filtermapi.
  assert (LA : Rbar_locally m_infty (fun x => x < a)) by (exists a; auto).
  assert (LB : Rbar_locally p_infty (fun x => b < x)) by (exists b; auto).
  eapply Filter_prod; [exact LA|exact LB|]. intros x y Hx Hy. cbn [fst snd]. exists v. split; [|apply locally_singleton; exact HP].
  replace v with (plus (plus 0 v) 0) by (cbn; unfold plus; cbn; ring).
  apply (@is_RInt_Chasles R_NormedModule) with b; [apply (@is_RInt_Chasles R_NormedModule) with a; [|exact Hi]|]; apply is_RInt_zero; try lra; intros; apply Hz; lra.
Qed.

(** Integral of [density * polynomial antiderivative] over the support. *)
Lemma uniform_expectation a b (g G : R -> R) : a < b -> (forall x, is_derive G x (g x)) -> (forall x, continuous g x) ->
  expectation (uniform_density a b) g ((G b - G a) / (b - a)).
Proof.
  intros H DG Cg. apply (integral_compact _ a b); [lra| |].
  - intros x Hx. rewrite uniform_density_out by auto. ring.
  - apply (is_RInt_ext (fun x => / (b - a) * g x)).
    + intros x. rewrite Rmin_left, Rmax_right by lra. intros Hx. rewrite uniform_density_in by lra. apply Rminus_diag_uniq; unfold Rdiv; ring.
    + unfold Rdiv. rewrite (Rmult_comm (G b - G a)). apply (is_RInt_scal (V := R_NormedModule) g a b (/ (b - a))).
      apply is_RInt_of_derive; auto.
Qed.

Lemma xleb_dec a b : xleb (Fin a) (Fin b) = if Rle_dec a b then true else false.
Proof. destruct Rle_dec; [apply xleb_fin; auto|]. apply xleb_fin_f. lra. Qed.
Lemma xltb_dec a b : xltb (Fin a) (Fin b) = if Rlt_dec a b then true else false.
Proof. destruct Rlt_dec; [apply xltb_fin; auto|]. apply xltb_fin_f. lra. Qed.
Lemma uniform_prob_fin x a b : a < b -> uniform_prob (Fin x) (Fin a) (Fin b) = Fin (uniform_density a b x).
Proof.
  intros H. unfold uniform_prob, uniform_range. cbn [xsub xadd xopp]. rewrite !xltb_dec. rewrite xdiv_fin by lra. unfold uniform_density.
  destruct (Rlt_dec x a), (Rlt_dec b x), (Rle_dec a x), (Rle_dec x b); cbn; try lra; auto.
Qed.

(** prob is 1/(high - low) exactly on the support and 0 outside; cdf is the integral of the density from
    any point below the support, and log_prob, log_cdf are the logs. *)
Theorem C47_uniform_distribution : forall a b, a < b ->
  exists F : R -> R,
    integral (uniform_density a b) 1 /\
    (forall c x, c <= a -> c <= x -> is_RInt (uniform_density a b) c x (F x)) /\
    (forall x, x <= a -> F x = 0) /\ (forall x, b <= x -> F x = 1) /\ forall x,
    uniform_prob (Fin x) (Fin a) (Fin b) = Fin (uniform_density a b x) /\
    uniform_log_prob (Fin x) (Fin a) (Fin b) = rlog (uniform_density a b x) /\
    uniform_cdf (Fin x) (Fin a) (Fin b) = Fin (F x) /\
    uniform_log_cdf (Fin x) (Fin a) (Fin b) = rlog (F x) /\
    default_survival [] (uniform_cdf (Fin x) (Fin a) (Fin b)) = Ok (Fin (1 - F x)).
Proof.
  intros a b H.
  exists (fun x => if Rlt_dec b x then 1 else if Rlt_dec x a then 0 else (x - a) / (b - a)).
  assert (I01 : forall x, a <= x <= b -> is_RInt (uniform_density a b) a x ((x - a) / (b - a))).
  { intros x Hx. apply (is_RInt_ext (fun _ => / (b - a))).
    - intros t. rewrite Rmin_left, Rmax_right by lra. intros Ht. rewrite uniform_density_in by lra. apply Rminus_diag_uniq; unfold Rdiv; ring.
    - pose proof (is_RInt_const (V := R_NormedModule) a x (/ (b - a))) as C. exact C. }
  split.
  { eapply integral_ext; [|replace 1 with ((b - a) / (b - a)) by (field; lra);
      apply (uniform_expectation a b (fun _ => 1) (fun x => x) H)].
    - intros x. cbn beta. ring.
    - intros x. apply (@is_derive_id R_AbsRing).
    - intros x. apply continuous_const. }
  split.
  { intros c x Hc Hcx. destruct (Rlt_dec b x).
    - replace 1 with (plus (plus 0 ((b - a) / (b - a))) 0) by (unfold plus; cbn; field; lra).
      apply (@is_RInt_Chasles R_NormedModule) with b; [apply (@is_RInt_Chasles R_NormedModule) with a|].
      + apply is_RInt_zero; auto. intros; apply uniform_density_out; lra.
      + apply I01; lra.
      + apply is_RInt_zero; [lra|]. intros; apply uniform_density_out; lra.
    - destruct (Rlt_dec x a).
      + apply is_RInt_zero; auto. intros; apply uniform_density_out; lra.
      + replace ((x - a) / (b - a)) with (plus 0 ((x - a) / (b - a))) by (unfold plus; cbn; ring).
        apply (@is_RInt_Chasles R_NormedModule) with a; [|apply I01; lra]. apply is_RInt_zero; auto. intros; apply uniform_density_out; lra. }
  split. { intros x Hx. destruct Rlt_dec; [lra|]. destruct Rlt_dec; auto. replace x with a by lra. field. lra. }
  split. { intros x Hx. destruct Rlt_dec; auto. destruct Rlt_dec; [lra|]. replace x with b by lra. field. lra. }
  intros x. unfold uniform_log_prob, uniform_log_cdf. rewrite uniform_prob_fin by auto. split; [reflexivity|]. split; [reflexivity|].
  assert (C : uniform_cdf (Fin x) (Fin a) (Fin b) =
     Fin (if Rlt_dec b x then 1 else if Rlt_dec x a then 0 else (x - a) / (b - a))).
  { unfold uniform_cdf, uniform_range. cbn [xsub xadd xopp]. rewrite !xltb_dec. rewrite xdiv_fin by lra.
    destruct (Rlt_dec b x), (Rlt_dec x a); cbn; auto. }
  rewrite C. repeat split; reflexivity.
Qed.
Print Assumptions C47_uniform_distribution.

Theorem C47_uniform_moments : forall a b, a < b ->
  exists m v d q h,
    uniform_mean (Fin a) (Fin b) = Fin m /\ expectation (uniform_density a b) (fun x => x) m /\
    uniform_variance (Fin a) (Fin b) = Fin v /\ expectation (uniform_density a b) (fun x => (x - m) ^ 2) v /\
    uniform_stddev (Fin a) (Fin b) = Fin d /\ 0 <= d /\ d ^ 2 = v /\
    uniform_median (Fin a) (Fin b) = Fin q /\ uniform_cdf (Fin q) (Fin a) (Fin b) = Fin (1 / 2) /\
    uniform_entropy (Fin a) (Fin b) = Fin h /\ is_entropy (uniform_density a b) h.
Proof.
  intros a b H. assert (0 < sqrt 12) by (apply sqrt_lt_R0; lra).
  exists ((a + b) / 2), ((b - a) * (b - a) / 12), ((b - a) / sqrt 12), ((a + b) / 2), (ln (b - a)).
  split. { unfold uniform_mean. cbn [xadd]. rewrite xdiv_fin by lra. reflexivity. }
  split.
  { eapply expectation_ext; [| |apply (uniform_expectation a b (fun x => x) (fun x => x ^ 2 / 2) H)].
    - reflexivity.
    - field. lra.
    - intros x. auto_derive; auto. field.
    - intros x. apply continuous_id. }
  split. { unfold uniform_variance, uniform_range, xsquare. cbn [xsub xadd xopp xmul]. rewrite xdiv_fin by lra. reflexivity. }
  split.
  { eapply expectation_ext; [| |apply (uniform_expectation a b (fun x => (x - (a + b) / 2) ^ 2) (fun x => (x - (a + b) / 2) ^ 3 / 3) H)].
    - reflexivity.
    - field. lra.
    - intros x. auto_derive; auto. field.
    - intros x. apply (@ex_derive_continuous R_AbsRing R_NormedModule). auto_derive; auto. }
  split. { unfold uniform_stddev, uniform_range. cbn [xsub xadd xopp]. rewrite xdiv_fin by lra. reflexivity. }
  split. { left. apply Rdiv_lt_0_compat; lra. }
  split. { unfold Rdiv. rewrite !Rpow_mult_distr, pow_inv, pow2_sqrt by lra. ring. }
  split. { unfold uniform_median, uniform_mean. cbn [xadd]. rewrite xdiv_fin by lra. reflexivity. }
  split. { unfold uniform_cdf, uniform_range. cbn [xsub xadd xopp]. rewrite !xltb_dec. rewrite xdiv_fin by lra.
    destruct (Rlt_dec b ((a + b) / 2)); [lra|]. destruct (Rlt_dec ((a + b) / 2) a); [lra|]. cbn. f_equal. field. lra. }
  split. { unfold uniform_entropy, uniform_range. cbn [xsub xadd xopp]. rewrite xlog_fin by lra. reflexivity. }
  assert (E : (- ln (1 / (b - a)) * b - - ln (1 / (b - a)) * a) / (b - a) = ln (b - a)).
  { replace (ln (1 / (b - a))) with (- ln (b - a)); [field; lra|]. unfold Rdiv. rewrite Rmult_1_l, ln_Rinv by lra. reflexivity. }
  rewrite <- E. eapply integral_ext; [|apply (uniform_expectation a b (fun _ => - ln (1 / (b - a))) (fun x => - ln (1 / (b - a)) * x) H)].
  - intros x. cbn beta. unfold uniform_density. destruct (Rle_dec a x); [|ring]. destruct (Rle_dec x b); [|ring]. reflexivity.
  - intros x. auto_derive; auto. ring.
  - intros x. apply continuous_const.
Qed.
Print Assumptions C47_uniform_moments.

(** A draw u in [0,1) lands in [low, high), at the u-quantile of the cdf, and the accompanying log_prob agrees. *)
Theorem C47_uniform_sample : forall a b u, a < b -> 0 <= u < 1 ->
  exists y, uniform_sample (Fin u) (Fin a) (Fin b) = Fin y /\ a <= y < b /\
    uniform_cdf (Fin y) (Fin a) (Fin b) = Fin u /\
    uniform_salp_log_prob (Fin a) (Fin b) = uniform_log_prob (Fin y) (Fin a) (Fin b).
Proof.
  intros a b u H Hu. exists (a + (b - a) * u). assert (Y : a <= a + (b - a) * u < b) by nra.
  split; [reflexivity|]. split; [exact Y|]. split.
  - unfold uniform_cdf, uniform_range. cbn [xsub xadd xopp]. rewrite !xltb_dec. rewrite xdiv_fin by lra.
    destruct Rlt_dec; [lra|]. destruct Rlt_dec; [lra|]. cbn. f_equal. field. lra.
  - unfold uniform_salp_log_prob, uniform_log_prob, uniform_range. rewrite uniform_prob_fin by auto.
    rewrite uniform_density_in by lra. cbn [xsub xadd xopp]. rewrite !xlog_fin by (try apply Rdiv_lt_0_compat; lra).
    cbn. f_equal. unfold Rdiv. rewrite Rmult_1_l, ln_Rinv by lra. reflexivity.
Qed.
Print Assumptions C47_uniform_sample.

(** KL: the log ratio of the ranges when the first support is contained in the second (and then it is the
    expectation of the log density ratio), and +inf in every other case. *)
Theorem C47_uniform_kl : forall a1 b1 a2 b2, a1 < b1 -> a2 < b2 ->
  (a2 <= a1 /\ b1 <= b2 -> exists k, uniform_kl (Fin a1) (Fin b1) (Fin a2) (Fin b2) = Fin k /\
     k = ln ((b2 - a2) / (b1 - a1)) /\ is_kl (uniform_density a1 b1) (uniform_density a2 b2) k /\
     0 <= k /\ (k = 0 <-> a1 = a2 /\ b1 = b2)) /\
  (~ (a2 <= a1 /\ b1 <= b2) -> uniform_kl (Fin a1) (Fin b1) (Fin a2) (Fin b2) = PInf).
Proof.
  intros a1 b1 a2 b2 H1 H2. unfold uniform_kl. rewrite !xleb_dec. split.
  - intros [L U]. destruct Rle_dec; [|lra]. destruct Rle_dec; [|lra]. cbn [andb xwhere xsub xadd xopp].
    rewrite !xlog_fin by lra. cbn. eexists. split; [reflexivity|].
    assert (E : ln (b2 + - a2) + - ln (b1 + - a1) = ln ((b2 - a2) / (b1 - a1))) by (rewrite ln_div by lra; reflexivity).
    rewrite E. split; [reflexivity|]. split; [|split].
    + unfold is_kl, expectation.
      set (c := ln (1 / (b1 - a1)) - ln (1 / (b2 - a2))).
      assert (Ec : c = ln ((b2 - a2) / (b1 - a1))).
      { unfold c. rewrite !ln_div by lra. rewrite ln_1. ring. }
      replace (ln ((b2 - a2) / (b1 - a1))) with ((c * b1 - c * a1) / (b1 - a1)) by (rewrite <- Ec; field; lra).
      eapply integral_ext; [|apply (uniform_expectation a1 b1 (fun _ => c) (fun x => c * x) H1)].
      * intros x. cbn beta. unfold uniform_density. destruct (Rle_dec a1 x); [|ring]. destruct (Rle_dec x b1); [|ring].
        destruct (Rle_dec a2 x); [|lra]. destruct (Rle_dec x b2); [|lra]. reflexivity.
      * intros x. auto_derive; auto. ring.
      * intros x. apply continuous_const.
    + rewrite <- ln_1. assert (1 <= (b2 - a2) / (b1 - a1)).
      { apply (Rmult_le_reg_r (b1 - a1)); [lra|]. unfold Rdiv. rewrite Rmult_assoc, Rinv_l by lra. lra. }
      destruct H as [H|H]; [left; apply ln_increasing; lra|right; rewrite <- H; reflexivity].
    + rewrite ln_div by lra. split; [|intros [-> ->]; ring]. intros Z.
      assert (b2 - a2 = b1 - a1) by (apply ln_inv; lra). lra.
  - intros N. destruct (Rle_dec a2 a1); cbn; auto. destruct (Rle_dec b1 b2); cbn; auto. exfalso; tauto.
Qed.
Print Assumptions C47_uniform_kl.

Example C47_nonvacuous : uniform_kl (Fin 0) (Fin 1) (Fin (-1)) (Fin 3) = Fin (ln 4) /\
  uniform_kl (Fin (-1)) (Fin 3) (Fin 0) (Fin 1) = PInf.
Proof.
  split.
  - destruct (proj1 (C47_uniform_kl 0 1 (-1) 3 ltac:(lra) ltac:(lra)) ltac:(lra)) as (k & -> & -> & _). f_equal. f_equal. lra.
  - apply (C47_uniform_kl (-1) 3 0 1); lra.
Qed.

(** ** C52 *)
(** prob is 1 within the slack atol + rtol*|loc| (boundary included) and 0 elsewhere, log_prob its log;
    cdf steps from 0 to 1 at loc - slack; samples are loc, with probability 1. *)
Theorem C52_deterministic : forall loc atol rtol, 0 <= atol -> 0 <= rtol ->
  let slack := atol + rtol * Rabs loc in
  (forall x,
    (Rabs (x - loc) <= slack -> det_prob (Fin x) (Fin loc) (Fin atol) (Fin rtol) = Fin 1 /\
                                det_log_prob (Fin x) (Fin loc) (Fin atol) (Fin rtol) = Fin 0) /\
    (slack < Rabs (x - loc) -> det_prob (Fin x) (Fin loc) (Fin atol) (Fin rtol) = Fin 0 /\
                               det_log_prob (Fin x) (Fin loc) (Fin atol) (Fin rtol) = NInf) /\
    (loc - slack <= x -> det_cdf (Fin x) (Fin loc) (Fin atol) (Fin rtol) = Fin 1 /\
                         det_log_cdf (Fin x) (Fin loc) (Fin atol) (Fin rtol) = Fin 0) /\
    (x < loc - slack -> det_cdf (Fin x) (Fin loc) (Fin atol) (Fin rtol) = Fin 0 /\
                        det_log_cdf (Fin x) (Fin loc) (Fin atol) (Fin rtol) = NInf)) /\
  det_sample (Fin loc) = Fin loc /\
  det_salp_log_prob = det_log_prob (det_sample (Fin loc)) (Fin loc) (Fin atol) (Fin rtol) /\
  det_mean (Fin loc) = Fin loc /\ det_mode (Fin loc) = Fin loc /\
  det_entropy = Fin 0 /\ det_variance = Fin 0 /\ det_stddev = Fin 0.
Proof.
  intros l at_ rt Ha Hr slack.
  assert (S : det_slack (Fin l) (Fin at_) (Fin rt) = Fin slack).
  { unfold det_slack. cbn [xabs xmul xadd]. destruct (xeqb (Fin rt) (Fin 0)) eqn:E; cbn; auto.
    apply xeqb_fin in E. unfold slack. rewrite E. f_equal; ring. }
  assert (L1 : xlog (Fin 1) = Fin 0) by (rewrite xlog_fin by lra; f_equal; apply ln_1).
  assert (L0 : xlog (Fin 0) = NInf) by apply rlog_0.
  assert (Hs : 0 <= slack). { unfold slack. pose proof (Rabs_pos l). nra. }
  assert (P : forall x, det_prob (Fin x) (Fin l) (Fin at_) (Fin rt) = if Rle_dec (Rabs (x - l)) slack then Fin 1 else Fin 0).
  { intros x. unfold det_prob. rewrite S. cbn [xsub xadd xopp xabs]. rewrite xleb_dec. fold (x - l). destruct Rle_dec; reflexivity. }
  assert (C : forall x, det_cdf (Fin x) (Fin l) (Fin at_) (Fin rt) = if Rle_dec (l - slack) x then Fin 1 else Fin 0).
  { intros x. unfold det_cdf. rewrite S. cbn [xsub xadd xopp xabs]. rewrite xleb_dec. fold (l - slack). destruct Rle_dec; reflexivity. }
  split.
  - intros x. unfold det_log_prob, det_log_cdf. rewrite P, C. repeat split; destruct Rle_dec; auto; lra.
  - split; [reflexivity|]. split; [|repeat split].
    unfold det_sample, det_log_prob, det_salp_log_prob. rewrite P.
    destruct Rle_dec; [rewrite L1; auto|]. exfalso. apply n. replace (l - l) with 0 by ring. rewrite Rabs_R0. auto.
Qed.
Print Assumptions C52_deterministic.

(** KL(p, q) = -log q.prob(p.loc). *)
Theorem C52_deterministic_kl : forall loc1 loc2 atol2 rtol2, 0 <= atol2 -> 0 <= rtol2 ->
  det_kl (Fin loc1) (Fin loc2) (Fin atol2) (Fin rtol2) = xopp (det_log_prob (Fin loc1) (Fin loc2) (Fin atol2) (Fin rtol2)) /\
  (Rabs (loc1 - loc2) <= atol2 + rtol2 * Rabs loc2 -> det_kl (Fin loc1) (Fin loc2) (Fin atol2) (Fin rtol2) = Fin 0) /\
  (atol2 + rtol2 * Rabs loc2 < Rabs (loc1 - loc2) -> det_kl (Fin loc1) (Fin loc2) (Fin atol2) (Fin rtol2) = PInf).
Proof.
  intros l1 l2 a r Ha Hr.
  assert (K : det_kl (Fin l1) (Fin l2) (Fin a) (Fin r) = if Rle_dec (Rabs (l1 - l2)) (a + r * Rabs l2) then Fin 0 else PInf).
  { unfold det_kl. cbn [xsub xadd xopp xabs xmul]. rewrite xleb_dec. fold (l1 - l2). destruct Rle_dec; cbn [xwhere].
    - rewrite xlog_fin by lra. rewrite ln_1. cbn. f_equal; ring.
    - cbn [xlog]. rewrite rlog_0. reflexivity. }
  destruct (proj1 (C52_deterministic l2 a r Ha Hr) l1) as (I & O & _). rewrite K.
  split; [|split; intros; destruct Rle_dec; auto; lra].
  destruct Rle_dec as [L|L]; [rewrite (proj2 (I L)); cbn; f_equal; ring|].
  rewrite (proj2 (O ltac:(lra))). reflexivity.
Qed.
Print Assumptions C52_deterministic_kl.
Example C52_nonvacuous : det_prob (Fin 3) (Fin 2) (Fin 0) (Fin (1 / 2)) = Fin 1 /\ det_kl (Fin 4) (Fin 2) (Fin 0) (Fin (1 / 2)) = PInf.
Proof.
  split.
  - apply (proj1 (C52_deterministic 2 0 (1 / 2) ltac:(lra) ltac:(lra)) 3). unfold Rabs; repeat destruct Rcase_abs; lra.
  - apply C52_deterministic_kl; try lra. unfold Rabs; repeat destruct Rcase_abs; lra.
Qed.

(** A batch element with an infinite location: every sample is that location, yet its prob is 0 (|inf - inf| is NaN),
    while sample_and_log_prob reports log-probability 0. *)
Theorem C52_infinite_loc_refuted :
  det_prob (det_sample PInf) PInf (Fin 0) (Fin 0) = Fin 0 /\
  det_log_prob (det_sample PInf) PInf (Fin 0) (Fin 0) = NInf /\ det_salp_log_prob = Fin 0.
Proof. split; [|split]; try reflexivity. cbn. apply rlog_0. Qed.

(** ** C53 *)
(** Without max_scale the scale is exp(log_scale); with max_scale = m the stored log-scale is a log-scale
    whose exp is m e^ls / (m + e^ls): positive, below both m and e^ls, strictly increasing in log_scale. *)
Theorem C53_scale : forall ls,
  (lsn_scale (Fin ls) None = Fin (exp ls) /\ lsn_log_scale (Fin ls) None = Fin ls) /\
  forall m, 0 < m -> exists sl s,
    lsn_log_scale (Fin ls) (Some m) = Fin sl /\ lsn_scale (Fin ls) (Some m) = Fin s /\ s = exp sl /\
    s = m * exp ls / (m + exp ls) /\ 0 < s < m /\ s < exp ls /\
    (forall ls' s', lsn_scale (Fin ls') (Some m) = Fin s' -> (ls < ls' <-> s < s')).
Proof.
  intros ls. split; [split; reflexivity|]. intros m Hm. pose proof (exp_pos ls).
  assert (E : forall t, lsn_log_scale (Fin t) (Some m) = Fin (ln m - ln (1 + exp (ln m - t))) /\
     exp (ln m - ln (1 + exp (ln m - t))) = m * exp t / (m + exp t)).
  { intros t. pose proof (exp_pos t). pose proof (exp_pos (ln m - t)). split.
    - unfold lsn_log_scale. rewrite rlog_pos by auto. cbn [xsub xadd xopp]. rewrite xsoftplus_fin. reflexivity.
    - replace (ln m - ln (1 + exp (ln m - t))) with (ln m + - ln (1 + exp (ln m - t))) by ring.
      rewrite exp_plus, exp_ln, exp_Ropp, exp_ln by lra.
      replace (ln m - t) with (ln m + - t) by ring. rewrite exp_plus, exp_ln, exp_Ropp by auto. field. split; lra. }
  destruct (E ls) as [E1 E2]. do 2 eexists. split; [exact E1|]. split; [unfold lsn_scale; rewrite E1; reflexivity|].
  split; [reflexivity|]. split; [exact E2|]. rewrite E2.
  assert (Q : m * exp ls / (m + exp ls) * (m + exp ls) = m * exp ls) by (field; lra).
  set (s := m * exp ls / (m + exp ls)) in *.
  assert (0 < s) by (apply Rdiv_lt_0_compat; nra).
  split; [split; [auto|nra]|]. split; [nra|].
  intros ls' s' E'. unfold lsn_scale in E'. rewrite (proj1 (E ls')) in E'. cbn in E'. injection E' as E'.
  rewrite (proj2 (E ls')) in E'. pose proof (exp_pos ls').
  assert (Q' : s' * (m + exp ls') = m * exp ls') by (rewrite <- E'; field; lra).
  assert (W : (s' - s) * (m + exp ls') * (m + exp ls) = m * m * (exp ls' - exp ls)).
  { replace ((s' - s) * (m + exp ls') * (m + exp ls)) with (s' * (m + exp ls') * (m + exp ls) - s * (m + exp ls) * (m + exp ls')) by ring.
    rewrite Q, Q'. ring. }
  assert (PP : 0 < (m + exp ls') * (m + exp ls)) by nra.
  split.
  - intros L. apply exp_increasing in L.
    assert (0 < (s' - s) * ((m + exp ls') * (m + exp ls))) by (rewrite <- Rmult_assoc, W; apply Rmult_lt_0_compat; nra).
    destruct (Rlt_dec s s'); auto. exfalso. nra.
  - intros L. apply exp_lt_inv.
    assert (0 < m * m * (exp ls' - exp ls)). { rewrite <- W, Rmult_assoc. apply Rmult_lt_0_compat; [lra|auto]. }
    destruct (Rlt_dec (exp ls) (exp ls')); auto. exfalso. assert (0 < m * m) by nra. nra.
Qed.
Print Assumptions C53_scale.

(** The KL registered for two LogStddevNormals is the KL of the two Gaussians (and so equals Normal's). *)
Theorem C53_kl : forall l1 ls1 l2 ls2,
  let s1 := exp ls1 in let s2 := exp ls2 in
  lsn_kl (Fin l1) (Fin s1) (Fin ls1) (Fin l2) (Fin s2) (Fin ls2) = normal_kl (Fin l1) (Fin s1) (Fin l2) (Fin s2) /\
  exists k, lsn_kl (Fin l1) (Fin s1) (Fin ls1) (Fin l2) (Fin s2) (Fin ls2) = Fin k /\
    is_kl (gaussian l1 s1) (gaussian l2 s2) k.
Proof.
  intros l1 ls1 l2 ls2 s1 s2. assert (0 < s1) by apply exp_pos. assert (0 < s2) by apply exp_pos.
  assert (E : lsn_kl (Fin l1) (Fin s1) (Fin ls1) (Fin l2) (Fin s2) (Fin ls2) = normal_kl (Fin l1) (Fin s1) (Fin l2) (Fin s2)).
  { unfold lsn_kl, normal_kl, xsquare. cbn [xsub xadd xopp xmul]. rewrite !xdiv_fin by nra. rewrite !xlog_fin by auto.
    replace (ln s1) with ls1 by (symmetry; apply ln_exp). replace (ln s2) with ls2 by (symmetry; apply ln_exp).
    unfold xexpm1. cbn [xsub xadd xopp xmul xexp]. f_equal.
    assert (X : exp (2 * (ls1 + - ls2)) = (s1 / s2) * (s1 / s2)).
    { replace (2 * (ls1 + - ls2)) with ((ls1 + - ls2) + (ls1 + - ls2)) by ring. rewrite exp_plus. f_equal; rewrite exp_plus, exp_Ropp; reflexivity. }
    rewrite X. field. lra. }
  split; [exact E|]. rewrite E. destruct (C48_normal_kl l1 s1 l2 s2) as (k & -> & K & _); auto. exists k; auto.
Qed.
Print Assumptions C53_kl.

(** Slicing passes the stored log-scale back to the constructor: without max_scale the sliced element has the same scale... *)
Theorem C53_slice_without_max : forall ls, lsn_sliced_log_scale (Fin ls) None = lsn_log_scale (Fin ls) None.
Proof. reflexivity. Qed.
(** ... but with max_scale the threshold is applied twice, and the sliced distribution always has a strictly smaller scale. *)
Theorem C53_slice_refuted : forall ls m, 0 < m ->
  exists s s', lsn_scale (Fin ls) (Some m) = Fin s /\ xexp (lsn_sliced_log_scale (Fin ls) (Some m)) = Fin s' /\ s' < s.
Proof.
  intros ls m Hm. destruct (C53_scale ls) as [_ A]. destruct (A m Hm) as (sl & s & E1 & E2 & E3 & _).
  destruct (C53_scale sl) as [_ B]. destruct (B m Hm) as (sl' & s' & F1 & F2 & F3 & _ & _ & L & _).
  exists s, s'. split; auto. split; [unfold lsn_sliced_log_scale; rewrite E1; exact F2|]. rewrite E3. exact L.
Qed.
Print Assumptions C53_slice_refuted.
