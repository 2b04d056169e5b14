(** C49: Laplace. *)
From Coq Require Import Reals List Bool Lra Lia.
From Coquelicot Require Import Coquelicot.
From Verif Require Import Base.Result Base.Tensor Base.XR Base.Lift Base.Integral Base.Gauss Model.ScalarDist
  Spec.Density Proofs.Density Proofs.Laplace Props.Continuous.
Import ListNotations.
Local Open Scope R_scope.

Lemma laplacian_eq l s : 0 < s -> laplacian l s = (fun x => lap_pdf ((x - l) / s) / s).
Proof.
  intros Hs. apply FunctionalExtensionality.functional_extensionality. intros x. unfold laplacian.
  rewrite lap_pdf_abs. unfold Rdiv. rewrite Rabs_mult, (Rabs_pos_eq (/ s)) by (left; apply Rinv_0_lt_compat; auto).
  unfold Rdiv. field. lra.
Qed.
Lemma ln_laplacian l s x : 0 < s -> ln (laplacian l s x) = - Rabs ((x - l) / s) - ln 2 - ln s.
Proof.
  intros Hs. unfold laplacian. rewrite ln_div by (try apply exp_pos; lra). rewrite ln_exp, ln_mult by lra.
  unfold Rdiv. rewrite Rabs_mult, (Rabs_pos_eq (/ s)) by (left; apply Rinv_0_lt_compat; auto). ring.
Qed.
Lemma lap_cdf_log_lo z : z <= 0 -> ln (lap_cdf z) = z - ln 2.
Proof. intros H. unfold lap_cdf. destruct Rle_dec; [|lra]. rewrite ln_div by (try apply exp_pos; lra). rewrite ln_exp. auto. Qed.
Lemma exp_neg_le1 z : 0 <= z -> exp (- z) <= 1.
Proof. intros H. rewrite <- exp_0. destruct H as [H| <-]; [left; apply exp_increasing; lra|right; f_equal; lra]. Qed.
Lemma log_cdf_laplace_ok z : log_cdf_laplace (Fin z) = Fin (ln (lap_cdf z)).
Proof.
  unfold log_cdf_laplace. cbn [xsub xadd xopp xabs xexp xmul xwhere]. unfold xlog1p. cbn [xadd].
  destruct (xleb (Fin z) (Fin 0)) eqn:E.
  - apply xleb_fin in E. cbn. rewrite lap_cdf_log_lo by auto. reflexivity.
  - apply xleb_fin_f in E. cbn [xwhere]. unfold lap_cdf. destruct Rle_dec; [lra|].
    rewrite Rabs_pos_eq by lra. pose proof (exp_neg_le1 z ltac:(lra)).
    replace (1 + - (1 / 2) * exp (- z)) with (1 - exp (- z) / 2) by field. apply xlog_fin. lra.
Qed.
Lemma lap_cdf_opp z : lap_cdf (- z) = 1 - lap_cdf z.
Proof.
  unfold lap_cdf. destruct (Rle_dec (- z) 0), (Rle_dec z 0); try lra.
  - assert (z = 0) by lra. subst. rewrite Ropp_0, exp_0. lra.
  - rewrite Ropp_involutive. lra.
Qed.
Lemma laplace_cdf_formula z :
  xsub (Fin (1 / 2)) (xmul (xmul (Fin (1 / 2)) (xsign (Fin z))) (xexpm1 (xopp (xabs (Fin z))))) = Fin (lap_cdf z).
Proof.
  cbn. f_equal. unfold lap_cdf. destruct (Rlt_dec 0 z), (Rlt_dec z 0), (Rle_dec z 0); try lra.
  - rewrite Rabs_pos_eq by lra. field.
  - rewrite Rabs_left by lra. rewrite Ropp_involutive. field.
  - assert (z = 0) by lra. subst. rewrite exp_0. lra.
Qed.

(** log_prob is the log of the Laplace density, cdf its distribution function, log_cdf the log of the cdf
    and log_survival the log of its complement. *)
Theorem C49_laplace_distribution : forall l s, 0 < s ->
  exists F, density_with_cdf (laplacian l s) F /\ integral (laplacian l s) 1 /\ forall x,
    0 < laplacian l s x /\ 0 < F x < 1 /\
    laplace_log_prob (Fin x) (Fin l) (Fin s) = Fin (ln (laplacian l s x)) /\
    laplace_cdf (Fin x) (Fin l) (Fin s) = Fin (F x) /\
    laplace_log_cdf (Fin x) (Fin l) (Fin s) = Fin (ln (F x)) /\
    laplace_log_survival (Fin x) (Fin l) (Fin s) = Fin (ln (1 - F x)).
Proof.
  intros l s Hs. exists (fun x => lap_cdf ((x - l) / s)).
  pose proof (location_scale _ _ l s Hs lap_density) as D.
  assert (P : forall x, 0 < lap_pdf ((x - l) / s) / s).
  { intros x. apply Rdiv_lt_0_compat; [apply lap_pdf_pos|auto]. }
  pose proof (density_range_strict _ _ D P) as Q. pose proof (density_integral _ _ D) as I.
  rewrite <- (laplacian_eq l s Hs) in D, I. split; [exact D|]. split; [exact I|]. intros x.
  split. { rewrite laplacian_eq by auto. apply P. }
  split; [apply Q|].
  unfold laplace_log_prob, laplace_cdf, laplace_log_cdf, laplace_log_survival.
  rewrite (standardize_fin x l s Hs). split.
  { rewrite xlog_fin, ln_laplacian by auto. cbn. f_equal; ring. }
  split; [apply laplace_cdf_formula|]. split; [apply log_cdf_laplace_ok|].
  cbn [xopp]. rewrite log_cdf_laplace_ok, lap_cdf_opp. reflexivity.
Qed.
Print Assumptions C49_laplace_distribution.

Theorem C49_laplace_moments : forall l s, 0 < s ->
  exists m v d md q h,
    laplace_mean (Fin l) = Fin m /\ expectation (laplacian l s) (fun x => x) m /\
    laplace_variance (Fin s) = Fin v /\ expectation (laplacian l s) (fun x => (x - m) ^ 2) v /\
    laplace_stddev (Fin s) = Fin d /\ 0 <= d /\ d ^ 2 = v /\
    laplace_mode (Fin l) = Fin md /\ is_mode (laplacian l s) md /\
    laplace_median (Fin l) = Fin q /\ laplace_cdf (Fin q) (Fin l) (Fin s) = Fin (1 / 2) /\
    laplace_entropy (Fin s) = Fin h /\ is_entropy (laplacian l s) h.
Proof.
  intros l s Hs. exists l, (2 * (s * s)), (sqrt 2 * s), l, l, (ln 2 + 1 + ln s).
  split; [reflexivity|]. split.
  { rewrite (laplacian_eq l s Hs). eapply expectation_ext; [| |apply (lap_moment l s l s 0 0 Hs)]; [intros x; cbn beta; field; lra|ring]. }
  split; [reflexivity|]. split.
  { rewrite (laplacian_eq l s Hs). eapply expectation_ext; [| |apply (lap_moment l s 0 0 0 (s * s) Hs)]; [intros x; cbn beta; field; lra|ring]. }
  split; [reflexivity|]. split; [apply Rmult_le_pos; [apply sqrt_pos|lra]|].
  split. { rewrite Rpow_mult_distr, pow2_sqrt by lra. ring. }
  split; [reflexivity|]. split.
  { intros x. unfold laplacian. apply Rmult_le_compat_r; [left; apply Rinv_0_lt_compat; lra|].
    replace (l - l) with 0 by ring. rewrite Rabs_R0. replace (- (0 / s)) with 0 by (field; lra). rewrite exp_0.
    apply exp_neg_le1. apply Rmult_le_pos; [apply Rabs_pos|left; apply Rinv_0_lt_compat; auto]. }
  split; [reflexivity|]. split.
  { unfold laplace_cdf. rewrite (standardize_fin l l s Hs). rewrite laplace_cdf_formula.
    replace ((l - l) / s) with 0 by (field; lra). unfold lap_cdf. destruct Rle_dec; [|lra]. rewrite exp_0. reflexivity. }
  split. { unfold laplace_entropy. rewrite xlog_fin by auto. reflexivity. }
  unfold is_entropy. eapply expectation_ext; [intros x; rewrite (ln_laplacian l s x Hs); reflexivity|reflexivity|].
  rewrite (laplacian_eq l s Hs).
  eapply expectation_ext; [| |apply (lap_moment l s (ln 2 + ln s) 0 1 0 Hs)]; [intros x; cbn beta; ring|ring].
Qed.
Print Assumptions C49_laplace_moments.

Theorem C49_laplace_kl : forall l1 s1 l2 s2, 0 < s1 -> 0 < s2 ->
  exists k, laplace_kl (Fin l1) (Fin s1) (Fin l2) (Fin s2) = Fin k /\
    is_kl (laplacian l1 s1) (laplacian l2 s2) k /\ 0 <= k /\ (k = 0 <-> l1 = l2 /\ s1 = s2).
Proof.
  intros l1 s1 l2 s2 H1 H2. set (r := s1 / s2). set (t := Rabs (l1 - l2) / s1).
  assert (R : 0 < r) by (apply Rdiv_lt_0_compat; auto).
  assert (T : 0 <= t) by (apply Rmult_le_pos; [apply Rabs_pos|left; apply Rinv_0_lt_compat; auto]).
  exists (- ln r + r * t - 1 + r * exp (- t)). split.
  - unfold laplace_kl. rewrite !xlog_fin by auto. cbn [xsub xadd xopp xabs]. rewrite !xdiv_fin by lra.
    cbn. f_equal. rewrite exp_plus.
    replace (ln s1 + - ln s2) with (ln r) by (unfold r; rewrite ln_div by auto; ring).
    rewrite exp_ln by auto.
    change (Rabs (l1 + - l2)) with (Rabs (l1 - l2)).
    replace (Rabs (l1 - l2) / s2) with (r * t) by (unfold r, t; field; lra).
    replace (- Rabs (l1 - l2) / s1) with (- t) by (unfold t; field; lra). ring.
  - split.
    { unfold is_kl. eapply expectation_ext; [intros x; rewrite (ln_laplacian l1 s1 x H1), (ln_laplacian l2 s2 x H2); reflexivity|reflexivity|].
      rewrite (laplacian_eq l1 s1 H1).
      assert (A : Rabs ((l2 - l1) / s1) = t).
      { unfold t, Rdiv. rewrite Rabs_mult, (Rabs_pos_eq (/ s1)) by (left; apply Rinv_0_lt_compat; auto).
        rewrite <- Rabs_Ropp. f_equal. f_equal. ring. }
      eapply expectation_ext; [| |apply (lap_abs_moment l1 s1 (ln s2 - ln s1) (-1) r ((l2 - l1) / s1) H1)].
      - intros x; cbn beta. replace ((x - l2) / s2) with (r * ((x - l1) / s1 - (l2 - l1) / s1)) by (unfold r; field; lra).
        rewrite Rabs_mult, (Rabs_pos_eq r) by lra. ring.
      - rewrite A. unfold r at 2. rewrite ln_div by auto. ring. }
    assert (E1 : 1 <= t + exp (- t)). { pose proof (exp_ineq1_le (- t)). lra. }
    destruct (Req_dec r 1) as [Er|Er].
    + rewrite Er, ln_1. split; [lra|]. split.
      * intros Z. assert (t = 0). { destruct (Req_dec t 0); auto. exfalso. pose proof (exp_ineq1 (- t) ltac:(lra)). lra. }
        split; [|unfold r in Er; apply (Rmult_eq_compat_r s2) in Er; field_simplify in Er; lra].
        unfold t in H. apply (Rmult_eq_compat_r s1) in H. unfold Rdiv in H. rewrite Rmult_assoc, Rinv_l in H by lra.
        assert (Rabs (l1 - l2) = 0) by lra. destruct (Req_dec (l1 - l2) 0); [lra|]. exfalso. apply (Rabs_no_R0 _ H3); auto.
      * intros [-> _]. unfold t. replace (l2 - l2) with 0 by ring. rewrite Rabs_R0. replace (0 / s1) with 0 by (field; lra).
        rewrite Ropp_0, exp_0. ring.
    + pose proof (ln_gap r R Er). assert (r * 1 <= r * (t + exp (- t))) by (apply Rmult_le_compat_l; lra).
      split; [lra|]. split; [lra|]. intros [_ ->]. exfalso. apply Er. unfold r; field; lra.
Qed.
Print Assumptions C49_laplace_kl.

Theorem C49_laplace_sample : forall l s e, 0 < s ->
  exists y, laplace_sample (Fin e) (Fin l) (Fin s) = Fin y /\
    (forall t, y <= t <-> e <= (t - l) / s) /\
    laplace_salp_log_prob (Fin e) (Fin s) = laplace_log_prob (Fin y) (Fin l) (Fin s).
Proof.
  intros l s e Hs. exists (l + s * e). split; [reflexivity|]. split.
  - intros t. split; intros H.
    + apply (Rmult_le_reg_r s); auto. unfold Rdiv. rewrite Rmult_assoc, Rinv_l by lra. lra.
    + apply (Rmult_le_compat_r s) in H; [|lra]. unfold Rdiv in H. rewrite Rmult_assoc, Rinv_l in H by lra. lra.
  - unfold laplace_salp_log_prob, laplace_log_prob. rewrite standardize_fin, xlog_fin by auto. cbn. 
    replace ((l + s * e - l) / s) with e by (field; lra). reflexivity.
Qed.
Print Assumptions C49_laplace_sample.
