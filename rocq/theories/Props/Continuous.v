(** C47-C53: the univariate continuous distributions. *)
From Coq Require Import Reals List Bool Lra Lia.
From Coquelicot Require Import Coquelicot.
From Verif Require Import Base.Result Base.Tensor Base.XR Base.Lift Base.Integral Base.Gauss Model.ScalarDist
  Spec.Density Proofs.Density Proofs.Laplace Proofs.Logistic Proofs.Gumbel.
Import ListNotations.
Local Open Scope R_scope.

(** ** C48 Normal *)
(** log_prob is the log of the Gaussian density; cdf is its distribution function; log_cdf, survival
    and log_survival are the log, the complement and the log of the complement. *)
Theorem C48_normal_distribution : forall l s, 0 < s ->
  exists F, density_with_cdf (gaussian l s) F /\ integral (gaussian l s) 1 /\ forall x,
    0 < gaussian l s x /\ 0 < F x < 1 /\
    normal_log_prob (Fin x) (Fin l) (Fin s) = Fin (ln (gaussian l s x)) /\
    normal_cdf (Fin x) (Fin l) (Fin s) = Fin (F x) /\
    normal_log_cdf (Fin x) (Fin l) (Fin s) = Fin (ln (F x)) /\
    normal_survival (Fin x) (Fin l) (Fin s) = Fin (1 - F x) /\
    normal_log_survival (Fin x) (Fin l) (Fin s) = Fin (ln (1 - F x)).
Proof.
  intros l s Hs. exists (normal_F l s). rewrite gaussian_eq by auto.
  pose proof (normal_density l s Hs) as D. split; [exact D|]. split; [apply (density_integral _ _ D)|]. intros x.
  assert (P : 0 < normal_pdf l s x) by (apply normal_pdf_pos; auto).
  assert (Q : 0 < normal_F l s x < 1).
  { apply (density_range_strict _ _ D). intros; apply normal_pdf_pos; auto. }
  assert (Q' : ncdf (- ((x - l) / s)) = 1 - normal_F l s x) by apply ncdf_opp.
  split; [exact P|]. split; [exact Q|].
  unfold normal_log_prob, normal_cdf, normal_log_cdf, normal_survival, normal_log_survival, xlog_ndtr.
  rewrite (standardize_fin x l s Hs). cbn [xndtr xopp]. rewrite Q'. fold (normal_F l s x).
  rewrite !xlog_fin by lra. repeat split.
  cbn. f_equal. rewrite (ln_normal_pdf l s x Hs). field. lra.
Qed.
Print Assumptions C48_normal_distribution.

(** mean, variance, stddev, mode, median, entropy are those of that density. *)
Theorem C48_normal_moments : forall l s, 0 < s ->
  exists m v d md q h,
    normal_mean (Fin l) = Fin m /\ expectation (gaussian l s) (fun x => x) m /\
    normal_variance (Fin s) = Fin v /\ expectation (gaussian l s) (fun x => (x - m) ^ 2) v /\
    normal_stddev (Fin s) = Fin d /\ 0 <= d /\ d ^ 2 = v /\
    normal_mode (Fin l) = Fin md /\ is_mode (gaussian l s) md /\
    normal_median (Fin l) = Fin q /\ normal_cdf (Fin q) (Fin l) (Fin s) = Fin (1 / 2) /\
    normal_entropy (Fin s) = Fin h /\ is_entropy (gaussian l s) h.
Proof.
  intros l s Hs. exists l, (s * s), s, l, l, (1 / 2 + (1 / 2 * ln (2 * PI) + ln s)).
  rewrite gaussian_eq by auto.
  split; [reflexivity|]. split.
  { eapply expectation_ext; [| |apply (normal_moment l s l s 0 Hs)]; [intros x; cbn beta; field; lra|ring]. }
  split; [reflexivity|]. split.
  { eapply expectation_ext; [| |apply (normal_moment l s 0 0 (s * s) Hs)]; [intros x; cbn beta; field; lra|ring]. }
  split; [reflexivity|]. split; [lra|]. split; [ring|]. split; [reflexivity|]. split.
  { intros x. unfold normal_pdf. apply Rmult_le_compat_r; [left; apply Rinv_0_lt_compat; auto|].
    unfold npdf. apply Rmult_le_compat_r; [left; apply Rinv_0_lt_compat, sqrt_lt_R0; pose proof PI_RGT_0; lra|].
    replace ((l - l) / s) with 0 by (field; lra).
    destruct (Rle_lt_or_eq_dec 0 (((x - l) / s) ^ 2 / 2)) as [H|H].
    - apply Rmult_le_pos; [apply pow2_ge_0|lra].
    - left. apply exp_increasing. lra.
    - rewrite <- H. right; f_equal; lra. }
  split; [reflexivity|]. split.
  { unfold normal_median, normal_mean, normal_cdf. rewrite (standardize_fin l l s Hs). cbn.
    replace ((l - l) / s) with 0 by (field; lra). rewrite ncdf_0. f_equal; lra. }
  split. { unfold normal_entropy. rewrite xlog_fin by auto. reflexivity. }
  unfold is_entropy. eapply expectation_ext; [| |apply (normal_moment l s (1 / 2 * ln (2 * PI) + ln s) 0 (1 / 2) Hs)].
  - intros x; cbn beta. rewrite (ln_normal_pdf l s x Hs). field. lra.
  - ring.
Qed.
Print Assumptions C48_normal_moments.

Lemma ln_gap r : 0 < r -> r <> 1 -> ln r < r - 1.
Proof.
  intros H N. pose proof (exp_ineq1 (ln r)) as E. rewrite exp_ln in E by auto.
  assert (ln r <> 0). { intros Z. apply N. rewrite <- (exp_ln r H), Z, exp_0. auto. }
  specialize (E H0). lra.
Qed.

(** kl_divergence is the KL divergence of the two densities, nonnegative, and zero exactly for equal parameters. *)
Theorem C48_normal_kl : forall l1 s1 l2 s2, 0 < s1 -> 0 < s2 ->
  exists k, normal_kl (Fin l1) (Fin s1) (Fin l2) (Fin s2) = Fin k /\
    is_kl (gaussian l1 s1) (gaussian l2 s2) k /\ 0 <= k /\ (k = 0 <-> l1 = l2 /\ s1 = s2).
Proof.
  intros l1 s1 l2 s2 H1 H2.
  exists (1 / 2 * ((l1 - l2) / s2) ^ 2 + 1 / 2 * ((s1 / s2) ^ 2 - 1) - ln (s1 / s2)).
  assert (R : 0 < s1 / s2) by (apply Rdiv_lt_0_compat; auto).
  assert (K : is_kl (gaussian l1 s1) (gaussian l2 s2)
     (1 / 2 * ((l1 - l2) / s2) ^ 2 + 1 / 2 * ((s1 / s2) ^ 2 - 1) - ln (s1 / s2))).
  { rewrite !gaussian_eq by auto. unfold is_kl.
    eapply expectation_ext; [| |apply (normal_moment l1 s1 (ln s2 - ln s1 + (l1 - l2) ^ 2 / (2 * s2 ^ 2))
        ((l1 - l2) * s1 / s2 ^ 2) (- 1 / 2 + s1 ^ 2 / (2 * s2 ^ 2)) H1)].
    - intros x; cbn beta. rewrite !ln_normal_pdf by auto. field. lra.
    - rewrite ln_div by auto. field. lra. }
  split.
  - unfold normal_kl. rewrite !xlog_fin by auto. rewrite !xdiv_fin by lra. cbn. f_equal.
    rewrite ln_div by auto.
    replace (2 * (ln s1 + - ln s2)) with (ln ((s1 / s2) * (s1 / s2))).
    + rewrite exp_ln by (apply Rmult_lt_0_compat; auto). field. lra.
    + rewrite ln_mult, ln_div by auto. ring.
  - split; [exact K|].
    assert (Q : 0 <= ((l1 - l2) / s2) ^ 2) by apply pow2_ge_0.
    destruct (Req_dec (s1 / s2) 1) as [E|E].
    + rewrite E, ln_1. split; [lra|]. split.
      * intros Z. assert (Z' : ((l1 - l2) / s2) ^ 2 = 0) by lra.
        assert (l1 - l2 = (l1 - l2) / s2 * s2) by (field; lra).
        assert ((l1 - l2) / s2 = 0). { destruct (Req_dec ((l1 - l2) / s2) 0); auto. exfalso. apply (pow_nonzero _ 2 H0); auto. }
        split; [nra|]. apply (Rmult_eq_compat_r s2) in E. field_simplify in E; lra.
      * intros [-> _]. replace ((l2 - l2) / s2) with 0 by (field; lra). ring.
    + assert (L : ln ((s1 / s2) ^ 2) < (s1 / s2) ^ 2 - 1).
      { apply ln_gap; [apply pow_lt; auto|]. intros Z. apply E. nra. }
      replace ((s1 / s2) ^ 2) with (s1 / s2 * (s1 / s2)) in L by ring. rewrite ln_mult in L by auto.
      split; [nra|]. split; [nra|]. intros [_ ->]. exfalso. apply E. field. lra.
Qed.
Print Assumptions C48_normal_kl.

(** Sampling maps the standard normal draw e to the value y with y <= t exactly when e <= (t - loc)/scale:
    so P(y <= t) = ncdf((t - loc)/scale) = cdf(t). *)
Theorem C48_normal_sample : forall l s e, 0 < s ->
  exists y, normal_sample (Fin e) (Fin l) (Fin s) = Fin y /\
    (forall t, y <= t <-> e <= (t - l) / s) /\
    normal_salp_log_prob (Fin e) (Fin s) = normal_log_prob (Fin y) (Fin l) (Fin s).
Proof.
  intros l s e Hs. exists (s * e + l). split; [reflexivity|]. split.
  - intros t. split; intros H.
    + apply (Rmult_le_reg_r s); auto. unfold Rdiv. rewrite Rmult_assoc, Rinv_l by lra. lra.
    + apply (Rmult_le_compat_r s) in H; [|lra]. unfold Rdiv in H. rewrite Rmult_assoc, Rinv_l in H by lra. lra.
  - unfold normal_salp_log_prob, normal_log_prob. rewrite standardize_fin, xlog_fin by auto. cbn. f_equal.
    replace ((s * e + l - l) / s) with e by (field; lra). ring.
Qed.
Print Assumptions C48_normal_sample.
