(** C50: Logistic. *)
From Coq Require Import Reals List Bool Lra Lia.
From Coquelicot Require Import Coquelicot.
From Verif Require Import Base.Result Base.Tensor Base.XR Base.Lift Base.Integral Base.Gauss Model.ScalarDist
  Spec.Density Proofs.Density Proofs.Logistic Proofs.Gumbel Proofs.LogisticVar.
Import ListNotations.
Local Open Scope R_scope.

Lemma logistic_eq l s : 0 < s -> logistic_density l s = (fun x => lg_pdf ((x - l) / s) / s).
Proof.
  intros Hs. apply FunctionalExtensionality.functional_extensionality. intros x. unfold logistic_density, lg_pdf, lg.
  pose proof (lg_den ((x - l) / s)). set (E := exp (- ((x - l) / s))) in *. field. split; [lra|]. rewrite Rplus_comm in H; lra.
Qed.
Lemma xsigmoid_fin z : xsigmoid (Fin z) = Fin (lg z).
Proof.
  unfold xsigmoid. cbn [xopp xexp xadd]. pose proof (lg_den z). rewrite xdiv_fin by lra. f_equal. unfold lg. field. lra.
Qed.

Theorem C50_logistic_distribution : forall l s, 0 < s ->
  exists F, density_with_cdf (logistic_density l s) F /\ integral (logistic_density l s) 1 /\ forall x,
    0 < logistic_density l s x /\ 0 < F x < 1 /\
    F x = 1 / (1 + exp (- ((x - l) / s))) /\
    logistic_log_prob (Fin x) (Fin l) (Fin s) = Fin (ln (logistic_density l s x)) /\
    logistic_cdf (Fin x) (Fin l) (Fin s) = Fin (F x) /\
    logistic_log_cdf (Fin x) (Fin l) (Fin s) = Fin (ln (F x)) /\
    logistic_survival (Fin x) (Fin l) (Fin s) = Fin (1 - F x) /\
    logistic_log_survival (Fin x) (Fin l) (Fin s) = Fin (ln (1 - F x)).
Proof.
  intros l s Hs. exists (fun x => lg ((x - l) / s)).
  pose proof (location_scale _ _ l s Hs lg_density) as D.
  assert (P : forall x, 0 < lg_pdf ((x - l) / s) / s).
  { intros x. apply Rdiv_lt_0_compat; [apply lg_pdf_pos|auto]. }
  pose proof (density_integral _ _ D) as I.
  rewrite (logistic_eq l s Hs). split; [exact D|]. split; [exact I|]. intros x.
  split; [apply P|]. split; [apply lg_range|].
  unfold logistic_log_prob, logistic_cdf, logistic_log_cdf, logistic_survival, logistic_log_survival.
  rewrite (standardize_fin x l s Hs). split; [unfold lg, Rdiv; ring|]. cbn [xopp].
  rewrite !xsoftplus_fin, !xsigmoid_fin. split.
  { rewrite xlog_fin by auto. cbn. f_equal. rewrite ln_div by (try apply lg_pdf_pos; auto). rewrite ln_lg_pdf. unfold sp. ring. }
  split; [reflexivity|]. split. { rewrite ln_lg. reflexivity. }
  split. { rewrite lg_opp. reflexivity. }
  rewrite <- lg_opp, ln_lg. unfold sp. cbn. rewrite Ropp_involutive. reflexivity.
Qed.
Print Assumptions C50_logistic_distribution.

(** mean, variance, mode, median and entropy are those of the density; stddev is the square root of variance. *)
Theorem C50_logistic_moments : forall l s, 0 < s ->
  exists m v d md q h,
    logistic_mean (Fin l) = Fin m /\ expectation (logistic_density l s) (fun x => x) m /\
    logistic_variance (Fin s) = Fin v /\ v = s ^ 2 * PI ^ 2 / 3 /\ expectation (logistic_density l s) (fun x => (x - m) ^ 2) v /\
    logistic_stddev (Fin s) = Fin d /\ 0 <= d /\ d ^ 2 = v /\
    logistic_mode (Fin l) = Fin md /\ is_mode (logistic_density l s) md /\
    logistic_median (Fin l) = Fin q /\ logistic_cdf (Fin q) (Fin l) (Fin s) = Fin (1 / 2) /\
    logistic_entropy (Fin s) = Fin h /\ is_entropy (logistic_density l s) h.
Proof.
  intros l s Hs. rewrite (logistic_eq l s Hs).
  exists l, (s * PI * (s * PI) / 3), (s * PI / sqrt 3), l, l, (2 + ln s).
  pose proof PI_RGT_0. assert (0 < sqrt 3) by (apply sqrt_lt_R0; lra).
  split; [reflexivity|]. split.
  { eapply expectation_ext; [| |apply (lg_moment l s l s 0 Hs)]; [intros x; cbn beta; field; lra|ring]. }
  split. { unfold logistic_variance. cbn [xmul xsquare]. unfold xsquare; cbn [xmul]. rewrite xdiv_fin by lra. reflexivity. }
  split; [field|]. split.
  { pose proof (integral_standard lg_pdf (fun z => z ^ 2) l s _ Hs lg_second) as Hc. unfold expectation in *.
    replace (s * PI * (s * PI) / 3) with (s ^ 2 * (PI ^ 2 / 3)) by field.
    eapply integral_ext; [|apply integral_scal; exact Hc]. intros x. cbn beta. field. lra. }
  split. { unfold logistic_stddev. cbn [xmul xsqrt]. destruct (Rle_dec 0 3); [|lra]. rewrite xdiv_fin by lra. reflexivity. }
  split. { left. apply Rdiv_lt_0_compat; [apply Rmult_lt_0_compat|]; auto. }
  split. { unfold Rdiv. rewrite !Rpow_mult_distr, pow_inv, pow2_sqrt by lra. field. }
  split; [reflexivity|]. split.
  { intros x. replace ((l - l) / s) with 0 by (field; lra). apply Rmult_le_compat_r; [left; apply Rinv_0_lt_compat; lra|]. apply lg_pdf_max. }
  split; [reflexivity|]. split.
  { unfold logistic_cdf. rewrite (standardize_fin l l s Hs), xsigmoid_fin.
    replace ((l - l) / s) with 0 by (field; lra). unfold lg. rewrite Ropp_0, exp_0. f_equal; lra. }
  split. { unfold logistic_entropy. rewrite xlog_fin by auto. reflexivity. }
  unfold is_entropy.
  eapply expectation_ext; [| |apply (lg_moment l s (ln s) 1 2 Hs)]; [|ring].
  intros x; cbn beta. rewrite ln_div by (try apply lg_pdf_pos; auto). rewrite ln_lg_pdf. ring.
Qed.
Print Assumptions C50_logistic_moments.

(** A uniform draw u in (0,1) is mapped to its quantile: the value y with cdf y = u. *)
Theorem C50_logistic_sample : forall l s u, 0 < s -> 0 < u < 1 ->
  exists y, logistic_sample (Fin u) (Fin l) (Fin s) = Fin y /\ logistic_cdf (Fin y) (Fin l) (Fin s) = Fin u.
Proof.
  intros l s u Hs Hu. exists (s * (ln u - ln (1 - u)) + l). split.
  - unfold logistic_sample, xlog1p. cbn [xopp xadd]. rewrite !xlog_fin by lra. reflexivity.
  - unfold logistic_cdf. rewrite (standardize_fin _ l s Hs), xsigmoid_fin. f_equal.
    replace ((s * (ln u - ln (1 - u)) + l - l) / s) with (ln u - ln (1 - u)) by (field; lra).
    unfold lg. replace (- (ln u - ln (1 - u))) with (ln ((1 - u) / u)) by (rewrite ln_div by lra; ring).
    rewrite exp_ln by (apply Rdiv_lt_0_compat; lra). field. lra.
Qed.
Print Assumptions C50_logistic_sample.
