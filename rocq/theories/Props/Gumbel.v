(** C51: Gumbel. *)
From Coq Require Import Reals List Bool Lra Lia.
From Coquelicot Require Import Coquelicot.
From Verif Require Import Base.Result Base.Tensor Base.XR Base.Lift Base.Integral Base.Gauss Model.ScalarDist
  Model.Distribution Spec.Density Spec.Gumbel Spec.GammaFamily Base.GammaFn Proofs.Density Proofs.Gumbel Proofs.Gibbs Proofs.GammaFamily Proofs.GumbelGamma.
Import ListNotations.
Local Open Scope R_scope.

Lemma gumbel_eq l s : gumbel_density l s = (fun x => gu_pdf ((x - l) / s) / s).
Proof. reflexivity. Qed.
Lemma ln_gumbel l s x : 0 < s -> ln (gumbel_density l s x) = - ((x - l) / s + exp (- ((x - l) / s))) - ln s.
Proof. intros Hs. unfold gumbel_density. rewrite ln_div by (try apply exp_pos; auto). rewrite ln_exp. auto. Qed.

(** log_prob is the log of the Gumbel density; log_cdf is the log of its distribution function
    exp(-exp(-z)); cdf, survival and log_survival are the (inherited) exp, complement and log of the complement. *)
Theorem C51_gumbel_distribution : forall l s, 0 < s ->
  exists F, density_with_cdf (gumbel_density l s) F /\ integral (gumbel_density l s) 1 /\ forall x,
    0 < gumbel_density l s x /\ 0 < F x < 1 /\
    F x = exp (- exp (- ((x - l) / s))) /\
    let log_cdf := gumbel_log_cdf (Fin x) (Fin l) (Fin s) in
    gumbel_log_prob (Fin x) (Fin l) (Fin s) = Fin (ln (gumbel_density l s x)) /\
    log_cdf = Fin (ln (F x)) /\
    default_cdf log_cdf = Fin (F x) /\
    default_survival [] (default_cdf log_cdf) = Ok (Fin (1 - F x)) /\
    default_log_survival [] (default_cdf log_cdf) = Ok (Fin (ln (1 - F x))).
Proof.
  intros l s Hs. exists (fun x => gu_cdf ((x - l) / s)).
  pose proof (location_scale _ _ l s Hs gu_density) as D. rewrite <- gumbel_eq in D.
  assert (P : forall x, 0 < gumbel_density l s x).
  { intros x. apply Rdiv_lt_0_compat; [apply gu_pdf_pos|auto]. }
  pose proof (density_integral _ _ D) as I. pose proof (density_range_strict _ _ D P) as Q.
  split; [exact D|]. split; [exact I|]. intros x.
  split; [apply P|]. split; [apply Q|]. split; [reflexivity|].
  unfold gumbel_log_prob, gumbel_log_cdf. rewrite (standardize_fin x l s Hs). cbn zeta. split.
  { rewrite xlog_fin, ln_gumbel by auto. reflexivity. }
  cbn [xopp xexp default_cdf]. unfold default_cdf. cbn [xexp].
  change (exp (- exp (- ((x - l) / s)))) with (gu_cdf ((x - l) / s)).
  split. { unfold gu_cdf. rewrite ln_exp. reflexivity. }
  split; [reflexivity|]. split; [reflexivity|].
  unfold default_log_survival, xlog1p. cbn [xopp xadd]. change (1 + - gu_cdf ((x - l) / s)) with (1 - gu_cdf ((x - l) / s)). rewrite xlog_fin; [reflexivity|]. specialize (Q x). cbn beta in Q. lra.
Qed.
Print Assumptions C51_gumbel_distribution.

(** [euler_gamma] is the Euler-Mascheroni constant, lim (sum_{k<=n} 1/k - ln n). *)
Theorem C51_gumbel_moments : forall euler_gamma l s, 0 < s -> is_euler_mascheroni euler_gamma ->
  exists m v d md q h,
    gumbel_mean euler_gamma (Fin l) (Fin s) = Fin m /\ expectation (gumbel_density l s) (fun x => x) m /\
    gumbel_variance (Fin s) = Fin v /\ v = s ^ 2 * PI ^ 2 / 6 /\ expectation (gumbel_density l s) (fun x => (x - m) ^ 2) v /\
    gumbel_stddev (Fin s) = Fin d /\ 0 <= d /\ d ^ 2 = v /\
    gumbel_mode (Fin l) = Fin md /\ is_mode (gumbel_density l s) md /\
    gumbel_median (Fin l) (Fin s) = Fin q /\ default_cdf (gumbel_log_cdf (Fin q) (Fin l) (Fin s)) = Fin (1 / 2) /\
    gumbel_entropy euler_gamma (Fin s) = Fin h /\ is_entropy (gumbel_density l s) h.
Proof.
  intros eg l s Hs Heu. pose proof gumbel_mean_psi as Heg. pose proof gumbel_var_std as Hva. rewrite <- (euler_unique eg Heu) in Heg, Hva.
  assert (Hz : expectation (gumbel_density l s) (fun x => (x - l) / s) eg).
  { rewrite gumbel_eq. apply (integral_standard gu_pdf (fun z => z) l s eg Hs).
    unfold expectation in *. eapply integral_ext; [|exact Heg]. intros z. cbn beta. rewrite gumbel_eq.
    replace ((z - 0) / 1) with z by field. field. }
  assert (HE : forall a b c, expectation (gumbel_density l s) (fun x => a + b * ((x - l) / s) + c * exp (- ((x - l) / s))) (a + b * eg + c)).
  { intros a b c. unfold expectation. eapply integral_ext; [|replace (a + b * eg + c) with (b * eg + (a + c)) by ring;
      apply integral_plus; [apply integral_scal; exact Hz|apply (gu_moment l s a c Hs)]].
    intros x; cbn beta. rewrite gumbel_eq. ring. }
  pose proof PI_RGT_0. assert (0 < sqrt 6) by (apply sqrt_lt_R0; lra).
  exists (l + s * eg), (s * 1 * PI * (s * 1 * PI) / 6), (s * 1 * PI / sqrt 6), l, (l - s * ln (ln 2)), (ln s + 1 + eg).
  split; [reflexivity|]. split.
  { eapply expectation_ext; [| |apply (HE l s 0)]; [intros x; cbn beta; field; lra|ring]. }
  split. { unfold gumbel_variance, xsquare. cbn [xmul]. rewrite xdiv_fin by lra. reflexivity. }
  split; [field|]. split.
  { assert (Hc : expectation (gumbel_density l s) (fun x => ((x - l) / s - eg) ^ 2) (PI ^ 2 / 6)).
    { rewrite gumbel_eq. apply (integral_standard gu_pdf (fun z => (z - eg) ^ 2) l s _ Hs).
      unfold expectation in *. eapply integral_ext; [|exact Hva]. intros z. cbn beta. rewrite gumbel_eq.
      replace ((z - 0) / 1) with z by field. field. }
    unfold expectation in *. replace (s * 1 * PI * (s * 1 * PI) / 6) with (s ^ 2 * (PI ^ 2 / 6)) by field.
    eapply integral_ext; [|apply integral_scal; exact Hc]. intros x. cbn beta. field. lra. }
  split. { unfold gumbel_stddev. cbn [xmul]. rewrite xdiv_fin by lra. reflexivity. }
  split. { left. apply Rdiv_lt_0_compat; [|auto]. apply Rmult_lt_0_compat; [lra|auto]. }
  split. { unfold Rdiv. rewrite !Rpow_mult_distr, pow_inv, pow2_sqrt by lra. field. }
  split; [reflexivity|]. split.
  { intros x. rewrite gumbel_eq. replace ((l - l) / s) with 0 by (field; lra).
    apply Rmult_le_compat_r; [left; apply Rinv_0_lt_compat; lra|]. apply gu_pdf_max. }
  split; [reflexivity|]. split.
  { unfold gumbel_log_cdf. rewrite (standardize_fin _ l s Hs). unfold default_cdf. cbn. f_equal.
    replace (- ((l - s * ln (ln 2) - l) / s)) with (ln (ln 2)) by (field; lra).
    pose proof ln_lt_2. rewrite exp_ln by lra. rewrite exp_Ropp, exp_ln by lra. lra. }
  split. { unfold gumbel_entropy. rewrite xlog_fin by auto. reflexivity. }
  unfold is_entropy. eapply expectation_ext; [| |apply (HE (ln s) 1 1)]; [|ring].
  intros x; cbn beta. rewrite (ln_gumbel l s x Hs). ring.
Qed.
Print Assumptions C51_gumbel_moments.

Lemma gumbel_kl_of : forall euler_gamma lgamma l1 s1 l2 s2 L, 0 < s1 -> 0 < s2 ->
  expectation (gumbel_density 0 1) (fun z => z) euler_gamma ->
  lgamma (Fin (s1 / s2 + 1)) = Fin L ->
  expectation (gumbel_density 0 1) (fun z => exp (- (s1 / s2 * z))) (exp L) ->
  exists k, gumbel_kl euler_gamma lgamma (Fin l1) (Fin s1) (Fin l2) (Fin s2) = Fin k /\
    is_kl (gumbel_density l1 s1) (gumbel_density l2 s2) k /\ 0 <= k /\ (l1 = l2 -> s1 = s2 -> k = 0).
Proof.
  intros eg lgam l1 s1 l2 s2 L H1 H2 Heg HL HEL.
  set (r := s1 / s2) in *. set (D := (l1 - l2) / s2).
  assert (std : forall g v, expectation (gumbel_density 0 1) g v ->
     expectation (gumbel_density l1 s1) (fun x => g ((x - l1) / s1)) v).
  { intros g v Hg. rewrite gumbel_eq. apply (integral_standard gu_pdf g l1 s1 v H1).
    unfold expectation in *. eapply integral_ext; [|exact Hg]. intros z. cbn beta. rewrite gumbel_eq.
    replace ((z - 0) / 1) with z by field. field. }
  assert (K : is_kl (gumbel_density l1 s1) (gumbel_density l2 s2)
      (ln s2 - ln s1 + eg * (r - 1) + (exp (- D + L) - 1) + D)).
  { unfold is_kl. eapply expectation_ext with
      (g := fun x => (ln s2 - ln s1 + D + - 1 * exp (- ((x - l1) / s1))) +
                     ((r - 1) * ((x - l1) / s1) + exp (- D) * exp (- (r * ((x - l1) / s1))))); [| |].
    - intros x. rewrite (ln_gumbel l1 s1 x H1), (ln_gumbel l2 s2 x H2).
      replace ((x - l2) / s2) with (r * ((x - l1) / s1) + D) by (unfold r, D; field; lra).
      rewrite (Ropp_plus_distr (r * _)), exp_plus. ring.
    - reflexivity.
    - unfold expectation. rewrite exp_plus.
      replace (ln s2 - ln s1 + eg * (r - 1) + (exp (- D) * exp L - 1) + D)
        with ((ln s2 - ln s1 + D + -1) + ((r - 1) * eg + exp (- D) * exp L)) by ring.
      eapply integral_ext; [|apply integral_plus; [apply (gu_moment l1 s1 (ln s2 - ln s1 + D) (-1) H1)|
        apply integral_plus; [apply integral_scal; apply (std _ _ Heg)|apply integral_scal; apply (std _ _ HEL)]]].
      intros x. cbn beta. rewrite gumbel_eq. ring. }
  eexists. split; [|split; [exact K|split]].
  - unfold gumbel_kl. rewrite !xlog_fin by auto. cbn [xsub xadd xopp]. rewrite !xdiv_fin by lra. fold r.
    cbn [xsub xadd xopp xmul]. rewrite HL. cbn. f_equal.
    replace ((l2 + - l1) / s2) with (- D) by (unfold D; field; lra).
    replace ((l1 + - l2) / s2) with D by reflexivity. ring.
  - eapply (gibbs _ (fun x => gu_cdf ((x - l1) / s1)) _ (fun x => gu_cdf ((x - l2) / s2))); [| | | |exact K].
    + apply (location_scale _ _ l1 s1 H1 gu_density).
    + apply (location_scale _ _ l2 s2 H2 gu_density).
    + intros x. apply Rdiv_lt_0_compat; [apply gu_pdf_pos|auto].
    + intros x. apply Rdiv_lt_0_compat; [apply gu_pdf_pos|auto].
  - intros -> ->.
    assert (r = 1) by (unfold r; field; lra). assert (D = 0) by (unfold D; field; lra).
    rewrite H, H0 in *.
    assert (exp L = 1).
    { eapply (integral_unique _ _ _ HEL). eapply integral_ext; [|replace 1 with (0 + 1) by ring; apply (gu_moment 0 1 0 1 Rlt_0_1)].
      intros x. cbn beta. rewrite gumbel_eq. replace ((x - 0) / 1) with x by field. rewrite ?Rmult_1_l. unfold Rdiv. rewrite ?Rinv_1. ring. }
    rewrite Ropp_0, Rplus_0_l, H3. ring.
Qed.

Lemma gumbel_density_cdf l s : 0 < s -> density_with_cdf (gumbel_density l s) (fun x => gu_cdf ((x - l) / s)).
Proof. intros Hs. rewrite gumbel_eq. apply (location_scale _ _ l s Hs gu_density). Qed.
Lemma gumbel_density_pos l s x : 0 < s -> 0 < gumbel_density l s x.
Proof. intros Hs. apply Rdiv_lt_0_compat; [apply exp_pos|auto]. Qed.
Lemma gumbel_identifiable l1 s1 l2 s2 : 0 < s1 -> 0 < s2 -> (forall x, gumbel_density l1 s1 x = gumbel_density l2 s2 x) -> l1 = l2 /\ s1 = s2.
Proof.
  intros H1 H2 E. assert (T : forall l s x, 0 < s -> - ln (gumbel_density l s x) = (x - l) / s + exp (- ((x - l) / s)) + ln s).
  { intros l s x Hs. rewrite ln_gumbel by auto. ring. }
  assert (L : forall l s, 0 < s -> - ln (gumbel_density l s l) = 1 + ln s).
  { intros l s Hs. rewrite T by auto. replace ((l - l) / s) with 0 by (field; lra). rewrite Ropp_0, exp_0. ring. }
  assert (M : forall u, 1 <= u + exp (- u)). { intros u. pose proof (exp_ineq1_le (- u)). lra. }
  pose proof (L l1 s1 H1) as A1. pose proof (L l2 s2 H2) as A2. rewrite E in A1. rewrite <- E in A2. rewrite T in A1, A2 by auto.
  pose proof (M ((l1 - l2) / s2)). pose proof (M ((l2 - l1) / s1)).
  assert (Es : ln s1 = ln s2) by lra. apply ln_inv in Es; auto. split; [|exact Es]. subst s2.
  assert (Z : ln (exp (- ((l1 - l2) / s1))) = exp (- ((l1 - l2) / s1)) - 1) by (rewrite ln_exp; lra).
  apply ln_eq_sub1 in Z; [|apply exp_pos]. apply (f_equal ln) in Z. rewrite ln_exp, ln_1 in Z.
  apply (f_equal (fun t => t * s1)) in Z. replace (- ((l1 - l2) / s1) * s1) with (- (l1 - l2)) in Z by (field; lra). lra.
Qed.

(** kl_divergence is the KL divergence of the densities: nonnegative, and zero exactly when the parameters agree. *)
Theorem C51_gumbel_kl : forall euler_gamma lgamma l1 s1 l2 s2, 0 < s1 -> 0 < s2 ->
  is_euler_mascheroni euler_gamma -> is_lgamma lgamma ->
  exists k, gumbel_kl euler_gamma lgamma (Fin l1) (Fin s1) (Fin l2) (Fin s2) = Fin k /\
    is_kl (gumbel_density l1 s1) (gumbel_density l2 s2) k /\ 0 <= k /\ (k = 0 <-> l1 = l2 /\ s1 = s2).
Proof.
  intros eg lg l1 s1 l2 s2 H1 H2 Heu Hlg.
  assert (Hr : 0 < s1 / s2) by (apply Rdiv_lt_0_compat; auto).
  destruct (gumbel_kl_of eg lg l1 s1 l2 s2 (ln (Gam (s1 / s2 + 1))) H1 H2) as (k & E & K & P & Z).
  - rewrite (euler_unique eg Heu). apply gumbel_mean_psi.
  - apply Hlg. lra.
  - rewrite exp_ln by (apply Gam_pos; lra). apply gumbel_exp_moment; auto.
  - exists k. split; [exact E|]. split; [exact K|]. split; [exact P|]. split; [|intros [A B]; auto].
    intros ->. apply gumbel_identifiable; auto.
    apply (gibbs_equality _ _ _ _ (gumbel_density_cdf l1 s1 H1) (gumbel_density_cdf l2 s2 H2)); auto; intros x; apply gumbel_density_pos; auto.
Qed.
Print Assumptions C51_gumbel_kl.

Theorem C51_gumbel_sample : forall l s e, 0 < s ->
  exists y, gumbel_sample (Fin e) (Fin l) (Fin s) = Fin y /\
    (forall t, y <= t <-> e <= (t - l) / s) /\
    gumbel_salp_log_prob (Fin e) (Fin s) = gumbel_log_prob (Fin y) (Fin l) (Fin s).
Proof.
  intros l s e Hs. exists (s * e + l). split; [reflexivity|]. split.
  - intros t. split; intros H.
    + apply (Rmult_le_reg_r s); auto. unfold Rdiv. rewrite Rmult_assoc, Rinv_l by lra. lra.
    + apply (Rmult_le_compat_r s) in H; [|lra]. unfold Rdiv in H. rewrite Rmult_assoc, Rinv_l in H by lra. lra.
  - unfold gumbel_salp_log_prob, gumbel_log_prob. rewrite standardize_fin, xlog_fin by auto. cbn.
    replace ((s * e + l - l) / s) with e by (field; lra). reflexivity.
Qed.
Print Assumptions C51_gumbel_sample.

(** ** The premises hold: the constant exists and lies between 0 and 1, and a log-gamma oracle exists *)
Example C51_nonvacuous : exists eg lg, is_euler_mascheroni eg /\ 0 <= eg <= 1 /\ is_lgamma lg /\
  exists k, gumbel_kl eg lg (Fin 2) (Fin 1) (Fin 0) (Fin 1) = Fin k /\ k = exp (-2) + 1.
Proof.
  exists (- psi 1), (fun x => match x with Fin a => Fin (ln (Gamma_fn a)) | _ => NaN end).
  pose proof (psi_bounds 1 Rlt_0_1) as [B1 B2]. rewrite psi_S, ln_1, Rinv_1 in * by lra.
  split; [apply euler_psi|]. split; [lra|]. split; [intros a _; reflexivity|].
  eexists. split.
  - unfold gumbel_kl. rewrite !xlog_fin by lra. cbn [xsub xadd xopp]. rewrite !xdiv_fin by lra. cbn [xsub xadd xopp xmul].
    replace (1 / 1 + 1) with (1 + 1) by field. change (Gamma_fn (1 + 1)) with (Gam (1 + 1)). rewrite (Gam_S 1), Gam_1, Rmult_1_r, ln_1 by lra. cbn. reflexivity.
  - replace ((0 + - (2)) / 1 + 0) with (-2) by field. rewrite ?ln_1. field.
Qed.
