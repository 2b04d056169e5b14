(** C57: the Gamma and Beta distributions. *)
From Coq Require Import Reals Lra Lia List Bool.
From Coquelicot Require Import Coquelicot.
From Verif Require Import Base.Result Base.Tensor Base.XR Base.Lift Base.Sums Base.Improper Base.Mellin Base.GammaFn
  Model.ScalarDist Model.ArrayDist Model.GammaFamily Spec.ArrayDist Spec.GammaFamily Proofs.Density Proofs.ArrayDist Proofs.GammaFamily.
Import ListNotations.
Local Open Scope R_scope.
#[global] Arguments Gamma_fn : simpl never.

(** The special functions named in the hypotheses exist. *)
Definition the_lgamma (a : XR) : XR := match a with Fin x => Fin (ln (Gamma_fn x)) | _ => NaN end.
Definition the_digamma (a : XR) : XR := match a with Fin x => Fin (psi x) | _ => NaN end.
Example C57_oracles_exist : is_lgamma the_lgamma /\ is_digamma the_digamma.
Proof. split; [intros a Ha; reflexivity|]. intros a Ha. exists (psi a). split; [reflexivity|]. apply lnGamma_derive; auto. Qed.

Lemma xlog_pos x : 0 < x -> xlog (Fin x) = Fin (ln x).
Proof. apply rlog_pos. Qed.

Lemma xleb_t x y : x <= y -> xleb (Fin x) (Fin y) = true.
Proof. intros H. apply xleb_fin; auto. Qed.
Lemma xleb_f x y : y < x -> xleb (Fin x) (Fin y) = false.
Proof. intros H. apply not_true_iff_false. rewrite xleb_fin. lra. Qed.
Lemma xltb_t x y : x < y -> xltb (Fin x) (Fin y) = true.
Proof. intros H. apply xltb_fin; auto. Qed.
Lemma xltb_f x y : y <= x -> xltb (Fin x) (Fin y) = false.
Proof. intros H. apply not_true_iff_false. rewrite xltb_fin. lra. Qed.
Lemma xeqb_f x y : x <> y -> xeqb (Fin x) (Fin y) = false.
Proof. intros H. apply not_true_iff_false. rewrite xeqb_fin. auto. Qed.
Lemma xeqb_t x : xeqb (Fin x) (Fin x) = true.
Proof. apply xeqb_fin. auto. Qed.

(** ** Gamma *)
Theorem C57_gamma_log_prob lg a r x : is_lgamma lg -> 0 < a -> 0 < r -> 0 < x ->
  gamma_log_prob lg (Fin x) (Fin a) (Fin r) = Fin (ln (gamma_density a r x)).
Proof.
  intros L Ha Hr Hx. unfold gamma_log_prob. rewrite !xlog_pos, L by auto. rewrite gd_ln by auto. cbn; change Gamma_fn with Gam; repeat f_equal; ring.
Qed.
Theorem C57_gamma_is_density a r : 0 < a -> 0 < r -> density_on 0 p_infty (gamma_density a r).
Proof. intros Ha Hr. split; [intros x [Hx _]; cbn in Hx; left; apply gd_pos; auto|apply gd_normal; auto]. Qed.
Theorem C57_gamma_moments a r : 0 < a -> 0 < r -> exists m s v,
  gamma_mean (Fin a) (Fin r) = Fin m /\ gamma_stddev (Fin a) (Fin r) = Fin s /\ gamma_variance (Fin a) (Fin r) = Fin v /\
  expect_on 0 p_infty (gamma_density a r) (fun x => x) m /\
  expect_on 0 p_infty (gamma_density a r) (fun x => (x - m) ^ 2) v /\ 0 <= s /\ s ^ 2 = v.
Proof.
  intros Ha Hr. exists (a / r), (sqrt a / r), (a / r ^ 2). unfold gamma_mean, gamma_stddev, gamma_variance, xsquare.
  rewrite xdiv_fin by lra. cbn [xsqrt]. destruct (Rle_dec 0 a) as [_|]; [|lra]. rewrite xdiv_fin by lra.
  cbn [xmul]. rewrite xdiv_fin by nra. split; [reflexivity|]. split; [reflexivity|]. split; [f_equal; field; lra|].
  split; [apply gd_mean; auto|]. split.
  - unfold expect_on. apply (integral_on_ext 0 p_infty I (fun x => gamma_density a r x * x ^ 2 + (- (2 * (a / r)) * (gamma_density a r x * x) + (a / r) ^ 2 * gamma_density a r x))).
    { intros x _. ring. }
    replace (a / r ^ 2) with (a * (a + 1) / r ^ 2 + (- (2 * (a / r)) * (a / r) + (a / r) ^ 2 * 1)) by (field; lra).
    apply (integral_on_plus 0 p_infty I); [apply gd_second; auto|]. apply (integral_on_plus 0 p_infty I).
    + apply (integral_on_scal 0 p_infty I (- (2 * (a / r))) (fun x => gamma_density a r x * x)), gd_mean; auto.
    + apply (integral_on_scal 0 p_infty I), gd_normal; auto.
  - split; [apply Rdiv_le_0_compat; [apply sqrt_pos|auto]|]. unfold Rdiv. rewrite Rpow_mult_distr. rewrite pow2_sqrt by lra. field. lra.
Qed.
Theorem C57_gamma_entropy lg dg a r : is_lgamma lg -> is_digamma dg -> 0 < a -> 0 < r ->
  exists h, gamma_entropy lg dg (Fin a) (Fin r) = Fin h /\ entropy_on 0 p_infty (gamma_density a r) h.
Proof.
  intros L D Ha Hr. exists (- (a * ln r - ln (Gam a)) + - (a - 1) * (psi a - ln r) + r * (a / r)). split.
  - unfold gamma_entropy. rewrite xlog_pos, L, (digamma_psi dg) by auto. cbn. f_equal. change Gamma_fn with Gam. field. lra.
  - unfold entropy_on, expect_on.
    apply (integral_on_ext 0 p_infty I (fun x => gamma_density a r x * (- (a * ln r - ln (Gam a)) + - (a - 1) * ln x + r * x))).
    { intros x [Hx _]. cbn in Hx. rewrite (gd_ln a r x) by auto. f_equal. ring. }
    apply gd_linear; auto.
Qed.
Lemma gamma_kl_core lg dg a1 r1 a2 r2 : is_lgamma lg -> is_digamma dg -> 0 < a1 -> 0 < r1 -> 0 < a2 -> 0 < r2 ->
  exists k, gamma_kl lg dg (Fin a1) (Fin r1) (Fin a2) (Fin r2) = Fin k /\ kl_on 0 p_infty (gamma_density a1 r1) (gamma_density a2 r2) k.
Proof.
  intros L D Ha1 Hr1 Ha2 Hr2.
  exists ((a1 * ln r1 - a2 * ln r2 - ln (Gam a1) + ln (Gam a2)) + (a1 - a2) * (psi a1 - ln r1) + (r2 - r1) * (a1 / r1)). split.
  - unfold gamma_kl. rewrite !xlog_pos, !L, (digamma_psi dg), xdiv_fin by (auto; lra). cbn. f_equal. change Gamma_fn with Gam. field. lra.
  - unfold kl_on, expect_on.
    apply (integral_on_ext 0 p_infty I (fun x => gamma_density a1 r1 x * ((a1 * ln r1 - a2 * ln r2 - ln (Gam a1) + ln (Gam a2)) + (a1 - a2) * ln x + (r2 - r1) * x))).
    { intros x [Hx _]. cbn in Hx. rewrite (gd_ln a1 r1 x), (gd_ln a2 r2 x) by auto. f_equal. ring. }
    apply gd_linear; auto.
Qed.
Lemma gamma_density_inj a1 r1 a2 r2 : 0 < a1 -> 0 < r1 -> 0 < a2 -> 0 < r2 ->
  (forall x, 0 < x -> gamma_density a1 r1 x = gamma_density a2 r2 x) -> a1 = a2 /\ r1 = r2.
Proof.
  intros Ha1 Hr1 Ha2 Hr2 E.
  assert (M1 : a1 / r1 = a2 / r2).
  { apply (integral_on_unique 0 p_infty I (fun x => gamma_density a1 r1 x * x)); [apply gd_mean; auto|].
    apply (integral_on_ext 0 p_infty I (fun x => gamma_density a2 r2 x * x)); [|apply gd_mean; auto]. intros x [Hx _]. cbn in Hx. rewrite E by auto. auto. }
  assert (M2 : a1 * (a1 + 1) / r1 ^ 2 = a2 * (a2 + 1) / r2 ^ 2).
  { apply (integral_on_unique 0 p_infty I (fun x => gamma_density a1 r1 x * x ^ 2)); [apply gd_second; auto|].
    apply (integral_on_ext 0 p_infty I (fun x => gamma_density a2 r2 x * x ^ 2)); [|apply gd_second; auto]. intros x [Hx _]. cbn in Hx. rewrite E by auto. auto. }
  replace (a1 * (a1 + 1) / r1 ^ 2) with ((a1 / r1) ^ 2 + (a1 / r1) / r1) in M2 by (field; lra).
  replace (a2 * (a2 + 1) / r2 ^ 2) with ((a2 / r2) ^ 2 + (a2 / r2) / r2) in M2 by (field; lra).
  rewrite M1 in M2. assert (Hm : 0 < a2 / r2) by (apply Rdiv_lt_0_compat; auto).
  assert (R : r1 = r2). { assert (a2 / r2 / r1 = a2 / r2 / r2) as E2 by lra. unfold Rdiv in E2 at 1 3. apply Rmult_eq_reg_l in E2; [|lra]. rewrite <- (Rinv_inv r1), <- (Rinv_inv r2), E2. auto. }
  subst r2. split; auto. unfold Rdiv in M1. apply Rmult_eq_reg_r in M1; auto. apply Rinv_neq_0_compat; lra.
Qed.
(** kl_divergence is the integral of p (ln p - ln q), is never negative, and vanishes exactly for equal parameters. *)
Theorem C57_gamma_kl lg dg a1 r1 a2 r2 : is_lgamma lg -> is_digamma dg -> 0 < a1 -> 0 < r1 -> 0 < a2 -> 0 < r2 ->
  exists k, gamma_kl lg dg (Fin a1) (Fin r1) (Fin a2) (Fin r2) = Fin k /\
    kl_on 0 p_infty (gamma_density a1 r1) (gamma_density a2 r2) k /\ 0 <= k /\ (k = 0 <-> a1 = a2 /\ r1 = r2).
Proof.
  intros L D Ha1 Hr1 Ha2 Hr2. destruct (gamma_kl_core lg dg a1 r1 a2 r2) as (k & E & K); auto. exists k. split; auto. split; auto.
  assert (P : forall a r, 0 < a -> 0 < r -> forall x, inside 0 p_infty x -> 0 < gamma_density a r x) by (intros a r Ha Hr x [Hx _]; apply gd_pos; auto).
  assert (C : forall a r x, inside 0 p_infty x -> continuous (gamma_density a r) x) by (intros a r x [Hx _]; apply gd_cont; auto).
  split. { apply (kl_on_nonneg 0 p_infty (gamma_density a1 r1) (gamma_density a2 r2) k I); auto using gd_normal. }
  split.
  - intros ->. apply gamma_density_inj; auto. intros x Hx. apply (kl_on_zero 0 p_infty (gamma_density a1 r1) (gamma_density a2 r2) I); auto using gd_normal. split; cbn; auto.
  - intros [<- <-]. apply (integral_on_unique 0 p_infty I (fun x => gamma_density a1 r1 x * (ln (gamma_density a1 r1 x) - ln (gamma_density a1 r1 x)))); [exact K|].
    apply (integral_on_ext 0 p_infty I (fun _ => 0)); [intros; ring|apply (integral_on_zero 0 p_infty I)].
Qed.
(** mode: for concentration > 1 the strict global maximiser; for concentration = 1 it is 0 and the density decreases on
    (0, infinity); below 1 it is NaN and the density is unbounded. *)
Theorem C57_gamma_mode a r : 0 < a -> 0 < r ->
  (1 < a -> exists m, gamma_mode (Fin a) (Fin r) = Fin m /\ 0 < m /\ forall x, 0 < x -> x <> m -> gamma_density a r x < gamma_density a r m) /\
  (a = 1 -> gamma_mode (Fin a) (Fin r) = Fin 0 /\ forall x y, 0 < x < y -> gamma_density a r y < gamma_density a r x) /\
  (a < 1 -> gamma_mode (Fin a) (Fin r) = NaN /\ forall B, exists x, 0 < x /\ B < gamma_density a r x).
Proof.
  intros Ha Hr. assert (LT : forall x y, 0 < x -> 0 < y -> ln (gamma_density a r x) < ln (gamma_density a r y) -> gamma_density a r x < gamma_density a r y).
  { intros x y Hx Hy H. apply exp_increasing in H. rewrite !exp_ln in H by (apply gd_pos; auto). auto. }
  unfold gamma_mode. split; [|split].
  - intros H1. exists ((a - 1) / r). cbn [xsub xadd xopp]. rewrite xdiv_fin by lra.
    assert (Hm : 0 < (a - 1) / r) by (apply Rdiv_lt_0_compat; lra). rewrite xleb_t by lra. cbn [xwhere].
    split; [reflexivity|]. split; auto. intros x Hx Hn. apply LT; auto. rewrite !gd_ln by auto. set (m := (a - 1) / r) in *.
    assert (Hz : 0 < x / m) by (apply Rdiv_lt_0_compat; auto). pose proof (ln_le_sub1 (x / m) Hz) as H2.
    assert (ln (x / m) <> x / m - 1). { intros H3. apply (ln_eq_sub1 _ Hz) in H3. apply Hn. apply (Rmult_eq_reg_r (/ m)); [|apply Rinv_neq_0_compat; lra]. rewrite Rinv_r by lra. exact H3. }
    assert (H4 : (a - 1) * ln (x / m) < (a - 1) * (x / m - 1)) by (apply Rmult_lt_compat_l; lra).
    rewrite ln_div in H4 by auto. assert (E : (a - 1) * (x / m - 1) = r * x - r * m) by (unfold m; field; lra). lra.
  - intros ->. cbn [xsub xadd xopp]. rewrite xdiv_fin by lra. rewrite xleb_t by lra. cbn [xwhere].
    split; [f_equal; field; lra|]. intros x y Hxy. apply LT; try lra. rewrite !gd_ln by lra.
    replace (1 + - 1) with 0 by ring. assert (r * x < r * y) by (apply Rmult_lt_compat_l; lra). lra.
  - intros H1. cbn [xsub xadd xopp]. rewrite xdiv_fin by lra. rewrite xleb_f by lra. cbn [xwhere].
    split; [reflexivity|]. intros B.
    set (C := a * ln r - r - ln (Gam a)). set (t := Rmax 1 ((Rabs B - C) / (1 - a))).
    assert (Ht : 1 <= t) by apply Rmax_l. assert (Ht2 : (Rabs B - C) / (1 - a) <= t) by apply Rmax_r.
    assert (Hx : exp (- t) < 1). { rewrite <- exp_0. apply exp_increasing. lra. } pose proof (exp_pos (- t)) as Hp.
    exists (exp (- t)). split; auto.
    assert (H2 : Rabs B <= ln (gamma_density a r (exp (- t)))).
    { rewrite gd_ln by auto. rewrite ln_exp. assert (r * exp (- t) <= r) by nra.
      assert (Rabs B - C <= (1 - a) * t). { apply (Rmult_le_compat_l (1 - a)) in Ht2; [|lra]. replace ((1 - a) * ((Rabs B - C) / (1 - a))) with (Rabs B - C) in Ht2 by (field; lra). auto. }
      unfold C in *. lra. }
    pose proof (gd_pos a r (exp (- t)) Ha Hr Hp) as Hg. pose proof (exp_ge (ln (gamma_density a r (exp (- t))))) as H3. rewrite exp_ln in H3 by auto.
    pose proof (Rle_abs B). lra.
Qed.
(** cdf integrates the density; [igamma] is the regularised lower incomplete gamma function *)
Definition is_igamma (ig : XR -> XR -> XR) : Prop := forall a y, 0 < a -> 0 < y ->
  exists v, ig (Fin a) (Fin y) = Fin v /\ integral_on 0 y (fun t => Rpower t (a - 1) * exp (- t) / Gamma_fn a) v.
Lemma scale_to (f : R -> R) r x v : 0 < r -> 0 < x -> (forall y, 0 < y -> continuous f y) ->
  integral_on 0 (r * x) f v -> integral_on 0 x (fun t => r * f (r * t)) v.
Proof.
  intros Hr Hx Hc Hi. assert (Hrx : 0 < r * x) by (apply Rmult_lt_0_compat; auto).
  apply (integral_on_subst 0 (r * x) 0 x (fun t => r * t) (fun _ => r) f); auto; try (cbn; lra).
  - intros t [H1 H2]. cbn in *. split; cbn; nra.
  - intros t _. auto_derive; auto. ring.
  - intros t _. apply continuous_const.
  - intros P HP. apply lo_iff in HP. destruct HP as (c & Hc0 & HP). apply lo_iff. exists (c / r). split; [apply Rdiv_lt_0_compat; auto|].
    intros t [H1 H2]. apply HP. split; [apply Rmult_lt_0_compat; auto|]. apply (Rmult_lt_compat_l r) in H2; auto.
    replace (r * (c / r)) with c in H2 by (field; lra). auto.
  - intros P HP. apply (hi_iff 0) in HP; [|cbn; auto]. destruct HP as (c & Hc0 & Hc1 & HP). cbn in Hc1. apply (hi_iff 0); [cbn; auto|].
    exists (c / r). split; [apply Rdiv_lt_0_compat; auto|]. assert (Ec : r * (c / r) = c) by (field; lra). split.
    + cbn. apply (Rmult_lt_reg_l r); auto. rewrite Ec. auto.
    + intros t H1 H2. cbn in H2. apply HP; [|cbn; nra]. apply (Rmult_lt_compat_l r) in H1; auto. rewrite Ec in H1. auto.
  - intros t [H1 _]. apply Hc. exact H1.
Qed.
Lemma gamma_scale_density a r x v : 0 < a -> 0 < r -> 0 < x -> integral_on 0 (r * x) (gamma_density a 1) v -> integral_on 0 x (gamma_density a r) v.
Proof.
  intros Ha Hr Hx Hi. apply (integral_on_ext 0 x Hx (fun t => r * gamma_density a 1 (r * t))); [|apply scale_to; auto; intros; apply gd_cont; auto].
  intros t [Ht _]. cbn in Ht. unfold gamma_density. rewrite Rpower_1_l, <- Rpower_mult_distr by auto. rewrite (Rpower_split r a) by auto.
  replace (1 * (r * t)) with (r * t) by ring. unfold Rdiv. ring.
Qed.
Theorem C57_gamma_cdf ig a r x : is_igamma ig -> 0 < a -> 0 < r -> 0 < x -> exists v,
  gamma_cdf ig (Fin x) (Fin a) (Fin r) = Fin v /\ integral_on 0 x (gamma_density a r) v /\ 0 < v /\
  gamma_log_cdf ig (Fin x) (Fin a) (Fin r) = Fin (ln v).
Proof.
  intros G Ha Hr Hx. assert (Hrx : 0 < r * x) by (apply Rmult_lt_0_compat; auto). destruct (G a (r * x) Ha Hrx) as (v & E & Hv). exists v.
  assert (E' : gamma_cdf ig (Fin x) (Fin a) (Fin r) = Fin v) by (unfold gamma_cdf; cbn [xmul]; exact E). split; auto.
  assert (I1 : integral_on 0 x (gamma_density a r) v).
  { apply gamma_scale_density; auto. apply (integral_on_ext 0 (r * x) Hrx (fun t => Rpower t (a - 1) * exp (- t) / Gamma_fn a)); auto.
    intros t _. unfold gamma_density. rewrite Rpower_1_l, !Rmult_1_l. auto. }
  assert (P : 0 < v). { apply (integral_on_pos 0 x Hx (gamma_density a r)); auto; intros t [Ht _]; [apply gd_cont|apply gd_pos]; auto. }
  split; auto. split; auto. unfold gamma_log_cdf. rewrite E'. apply xlog_pos; auto.
Qed.
(** [jax.random.gamma(key, a)] draws from Gamma(a, 1): dividing by the rate turns its law into that of Gamma(a, rate) *)
Theorem C57_gamma_sample a r c : 0 < a -> 0 < r -> 0 < c ->
  (forall z, exists s, gamma_sample (Fin z) (Fin r) = Fin s /\ (s <= c <-> z <= r * c)) /\
  (forall v, integral_on 0 (r * c) (gamma_density a 1) v -> integral_on 0 c (gamma_density a r) v).
Proof.
  intros Ha Hr Hc. split; [|intros v; apply gamma_scale_density; auto]. intros z. exists (z / r). split; [apply xdiv_fin; lra|].
  assert (E : r * (z / r) = z) by (field; lra). split; intros H.
  - rewrite <- E. apply Rmult_le_compat_l; lra.
  - apply (Rmult_le_reg_l r); auto. rewrite E. auto.
Qed.
(** off the support: negative values give NaN *)
Theorem C57_gamma_negative lg a r x : 0 < a -> 0 < r -> x < 0 -> gamma_log_prob lg (Fin x) (Fin a) (Fin r) = NaN.
Proof.
  intros Ha Hr Hx. unfold gamma_log_prob. rewrite (xlog_pos r) by auto. replace (xlog (Fin x)) with NaN by (symmetry; apply rlog_neg; auto). cbn. destruct (lg (Fin a)); reflexivity.
Qed.
(** The exponential distribution, concentration 1, has density r at 0; log_prob(0) is NaN because (1 - 1) * log 0 is. *)
Theorem C57_gamma_log_prob_zero_refuted : exists r, 0 < r /\ forall lg, is_lgamma lg ->
  gamma_log_prob lg (Fin 0) (Fin 1) (Fin r) = NaN /\
  filterlim (fun x => gamma_density 1 r x) (at_right 0) (locally r).
Proof.
  exists 1. split; [lra|]. intros lg L. split.
  - unfold gamma_log_prob. rewrite (xlog_pos 1) by lra. replace (xlog (Fin 0)) with NInf by (symmetry; apply rlog_0).
    rewrite L by lra. cbn. unfold inf_times. repeat (destruct (Rlt_dec _ _); [exfalso; lra|]). reflexivity.
  - apply (filterlim_ext_loc (fun x => exp (- x))).
    { apply lo_iff. exists 1. split; [lra|]. intros x Hx. unfold gamma_density. change Gamma_fn with Gam. rewrite Gam_1, Rpower_1_l, Rminus_eq_0, Rpower_O by lra.
      replace (1 * x) with x by ring. field. }
    apply (filterlim_filter_le_1 (F := locally 0) (G := at_right 0)); [apply filter_le_within|].
    assert (C : continuous (fun x : R => exp (- x)) 0) by (apply (ex_derive_continuous (fun x : R => exp (- x))); auto_derive; auto).
    unfold continuous in C. rewrite Ropp_0, exp_0 in C. exact C.
Qed.

(** ** Beta *)
Lemma lg_beta lg a b : is_lgamma lg -> 0 < a -> 0 < b -> xlog_beta lg (Fin a) (Fin b) = Fin (ln (Beta_fn a b)).
Proof.
  intros L Ha Hb. unfold xlog_beta. cbn [xadd]. rewrite !L by lra. rewrite Beta_fn_ln by auto. reflexivity.
Qed.
(** math.log_beta is the logarithm of Euler's integral, and agrees with math.log_beta_multivariate on two parameters. *)
Theorem C57_log_beta lg a b : is_lgamma lg -> 0 < a -> 0 < b -> exists v, 0 < v /\
  integral_on 0 1 (fun x => Rpower x (a - 1) * Rpower (1 - x) (b - 1)) v /\
  xlog_beta lg (Fin a) (Fin b) = Fin (ln v) /\ xlog_beta_multivariate lg [Fin a; Fin b] = xlog_beta lg (Fin a) (Fin b).
Proof.
  intros L Ha Hb. exists (Beta_fn a b). split; [apply Beta_fn_pos; auto|]. split; [|split; [apply lg_beta; auto|]].
  - exact (bet_integral a b Ha Hb).
  - unfold xlog_beta_multivariate, xlog_beta. cbn [map xsum fold_right xadd]. rewrite !L by lra. cbn [xadd]. rewrite !Rplus_0_r. reflexivity.
Qed.
Print Assumptions C57_log_beta.
Lemma bool_false_pair (p q r s : bool) : p && q = false -> r && s = false -> (p && q || r && s) = false.
Proof. intros -> ->. auto. Qed.
Theorem C57_beta_log_prob lg a b x : is_lgamma lg -> 0 < a -> 0 < b -> 0 < x < 1 ->
  beta_log_prob lg (Fin x) (Fin a) (Fin b) = Fin (ln (beta_density a b x)).
Proof.
  intros L Ha Hb Hx. unfold beta_log_prob. rewrite bool_false_pair by (apply andb_false_iff; right; apply xeqb_f; lra). cbn [xwhere].
  rewrite lg_beta by auto. cbn [xsub xadd xopp]. rewrite !xlog_pos by lra. rewrite bd_ln by auto. reflexivity.
Qed.
Theorem C57_beta_is_density a b : 0 < a -> 0 < b -> density_on 0 1 (beta_density a b).
Proof. intros Ha Hb. split; [intros x [Hx Hx']; cbn in *; left; apply bd_pos; auto|apply bd_normal; auto]. Qed.
Theorem C57_beta_moments a b : 0 < a -> 0 < b -> exists m v,
  beta_mean (Fin a) (Fin b) = Fin m /\ beta_variance (Fin a) (Fin b) = Fin v /\ 0 < m < 1 /\ 0 < v /\
  expect_on 0 1 (beta_density a b) (fun x => x) m /\ expect_on 0 1 (beta_density a b) (fun x => (x - m) ^ 2) v.
Proof.
  intros Ha Hb. set (m := a / (a + b)). set (v := a * b / ((a + b) ^ 2 * (a + b + 1))). exists m, v. unfold beta_mean, beta_variance, xsquare.
  cbn [xadd xmul]. rewrite !xdiv_fin by nra. split; [reflexivity|]. split; [unfold v; f_equal; field; lra|].
  split. { unfold m. split; [apply Rdiv_lt_0_compat; lra|]. apply (Rmult_lt_reg_r (a + b)); [lra|]. replace (a / (a + b) * (a + b)) with a by (field; lra). lra. }
  split. { unfold v. apply Rdiv_lt_0_compat; nra. }
  split; [apply bd_mean; auto|]. unfold expect_on.
  apply (integral_on_ext 0 1 lt01 (fun x => beta_density a b x * x ^ 2 + (- (2 * m) * (beta_density a b x * x) + m ^ 2 * beta_density a b x))).
  { intros x _. ring. }
  replace v with (a * (a + 1) / ((a + b) * (a + b + 1)) + (- (2 * m) * m + m ^ 2 * 1)) by (unfold v, m; field; lra).
  apply (integral_on_plus 0 1 lt01); [apply bd_second; auto|]. apply (integral_on_plus 0 1 lt01).
  - apply (integral_on_scal 0 1 lt01 (- (2 * m)) (fun x => beta_density a b x * x)), bd_mean; auto.
  - apply (integral_on_scal 0 1 lt01), bd_normal; auto.
Qed.
Theorem C57_beta_entropy lg dg a b : is_lgamma lg -> is_digamma dg -> 0 < a -> 0 < b ->
  exists h, beta_entropy lg dg (Fin a) (Fin b) = Fin h /\ entropy_on 0 1 (beta_density a b) h.
Proof.
  intros L D Ha Hb. exists (ln (Beta_fn a b) + - (a - 1) * (psi a - psi (a + b)) + - (b - 1) * (psi b - psi (a + b))). split.
  - unfold beta_entropy. rewrite lg_beta by auto. cbn [xadd]. rewrite !(digamma_psi dg) by (auto; lra). cbn. f_equal. ring.
  - unfold entropy_on, expect_on.
    apply (integral_on_ext 0 1 lt01 (fun x => beta_density a b x * (ln (Beta_fn a b) + - (a - 1) * ln x + - (b - 1) * ln (1 - x)))).
    { intros x [Hx Hx']. cbn in Hx, Hx'. rewrite (bd_ln a b x) by auto. f_equal. ring. }
    apply bd_linear; auto.
Qed.
Lemma beta_kl_core lg dg a1 b1 a2 b2 : is_lgamma lg -> is_digamma dg -> 0 < a1 -> 0 < b1 -> 0 < a2 -> 0 < b2 ->
  exists k, beta_kl lg dg (Fin a1) (Fin b1) (Fin a2) (Fin b2) = Fin k /\ kl_on 0 1 (beta_density a1 b1) (beta_density a2 b2) k.
Proof.
  intros L D Ha1 Hb1 Ha2 Hb2.
  exists ((ln (Beta_fn a2 b2) - ln (Beta_fn a1 b1)) + (a1 - a2) * (psi a1 - psi (a1 + b1)) + (b1 - b2) * (psi b1 - psi (a1 + b1))). split.
  - unfold beta_kl. rewrite !lg_beta by auto. cbn [xadd]. rewrite !(digamma_psi dg) by (auto; lra). cbn. f_equal. ring.
  - unfold kl_on, expect_on.
    apply (integral_on_ext 0 1 lt01 (fun x => beta_density a1 b1 x * ((ln (Beta_fn a2 b2) - ln (Beta_fn a1 b1)) + (a1 - a2) * ln x + (b1 - b2) * ln (1 - x)))).
    { intros x [Hx Hx']. cbn in Hx, Hx'. rewrite (bd_ln a1 b1 x), (bd_ln a2 b2 x) by auto. f_equal. ring. }
    apply bd_linear; auto.
Qed.
Lemma beta_density_inj a1 b1 a2 b2 : 0 < a1 -> 0 < b1 -> 0 < a2 -> 0 < b2 ->
  (forall x, 0 < x < 1 -> beta_density a1 b1 x = beta_density a2 b2 x) -> a1 = a2 /\ b1 = b2.
Proof.
  intros Ha1 Hb1 Ha2 Hb2 E.
  assert (M1 : a1 / (a1 + b1) = a2 / (a2 + b2)).
  { apply (integral_on_unique 0 1 lt01 (fun x => beta_density a1 b1 x * x)); [apply bd_mean; auto|].
    apply (integral_on_ext 0 1 lt01 (fun x => beta_density a2 b2 x * x)); [|apply bd_mean; auto]. intros x [Hx Hx']. cbn in Hx, Hx'. rewrite E by auto. auto. }
  assert (M2 : a1 * (a1 + 1) / ((a1 + b1) * (a1 + b1 + 1)) = a2 * (a2 + 1) / ((a2 + b2) * (a2 + b2 + 1))).
  { apply (integral_on_unique 0 1 lt01 (fun x => beta_density a1 b1 x * x ^ 2)); [apply bd_second; auto|].
    apply (integral_on_ext 0 1 lt01 (fun x => beta_density a2 b2 x * x ^ 2)); [|apply bd_second; auto]. intros x [Hx Hx']. cbn in Hx, Hx'. rewrite E by auto. auto. }
  set (s1 := a1 + b1) in *. set (s2 := a2 + b2) in *. assert (Hs1 : 0 < s1) by (unfold s1; lra). assert (Hs2 : 0 < s2) by (unfold s2; lra).
  set (m := a2 / s2) in *. assert (Hm : 0 < m) by (apply Rdiv_lt_0_compat; auto).
  assert (Hm1 : m < 1). { unfold m. apply (Rmult_lt_reg_r s2); auto. replace (a2 / s2 * s2) with a2 by (field; lra). unfold s2; lra. }
  assert (E1 : a1 = m * s1) by (rewrite <- M1; field; lra). assert (E2 : a2 = m * s2) by (unfold m; field; lra).
  assert (Q1 : a1 * (a1 + 1) / (s1 * (s1 + 1)) = m * ((m * s1 + 1) / (s1 + 1))) by (rewrite E1; field; lra).
  assert (Q2 : a2 * (a2 + 1) / (s2 * (s2 + 1)) = m * ((m * s2 + 1) / (s2 + 1))) by (rewrite E2; field; lra).
  rewrite Q1, Q2 in M2. apply Rmult_eq_reg_l in M2; [|lra].
  assert (M3 : (m * s1 + 1) * (s2 + 1) = (m * s2 + 1) * (s1 + 1)).
  { replace ((m * s1 + 1) * (s2 + 1)) with ((m * s1 + 1) / (s1 + 1) * ((s1 + 1) * (s2 + 1))) by (field; lra). rewrite M2. field. lra. }
  assert (S12 : s1 = s2). { assert ((1 - m) * (s1 - s2) = 0) by lra. apply Rmult_integral in H. destruct H; lra. }
  rewrite S12, <- E2 in E1. split; auto. unfold s1, s2 in S12. lra.
Qed.
Theorem C57_beta_kl lg dg a1 b1 a2 b2 : is_lgamma lg -> is_digamma dg -> 0 < a1 -> 0 < b1 -> 0 < a2 -> 0 < b2 ->
  exists k, beta_kl lg dg (Fin a1) (Fin b1) (Fin a2) (Fin b2) = Fin k /\
  kl_on 0 1 (beta_density a1 b1) (beta_density a2 b2) k /\ 0 <= k /\ (k = 0 <-> a1 = a2 /\ b1 = b2).
Proof.
  intros L D Ha1 Hb1 Ha2 Hb2. destruct (beta_kl_core lg dg a1 b1 a2 b2) as (k & E & K); auto. exists k. split; auto. split; auto.
  assert (P : forall a b, 0 < a -> 0 < b -> forall x, inside 0 1 x -> 0 < beta_density a b x) by (intros a b Ha Hb x [Hx Hx']; apply bd_pos; auto).
  split. { apply (kl_on_nonneg 0 1 (beta_density a1 b1) (beta_density a2 b2) k lt01); auto using bd_normal. }
  split.
  - intros ->. apply beta_density_inj; auto. intros x Hx. apply (kl_on_zero 0 1 (beta_density a1 b1) (beta_density a2 b2) lt01); auto using bd_normal, bd_cont.
  - intros [<- <-]. apply (integral_on_unique 0 1 lt01 (fun x => beta_density a1 b1 x * (ln (beta_density a1 b1 x) - ln (beta_density a1 b1 x)))); [exact K|].
    apply (integral_on_ext 0 1 lt01 (fun _ => 0)); [intros; ring|apply (integral_on_zero 0 1 lt01)].
Qed.
(** mode *)
Theorem C57_beta_mode a b : 0 < a -> 0 < b ->
  (1 < a -> 1 < b -> exists m, beta_mode (Fin a) (Fin b) = Fin m /\ 0 < m < 1 /\ forall x, 0 < x < 1 -> x <> m -> beta_density a b x < beta_density a b m) /\
  (a <= 1 -> 1 < b -> beta_mode (Fin a) (Fin b) = Fin 0 /\ forall x y, 0 < x -> x < y -> y < 1 -> beta_density a b y < beta_density a b x) /\
  (1 < a -> b <= 1 -> beta_mode (Fin a) (Fin b) = Fin 1 /\ forall x y, 0 < x -> x < y -> y < 1 -> beta_density a b x < beta_density a b y) /\
  (a <= 1 -> b <= 1 -> beta_mode (Fin a) (Fin b) = NaN).
Proof.
  intros Ha Hb. assert (LT : forall x y, 0 < x < 1 -> 0 < y < 1 -> ln (beta_density a b x) < ln (beta_density a b y) -> beta_density a b x < beta_density a b y).
  { intros x y Hx Hy H. apply exp_increasing in H. rewrite !exp_ln in H by (apply bd_pos; auto). auto. }
  unfold beta_mode. split; [|split; [|split]].
  - intros H1 H2. rewrite !xltb_t by lra. cbn [andb xwhere xsub xadd xopp]. rewrite xdiv_fin by lra. set (m := (a + - 1) / (a + b + - 2)). exists m. split; [reflexivity|].
    assert (Em : m * (a + b - 2) = a - 1) by (unfold m; field; lra).
    assert (Hm : 0 < m) by (apply Rdiv_lt_0_compat; lra). assert (Hm1 : m < 1). { apply (Rmult_lt_reg_r (a + b - 2)); lra. }
    split; auto. intros x Hx Hn. apply LT; auto. rewrite !bd_ln by auto.
    assert (Hz : 0 < x / m) by (apply Rdiv_lt_0_compat; lra). assert (Hw : 0 < (1 - x) / (1 - m)) by (apply Rdiv_lt_0_compat; lra).
    pose proof (ln_le_sub1 _ Hz) as G1. pose proof (ln_le_sub1 _ Hw) as G2.
    assert (ln (x / m) <> x / m - 1).
    { intros H3. apply (ln_eq_sub1 _ Hz) in H3. apply Hn. apply (Rmult_eq_reg_r (/ m)); [|apply Rinv_neq_0_compat; lra]. rewrite Rinv_r by lra. exact H3. }
    assert (H4 : (a - 1) * ln (x / m) < (a - 1) * (x / m - 1)) by (apply Rmult_lt_compat_l; lra).
    assert (H5 : (b - 1) * ln ((1 - x) / (1 - m)) <= (b - 1) * ((1 - x) / (1 - m) - 1)) by (apply Rmult_le_compat_l; lra).
    rewrite ln_div in H4, H5 by lra.
    assert (E1 : (a - 1) * (x / m - 1) = (a + b - 2) * (x - m)) by (rewrite <- Em; field; lra).
    assert (E2 : (b - 1) * ((1 - x) / (1 - m) - 1) = (a + b - 2) * (m - x)). { replace (b - 1) with ((a + b - 2) * (1 - m)) by lra. field. lra. }
    lra.
  - intros H1 H2. rewrite (xltb_f 1 a), (xltb_t 1 b), (xleb_t a 1) by lra. cbn [andb xwhere]. split; [reflexivity|].
    intros x y Hx Hxy Hy. apply LT; try lra. rewrite !bd_ln by lra.
    assert (ln x < ln y) by (apply ln_increasing; lra). assert (ln (1 - y) < ln (1 - x)) by (apply ln_increasing; lra). nra.
  - intros H1 H2. rewrite (xltb_t 1 a), (xltb_f 1 b), (xleb_f a 1), (xleb_t b 1) by lra. cbn [andb xwhere]. split; [reflexivity|].
    intros x y Hx Hxy Hy. apply LT; try lra. rewrite !bd_ln by lra.
    assert (ln x < ln y) by (apply ln_increasing; lra). assert (ln (1 - y) < ln (1 - x)) by (apply ln_increasing; lra). nra.
  - intros H1 H2. rewrite (xltb_f 1 a), (xltb_f 1 b), (xleb_t a 1) by lra. cbn [andb xwhere]. reflexivity.
Qed.
(** The documentation says NaN is returned only for alpha = beta = 1 or both below 1; it is also returned for
    (alpha < 1, beta = 1) and (alpha = 1, beta < 1), where the density is strictly monotone, so its mode is an end point. *)
Theorem C57_beta_mode_nan_refuted :
  beta_mode (Fin (1 / 2)) (Fin 1) = NaN /\ (forall x y, 0 < x -> x < y -> y < 1 -> beta_density (1 / 2) 1 y < beta_density (1 / 2) 1 x) /\
  beta_mode (Fin 1) (Fin (1 / 2)) = NaN /\ (forall x y, 0 < x -> x < y -> y < 1 -> beta_density 1 (1 / 2) x < beta_density 1 (1 / 2) y).
Proof.
  assert (LT : forall a b x y, 0 < a -> 0 < b -> 0 < x < 1 -> 0 < y < 1 -> ln (beta_density a b x) < ln (beta_density a b y) -> beta_density a b x < beta_density a b y).
  { intros a b x y Ha Hb Hx Hy H. apply exp_increasing in H. rewrite !exp_ln in H by (apply bd_pos; auto). auto. }
  split; [apply C57_beta_mode; lra|]. split; [|split; [apply C57_beta_mode; lra|]].
  - intros x y Hx Hxy Hy. apply LT; try lra. rewrite !bd_ln by lra. assert (ln x < ln y) by (apply ln_increasing; lra). lra.
  - intros x y Hx Hxy Hy. apply LT; try lra. rewrite !bd_ln by lra. assert (ln (1 - y) < ln (1 - x)) by (apply ln_increasing; lra). lra.
Qed.
(** end points of the support: with alpha = 1 the density extends continuously to 0 and log_prob returns the log of the limit;
    log_prob is -inf where the limit is 0 and +inf where the density diverges *)
Theorem C57_beta_log_prob_zero lg a b : is_lgamma lg -> 0 < a -> 0 < b ->
  (a = 1 -> exists l, beta_log_prob lg (Fin 0) (Fin a) (Fin b) = Fin (ln l) /\ 0 < l /\ filterlim (beta_density a b) (at_right 0) (locally l)) /\
  (1 < a -> beta_log_prob lg (Fin 0) (Fin a) (Fin b) = NInf) /\
  (a < 1 -> beta_log_prob lg (Fin 0) (Fin a) (Fin b) = PInf).
Proof.
  intros L Ha Hb. unfold beta_log_prob. rewrite lg_beta by auto. split; [|split].
  - intros ->. rewrite !xeqb_t. cbn [andb orb xwhere xopp]. exists (/ Beta_fn 1 b). pose proof (Beta_fn_pos 1 b Ha Hb).
    rewrite ln_Rinv by auto. split; [reflexivity|]. split; [apply Rinv_0_lt_compat; auto|].
    apply (filterlim_ext_loc (fun x => / Beta_fn 1 b * Rpower (1 - x) (b - 1))).
    { apply lo_iff. exists 1. split; [lra|]. intros x Hx. rewrite bd_alt. unfold betw. rewrite Rminus_eq_0, Rpower_O by lra. ring. }
    apply (filterlim_filter_le_1 (F := locally 0) (G := at_right 0)); [apply filter_le_within|].
    assert (C : continuous (fun x => / Beta_fn 1 b * Rpower (1 - x) (b - 1)) 0).
    { apply (ex_derive_continuous (fun x => / Beta_fn 1 b * Rpower (1 - x) (b - 1))). unfold Rpower. auto_derive. lra. }
    unfold continuous in C. rewrite Rminus_0_r, Rpower_1_l, Rmult_1_r in C. exact C.
  - intros H. rewrite (xeqb_f a 1) by lra. rewrite (xeqb_f 0 1) by lra. rewrite andb_false_r. cbn [andb orb xwhere].
    replace (xlog (Fin 0)) with NInf by (symmetry; apply rlog_0). cbn [xsub xadd xopp]. rewrite xlog_pos by lra. cbn. unfold inf_times. repeat (destruct (Rlt_dec _ _); try (exfalso; lra)); reflexivity.
  - intros H. rewrite (xeqb_f a 1) by lra. rewrite (xeqb_f 0 1) by lra. rewrite andb_false_r. cbn [andb orb xwhere].
    replace (xlog (Fin 0)) with NInf by (symmetry; apply rlog_0). cbn [xsub xadd xopp]. rewrite xlog_pos by lra. cbn. unfold inf_times. repeat (destruct (Rlt_dec _ _); try (exfalso; lra)); reflexivity.
Qed.
(** exchanging the parameters reflects the distribution about 1/2 *)
Theorem C57_beta_reflection lg dg a b x : is_lgamma lg -> is_digamma dg -> 0 < a -> 0 < b -> 0 <= x <= 1 ->
  beta_log_prob lg (Fin (1 - x)) (Fin b) (Fin a) = beta_log_prob lg (Fin x) (Fin a) (Fin b) /\
  beta_mean (Fin b) (Fin a) = xsub (Fin 1) (beta_mean (Fin a) (Fin b)) /\
  beta_variance (Fin b) (Fin a) = beta_variance (Fin a) (Fin b) /\ beta_entropy lg dg (Fin b) (Fin a) = beta_entropy lg dg (Fin a) (Fin b).
Proof.
  intros L D Ha Hb Hx. split; [|split; [|split]].
  - unfold beta_log_prob. rewrite !lg_beta by auto. rewrite (Beta_fn_sym b a) by auto. cbn [xsub xopp xadd].
    replace (1 + - (1 - x)) with x by ring. replace (1 + - x) with (1 - x) by ring.
    assert (B0 : xeqb (Fin (1 - x)) (Fin 0) = xeqb (Fin x) (Fin 1)).
    { destruct (Req_dec x 1) as [-> |Hn]; [rewrite Rminus_eq_0, !xeqb_t; auto|]. rewrite !xeqb_f by lra. auto. }
    assert (B1 : xeqb (Fin (1 - x)) (Fin 1) = xeqb (Fin x) (Fin 0)).
    { destruct (Req_dec x 0) as [-> |Hn]; [rewrite Rminus_0_r, !xeqb_t; auto|]. rewrite !xeqb_f by lra. auto. }
    rewrite B0, B1, orb_comm. unfold xwhere. destruct (_ || _); auto. rewrite (xadd_comm (xmul (Fin (b + - 1)) _)). auto.
  - unfold beta_mean. cbn [xadd]. rewrite !xdiv_fin by lra. cbn. f_equal. field. lra.
  - unfold beta_variance, xsquare. cbn [xadd xmul]. rewrite !xdiv_fin by nra. f_equal. field. lra.
  - unfold beta_entropy. rewrite !lg_beta by auto. cbn [xadd]. rewrite !(digamma_psi dg) by (auto; lra). rewrite (Beta_fn_sym b a) by auto. cbn. f_equal.
    rewrite (Rplus_comm b a). ring.
Qed.
Theorem C57_beta_outside lg a b x : is_lgamma lg -> 0 < a -> 0 < b -> x < 0 \/ 1 < x -> beta_log_prob lg (Fin x) (Fin a) (Fin b) = NaN.
Proof.
  intros L Ha Hb Hx. unfold beta_log_prob. rewrite bool_false_pair by (apply andb_false_iff; right; apply xeqb_f; lra). cbn [xwhere].
  rewrite lg_beta by auto. cbn [xsub xadd xopp]. destruct Hx as [Hx|Hx].
  - replace (xlog (Fin x)) with NaN by (symmetry; apply rlog_neg; auto). reflexivity.
  - replace (xlog (Fin (1 + - x))) with NaN by (symmetry; apply rlog_neg; lra). rewrite xlog_pos by lra. reflexivity.
Qed.
(** cdf, given a correct regularised incomplete beta function *)
Definition is_betainc (bi : XR -> XR -> XR -> XR) : Prop := forall a b x, 0 < a -> 0 < b -> 0 < x < 1 ->
  exists v w, bi (Fin a) (Fin b) (Fin x) = Fin (v / w) /\
  integral_on 0 x (fun t => Rpower t (a - 1) * Rpower (1 - t) (b - 1)) v /\ integral_on 0 1 (fun t => Rpower t (a - 1) * Rpower (1 - t) (b - 1)) w.
Theorem C57_beta_cdf bi a b x : is_betainc bi -> 0 < a -> 0 < b -> 0 < x < 1 -> exists v,
  beta_cdf bi (Fin x) (Fin a) (Fin b) = Fin v /\ integral_on 0 x (beta_density a b) v /\ 0 < v /\
  beta_log_cdf bi (Fin x) (Fin a) (Fin b) = Fin (ln v).
Proof.
  intros G Ha Hb Hx. destruct (G a b x Ha Hb Hx) as (v & w & E & Hv & Hw). exists (v / w).
  assert (Hx0 : Rbar_lt 0 x) by (cbn; lra).
  assert (Ew : w = Beta_fn a b). { apply (integral_on_unique 0 1 lt01 (fun t => Rpower t (a - 1) * Rpower (1 - t) (b - 1))); [exact Hw|].
    pose proof (bet_integral a b Ha Hb) as B. exact B. }
  assert (E' : beta_cdf bi (Fin x) (Fin a) (Fin b) = Fin (v / w)) by (exact E). split; auto.
  assert (I1 : integral_on 0 x (beta_density a b) (v / w)).
  { apply (integral_on_ext 0 x Hx0 (fun t => / Beta_fn a b * (Rpower t (a - 1) * Rpower (1 - t) (b - 1)))); [intros; symmetry; apply bd_alt|].
    rewrite Ew. replace (v / Beta_fn a b) with (/ Beta_fn a b * v) by (unfold Rdiv; ring). apply (integral_on_scal 0 x Hx0); auto. }
  assert (P : 0 < v / w). { apply (integral_on_pos 0 x Hx0 (beta_density a b)); auto; intros t [Ht Ht']; cbn in Ht, Ht'; [apply bd_cont; split; cbn; lra|apply bd_pos; lra]. }
  split; auto. split; auto. unfold beta_log_cdf. rewrite E'. apply xlog_pos; auto.
Qed.

(** ** Batches: every method works elementwise on broadcast parameter arrays *)
Theorem C57_batched lg dg (a b : tensor XR) batch : bshape (shp a) (shp b) = Some batch ->
  (exists t, gamma_mean_arr a b = Ok t /\ elementwise2 batch gamma_mean a b t) /\
  (exists t, gamma_stddev_arr a b = Ok t /\ elementwise2 batch gamma_stddev a b t) /\
  (exists t, gamma_variance_arr a b = Ok t /\ elementwise2 batch gamma_variance a b t) /\
  (exists t, gamma_mode_arr a b = Ok t /\ elementwise2 batch gamma_mode a b t) /\
  (exists t, gamma_entropy_arr lg dg a b = Ok t /\ elementwise2 batch (gamma_entropy lg dg) a b t) /\
  (exists t, beta_mean_arr a b = Ok t /\ elementwise2 batch beta_mean a b t) /\
  (exists t, beta_variance_arr a b = Ok t /\ elementwise2 batch beta_variance a b t) /\
  (exists t, beta_mode_arr a b = Ok t /\ elementwise2 batch beta_mode a b t) /\
  (exists t, beta_entropy_arr lg dg a b = Ok t /\ elementwise2 batch (beta_entropy lg dg) a b t) /\
  forall v S, bshape (shp v) batch = Some S ->
    (exists t, gamma_log_prob_arr lg v a b = Ok t /\ elementwise3 S (gamma_log_prob lg) v a b t) /\
  (exists t, beta_log_prob_arr lg v a b = Ok t /\ elementwise3 S (beta_log_prob lg) v a b t).
Proof.
  intros H. do 9 (split; [apply lift2_stat; exact H|]). intros v S HS. split; apply (lift3_stat _ v a b batch S H HS).
Qed.

(** ** Concrete instances *)
Example C57_gamma_exponential x : 0 < x -> gamma_log_prob the_lgamma (Fin x) (Fin 1) (Fin 2) = Fin (ln 2 - 2 * x).
Proof.
  intros Hx. rewrite C57_gamma_log_prob by (try apply C57_oracles_exist; lra). rewrite gd_ln by lra. f_equal. rewrite Gam_1, ln_1. lra.
Qed.
Example C57_beta_uniform x : 0 <= x <= 1 -> beta_log_prob the_lgamma (Fin x) (Fin 1) (Fin 1) = Fin 0.
Proof.
  intros Hx. assert (B : Beta_fn 1 1 = 1). { unfold Beta_fn. replace (1 + 1) with (1 + 1) by ring. rewrite Gam_S, Gam_1 by lra. field. }
  unfold beta_log_prob. rewrite lg_beta by (try apply C57_oracles_exist; lra). rewrite B, ln_1.
  destruct (Req_dec x 0) as [-> |H0]; [rewrite !xeqb_t; cbn; f_equal; ring|]. destruct (Req_dec x 1) as [-> |H1].
  - rewrite (xeqb_t 1). cbn [andb]. rewrite orb_true_r. cbn. f_equal. ring.
  - rewrite (xeqb_f x 0), (xeqb_f x 1), !andb_false_r by lra. cbn [orb xwhere xsub xadd xopp]. rewrite !xlog_pos by lra. cbn. f_equal. ring.
Qed.
Example C57_beta_22 : exists m, beta_mode (Fin 2) (Fin 2) = Fin m /\ m = 1 / 2.
Proof. exists (1 / 2). split; auto. unfold beta_mode. rewrite !xltb_t by lra. cbn [andb xwhere xsub xadd xopp]. rewrite xdiv_fin by lra. f_equal. field. Qed.

(** the two incomplete integrals exist, so the premises on igamma and betainc can be met *)
Lemma exp_mono x y : x <= y -> exp x <= exp y.
Proof. intros [H| ->]; [left; apply exp_increasing; auto|lra]. Qed.
Lemma power_integral a s : 0 < a -> 0 < s -> exists v, integral_on 0 s (fun t => Rpower t (a - 1)) v.
Proof.
  intros Ha Hs. exists (Rpower s (a + 1 - 1) * Beta_fn a 1). apply (integral_on_ext 0 s Hs (fun x => Rpower x (a - 1) * Rpower (s - x) (1 - 1))).
  { intros x [H1 H2]. cbn in H1, H2. rewrite Rminus_eq_0, Rpower_O by lra. ring. }
  apply beta_scaled; lra.
Qed.
Definition the_igamma (a y : XR) : XR :=
  match a, y with Fin a, Fin y => Fin (RInt_gen (fun t => Rpower t (a - 1) * exp (- t) / Gamma_fn a) (at_right 0) (upto y)) | _, _ => NaN end.
Definition the_betainc (a b x : XR) : XR :=
  match a, b, x with
  | Fin a, Fin b, Fin x => Fin (RInt_gen (fun t => Rpower t (a - 1) * Rpower (1 - t) (b - 1)) (at_right 0) (upto x) / Beta_fn a b)
  | _, _, _ => NaN end.
Lemma integral_on_RInt_gen (a : R) (b : Rbar) f v : Rbar_lt a b -> integral_on a b f v -> RInt_gen f (at_right a) (upto b) = v.
Proof. intros H Hi. pose proof (upto_proper a b H). apply is_RInt_gen_unique. exact Hi. Qed.
Example C57_incomplete_exist : is_igamma the_igamma /\ is_betainc the_betainc.
Proof.
  split.
  - intros a y Ha Hy. destruct (power_integral a y Ha Hy) as [w Hw]. pose proof (Gam_pos a Ha) as HG.
    assert (exists v, integral_on 0 y (fun t => Rpower t (a - 1) * exp (- t) / Gamma_fn a) v) as [v Hv].
    { apply (integral_on_dominated 0 y Hy _ (fun t => / Gam a * Rpower t (a - 1)) (/ Gam a * w)).
      - intros t [Ht _]. cbn in Ht. apply (ex_derive_continuous (fun t => Rpower t (a - 1) * exp (- t) / Gamma_fn a)). unfold Rpower. auto_derive. auto.
      - intros t [Ht _]. cbn in Ht. apply (ex_derive_continuous (fun t => / Gam a * Rpower t (a - 1))). unfold Rpower. auto_derive. auto.
      - intros t [Ht _]. cbn in Ht. change Gamma_fn with Gam. pose proof (Rpower_pos t (a - 1)) as Hp. pose proof (exp_pos (- t)) as He.
        assert (exp (- t) < 1) by (rewrite <- exp_0; apply exp_increasing; lra).
        assert (Hi : 0 < / Gam a) by (apply Rinv_0_lt_compat; auto). unfold Rdiv. split; [apply Rlt_le; repeat apply Rmult_lt_0_compat; auto|].
        rewrite Rmult_comm. apply Rmult_le_compat_l; [lra|]. rewrite <- (Rmult_1_r (Rpower t (a - 1))) at 2. apply Rmult_le_compat_l; lra.
      - apply (integral_on_scal 0 y Hy); auto. }
    exists v. split; auto. cbn. f_equal. apply (integral_on_RInt_gen 0 y); auto.
  - intros a b x Ha Hb Hx. assert (Hx0 : Rbar_lt 0 x) by (cbn; lra). destruct (power_integral a x Ha (proj1 Hx)) as [w Hw].
    assert (exists v, integral_on 0 x (fun t => Rpower t (a - 1) * Rpower (1 - t) (b - 1)) v) as [v Hv].
    { set (C := Rmax 1 (Rpower (1 - x) (b - 1))).
      apply (integral_on_dominated 0 x Hx0 _ (fun t => C * Rpower t (a - 1)) (C * w)).
      - intros t [Ht Ht']. cbn in Ht, Ht'. apply (ex_derive_continuous (fun t => Rpower t (a - 1) * Rpower (1 - t) (b - 1))). unfold Rpower. auto_derive. lra.
      - intros t [Ht Ht']. cbn in Ht. apply (ex_derive_continuous (fun t => C * Rpower t (a - 1))). unfold Rpower. auto_derive. auto.
      - intros t [Ht Ht']. cbn in Ht, Ht'. pose proof (Rpower_pos t (a - 1)) as Hp. pose proof (Rpower_pos (1 - t) (b - 1)) as Hq.
        split; [apply Rlt_le, Rmult_lt_0_compat; auto|]. rewrite Rmult_comm. apply Rmult_le_compat_r; [lra|].
        assert (L1 : ln (1 - t) < 0) by (rewrite <- ln_1; apply ln_increasing; lra). assert (L2 : ln (1 - x) < ln (1 - t)) by (apply ln_increasing; lra).
        unfold C, Rpower. destruct (Rle_dec 1 b) as [Hb1|Hb1].
        + apply (Rle_trans _ 1); [|apply Rmax_l]. assert (Hz : exp ((b - 1) * ln (1 - t)) <= exp 0) by (apply exp_mono; nra). rewrite exp_0 in Hz. exact Hz.
        + apply Rnot_le_lt in Hb1. eapply Rle_trans; [|apply Rmax_r]. apply exp_mono. nra.
      - apply (integral_on_scal 0 x Hx0); auto. }
    exists v, (Beta_fn a b). split; [|split; [auto|exact (bet_integral a b Ha Hb)]]. cbn. do 2 f_equal. apply (integral_on_RInt_gen 0 x); auto.
Qed.
