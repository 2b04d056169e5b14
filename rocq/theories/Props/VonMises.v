(** C58: the von Mises distribution: density, moments, entropy, KL, angles. *)
From Coq Require Import Reals Lra Lia ZArith List Bool.
From Coquelicot Require Import Coquelicot.
From Verif Require Import Base.Result Base.Tensor Base.XR Base.Gauss Base.Lift Model.MathUtils Model.ScalarDist Model.Multinomial Model.ArrayDist Model.VonMises
  Spec.VonMises Spec.ArrayDist Proofs.Density Proofs.ArrayDist Proofs.GammaFamily Proofs.VonMises Props.GammaBeta.
Import ListNotations.
Local Open Scope R_scope.

(** Bessel functions as in the hypotheses exist. *)
Definition the_I0 (k : R) : R := RInt (fun t => exp (k * cos t) / (2 * PI)) (- PI) PI.
Definition the_I1 (k : R) : R := RInt (fun t => cos t * exp (k * cos t) / (2 * PI)) (- PI) PI.
Definition the_i0 (a : XR) : XR := match a with Fin k => Fin (the_I0 k) | _ => NaN end.
Definition the_i0e (a : XR) : XR := match a with Fin k => Fin (exp (- k) * the_I0 k) | _ => NaN end.
Definition the_i1e (a : XR) : XR := match a with Fin k => Fin (exp (- k) * the_I1 k) | _ => NaN end.
Lemma the_I0_ok k : is_I0 k (the_I0 k).
Proof. apply (RInt_correct (fun t => exp (k * cos t) / (2 * PI))). apply (ex_RInt_continuous (V := R_CompleteNormedModule)). intros; apply ecos_cont. Qed.
Lemma the_I1_ok k : is_I1 k (the_I1 k).
Proof. apply (RInt_correct (fun t => cos t * exp (k * cos t) / (2 * PI))). apply (ex_RInt_continuous (V := R_CompleteNormedModule)). intros; apply ecos1_cont. Qed.
Example C58_bessel_exists : is_bessel the_i0 the_i0e the_i1e.
Proof. intros k _. exists (the_I0 k), (the_I1 k). auto using the_I0_ok, the_I1_ok. Qed.

Lemma pos2pi a : 0 < a -> 0 < 2 * PI * a. Proof. intros. apply Rmult_lt_0_compat; auto using two_pi_pos. Qed.
Lemma ratio_eq k a b : 0 < a -> exp (- k) * b / (exp (- k) * a) = b / a.
Proof. intros. pose proof (exp_pos (- k)). field. lra. Qed.

(** ** prob and log_prob are the von Mises density, a 2 pi-periodic density of total mass 1 over the circle *)
Theorem C58_log_prob i0 i0e i1e x loc k : is_bessel i0 i0e i1e -> 0 <= k -> exists a, is_I0 k a /\
  vm_prob i0e (Fin x) (Fin loc) (Fin k) = Fin (vm_density a loc k x) /\
  vm_log_prob i0 (Fin x) (Fin loc) (Fin k) = Fin (ln (vm_density a loc k x)) /\
  (forall y, 0 < vm_density a loc k y) /\ circle_int (vm_density a loc k) 1.
Proof.
  intros B Hk. destruct (B k Hk) as (a & b & H0 & H1 & E0 & E1 & E2). pose proof (I0_pos k a H0) as Pa. exists a. split; auto.
  split; [|split; [|split]].
  - unfold vm_prob, two_pi. rewrite E1. cbn [xsub xopp xadd xcos xmul xexp].
    pose proof (exp_pos (- k)). assert (0 < 2 * PI * (exp (- k) * a)) by (apply pos2pi, Rmult_lt_0_compat; auto). rewrite xdiv_fin by lra. f_equal.
    unfold vm_density. replace (k * (cos (x + - loc) + - (1))) with (k * cos (x - loc) + - k) by (unfold Rminus; ring). rewrite exp_plus. pose proof PI_RGT_0. field. lra.
  - unfold vm_log_prob. rewrite E0, xlog_pos by auto. cbn [xsub xopp xadd xcos xmul]. f_equal. rewrite (vd_ln k a loc H0). unfold Rminus. ring.
  - intros y. apply (vd_pos k a loc H0).
  - apply (vd_normal k a loc H0).
Qed.
Theorem C58_periodic i0 i0e x y loc loc' k : congruent x y -> congruent loc loc' ->
  vm_prob i0e (Fin x) (Fin loc) (Fin k) = vm_prob i0e (Fin y) (Fin loc') (Fin k) /\
  vm_log_prob i0 (Fin x) (Fin loc) (Fin k) = vm_log_prob i0 (Fin y) (Fin loc') (Fin k).
Proof.
  intros [n ->] [m ->]. assert (E : cos (y + 2 * PI * IZR n + - (loc' + 2 * PI * IZR m)) = cos (y + - loc')).
  { rewrite <- (cos_congruent (y + - loc') (n - m)). f_equal. rewrite minus_IZR. ring. }
  unfold vm_prob, vm_log_prob. cbn [xsub xopp xadd xcos]. rewrite E. split; reflexivity.
Qed.
(** at infinite and NaN angles prob, log_prob, cdf and the survival function are NaN (not 0 or 1: an angle has no limit) *)
Theorem C58_not_finite i0 i0e i1e x loc k : is_bessel i0 i0e i1e -> 0 <= k -> (forall r, x <> Fin r) ->
  vm_prob i0e x (Fin loc) (Fin k) = NaN /\ vm_log_prob i0 x (Fin loc) (Fin k) = NaN /\
  vm_cdf (vm_cdf_period i0e) x (Fin loc) (Fin k) = NaN /\ vm_survival (vm_cdf_period i0e) x (Fin loc) (Fin k) = NaN.
Proof.
  intros B Hk Hx. destruct (B k Hk) as (a & b & H0 & H1 & E0 & E1 & E2). pose proof (I0_pos k a H0) as Pa.
  assert (Pe : 0 < exp (- k) * a) by (apply Rmult_lt_0_compat; [apply exp_pos|exact Pa]).
  assert (NV : forall l, xsub x (Fin l) = x) by (intros l; destruct x; [exfalso; apply (Hx r); reflexivity| | |]; reflexivity).
  assert (CN : xcos x = NaN) by (destruct x; [exfalso; apply (Hx r); reflexivity| | |]; reflexivity).
  assert (MN : forall y, xmul y NaN = NaN) by (intros []; reflexivity).
  assert (AN : forall y, xadd y NaN = NaN) by (intros []; reflexivity).
  assert (DN : forall y, xdiv y NaN = NaN) by (intros []; reflexivity).
  assert (PN : forall y, xclip NaN y (Fin 1) = NaN) by (intros []; reflexivity).
  assert (LC : exists l, convert_angle_to_standard (Fin loc) = Fin l).
  { unfold convert_angle_to_standard, two_pi. pose proof PI_RGT_0. rewrite xdiv_fin by lra. cbn. eauto. }
  destruct LC as [l LC].
  assert (PER : vm_cdf_period i0e NaN (Fin k) = NaN).
  { unfold vm_cdf_period. destruct (xltb (Fin k) (Fin 10.5)).
    - unfold vm_cdf_series. destruct (vm_series_loop _ _ _ _) as [[[r1 r2] r3] r4]. cbn [fst]. reflexivity.
    - unfold vm_cdf_normal. cbn [xmul xsin]. rewrite MN. reflexivity. }
  assert (STD : vm_cdf_std (vm_cdf_period i0e) x (Fin k) = NaN).
  { unfold vm_cdf_std. assert (R : xsub x (xmul two_pi (xround (xdiv x two_pi))) = NaN).
    { unfold two_pi. pose proof PI_RGT_0. destruct x; [exfalso; apply (Hx r); reflexivity| | |reflexivity]; cbn; unfold inf_times;
        repeat (destruct Rlt_dec; try lra); cbn; unfold inf_times;
        repeat (destruct Rlt_dec; try lra); repeat (destruct Req_EM_T; try lra); cbn; repeat (destruct Rlt_dec; try lra); repeat (destruct Req_EM_T; try lra); reflexivity. }
    rewrite R, PER. reflexivity. }
  split; [|split; [|split]].
  - unfold vm_prob. rewrite NV, CN, E1. cbn [xsub xadd xopp]. rewrite MN. reflexivity.
  - unfold vm_log_prob. rewrite NV, CN, MN. reflexivity.
  - unfold vm_cdf. rewrite LC, NV, STD. cbn [xsub xadd]. apply PN.
  - unfold vm_survival. rewrite LC, NV, STD. unfold xsub. cbn [xopp]. rewrite AN. apply PN.
Qed.
(** the density is largest at loc, and for positive concentration only at angles congruent to it *)
Theorem C58_mode i0 i0e i1e loc k : is_bessel i0 i0e i1e -> 0 <= k -> exists m, vm_mode (Fin loc) (Fin k) = Fin m /\ exists a, is_I0 k a /\
  forall x, vm_density a loc k x <= vm_density a loc k m /\ (0 < k -> vm_density a loc k x = vm_density a loc k m -> congruent x m).
Proof.
  intros B Hk. destruct (B k Hk) as (a & b & H0 & _). pose proof (I0_pos k a H0) as Pa. exists loc. split; [reflexivity|]. exists a. split; auto. intros x.
  assert (E : ln (vm_density a loc k x) - ln (vm_density a loc k loc) = k * (cos (x - loc) - 1)).
  { rewrite !(vd_ln k a loc H0). rewrite Rminus_eq_0, cos_0. ring. }
  pose proof (COS_bound (x - loc)). pose proof (vd_pos k a loc H0 x) as P1. pose proof (vd_pos k a loc H0 loc) as P2. split.
  - assert (ln (vm_density a loc k x) <= ln (vm_density a loc k loc)) as L by nra. apply exp_mono in L. rewrite !exp_ln in L by auto. auto.
  - intros Kp Ed. rewrite Ed in E. assert (cos (x - loc) = 1) as C1 by nra. apply cos_one in C1. destruct C1 as [n Hn]. exists n. lra.
Qed.
(** ** Circular mean and variance *)
Theorem C58_moments i0 i0e i1e loc k : is_bessel i0 i0e i1e -> 0 <= k -> exists a m v, is_I0 k a /\
  vm_mean (Fin loc) (Fin k) = Fin m /\ vm_variance i0e i1e (Fin k) = Fin v /\
  circle_int (fun x => vm_density a loc k x * sin (x - m)) 0 /\
  circle_int (fun x => vm_density a loc k x * cos (x - m)) (1 - v) /\ 0 <= v <= 2.
Proof.
  intros B Hk. destruct (B k Hk) as (a & b & H0 & H1 & E0 & E1 & E2). pose proof (I0_pos k a H0) as Pa. pose proof (exp_pos (- k)) as Pe.
  exists a, loc, (1 - b / a). split; auto. split; [reflexivity|]. split.
  { unfold vm_variance. rewrite E1, E2, xdiv_fin by (apply Rgt_not_eq, Rmult_lt_0_compat; auto). rewrite ratio_eq by auto. reflexivity. }
  split; [apply (vd_sin k a loc H0)|]. split; [replace (1 - (1 - b / a)) with (b / a) by ring; apply (vd_cos k a b loc H0 H1)|].
  pose proof (I1_lt_I0 k a b H0 H1). assert (E : b = b / a * a) by (field; lra). split; nra.
Qed.
(** ** Entropy and KL *)
Theorem C58_entropy i0 i0e i1e loc k : is_bessel i0 i0e i1e -> 0 <= k -> exists a h, is_I0 k a /\ vm_entropy i0e i1e (Fin k) = Fin h /\
  circle_int (fun x => vm_density a loc k x * - ln (vm_density a loc k x)) h.
Proof.
  intros B Hk. destruct (B k Hk) as (a & b & H0 & H1 & E0 & E1 & E2). pose proof (I0_pos k a H0) as Pa. pose proof (exp_pos (- k)) as Pe.
  exists a, (- k * (b / a) + (ln (2 * PI) + ln a) * 1). split; auto. split.
  - unfold vm_entropy. rewrite E1, E2, xdiv_fin by (apply Rgt_not_eq, Rmult_lt_0_compat; auto). rewrite ratio_eq by auto.
    rewrite xlog_pos by (apply Rmult_lt_0_compat; auto). rewrite (ln_mult (exp (- k)) a), ln_exp by auto. cbn. f_equal. ring.
  - apply (ci_ext (fun x => - k * (vm_density a loc k x * cos (x - loc)) + (ln (2 * PI) + ln a) * vm_density a loc k x)).
    + intros x. rewrite (vd_ln k a loc H0). ring.
    + apply ci_plus; [apply (ci_scal (- k) (fun x => vm_density a loc k x * cos (x - loc))), (vd_cos k a b loc H0 H1)|].
      apply (ci_scal _ (vm_density a loc k)), (vd_normal k a loc H0).
Qed.
Lemma vm_gibbs a1 m1 k1 a2 m2 k2 v : is_I0 k1 a1 -> is_I0 k2 a2 ->
  circle_int (fun x => vm_density a1 m1 k1 x * (ln (vm_density a1 m1 k1 x) - ln (vm_density a2 m2 k2 x))) v ->
  0 <= v /\ (v = 0 -> forall x, - PI < x < PI -> vm_density a1 m1 k1 x = vm_density a2 m2 k2 x).
Proof.
  intros H1 H2 K.
  pose proof (vd_pos k1 a1 m1 H1) as P1. pose proof (vd_pos k2 a2 m2 H2) as P2.
  set (g := fun x => vm_density a1 m1 k1 x * (ln (vm_density a1 m1 k1 x) - ln (vm_density a2 m2 k2 x)) + (-1 * vm_density a1 m1 k1 x + vm_density a2 m2 k2 x)).
  assert (G : circle_int g v).
  { replace v with (v + (-1 * 1 + 1)) by ring. apply ci_plus; auto. apply ci_plus; [apply ci_scal; apply vd_normal; auto|apply vd_normal; auto]. }
  assert (N : forall x, 0 <= g x). { intros x. pose proof (gibbs_point _ _ (P1 x) (P2 x)). unfold g. lra. }
  split.
  - apply (ci_le (fun _ => 0) g); auto. pose proof (ci_const 0) as Z. rewrite Rmult_0_r in Z. exact Z.
  - intros -> x Hx. assert (C : forall y, continuous g y).
    { intros y. pose proof (I0_pos _ _ H1). pose proof (I0_pos _ _ H2).
      apply (continuous_plus (fun x => vm_density a1 m1 k1 x * (ln (vm_density a1 m1 k1 x) - ln (vm_density a2 m2 k2 x))) (fun x => -1 * vm_density a1 m1 k1 x + vm_density a2 m2 k2 x)).
      - apply (continuous_mult (vm_density a1 m1 k1) (fun x => ln (vm_density a1 m1 k1 x) - ln (vm_density a2 m2 k2 x))); [apply vd_cont; auto|].
        apply (continuous_minus (fun x => ln (vm_density a1 m1 k1 x)) (fun x => ln (vm_density a2 m2 k2 x))); apply ln_comp_cont; auto; apply vd_cont; auto.
      - apply (continuous_plus (fun x => -1 * vm_density a1 m1 k1 x) (vm_density a2 m2 k2)); [|apply vd_cont; auto].
        apply (continuous_scal_r (-1) (vm_density a1 m1 k1)). apply vd_cont; auto. }
    pose proof (ci_zero g C N G x Hx) as Z. apply gibbs_point_eq; auto. unfold g in Z. lra.
Qed.
Lemma vd_inj k1 a1 m1 k2 a2 m2 : 0 <= k1 -> 0 <= k2 -> is_I0 k1 a1 -> is_I0 k2 a2 ->
  (forall x, - PI < x < PI -> vm_density a1 m1 k1 x = vm_density a2 m2 k2 x) -> k1 = k2 /\ (k1 = 0 \/ congruent m1 m2).
Proof.
  intros K1 K2 H1 H2 E. set (A := k1 * cos m1 - k2 * cos m2). set (B := k1 * sin m1 - k2 * sin m2). set (D := ln a1 - ln a2).
  assert (G : forall x, - PI < x < PI -> A * cos x + B * sin x = D).
  { intros x Hx. pose proof (vd_ln k1 a1 m1 H1 x) as L1. rewrite (E x Hx), (vd_ln k2 a2 m2 H2) in L1. unfold A, B, D. rewrite !cos_minus in L1. lra. }
  pose proof PI_RGT_0. pose proof (G 0 ltac:(lra)) as G0. pose proof (G (PI / 2) ltac:(lra)) as G1. pose proof (G (- (PI / 2)) ltac:(lra)) as G2.
  rewrite cos_0, sin_0 in G0. rewrite cos_PI2, sin_PI2 in G1. rewrite cos_neg, sin_neg, cos_PI2, sin_PI2 in G2.
  assert (A0 : A = 0) by lra. assert (B0 : B = 0) by lra. unfold A in A0. unfold B in B0.
  pose proof (sin2_cos2 m1) as S1. pose proof (sin2_cos2 m2) as S2. unfold Rsqr in S1, S2.
  assert (Q : k1 * k1 = k2 * k2).
  { replace (k1 * k1) with ((k1 * cos m1) * (k1 * cos m1) + (k1 * sin m1) * (k1 * sin m1)) by (replace (k1 * cos m1 * (k1 * cos m1) + k1 * sin m1 * (k1 * sin m1)) with (k1 * k1 * (sin m1 * sin m1 + cos m1 * cos m1)) by ring; rewrite S1; ring).
    replace (k1 * cos m1) with (k2 * cos m2) by lra. replace (k1 * sin m1) with (k2 * sin m2) by lra.
    replace (k2 * cos m2 * (k2 * cos m2) + k2 * sin m2 * (k2 * sin m2)) with (k2 * k2 * (sin m2 * sin m2 + cos m2 * cos m2)) by ring. rewrite S2. ring. }
  assert (EK : k1 = k2). { apply Rsqr_inj; auto. } split; auto. subst k2. destruct K1 as [K1|K1]; [right|left; auto].
  assert (C1 : cos m1 = cos m2) by (apply (Rmult_eq_reg_l k1); lra). assert (C2 : sin m1 = sin m2) by (apply (Rmult_eq_reg_l k1); lra).
  assert (CC : cos (m1 - m2) = 1) by (rewrite cos_minus, C1, C2; lra). apply cos_one in CC. destruct CC as [n Hn]. exists n. lra.
Qed.
Theorem C58_kl i0 i0e i1e m1 k1 m2 k2 : is_bessel i0 i0e i1e -> 0 <= k1 -> 0 <= k2 -> exists a1 a2 v, is_I0 k1 a1 /\ is_I0 k2 a2 /\
  vm_kl i0e i1e (Fin m1) (Fin k1) (Fin m2) (Fin k2) = Fin v /\
  circle_int (fun x => vm_density a1 m1 k1 x * (ln (vm_density a1 m1 k1 x) - ln (vm_density a2 m2 k2 x))) v /\
  0 <= v /\ (v = 0 <-> k1 = k2 /\ (k1 = 0 \/ congruent m1 m2)).
Proof.
  intros B K1 K2. destruct (B k1 K1) as (a1 & b1 & H0 & H1 & E0 & E1 & E2). destruct (B k2 K2) as (a2 & b2 & J0 & J1 & F0 & F1 & F2).
  pose proof (I0_pos k1 a1 H0) as Pa. pose proof (I0_pos k2 a2 J0) as Pb. pose proof (exp_pos (- k1)) as Pe. pose proof (exp_pos (- k2)) as Pf.
  set (v := k1 * (b1 / a1) + (- k2 * (b1 / a1 * cos (m1 - m2)) + (ln a2 - ln a1) * 1)).
  assert (Ev : vm_kl i0e i1e (Fin m1) (Fin k1) (Fin m2) (Fin k2) = Fin v).
  { unfold vm_kl. rewrite E1, E2, F1. rewrite !xdiv_fin by (apply Rgt_not_eq, Rmult_lt_0_compat; auto). rewrite ratio_eq by auto.
    rewrite xlog_pos by (apply Rdiv_lt_0_compat; apply Rmult_lt_0_compat; auto).
    rewrite ln_div, !ln_mult, !ln_exp by (try apply Rmult_lt_0_compat; auto). cbn. f_equal. unfold v, Rminus. ring. }
  assert (K : circle_int (fun x => vm_density a1 m1 k1 x * (ln (vm_density a1 m1 k1 x) - ln (vm_density a2 m2 k2 x))) v).
  { apply (ci_ext (fun x => k1 * (vm_density a1 m1 k1 x * cos (x - m1)) + (- k2 * (vm_density a1 m1 k1 x * cos (x - m2)) + (ln a2 - ln a1) * vm_density a1 m1 k1 x))).
    - intros x. rewrite (vd_ln k1 a1 m1 H0), (vd_ln k2 a2 m2 J0). ring.
    - apply ci_plus; [apply (ci_scal k1 (fun x => vm_density a1 m1 k1 x * cos (x - m1))), (vd_cos k1 a1 b1 m1 H0 H1)|].
      apply ci_plus; [apply (ci_scal (- k2) (fun x => vm_density a1 m1 k1 x * cos (x - m2))), (vd_cos_other k1 a1 b1 m1 H0 H1)|].
      apply (ci_scal _ (vm_density a1 m1 k1)), (vd_normal k1 a1 m1 H0). }
  destruct (vm_gibbs a1 m1 k1 a2 m2 k2 v H0 J0 K) as [G1 G2].
  exists a1, a2, v. split; auto. split; auto. split; auto. split; auto. split; auto. split.
  - intros Z. apply (vd_inj k1 a1 m1 k2 a2 m2); auto.
  - intros [<- D]. assert (a1 = a2) as <-. { apply (ci_unique (fun t => exp (k1 * cos t) / (2 * PI))); auto. }
    apply (ci_unique (fun x => vm_density a1 m1 k1 x * (ln (vm_density a1 m1 k1 x) - ln (vm_density a1 m2 k1 x)))); auto.
    pose proof (ci_const 0) as Z. rewrite Rmult_0_r in Z. apply (ci_ext (fun _ => 0)); auto. intros x. rewrite !(vd_ln k1 a1 _ H0).
    destruct D as [-> |[n ->]]; [ring|]. replace (x - (m2 + 2 * PI * IZR n)) with ((x - m2) + 2 * PI * IZR (- n)) by (rewrite opp_IZR; ring). rewrite cos_congruent. ring.
Qed.

(** ** Angles: sample and loc are brought to a representative congruent to the angle *)
Theorem C58_convert_angle x : exists y, convert_angle_to_standard (Fin x) = Fin y /\ congruent y x /\ - PI <= y <= PI /\
  (y = PI <-> exists n : Z, x = PI + 4 * PI * IZR n).
Proof.
  pose proof PI_RGT_0 as HP. rewrite convert_fin. destruct (rround_spec (x / (2 * PI))) as (n & E & Bd).
  assert (Ex : x = 2 * PI * (x / (2 * PI))) by (field; lra). exists (x - 2 * PI * rround (x / (2 * PI))). split; auto.
  split; [exists (- n)%Z; rewrite E, opp_IZR; ring|].
  split. { rewrite E. set (q := x / (2 * PI)) in *. rewrite Ex. nra. }
  split.
  - rewrite E. intros Hy. assert (Hq : x / (2 * PI) = IZR n + 1 / 2). { apply (Rmult_eq_reg_l (2 * PI)); [|lra]. rewrite <- Ex. lra. }
    rewrite Hq, rround_half in E. apply eq_IZR in E. destruct (Z.even n) eqn:Ev; [|lia]. apply Z.even_spec in Ev. destruct Ev as [m ->].
    exists m. rewrite mult_IZR in Hy. lra.
  - intros [m ->]. replace ((PI + 4 * PI * IZR m) / (2 * PI)) with (IZR (2 * m) + 1 / 2) by (rewrite mult_IZR; field; lra).
    rewrite rround_half. replace (Z.even (2 * m)) with true by (symmetry; apply Z.even_spec; exists m; auto). rewrite mult_IZR. ring.
Qed.
(** so the documented half-open range [-pi, pi) is not respected: pi itself is returned, and VonMises(loc=pi) can sample it *)
Theorem C58_half_open_refuted : convert_angle_to_standard (Fin PI) = Fin PI.
Proof. destruct (C58_convert_angle PI) as (y & E & _ & _ & H). rewrite E. f_equal. apply H. exists 0%Z. lra. Qed.
(** mean and mode return loc as given, not reduced modulo 2 pi *)
Theorem C58_mean_unreduced : vm_mean (Fin 10) (Fin 1) = Fin 10. Proof. reflexivity. Qed.

(** log_cdf and log_survival_function are the logarithms of cdf and survival_function, -infinity where these are 0 *)
Lemma clip_range x c : xclip x (Fin 0) (Fin 1) = Fin c -> 0 <= c <= 1.
Proof.
  unfold xclip, xmin, xmax. destruct x as [r| | |]; cbn; repeat destruct (Rlt_dec _ _); cbn; repeat destruct (Rlt_dec _ _); cbn; intros H; try discriminate; injection H as <-; lra.
Qed.
Theorem C58_log_cdf period v loc k c :
  (vm_cdf period (Fin v) loc k = Fin c -> 0 <= c <= 1 /\ (c = 0 -> vm_log_cdf period (Fin v) loc k = NInf) /\
     (0 < c -> exists l, vm_log_cdf period (Fin v) loc k = Fin l /\ exp l = c)) /\
  (vm_survival period (Fin v) loc k = Fin c -> 0 <= c <= 1 /\ (c = 0 -> vm_log_survival period (Fin v) loc k = NInf) /\
     (0 < c -> exists l, vm_log_survival period (Fin v) loc k = Fin l /\ exp l = c)).
Proof.
  split; intros H; (split; [eapply clip_range; exact H|]); unfold vm_log_cdf, vm_log_survival; rewrite H; (split; intros Hc).
  1,3: subst c; cbn; unfold rlog; repeat (destruct (Req_EM_T _ _) || destruct (Rlt_dec _ _)); try lra; reflexivity.
  all: rewrite xlog_pos by auto; exists (ln c); split; [reflexivity|apply exp_ln; auto].
Qed.
(** ** Batches *)
Theorem C58_batched i0 i0e i1e (loc conc : tensor XR) batch : bshape (shp loc) (shp conc) = Some batch ->
  (exists t, vm_mean_arr loc conc = Ok t /\ wf t /\ shp t = batch /\ forall idx, inb batch idx -> tget (Fin 0) t idx = xget loc idx) /\
  (shp conc = batch -> wf conc -> exists t u, vm_variance_arr i0e i1e loc conc = Ok t /\ vm_entropy_arr i0e i1e loc conc = Ok u /\ shp t = batch /\ shp u = batch) /\
  forall v S, bshape (shp v) batch = Some S ->
    (exists t, vm_prob_arr i0e v loc conc = Ok t /\ elementwise3 S (vm_prob i0e) v loc conc t) /\
    (exists t, vm_log_prob_arr i0 v loc conc = Ok t /\ elementwise3 S (vm_log_prob i0) v loc conc t).
Proof.
  intros H. split; [|split].
  - unfold vm_mean_arr. rewrite (param_ok loc loc conc batch H) by (apply (bshape_absorb_l _ _ _ H)). eexists. split; [reflexivity|].
    split; [apply tgen_wf|]. split; [reflexivity|]. intros idx Hi. rewrite tget_tgen by auto. reflexivity.
  - intros Hs Hw. eexists. eexists. split; [reflexivity|]. split; [reflexivity|]. auto.
  - intros v S HS. split; apply (lift3_stat _ v loc conc batch S H HS).
Qed.
(** variance and entropy ignore loc's shape: with loc of shape [2] and a scalar concentration their result is a scalar, although
    batch_shape is [2] *)
Theorem C58_variance_shape_refuted i0e i1e : let loc := mkT [2%nat] [Fin 0; Fin 1] in let conc := mkT [] [Fin 1] in
  bshape (shp loc) (shp conc) = Some [2%nat] /\ (exists t, vm_variance_arr i0e i1e loc conc = Ok t /\ shp t = []) /\
  (exists t, vm_entropy_arr i0e i1e loc conc = Ok t /\ shp t = []).
Proof. cbn zeta. split; [reflexivity|]. split; eexists; split; reflexivity. Qed.
Print Assumptions C58_not_finite.
