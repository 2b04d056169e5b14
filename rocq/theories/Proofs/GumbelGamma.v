(** The standard Gumbel law through Euler's integral: Z = -ln X with X exponential.  Mean, second moment and exponential moments. *)
From Coq Require Import Reals Lra Lia.
From Coquelicot Require Import Coquelicot.
From Verif Require Import Base.XR Base.Integral Base.Improper Base.Mellin Base.GammaFn Base.Basel Spec.Density Spec.Gumbel Proofs.Density Proofs.Gumbel.
Local Open Scope R_scope.

Lemma exp_neg_at_p : filterlim (fun z => exp (- z)) (Rbar_locally p_infty) (at_right 0).
Proof.
  intros P HP. apply lo_iff in HP. destruct HP as (c & Hc & HP). exists (- ln c). intros z Hz. apply HP.
  split; [apply exp_pos|]. rewrite <- (exp_ln c) at 1 by auto. apply exp_increasing. lra.
Qed.
Lemma exp_neg_at_m : filterlim (fun z => exp (- z)) (Rbar_locally m_infty) (upto p_infty).
Proof.
  intros P [M HP]. exists (- M). intros z Hz. apply HP. pose proof (exp_ge (- z)). lra.
Qed.
Lemma gumbel_std z : gumbel_density 0 1 z = exp (- z) * exp (- exp (- z)).
Proof. unfold gumbel_density. replace ((z - 0) / 1) with z by field. rewrite Ropp_plus_distr, exp_plus. field. Qed.
Lemma gumbel_expect (k : R -> R) v : (forall x, 0 < x -> continuous k x) -> integral_on 0 p_infty (fun x => k x * gamw x) v ->
  expectation (gumbel_density 0 1) (fun z => k (exp (- z))) v.
Proof.
  intros Ck H. assert (Ch : forall x, inside 0 p_infty x -> continuous (fun x => k x * gamw x) x).
  { intros x [Hx _]. cbn in Hx. apply (continuous_mult k gamw); [apply Ck; auto|apply gamw_cont]. }
  destruct (integral_on_inv 0 p_infty I _ v Ch H) as (F & HF & F0 & Fv).
  unfold expectation. replace v with (- 0 - - v) by ring.
  apply (integral_of_antiderivative (fun z => - F (exp (- z)))).
  - intros z. assert (In : inside 0 p_infty (exp (- z))) by (split; [apply exp_pos|exact Logic.I]).
    evar_last; [apply (is_derive_opp (fun z => F (exp (- z)))), (is_derive_comp F (fun z => exp (- z)) z (k (exp (- z)) * gamw (exp (- z))) (- exp (- z))); [apply HF; exact In|auto_derive; auto; ring]|].
    rewrite gumbel_std. unfold opp, scal; cbn. unfold mult; cbn. unfold gamw. ring.
  - intros z. apply (continuous_mult (gumbel_density 0 1) (fun z => k (exp (- z)))).
    + apply (@ex_derive_continuous R_AbsRing R_NormedModule). unfold gumbel_density. auto_derive; auto.
    + apply (continuous_comp (fun z => exp (- z)) k); [|apply Ck, exp_pos]. apply (@ex_derive_continuous R_AbsRing R_NormedModule). auto_derive; auto.
  - apply (filterlim_comp _ _ _ (fun z => F (exp (- z))) Ropp _ (locally v)); [|apply (filterlim_opp v)].
    eapply filterlim_comp; [apply exp_neg_at_m|exact Fv].
  - apply (filterlim_comp _ _ _ (fun z => F (exp (- z))) Ropp _ (locally 0)); [|apply (filterlim_opp 0)].
    eapply filterlim_comp; [apply exp_neg_at_p|exact F0].
Qed.
Lemma gumbel_mean_psi : expectation (gumbel_density 0 1) (fun z => z) (- psi 1).
Proof.
  apply (expectation_ext (gumbel_density 0 1) (fun z => (fun x => - ln x) (exp (- z))) _ (- psi 1) _); [intros z; rewrite ln_exp; ring|ring|].
  apply (gumbel_expect (fun x => - ln x)). { intros x Hx. apply (continuous_opp ln), ln_cont; auto. }
  pose proof (gam_log_integral 1 Rlt_0_1) as H. rewrite Gam_1, Rmult_1_r in H. apply (integral_on_scal 0 p_infty I (-1)) in H.
  replace (- psi 1) with (-1 * psi 1) by ring. eapply integral_on_ext; [exact I| |exact H].
  intros x [Hx _]. cbn in Hx. cbn beta. replace (1 - 1) with 0 by ring. rewrite Rpower_O by auto. ring.
Qed.
Lemma gumbel_exp_moment r : 0 < r -> expectation (gumbel_density 0 1) (fun z => exp (- (r * z))) (Gam (r + 1)).
Proof.
  intros Hr. apply (expectation_ext (gumbel_density 0 1) (fun z => (fun x => Rpower x r) (exp (- z))) _ (Gam (r + 1)) _); [intros z; unfold Rpower; rewrite ln_exp; f_equal; ring|reflexivity|].
  apply (gumbel_expect (fun x => Rpower x r)). { intros x Hx. apply Rpower_cont; auto. }
  pose proof (Gam_correct (r + 1) ltac:(lra)) as H. replace (r + 1 - 1) with r in H by ring. exact H.
Qed.

(** ** The digamma function at integers *)
Lemma psi_S x : 0 < x -> psi (x + 1) = psi x + / x.
Proof.
  intros Hx. pose proof (psi_derive (x + 1) ltac:(lra)) as H1. pose proof (psi_derive x Hx) as H2.
  assert (A : is_derive (fun y => ln (Gam (y + 1))) x (psi (x + 1))).
  { evar_last; [apply (is_derive_comp (fun y => ln (Gam y)) (fun y => y + 1) x (psi (x + 1)) 1); [exact H1|auto_derive; auto; ring]|].
    unfold scal; cbn. unfold mult; cbn. ring. }
  assert (B : is_derive (fun y => ln (Gam y) + ln y) x (psi x + / x)).
  { apply (is_derive_plus (fun y => ln (Gam y)) ln x (psi x) (/ x)); [exact H2|]. apply is_derive_Reals, derivable_pt_lim_ln; auto. }
  assert (C : is_derive (fun y => ln (Gam (y + 1))) x (psi x + / x)).
  { apply (is_derive_near (fun y => ln (Gam y) + ln y) _ x _ x Hx); [|exact B]. intros y Hy. assert (0 < y) by (apply Rabs_def2 in Hy; lra).
    rewrite Gam_S, ln_mult by (try apply Gam_pos; auto). ring. }
  rewrite <- (is_derive_unique _ _ _ A). apply is_derive_unique. exact C.
Qed.
Lemma lnGam_step x : 0 < x -> ln (Gam (x + 1)) = ln x + ln (Gam x).
Proof. intros Hx. rewrite Gam_S, ln_mult by (try apply Gam_pos; auto). auto. Qed.
(** a function below its chord on the right has derivative at most the slope *)
Lemma derive_le_slope (f : R -> R) x l m : is_derive f x l -> (forall h, 0 < h <= 1 -> f (x + h) - f x <= h * m) -> l <= m.
Proof.
  intros D H. apply is_derive_Reals in D. apply Rnot_lt_le. intros Hlt.
  destruct (D (l - m) ltac:(lra)) as [d Hd]. set (h := Rmin (d / 2) 1).
  assert (Hp : 0 < h) by (apply Rmin_pos; [destruct d; cbn; lra|lra]). assert (h <= 1) by apply Rmin_r. assert (h <= d / 2) by apply Rmin_l.
  specialize (Hd h ltac:(lra) ltac:(rewrite Rabs_right by lra; destruct d; cbn in *; lra)). specialize (H h ltac:(lra)).
  assert ((f (x + h) - f x) / h <= m) by (apply Rle_div_l; lra). apply Rabs_def2 in Hd. lra.
Qed.
Lemma psi_bounds x : 0 < x -> psi x <= ln x <= psi (x + 1).
Proof.
  intros Hx. pose proof (lnGam_step x Hx) as S. split.
  - apply (derive_le_slope (fun y => ln (Gam y)) x); [apply psi_derive; auto|]. intros h Hh.
    pose proof (Gam_log_convex (x + 1) x h ltac:(lra) Hx ltac:(lra)) as C. replace (h * (x + 1) + (1 - h) * x) with (x + h) in C by ring. rewrite S in C. lra.
  - assert (A : is_derive (fun y => ln (Gam (- y))) (- (x + 1)) (- psi (x + 1))).
    { evar_last; [apply (is_derive_comp (fun y => ln (Gam y)) (fun y => - y) (- (x + 1)) (psi (x + 1)) (-1)); [rewrite Ropp_involutive; apply psi_derive; lra|auto_derive; auto; ring]|].
      unfold scal; cbn. unfold mult; cbn. ring. }
    assert (- psi (x + 1) <= - ln x); [|lra]. apply (derive_le_slope _ _ _ _ A). intros h Hh.
    rewrite !Ropp_involutive. replace (- (- (x + 1) + h)) with ((1 - h) * (x + 1) + (1 - (1 - h)) * x) by ring.
    pose proof (Gam_log_convex (x + 1) x (1 - h) ltac:(lra) Hx ltac:(lra)) as C. rewrite S in *. lra.
Qed.
Lemma psi_harmonic n : psi (INR (S n)) = psi 1 + harmonic n.
Proof.
  induction n as [|n IH]; [cbn; ring|]. rewrite S_INR, psi_S, IH by (apply lt_0_INR; lia). cbn [harmonic]. ring.
Qed.
Lemma inv_lim0 : is_lim_seq (fun n => / INR n) 0.
Proof. replace (Finite 0) with (Rbar_inv p_infty) by reflexivity. apply is_lim_seq_inv; [apply is_lim_seq_INR|discriminate]. Qed.
Lemma euler_psi : is_euler_mascheroni (- psi 1).
Proof.
  unfold is_euler_mascheroni. apply (is_lim_seq_le_le_loc (fun _ => - psi 1) _ (fun n => - psi 1 + / INR n)).
  - exists 1%nat. intros n Hn. destruct n as [|n]; [lia|]. pose proof (psi_bounds (INR (S n)) ltac:(apply lt_0_INR; lia)) as B.
    rewrite <- S_INR, !psi_harmonic in B. cbn [harmonic] in *. lra.
  - apply is_lim_seq_const.
  - replace (Finite (- psi 1)) with (Finite (- psi 1 + 0)) by (f_equal; ring). apply is_lim_seq_plus'; [apply is_lim_seq_const|apply inv_lim0].
Qed.
Lemma euler_unique g : is_euler_mascheroni g -> g = - psi 1.
Proof. intros H. pose proof (is_lim_seq_unique _ _ H) as E1. rewrite (is_lim_seq_unique _ _ euler_psi) in E1. congruence. Qed.

(** ** The second logarithmic moment *)
Lemma sinh_sq t : (2 * t) ^ 2 <= (exp t - exp (- t)) ^ 2.
Proof.
  assert (M : forall x, 0 <= x -> 2 * x <= exp x - exp (- x)).
  { intros x Hx. destruct Hx as [Hx| <-]; [|rewrite Ropp_0, exp_0; lra].
    destruct (MVT_gen (fun u => exp u - exp (- u) - 2 * u) 0 x (fun u => exp u + exp (- u) - 2)) as (c & B & E).
    { intros u _. auto_derive; auto; ring. }
    { intros u _. apply continuity_pt_filterlim, (ex_derive_continuous (fun u => exp u - exp (- u) - 2 * u)). auto_derive; auto. }
    rewrite Ropp_0, exp_0 in E. assert (0 <= (exp c + exp (- c) - 2) * (x - 0)).
    { apply Rmult_le_pos; [|lra]. pose proof (exp_pos c). rewrite exp_Ropp.
      replace (exp c + / exp c - 2) with ((exp c - 1) ^ 2 * / exp c) by (field; lra). apply Rmult_le_pos; [apply pow2_ge_0|left; apply Rinv_0_lt_compat; auto]. }
    lra. }
  destruct (Rle_dec 0 t) as [H|H].
  - specialize (M t H). apply pow_incr; lra.
  - specialize (M (- t) ltac:(lra)). rewrite Ropp_involutive in M. replace ((2 * t) ^ 2) with ((2 * - t) ^ 2) by ring. replace ((exp t - exp (- t)) ^ 2) with ((exp (- t) - exp t) ^ 2) by ring. apply pow_incr; lra.
Qed.
Lemma ln_sq y : 0 < y -> ln y ^ 2 <= y - 2 + / y.
Proof.
  intros Hy. pose proof (sinh_sq (ln y / 2)) as H. replace (2 * (ln y / 2)) with (ln y) in H by field.
  replace ((exp (ln y / 2) - exp (- (ln y / 2))) ^ 2) with (y - 2 + / y) in H; auto.
  set (e := exp (ln y / 2)). assert (He : 0 < e) by apply exp_pos. assert (E2 : e * e = y) by (unfold e; rewrite <- exp_plus; replace (ln y / 2 + ln y / 2) with (ln y) by field; apply exp_ln; auto).
  rewrite exp_Ropp. fold e. rewrite <- E2. field. lra.
Qed.
Lemma ln_sq_half x : 0 < x -> ln x ^ 2 <= 4 * (Rpower x (/ 2) + Rpower x (- / 2)).
Proof.
  intros Hx. pose proof (ln_sq (Rpower x (/ 2)) (Rpower_pos _ _)) as H. unfold Rpower at 1 in H. rewrite ln_exp, <- Rpower_Ropp in H.
  replace ((/ 2 * ln x) ^ 2) with (ln x ^ 2 / 4) in H by field. lra.
Qed.
Lemma Rpower_split_gg x a : 0 < x -> Rpower x a = x * Rpower x (a - 1).
Proof. intros Hx. replace a with (1 + (a - 1)) at 1 by ring. rewrite Rpower_plus, Rpower_1; auto. Qed.
Definition W2 (a : R) (x : R) : R := ln x ^ 2 * (Rpower x (a - 1) * gamw x).
Lemma W2_cont a x : inside 0 p_infty x -> continuous (W2 a) x.
Proof.
  intros [Hx _]. cbn in Hx. unfold W2. apply (continuous_mult (fun x => ln x ^ 2) (fun x => Rpower x (a - 1) * gamw x)).
  - apply (continuous_comp ln (fun y => y ^ 2)); [apply ln_cont; auto|]. apply (@ex_derive_continuous R_AbsRing R_NormedModule). auto_derive; auto.
  - apply (continuous_mult (fun x => Rpower x (a - 1)) gamw); [apply Rpower_cont; auto|apply gamw_cont].
Qed.
Lemma gw_cont c x : inside 0 p_infty x -> continuous (fun x => Rpower x c * gamw x) x.
Proof. intros [Hx _]. cbn in Hx. apply (continuous_mult (fun x => Rpower x c) gamw); [apply Rpower_cont; auto|apply gamw_cont]. Qed.
Lemma W2_bound a x : 0 < x -> 0 <= W2 a x <= 4 * (Rpower x (a + / 2 - 1) * gamw x) + 4 * (Rpower x (a - / 2 - 1) * gamw x).
Proof.
  intros Hx. pose proof (Rpower_pos x (a - 1)) as P. pose proof (gamw_pos x) as G. assert (PG : 0 < Rpower x (a - 1) * gamw x) by (apply Rmult_lt_0_compat; auto).
  split; [apply Rmult_le_pos; [apply pow2_ge_0|lra]|]. unfold W2.
  apply Rle_trans with (4 * (Rpower x (/ 2) + Rpower x (- / 2)) * (Rpower x (a - 1) * gamw x)); [apply Rmult_le_compat_r; [lra|apply ln_sq_half; auto]|].
  replace (a + / 2 - 1) with (/ 2 + (a - 1)) by ring. replace (a - / 2 - 1) with (- / 2 + (a - 1)) by ring. rewrite !Rpower_plus. right; ring.
Qed.
Lemma log2_moment a : 1 <= a -> exists M, integral_on 0 p_infty (W2 a) M.
Proof.
  intros Ha. 
  assert (D : integral_on 0 p_infty (fun x => 4 * (Rpower x (a + / 2 - 1) * gamw x) + 4 * (Rpower x (a - / 2 - 1) * gamw x)) (4 * Gam (a + / 2) + 4 * Gam (a - / 2))).
  { apply integral_on_plus; [exact I| |]; apply integral_on_scal; try exact I; apply Gam_correct; lra. }
  apply (integral_on_dominated 0 p_infty I (W2 a) (fun x => 4 * (Rpower x (a + / 2 - 1) * gamw x) + 4 * (Rpower x (a - / 2 - 1) * gamw x)) _ (W2_cont a)) with (3 := D).
  - intros x Ix. apply (continuous_plus (fun x => 4 * (Rpower x (a + / 2 - 1) * gamw x)) (fun x => 4 * (Rpower x (a - / 2 - 1) * gamw x)));
      [apply (continuous_scal_r 4 (fun x => Rpower x (a + / 2 - 1) * gamw x))|apply (continuous_scal_r 4 (fun x => Rpower x (a - / 2 - 1) * gamw x))]; apply gw_cont; auto.
  - intros x [Hx _]. cbn in Hx. apply W2_bound; auto.
Qed.
Definition Gam2 (a : R) : R := RInt_gen (W2 a) (at_right 0) (upto p_infty).
Lemma Gam2_correct a : 1 <= a -> integral_on 0 p_infty (W2 a) (Gam2 a).
Proof.
  intros Ha. unfold integral_on, Gam2. destruct (log2_moment a Ha) as [v Hv]. rewrite (is_RInt_gen_unique _ v Hv). exact Hv.
Qed.
Lemma lim0_sum (F : (R -> Prop) -> Prop) {FF : Filter F} (f g : R -> R) : filterlim f F (locally 0) -> filterlim g F (locally 0) -> filterlim (fun x => f x + g x) F (locally 0).
Proof.
  intros Hf Hg. pose proof (filterlim_comp_2 (F := F) (G := locally 0) (H := locally 0) f g Rplus Hf Hg (I := locally (0 + 0)) (filterlim_plus (V := R_NormedModule) 0 0)) as H. rewrite Rplus_0_r in H. exact H.
Qed.
Lemma W2_lim_lo a : 1 <= a -> filterlim (W2 (a + 1)) (at_right 0) (locally 0).
Proof.
  intros Ha. apply (lim0_squeeze (at_right 0) _ (fun x => Rpower x (a + 1 + / 2 - 1) + Rpower x (a + 1 - / 2 - 1)) 4); [lra| |].
  - apply lo_iff. exists 1. split; [lra|]. intros x Hx. pose proof (W2_bound (a + 1) x ltac:(lra)) as [B1 B2]. split; [auto|].
    apply Rle_trans with (1 := B2). unfold gamw. assert (exp (- x) <= 1). { rewrite <- exp_0. left. apply exp_increasing. lra. }
    pose proof (Rpower_pos x (a + 1 + / 2 - 1)). pose proof (Rpower_pos x (a + 1 - / 2 - 1)). nra.
  - apply lim0_sum; [apply at_right_proper_filter|apply Rpower_lim0; lra|apply Rpower_lim0; lra].
Qed.
Lemma W2_lim_hi a : filterlim (W2 (a + 1)) (upto p_infty) (locally 0).
Proof.
  apply (lim0_squeeze (upto p_infty) _ (fun x => Rpower x (a + 1 + / 2 - 1) * exp (- x) + Rpower x (a + 1 - / 2 - 1) * exp (- x)) 4); [lra| |].
  - exists 0. intros x Hx. pose proof (W2_bound (a + 1) x ltac:(lra)) as [B1 B2]. unfold gamw in B2. lra.
  - apply lim0_sum; [apply (upto_proper 0 p_infty I)| |]; apply pow_exp_lim.
Qed.
Lemma Gam2_S a : 1 <= a -> Gam2 (a + 1) = 2 * (psi a * Gam a) + a * Gam2 a.
Proof.
  intros Ha.
  assert (H1 : integral_on 0 p_infty (fun x => 2 * (ln x * (Rpower x (a - 1) * gamw x)) + (a * W2 a x - W2 (a + 1) x)) (2 * (psi a * Gam a) + (a * Gam2 a - Gam2 (a + 1)))).
  { apply integral_on_plus; [exact I|apply integral_on_scal; [exact I|apply gam_log_integral; lra]|].
    apply integral_on_minus; [exact I|apply integral_on_scal; [exact I|apply Gam2_correct; auto]|apply Gam2_correct; lra]. }
  assert (H0 : integral_on 0 p_infty (fun x => 2 * (ln x * (Rpower x (a - 1) * gamw x)) + (a * W2 a x - W2 (a + 1) x)) (0 - 0)).
  { apply (integral_on_anti 0 p_infty I _ (W2 (a + 1))).
    - intros x Ix. pose proof Ix as [Hx _]. cbn in Hx.
      apply (continuous_plus (fun x => 2 * (ln x * (Rpower x (a - 1) * gamw x))) (fun x => a * W2 a x - W2 (a + 1) x)).
      + apply (continuous_scal_r 2 (fun x => ln x * (Rpower x (a - 1) * gamw x))). apply (continuous_mult ln (fun x => Rpower x (a - 1) * gamw x)); [apply ln_cont; auto|apply gw_cont; auto].
      + apply (continuous_minus (fun x => a * W2 a x) (W2 (a + 1))); [apply (continuous_scal_r a (W2 a))|]; apply W2_cont; auto.
    - intros x [Hx _]. cbn in Hx. unfold W2. replace (a + 1 - 1) with a by ring.
      evar_last.
      + apply (is_derive_mult (fun x => ln x ^ 2) (fun x => Rpower x a * gamw x)); [auto_derive; auto; reflexivity| |intros; apply Rmult_comm].
        apply (is_derive_mult (fun x => Rpower x a) gamw); [apply Rpower_derive; auto| |intros; apply Rmult_comm]. unfold gamw. auto_derive; auto.
      + unfold plus, mult; cbn. unfold gamw. rewrite (Rpower_split_gg x a Hx). field. lra.
    - apply W2_lim_lo; auto.
    - apply W2_lim_hi. }
  pose proof (integral_on_unique 0 p_infty I _ _ _ H0 H1). lra.
Qed.
(** variance of ln X for X ~ Gamma(a, 1) *)
Definition V2 (a : R) : R := Gam2 a / Gam a - psi a ^ 2.
Lemma V2_S a : 1 <= a -> V2 (a + 1) = V2 a - / a ^ 2.
Proof.
  intros Ha. unfold V2. rewrite Gam2_S, Gam_S, psi_S by lra. pose proof (Gam_pos a ltac:(lra)). field. split; lra.
Qed.
Lemma centred a c : 1 <= a -> integral_on 0 p_infty (fun x => (ln x - c) ^ 2 * (Rpower x (a - 1) * gamw x)) ((V2 a + (psi a - c) ^ 2) * Gam a).
Proof.
  intros Ha. pose proof (Gam_pos a ltac:(lra)) as P.
  replace ((V2 a + (psi a - c) ^ 2) * Gam a) with (Gam2 a + (- (2 * c) * (psi a * Gam a) + c ^ 2 * Gam a)) by (unfold V2; field; lra).
  eapply integral_on_ext; [exact I| |apply integral_on_plus; [exact I|apply (Gam2_correct a Ha)|apply integral_on_plus; [exact I|apply integral_on_scal; [exact I|apply (gam_log_integral a); lra]|apply integral_on_scal; [exact I|apply (Gam_correct a); lra]]]].
  intros x _. unfold W2. cbn beta. ring.
Qed.
Lemma centred_cont a c x : inside 0 p_infty x -> continuous (fun x => (ln x - c) ^ 2 * (Rpower x (a - 1) * gamw x)) x.
Proof.
  intros Ix. apply (continuous_mult (fun x => (ln x - c) ^ 2) (fun x => Rpower x (a - 1) * gamw x)); [|apply gw_cont; auto].
  destruct Ix as [Hx _]. cbn in Hx. apply (continuous_comp ln (fun y => (y - c) ^ 2)); [apply ln_cont; auto|]. apply (@ex_derive_continuous R_AbsRing R_NormedModule). auto_derive; auto.
Qed.
Lemma V2_bounds a : 1 < a -> 0 <= V2 a <= / (a - 1).
Proof.
  intros Ha. pose proof (Gam_pos a ltac:(lra)) as P. split.
  - assert (0 <= (V2 a + (psi a - psi a) ^ 2) * Gam a).
    { eapply (integral_on_nonneg 0 p_infty I); [apply (centred_cont a (psi a))| |apply centred; lra].
      intros x [Hx _]. cbn in Hx. apply Rmult_le_pos; [apply pow2_ge_0|]. apply Rlt_le, Rmult_lt_0_compat; [apply Rpower_pos|apply gamw_pos]. }
    replace ((V2 a + (psi a - psi a) ^ 2) * Gam a) with (V2 a * Gam a) in H by ring. apply Rnot_lt_le. intros N. nra.
  - assert (U : (V2 a + (psi a - ln a) ^ 2) * Gam a <= / a * Gam (a + 1) + (-2 * Gam a + a * Gam (a - 1))).
    { eapply (integral_on_le 0 p_infty I _ (fun x => / a * (Rpower x (a + 1 - 1) * gamw x) + (-2 * (Rpower x (a - 1) * gamw x) + a * (Rpower x (a - 1 - 1) * gamw x)))); [apply (centred_cont a (ln a))| | |apply centred; lra|].
      - intros x Ix. apply (continuous_plus (fun x => / a * (Rpower x (a + 1 - 1) * gamw x)) (fun x => -2 * (Rpower x (a - 1) * gamw x) + a * (Rpower x (a - 1 - 1) * gamw x))).
        + apply (continuous_scal_r (/ a) (fun x => Rpower x (a + 1 - 1) * gamw x)), gw_cont; auto.
        + apply (continuous_plus (fun x => -2 * (Rpower x (a - 1) * gamw x)) (fun x => a * (Rpower x (a - 1 - 1) * gamw x))).
          * apply (continuous_scal_r (-2) (fun x => Rpower x (a - 1) * gamw x)), gw_cont; auto.
          * apply (continuous_scal_r a (fun x => Rpower x (a - 1 - 1) * gamw x)), gw_cont; auto.
      - intros x [Hx _]. cbn in Hx. pose proof (ln_sq (x / a) ltac:(apply Rdiv_lt_0_compat; lra)) as B. rewrite ln_div in B by lra.
        replace (a + 1 - 1) with (1 + (a - 1)) by ring. replace (a - 1 - 1) with (- (1) + (a - 1)) by ring. rewrite !Rpower_plus, Rpower_Ropp, Rpower_1 by auto.
        assert (Q : 0 < Rpower x (a - 1) * gamw x) by (apply Rmult_lt_0_compat; [apply Rpower_pos|apply gamw_pos]).
        apply Rle_trans with ((x / a - 2 + / (x / a)) * (Rpower x (a - 1) * gamw x)); [apply Rmult_le_compat_r; lra|]. right. field. lra.
      - apply integral_on_plus; [exact I|apply integral_on_scal; [exact I|apply Gam_correct; lra]|].
        apply integral_on_plus; [exact I| |]; apply integral_on_scal; try exact I; apply Gam_correct; lra. }
    assert (E : Gam a = (a - 1) * Gam (a - 1)) by (rewrite <- Gam_S by lra; f_equal; ring).
    pose proof (Gam_pos (a - 1) ltac:(lra)) as P1. rewrite Gam_S in U by lra.
    assert (U2 : (V2 a + (psi a - ln a) ^ 2) * Gam a <= / (a - 1) * Gam a).
    { replace (/ (a - 1) * Gam a) with (/ a * (a * Gam a) + (-2 * Gam a + a * Gam (a - 1))); auto. rewrite E. field. lra. }
    apply Rmult_le_reg_r in U2; auto. pose proof (pow2_ge_0 (psi a - ln a)). lra.
Qed.
Lemma V2_1 : V2 1 = PI ^ 2 / 6.
Proof.
  assert (St : forall n, V2 1 = inv_squares n + V2 (INR (S n))).
  { induction n as [|n IH]; [cbn; ring|]. rewrite IH. cbn [inv_squares]. rewrite (S_INR (S n)), V2_S. ring. rewrite S_INR. pose proof (pos_INR n). lra. }
  assert (L : is_lim_seq (fun n => inv_squares n + V2 (INR (S n))) (PI ^ 2 / 6 + 0)).
  { apply is_lim_seq_plus'; [apply basel|]. apply (is_lim_seq_le_le_loc (fun _ => 0) _ (fun n => / INR n)); [|apply is_lim_seq_const|apply inv_lim0].
    exists 1%nat. intros n Hn. assert (0 < INR n) by (apply lt_0_INR; lia). pose proof (V2_bounds (INR (S n)) ltac:(rewrite S_INR; lra)) as B.
    rewrite S_INR in *. replace (INR n + 1 - 1) with (INR n) in B by ring. exact B. }
  apply (is_lim_seq_ext _ (fun _ => V2 1)) in L; [|intros; symmetry; apply St].
  pose proof (is_lim_seq_unique _ _ L) as E1. rewrite (Lim_seq_const (V2 1)) in E1. assert (E2 : V2 1 = PI ^ 2 / 6 + 0) by congruence. rewrite E2. apply Rplus_0_r.
Qed.
(** the second central moment of the standard Gumbel law *)
Lemma gumbel_var_std : expectation (gumbel_density 0 1) (fun z => (z - - psi 1) ^ 2) (PI ^ 2 / 6).
Proof.
  apply (expectation_ext (gumbel_density 0 1) (fun z => (fun x => (ln x - psi 1) ^ 2) (exp (- z))) _ (PI ^ 2 / 6) _); [intros z; rewrite ln_exp; ring|reflexivity|].
  apply (gumbel_expect (fun x => (ln x - psi 1) ^ 2)).
  - intros x Hx. apply (continuous_comp ln (fun y => (y - psi 1) ^ 2)); [apply ln_cont; auto|]. apply (@ex_derive_continuous R_AbsRing R_NormedModule). auto_derive; auto.
  - pose proof (centred 1 (psi 1) ltac:(lra)) as H. rewrite V2_1, Gam_1 in H. replace ((PI ^ 2 / 6 + (psi 1 - psi 1) ^ 2) * 1) with (PI ^ 2 / 6) in H by ring.
    eapply integral_on_ext; [exact I| |exact H]. intros x [Hx _]. cbn in Hx. cbn beta. replace (1 - 1) with 0 by ring. rewrite Rpower_O by auto. ring.
Qed.
