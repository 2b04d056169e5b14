(** Integrals of the Gamma and Beta densities. *)
From Coq Require Import Reals Lra List.
From Coquelicot Require Import Coquelicot.
From Verif Require Import Base.XR Base.Improper Base.Mellin Base.GammaFn Spec.GammaFamily.
Local Open Scope R_scope.

Lemma Gamma_fn_Gam a : Gamma_fn a = Gam a. Proof. reflexivity. Qed.
Lemma lnGamma_derive a : 0 < a -> is_derive (fun x => ln (Gamma_fn x)) a (psi a).
Proof. apply psi_derive. Qed.
Lemma digamma_psi dg a : is_digamma dg -> 0 < a -> dg (Fin a) = Fin (psi a).
Proof.
  intros H Ha. destruct (H a Ha) as (d & E & D). rewrite E. f_equal.
  pose proof (is_derive_unique _ _ _ D) as E1. pose proof (is_derive_unique _ _ _ (lnGamma_derive a Ha)) as E2.
  exact (eq_trans (eq_sym E1) E2).
Qed.
Lemma exp_1_bound x : 1 + ln x <= x \/ x <= 0.
Proof.
  destruct (Rle_dec x 0); [auto|left]. pose proof (exp_ge (ln x)) as H. rewrite exp_ln in H by lra. auto.
Qed.
(** strictness of ln z <= z - 1 *)
Lemma ln_le_sub1 z : 0 < z -> ln z <= z - 1.
Proof. intros Hz. destruct (exp_1_bound z); lra. Qed.
Lemma ln_eq_sub1 z : 0 < z -> ln z = z - 1 -> z = 1.
Proof.
  intros Hz E. destruct (Req_dec z 1) as [|Hn]; auto. exfalso.
  assert (Hl : ln z <> 0). { intros H0. apply Hn. apply ln_inv; [auto|lra|]. rewrite ln_1. auto. }
  pose proof (exp_ineq1 (ln z) Hl) as H. rewrite exp_ln in H; auto. lra.
Qed.
Lemma gibbs_point p q : 0 < p -> 0 < q -> 0 <= p * (ln p - ln q) - (p - q).
Proof.
  intros Hp Hq. pose proof (ln_le_sub1 (q / p) ltac:(apply Rdiv_lt_0_compat; auto)) as H. rewrite ln_div in H by auto.
  apply (Rmult_le_compat_l p) in H; [|lra]. replace (p * (q / p - 1)) with (q - p) in H by (field; lra). lra.
Qed.
Lemma gibbs_point_eq p q : 0 < p -> 0 < q -> p * (ln p - ln q) - (p - q) = 0 -> p = q.
Proof.
  intros Hp Hq E. assert (H : ln (q / p) = q / p - 1).
  { rewrite ln_div by auto. apply (Rmult_eq_reg_l p); [|lra]. replace (p * (q / p - 1)) with (q - p) by (field; lra). lra. }
  apply ln_eq_sub1 in H; [|apply Rdiv_lt_0_compat; auto]. apply (Rmult_eq_compat_l p) in H. replace (p * (q / p)) with q in H by (field; lra). lra.
Qed.
(** Gibbs' inequality on an interval *)
Lemma kl_on_nonneg (a : R) (b : Rbar) (f g : R -> R) v : Rbar_lt a b -> (forall x, inside a b x -> 0 < f x) -> (forall x, inside a b x -> 0 < g x) ->
  integral_on a b f 1 -> integral_on a b g 1 -> kl_on a b f g v -> 0 <= v.
Proof.
  intros Hab Pf Pg If Ig Hk. assert (H : integral_on a b (fun x => f x - g x) (1 - 1)) by (apply integral_on_minus; auto).
  rewrite Rminus_eq_0 in H. apply (integral_on_le' a b (fun x => f x - g x) _ 0 v Hab) with (3 := Hk); auto.
  intros x Ix. pose proof (gibbs_point (f x) (g x) (Pf x Ix) (Pg x Ix)). lra.
Qed.
Lemma ln_comp_cont (f : R -> R) x : 0 < f x -> continuous f x -> continuous (fun x => ln (f x)) x.
Proof. intros P C. apply (continuous_comp f ln); auto. apply ln_cont; auto. Qed.
Lemma kl_on_zero (a : R) (b : Rbar) (f g : R -> R) : Rbar_lt a b -> (forall x, inside a b x -> 0 < f x) -> (forall x, inside a b x -> 0 < g x) ->
  (forall x, inside a b x -> continuous f x) -> (forall x, inside a b x -> continuous g x) ->
  integral_on a b f 1 -> integral_on a b g 1 -> kl_on a b f g 0 -> forall x, inside a b x -> f x = g x.
Proof.
  intros Hab Pf Pg Cf Cg If Ig Hk x Ix. apply gibbs_point_eq; auto.
  apply (integral_zero a b (fun x => f x * (ln (f x) - ln (g x)) - (f x - g x)) Hab); auto.
  - intros y Iy. apply (continuous_minus (fun x => f x * (ln (f x) - ln (g x))) (fun x => f x - g x)).
    + apply (continuous_mult f (fun x => ln (f x) - ln (g x))); [auto|].
      apply (continuous_minus (fun x => ln (f x)) (fun x => ln (g x))); apply ln_comp_cont; auto.
    + apply (continuous_minus f g); auto.
  - intros y Iy. apply gibbs_point; auto.
  - replace 0 with (0 - (1 - 1)) by ring. apply integral_on_minus; auto. apply integral_on_minus; auto.
Qed.

Lemma Rpower_split r a : 0 < r -> Rpower r a = r * Rpower r (a - 1).
Proof. intros Hr. replace a with (1 + (a - 1)) at 1 by ring. rewrite Rpower_plus, Rpower_1 by auto. auto. Qed.

(** ** Gamma *)
Lemma gd_pos a r x : 0 < a -> 0 < r -> 0 < x -> 0 < gamma_density a r x.
Proof.
  intros Ha Hr Hx. unfold gamma_density. change Gamma_fn with Gam. apply Rdiv_lt_0_compat; [|apply Gam_pos; auto].
  repeat apply Rmult_lt_0_compat; apply exp_pos.
Qed.
Lemma gd_cont a r x : 0 < x -> continuous (gamma_density a r) x.
Proof.
  intros Hx. apply (continuous_ext (fun x => Rpower r a / Gamma_fn a * (Rpower x (a - 1) * exp (- (r * x))))).
  { assert (E : forall y : R, Rpower r a / Gamma_fn a * (Rpower y (a - 1) * exp (- (r * y))) = gamma_density a r y).
    { intros y. unfold gamma_density, Rdiv. ring. } exact E. }
  apply (continuous_scal_r (Rpower r a / Gamma_fn a) (fun x => Rpower x (a - 1) * exp (- (r * x)))).
  apply (continuous_mult (fun x => Rpower x (a - 1)) (fun x => exp (- (r * x)))); [apply Rpower_cont; auto|].
  apply (ex_derive_continuous (fun x => exp (- (r * x)))). eexists. auto_derive; auto.
Qed.
Lemma gd_ln a r x : 0 < a -> 0 < r -> 0 < x -> ln (gamma_density a r x) = a * ln r + (a - 1) * ln x - r * x - ln (Gam a).
Proof.
  intros Ha Hr Hx. pose proof (Gam_pos a Ha). unfold gamma_density. change Gamma_fn with Gam.
  rewrite ln_div; [|repeat apply Rmult_lt_0_compat; apply exp_pos|auto].
  rewrite !ln_mult; try apply exp_pos; [|apply Rmult_lt_0_compat; apply exp_pos]. unfold Rpower. rewrite !ln_exp. ring.
Qed.
Lemma gd_expect a r (h : R -> R) v : 0 < a -> 0 < r -> (forall x, 0 < x -> continuous h x) ->
  integral_on 0 p_infty (fun x => h x * (Rpower x (a - 1) * gamw x)) v ->
  integral_on 0 p_infty (fun x => gamma_density a r x * h (r * x)) (v / Gam a).
Proof.
  intros Ha Hr Hc Hi. pose proof (Gam_pos a Ha) as G.
  apply (integral_on_ext 0 p_infty I (fun x => / Gam a * (r * ((fun x => h x * (Rpower x (a - 1) * gamw x)) (r * x))))).
  - intros x [Hx _]. cbn in Hx. cbv beta. unfold gamma_density, gamw. change Gamma_fn with Gam.
    rewrite (Rpower_split r a) by auto.
    rewrite <- (Rpower_mult_distr r x (a - 1)) by auto. field. lra.
  - replace (v / Gam a) with (/ Gam a * v) by (unfold Rdiv; ring). apply integral_on_scal; [exact I|].
    apply (integral_scale_inf r (fun x => h x * (Rpower x (a - 1) * gamw x))); auto.
    intros x Hx. apply (continuous_mult h (fun x => Rpower x (a - 1) * gamw x)); auto.
    apply (continuous_mult (fun x => Rpower x (a - 1)) gamw); [apply Rpower_cont; auto|apply gamw_cont].
Qed.
Lemma gd_normal a r : 0 < a -> 0 < r -> integral_on 0 p_infty (gamma_density a r) 1.
Proof.
  intros Ha Hr. pose proof (Gam_pos a Ha). replace 1 with (Gam a / Gam a) by (field; lra).
  apply (integral_on_ext 0 p_infty I (fun x => gamma_density a r x * (fun _ => 1) (r * x))); [intros; ring|].
  apply (gd_expect a r (fun _ => 1)); auto; [intros; apply continuous_const|].
  apply (integral_on_ext 0 p_infty I (fun x => Rpower x (a - 1) * gamw x)); [intros; ring|]. apply Gam_correct; auto.
Qed.
Lemma gd_mean a r : 0 < a -> 0 < r -> integral_on 0 p_infty (fun x => gamma_density a r x * x) (a / r).
Proof.
  intros Ha Hr. pose proof (Gam_pos a Ha).
  apply (integral_on_ext 0 p_infty I (fun x => / r * (gamma_density a r x * (fun y => y) (r * x)))); [intros; cbv beta; field; lra|].
  replace (a / r) with (/ r * (a * Gam a / Gam a)) by (field; lra). apply integral_on_scal; [exact I|].
  apply (gd_expect a r (fun y => y)); auto; [intros; apply continuous_id|].
  apply (integral_on_ext 0 p_infty I (fun x => Rpower x (a + 1 - 1) * gamw x)).
  { intros x [Hx _]. cbn in Hx. replace (a + 1 - 1) with (1 + (a - 1)) by ring. rewrite Rpower_plus, Rpower_1 by auto. ring. }
  rewrite <- Gam_S by auto. apply Gam_correct; lra.
Qed.
Lemma gd_second a r : 0 < a -> 0 < r -> integral_on 0 p_infty (fun x => gamma_density a r x * x ^ 2) (a * (a + 1) / r ^ 2).
Proof.
  intros Ha Hr. pose proof (Gam_pos a Ha).
  apply (integral_on_ext 0 p_infty I (fun x => / r ^ 2 * (gamma_density a r x * (fun y => y ^ 2) (r * x)))); [intros; cbv beta; field; lra|].
  replace (a * (a + 1) / r ^ 2) with (/ r ^ 2 * ((a + 1) * (a * Gam a) / Gam a)) by (field; lra). apply integral_on_scal; [exact I|].
  apply (gd_expect a r (fun y => y ^ 2)); auto.
  { intros x _. apply (ex_derive_continuous (fun y => y ^ 2)). eexists. auto_derive; auto. }
  apply (integral_on_ext 0 p_infty I (fun x => Rpower x (a + 1 + 1 - 1) * gamw x)).
  { intros x [Hx _]. cbn in Hx. replace (a + 1 + 1 - 1) with (1 + (1 + (a - 1))) by ring. rewrite !Rpower_plus, Rpower_1 by auto. ring. }
  rewrite <- !Gam_S by lra. apply Gam_correct; lra.
Qed.
Lemma gd_log a r : 0 < a -> 0 < r -> integral_on 0 p_infty (fun x => gamma_density a r x * ln x) (psi a - ln r).
Proof.
  intros Ha Hr. pose proof (Gam_pos a Ha).
  apply (integral_on_ext 0 p_infty I (fun x => gamma_density a r x * ln (r * x) - ln r * gamma_density a r x)).
  { intros x [Hx _]. cbn in Hx. rewrite ln_mult by auto. ring. }
  apply integral_on_minus; [exact I| |].
  - replace (psi a) with (psi a * Gam a / Gam a) by (field; lra). apply (gd_expect a r ln); auto; [apply ln_cont|apply gam_log_integral; auto].
  - pose proof (integral_on_scal 0 p_infty I (ln r) _ _ (gd_normal a r Ha Hr)) as K. rewrite Rmult_1_r in K. exact K.
Qed.
(** expectation of c0 + c1 ln x + c2 x *)
Lemma gd_linear a r c0 c1 c2 : 0 < a -> 0 < r ->
  integral_on 0 p_infty (fun x => gamma_density a r x * (c0 + c1 * ln x + c2 * x)) (c0 + c1 * (psi a - ln r) + c2 * (a / r)).
Proof.
  intros Ha Hr.
  apply (integral_on_ext 0 p_infty I (fun x => c0 * gamma_density a r x + c1 * (gamma_density a r x * ln x) + c2 * (gamma_density a r x * x))); [intros; ring|].
  replace (c0 + c1 * (psi a - ln r)) with (c0 * 1 + c1 * (psi a - ln r)) by ring.
  apply integral_on_plus; [exact I|apply integral_on_plus; [exact I| |]|]; (apply integral_on_scal; [exact I|]); [apply gd_normal|apply gd_log|apply gd_mean]; auto.
Qed.

(** ** Beta *)
Lemma bd_alt a b x : beta_density a b x = / Beta_fn a b * (Rpower x (a - 1) * betw b x).
Proof.
  unfold beta_density, Beta_fn, betw. change Gamma_fn with Gam. unfold Rdiv. rewrite !Rinv_mult, Rinv_inv. ring.
Qed.
Lemma bd_pos a b x : 0 < a -> 0 < b -> 0 < x < 1 -> 0 < beta_density a b x.
Proof.
  intros Ha Hb Hx. rewrite bd_alt. pose proof (Beta_fn_pos a b Ha Hb).
  apply Rmult_lt_0_compat; [apply Rinv_0_lt_compat; auto|]. apply Rmult_lt_0_compat; [apply Rpower_pos|apply betw_pos].
Qed.
Lemma bd_cont a b x : inside 0 1 x -> continuous (beta_density a b) x.
Proof.
  intros Ix. apply (continuous_ext (fun x => / Beta_fn a b * (Rpower x (a - 1) * betw b x))); [intros; symmetry; apply bd_alt|].
  apply (continuous_scal_r (/ Beta_fn a b) (fun x => Rpower x (a - 1) * betw b x)), bet_body_cont, Ix.
Qed.
Lemma Beta_fn_ln a b : 0 < a -> 0 < b -> ln (Beta_fn a b) = ln (Gam a) + ln (Gam b) - ln (Gam (a + b)).
Proof.
  intros Ha Hb. pose proof (Gam_pos a Ha). pose proof (Gam_pos b Hb). pose proof (Gam_pos (a + b) ltac:(lra)).
  unfold Beta_fn. rewrite ln_div, ln_mult; auto. apply Rmult_lt_0_compat; auto.
Qed.
Lemma bd_ln a b x : 0 < a -> 0 < b -> 0 < x < 1 -> ln (beta_density a b x) = (a - 1) * ln x + (b - 1) * ln (1 - x) - ln (Beta_fn a b).
Proof.
  intros Ha Hb Hx. rewrite bd_alt. pose proof (Beta_fn_pos a b Ha Hb).
  rewrite ln_mult; [|apply Rinv_0_lt_compat; auto|apply Rmult_lt_0_compat; [apply Rpower_pos|apply betw_pos]].
  rewrite ln_mult; [|apply Rpower_pos|apply betw_pos]. rewrite ln_Rinv by auto. unfold betw, Rpower. rewrite !ln_exp. ring.
Qed.
Lemma bd_expect a b (h : R -> R) v : 0 < a -> 0 < b -> integral_on 0 1 (fun x => h x * (Rpower x (a - 1) * betw b x)) v ->
  integral_on 0 1 (fun x => beta_density a b x * h x) (v / Beta_fn a b).
Proof.
  intros Ha Hb Hi. apply (integral_on_ext 0 1 lt01 (fun x => / Beta_fn a b * (h x * (Rpower x (a - 1) * betw b x)))).
  - intros x _. rewrite bd_alt. ring.
  - replace (v / Beta_fn a b) with (/ Beta_fn a b * v) by (unfold Rdiv; ring). apply integral_on_scal; auto. exact lt01.
Qed.
Lemma bd_normal a b : 0 < a -> 0 < b -> integral_on 0 1 (beta_density a b) 1.
Proof.
  intros Ha Hb. pose proof (Beta_fn_pos a b Ha Hb).
  apply (integral_on_ext 0 1 lt01 (fun x => / Beta_fn a b * (Rpower x (a - 1) * betw b x))); [intros; symmetry; apply bd_alt|].
  pose proof (integral_on_scal 0 1 lt01 (/ Beta_fn a b) _ _ (bet_integral a b Ha Hb)) as K. rewrite Rinv_l in K by lra. exact K.
Qed.
Lemma Beta_fn_S a b : 0 < a -> 0 < b -> Beta_fn (a + 1) b = a / (a + b) * Beta_fn a b.
Proof.
  intros Ha Hb. unfold Beta_fn. replace (a + 1 + b) with (a + b + 1) by ring. rewrite !Gam_S by lra.
  pose proof (Gam_pos (a + b) ltac:(lra)). field. lra.
Qed.
Lemma pow_up x a : 0 < x -> Rpower x (a + 1 - 1) = x * Rpower x (a - 1).
Proof. intros Hx. replace (a + 1 - 1) with (1 + (a - 1)) by ring. rewrite Rpower_plus, Rpower_1 by auto. auto. Qed.
Lemma bd_mean a b : 0 < a -> 0 < b -> integral_on 0 1 (fun x => beta_density a b x * x) (a / (a + b)).
Proof.
  intros Ha Hb. pose proof (Beta_fn_pos a b Ha Hb).
  replace (a / (a + b)) with (a / (a + b) * Beta_fn a b / Beta_fn a b) by (field; lra). apply (bd_expect a b (fun x => x)); auto.
  rewrite <- Beta_fn_S by auto. apply (integral_on_ext 0 1 lt01 (fun x => Rpower x (a + 1 - 1) * betw b x)); [|apply bet_integral; lra].
  intros x [Hx _]. rewrite pow_up by exact Hx. ring.
Qed.
Lemma bd_second a b : 0 < a -> 0 < b -> integral_on 0 1 (fun x => beta_density a b x * x ^ 2) (a * (a + 1) / ((a + b) * (a + b + 1))).
Proof.
  intros Ha Hb. pose proof (Beta_fn_pos a b Ha Hb).
  replace (a * (a + 1) / ((a + b) * (a + b + 1))) with ((a + 1) / (a + 1 + b) * (a / (a + b) * Beta_fn a b) / Beta_fn a b) by (field; lra).
  apply (bd_expect a b (fun x => x ^ 2)); auto.
  rewrite <- !Beta_fn_S by lra. apply (integral_on_ext 0 1 lt01 (fun x => Rpower x (a + 1 + 1 - 1) * betw b x)); [|apply bet_integral; lra].
  intros x [Hx _]. rewrite !pow_up by exact Hx. ring.
Qed.
Lemma bd_log a b : 0 < a -> 0 < b -> integral_on 0 1 (fun x => beta_density a b x * ln x) (psi a - psi (a + b)).
Proof.
  intros Ha Hb. pose proof (Beta_fn_pos a b Ha Hb).
  replace (psi a - psi (a + b)) with ((psi a - psi (a + b)) * Beta_fn a b / Beta_fn a b) by (field; lra). apply (bd_expect a b ln); auto.
  apply bet_log_integral; auto.
Qed.
Lemma bd_log1 a b : 0 < a -> 0 < b -> integral_on 0 1 (fun x => beta_density a b x * ln (1 - x)) (psi b - psi (a + b)).
Proof.
  intros Ha Hb. pose proof (Beta_fn_pos a b Ha Hb).
  replace (psi b - psi (a + b)) with (Rpower 1 (a + b - 1) * Beta_fn a b * (ln 1 + psi b - psi (a + b)) / Beta_fn a b).
  2:{ rewrite Rpower_1_l, ln_1. field. lra. }
  apply (bd_expect a b (fun x => ln (1 - x))); auto. apply beta_scaled_log'; auto; lra.
Qed.
Lemma bd_linear a b c0 c1 c2 : 0 < a -> 0 < b ->
  integral_on 0 1 (fun x => beta_density a b x * (c0 + c1 * ln x + c2 * ln (1 - x))) (c0 + c1 * (psi a - psi (a + b)) + c2 * (psi b - psi (a + b))).
Proof.
  intros Ha Hb.
  apply (integral_on_ext 0 1 lt01 (fun x => c0 * beta_density a b x + c1 * (beta_density a b x * ln x) + c2 * (beta_density a b x * ln (1 - x)))); [intros; ring|].
  replace (c0 + c1 * (psi a - psi (a + b))) with (c0 * 1 + c1 * (psi a - psi (a + b))) by ring.
  apply integral_on_plus; [exact lt01|apply integral_on_plus; [exact lt01| |]|]; (apply integral_on_scal; [exact lt01|]); [apply bd_normal|apply bd_log|apply bd_log1]; auto.
Qed.
