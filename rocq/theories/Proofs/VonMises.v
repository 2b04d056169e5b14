(** Integrals of periodic functions, rounding, and the angle conversion. *)
From Coq Require Import Reals Lra Lia ZArith List Bool.
From Coquelicot Require Import Coquelicot.
From Verif Require Import Base.XR Base.Gauss Model.ScalarDist Model.Multinomial Model.VonMises Spec.VonMises Proofs.Density Proofs.GammaFamily.
Import ListNotations.
Local Open Scope R_scope.

Lemma two_pi_pos : 0 < 2 * PI. Proof. pose proof PI_RGT_0. lra. Qed.

(** ** Integrals over a period *)
Section Period.
Variable f : R -> R.
Hypothesis C : forall x, continuous f x.
Hypothesis P : forall x, f (x + 2 * PI) = f x.
Lemma per_ex a b : ex_RInt f a b.
Proof. apply (ex_RInt_continuous (V := R_CompleteNormedModule)). intros; apply C. Qed.
Lemma per_shift a b : RInt f (a + 2 * PI) (b + 2 * PI) = RInt f a b.
Proof.
  replace (a + 2 * PI) with (1 * a + 2 * PI) by ring. replace (b + 2 * PI) with (1 * b + 2 * PI) by ring.
  rewrite <- (RInt_comp_lin f 1 (2 * PI) a b).
  - apply RInt_ext. intros x _. replace (1 * x + 2 * PI) with (x + 2 * PI) by ring. rewrite P. unfold scal; cbn; unfold mult; cbn. apply Rmult_1_l.
  - apply per_ex.
Qed.
Lemma per_any a : RInt f a (a + 2 * PI) = RInt f (- PI) PI.
Proof.
  assert (E1 : RInt f a (a + 2 * PI) = RInt f a (- PI) + RInt f (- PI) (a + 2 * PI)).
  { symmetry. apply (RInt_Chasles f a (- PI) (a + 2 * PI)); apply per_ex. }
  assert (E2 : RInt f (- PI) (a + 2 * PI) = RInt f (- PI) PI + RInt f PI (a + 2 * PI)).
  { symmetry. apply (RInt_Chasles f (- PI) PI (a + 2 * PI)); apply per_ex. }
  assert (E3 : RInt f PI (a + 2 * PI) = RInt f (- PI) a). { replace PI with (- PI + 2 * PI) at 1 by ring. apply per_shift. }
  assert (E4 : RInt f (- PI) a = - RInt f a (- PI)). { rewrite <- (opp_RInt_swap f a (- PI)) by apply per_ex. reflexivity. }
  lra.
Qed.
Lemma per_sub c v : circle_int f v -> circle_int (fun x => f (x - c)) v.
Proof.
  intros H. unfold circle_int in *.
  assert (E : is_RInt f (1 * - PI + - c) (1 * PI + - c) v).
  { assert (V : v = RInt f (1 * - PI + - c) (1 * PI + - c)).
    { replace (1 * PI + - c) with ((1 * - PI + - c) + 2 * PI) by ring. rewrite per_any. symmetry. apply is_RInt_unique. auto. }
    rewrite V. apply (RInt_correct f). apply per_ex. }
  apply (is_RInt_comp_lin f 1 (- c)) in E. apply (is_RInt_ext (fun y => scal 1 (f (1 * y + - c)))); auto.
  intros x _. unfold scal; cbn; unfold mult; cbn. rewrite !Rmult_1_l. auto.
Qed.
End Period.
Lemma ci_ext f g v : (forall x, f x = g x) -> circle_int f v -> circle_int g v.
Proof. intros E H. apply (is_RInt_ext f); auto. Qed.
Lemma ci_plus f g u v : circle_int f u -> circle_int g v -> circle_int (fun x => f x + g x) (u + v).
Proof. intros. apply (is_RInt_plus f g); auto. Qed.
Lemma ci_scal c f u : circle_int f u -> circle_int (fun x => c * f x) (c * u).
Proof. intros. apply (is_RInt_scal f); auto. Qed.
Lemma ci_unique f u v : circle_int f u -> circle_int f v -> u = v.
Proof. intros H K. rewrite <- (is_RInt_unique _ _ _ _ H). apply is_RInt_unique. auto. Qed.
Lemma ci_ex f : (forall x, continuous f x) -> exists v, circle_int f v.
Proof. intros C. exists (RInt f (- PI) PI). apply (RInt_correct f). apply (ex_RInt_continuous (V := R_CompleteNormedModule)). intros; apply C. Qed.
Lemma ci_le f g u v : (forall x, f x <= g x) -> circle_int f u -> circle_int g v -> u <= v.
Proof. intros H Hu Hv. pose proof PI_RGT_0. apply (is_RInt_le f g (- PI) PI); auto. lra. Qed.
Lemma ci_odd f v : (forall x, f (- x) = - f x) -> circle_int f v -> v = 0.
Proof.
  intros O H. assert (K : is_RInt f (- PI) (- - PI) (- - v)).
  { rewrite !Ropp_involutive. exact H. }
  assert (E : is_RInt (fun y => opp (f (- y))) (- PI) PI (- v)).
  { apply (is_RInt_comp_opp f). rewrite Ropp_involutive. apply (is_RInt_swap f). exact H. }
  assert (K2 : circle_int f (- v)).
  { apply (is_RInt_ext (fun y => opp (f (- y)))); auto. intros x _. unfold opp; cbn. rewrite O. ring. }
  pose proof (ci_unique f v (- v) H K2). lra.
Qed.
Lemma ci_const c : circle_int (fun _ => c) (2 * PI * c).
Proof. assert (H := is_RInt_const (V := R_NormedModule) (- PI) PI c). unfold scal in H; cbn in H; unfold mult in H; cbn in H. replace (2 * PI * c) with ((PI - - PI) * c) by ring. exact H. Qed.
Lemma ci_zero f : (forall x, continuous f x) -> (forall x, 0 <= f x) -> circle_int f 0 -> forall x, - PI < x < PI -> f x = 0.
Proof.
  intros C N H x Hx. pose proof PI_RGT_0.
  assert (Ex : forall a b, ex_RInt f a b) by (intros; apply (ex_RInt_continuous (V := R_CompleteNormedModule)); intros; apply C).
  assert (Z : forall y, - PI <= y <= PI -> RInt f (- PI) y = 0).
  { intros y Hy. assert (A1 : 0 <= RInt f (- PI) y) by (apply RInt_ge_0; [lra|auto|intros; apply N]).
    assert (A2 : 0 <= RInt f y PI) by (apply RInt_ge_0; [lra|auto|intros; apply N]).
    assert (A3 : RInt f (- PI) y + RInt f y PI = RInt f (- PI) PI) by (apply (RInt_Chasles f); auto).
    rewrite (is_RInt_unique _ _ _ _ H) in A3. lra. }
  assert (D : is_derive (RInt f (- PI)) x (f x)).
  { apply (is_derive_RInt f (RInt f (- PI)) (- PI)); [|apply C]. exists (mkposreal 1 Rlt_0_1). intros y _. apply (RInt_correct f); auto. }
  assert (D0 : is_derive (RInt f (- PI)) x 0).
  { apply (is_derive_ext_loc (fun _ => 0)); [|apply (is_derive_const (K := R_AbsRing) (V := R_NormedModule))].
    assert (He : 0 < Rmin (x + PI) (PI - x)) by (apply Rmin_case; lra).
    exists (mkposreal _ He). intros y Hy. unfold ball in Hy; cbn in Hy; unfold AbsRing_ball, abs, minus, plus, opp in Hy; cbn in Hy.
    symmetry. apply Z. apply Rabs_def2 in Hy. pose proof (Rmin_l (x + PI) (PI - x)). pose proof (Rmin_r (x + PI) (PI - x)). lra. }
  rewrite <- (is_derive_unique _ _ _ D). apply is_derive_unique. exact D0.
Qed.

(** ** Bessel integrals and the density *)
Lemma ecos_cont k x : continuous (fun t => exp (k * cos t) / (2 * PI)) x.
Proof. apply (ex_derive_continuous (fun t => exp (k * cos t) / (2 * PI))). auto_derive. pose proof PI_RGT_0; lra. Qed.
Lemma ecos1_cont k x : continuous (fun t => cos t * exp (k * cos t) / (2 * PI)) x.
Proof. apply (ex_derive_continuous (fun t => cos t * exp (k * cos t) / (2 * PI))). auto_derive. pose proof PI_RGT_0; lra. Qed.
Lemma I0_pos k a : is_I0 k a -> 0 < a.
Proof.
  intros H. pose proof PI_RGT_0. apply (Rlt_le_trans _ (2 * PI * (exp (- Rabs k) / (2 * PI)))).
  { replace (2 * PI * (exp (- Rabs k) / (2 * PI))) with (exp (- Rabs k)) by (field; lra). apply exp_pos. }
  apply (ci_le (fun _ => exp (- Rabs k) / (2 * PI)) (fun t => exp (k * cos t) / (2 * PI))); [|apply ci_const|exact H].
  intros t. apply Rmult_le_compat_r; [left; apply Rinv_0_lt_compat; lra|].
  assert (- Rabs k <= k * cos t). { pose proof (COS_bound t). assert (Rabs (k * cos t) <= Rabs k). { rewrite Rabs_mult. rewrite <- (Rmult_1_r (Rabs k)) at 2. apply Rmult_le_compat_l; [apply Rabs_pos|]. apply Rabs_le. lra. }
    pose proof (Rle_abs (- (k * cos t))). rewrite Rabs_Ropp in *. lra. }
  destruct H1 as [H1|H1]; [left; apply exp_increasing; auto|rewrite H1; lra].
Qed.
Lemma I1_lt_I0 k a b : is_I0 k a -> is_I1 k b -> - a <= b <= a.
Proof.
  intros H0 H1. pose proof PI_RGT_0. assert (B : forall t, 0 < exp (k * cos t) / (2 * PI)) by (intros; apply Rdiv_lt_0_compat; [apply exp_pos|lra]).
  split.
  - replace (- a) with (-1 * a) by ring. apply (ci_le (fun t => -1 * (exp (k * cos t) / (2 * PI))) (fun t => cos t * exp (k * cos t) / (2 * PI))); auto; [|apply ci_scal; exact H0].
    intros t. specialize (B t). pose proof (COS_bound t). replace (cos t * exp (k * cos t) / (2 * PI)) with (cos t * (exp (k * cos t) / (2 * PI))) by (field; lra). nra.
  - apply (ci_le (fun t => cos t * exp (k * cos t) / (2 * PI)) (fun t => exp (k * cos t) / (2 * PI))); auto.
    intros t. specialize (B t). pose proof (COS_bound t). replace (cos t * exp (k * cos t) / (2 * PI)) with (cos t * (exp (k * cos t) / (2 * PI))) by (field; lra). nra.
Qed.
Lemma cos_2pi x : cos (x + 2 * PI) = cos x. Proof. apply (cos_period x 1) || (replace (x + 2 * PI) with (x + 2 * INR 1 * PI) by (cbn; ring); apply cos_period). Qed.
Lemma sin_2pi x : sin (x + 2 * PI) = sin x. Proof. replace (x + 2 * PI) with (x + 2 * INR 1 * PI) by (cbn; ring); apply sin_period. Qed.
Section Dens.
Variables (k a b loc : R).
Hypothesis (H0 : is_I0 k a) (H1 : is_I1 k b).
Let Pa : 0 < a. Proof. apply (I0_pos k a H0). Qed.
Lemma vd_pos x : 0 < vm_density a loc k x.
Proof. pose proof PI_RGT_0. apply Rdiv_lt_0_compat; [apply exp_pos|]. apply Rmult_lt_0_compat; lra. Qed.
Lemma vd_cont x : continuous (vm_density a loc k) x.
Proof. pose proof PI_RGT_0. apply (ex_derive_continuous (vm_density a loc k)). unfold vm_density. auto_derive. repeat split; try lra; intros E; apply Rmult_integral in E; lra. Qed.
Lemma vd_ln x : ln (vm_density a loc k x) = k * cos (x - loc) - ln (2 * PI) - ln a.
Proof. pose proof PI_RGT_0. unfold vm_density. rewrite ln_div, ln_exp, ln_mult; try lra; [apply exp_pos|apply Rmult_lt_0_compat; lra]. Qed.
Lemma vd_normal : circle_int (vm_density a loc k) 1.
Proof.
  pose proof PI_RGT_0. replace 1 with (/ a * a) by (field; lra).
  apply (ci_ext (fun x => / a * (exp (k * cos (x - loc)) / (2 * PI)))); [intros; unfold vm_density; field; lra|].
  apply (ci_scal (/ a) (fun x => exp (k * cos (x - loc)) / (2 * PI))).
  apply (per_sub (fun t => exp (k * cos t) / (2 * PI))); [apply ecos_cont|intros; rewrite cos_2pi; auto|exact H0].
Qed.
Lemma vd_cos : circle_int (fun x => vm_density a loc k x * cos (x - loc)) (b / a).
Proof.
  pose proof PI_RGT_0. replace (b / a) with (/ a * b) by (field; lra).
  apply (ci_ext (fun x => / a * (cos (x - loc) * exp (k * cos (x - loc)) / (2 * PI)))); [intros; unfold vm_density; field; lra|].
  apply (ci_scal (/ a) (fun x => cos (x - loc) * exp (k * cos (x - loc)) / (2 * PI))).
  apply (per_sub (fun t => cos t * exp (k * cos t) / (2 * PI))); [apply ecos1_cont|intros; rewrite cos_2pi; auto|exact H1].
Qed.
Lemma vd_sin : circle_int (fun x => vm_density a loc k x * sin (x - loc)) 0.
Proof.
  pose proof PI_RGT_0. replace 0 with (/ a * 0) by ring.
  apply (ci_ext (fun x => / a * (sin (x - loc) * exp (k * cos (x - loc)) / (2 * PI)))); [intros; unfold vm_density; field; lra|].
  apply (ci_scal (/ a) (fun x => sin (x - loc) * exp (k * cos (x - loc)) / (2 * PI))).
  assert (C : forall x, continuous (fun t => sin t * exp (k * cos t) / (2 * PI)) x).
  { intros x. apply (ex_derive_continuous (fun t => sin t * exp (k * cos t) / (2 * PI))). auto_derive. lra. }
  apply (per_sub (fun t => sin t * exp (k * cos t) / (2 * PI))); [exact C|intros; rewrite cos_2pi, sin_2pi; auto|].
  destruct (ci_ex _ C) as [v Hv]. replace 0 with v; auto. apply (ci_odd (fun t => sin t * exp (k * cos t) / (2 * PI))); auto.
  intros t. rewrite sin_neg, cos_neg. field. lra.
Qed.
Lemma vd_cos_other m : circle_int (fun x => vm_density a loc k x * cos (x - m)) (b / a * cos (loc - m)).
Proof.
  replace (b / a * cos (loc - m)) with (cos (loc - m) * (b / a) + - sin (loc - m) * 0) by ring.
  apply (ci_ext (fun x => cos (loc - m) * (vm_density a loc k x * cos (x - loc)) + - sin (loc - m) * (vm_density a loc k x * sin (x - loc)))).
  - intros x. replace (x - m) with ((x - loc) + (loc - m)) by ring. rewrite cos_plus. ring.
  - apply ci_plus; [apply (ci_scal _ (fun x => vm_density a loc k x * cos (x - loc))), vd_cos|apply (ci_scal _ (fun x => vm_density a loc k x * sin (x - loc))), vd_sin].
Qed.
End Dens.

(** ** Rounding to the nearest integer *)
Lemma Int_part_bound x : IZR (Int_part x) <= x < IZR (Int_part x) + 1.
Proof. pose proof (base_Int_part x). lra. Qed.
Lemma rround_spec x : exists n, rround x = IZR n /\ - (1 / 2) <= x - IZR n <= 1 / 2.
Proof.
  unfold rround. pose proof (Int_part_bound x). destruct (Rlt_dec _ _); [exists (Int_part x); split; [auto|lra]|].
  destruct (Rlt_dec _ _); [exists (Int_part x + 1)%Z; split; [auto|rewrite plus_IZR; lra]|].
  destruct (Z.even _); [exists (Int_part x)|exists (Int_part x + 1)%Z]; rewrite ?plus_IZR; split; auto; lra.
Qed.
Lemma rround_unique x n : - (1 / 2) < x - IZR n < 1 / 2 -> rround x = IZR n.
Proof.
  intros H. destruct (rround_spec x) as (m & E & B). rewrite E. f_equal.
  assert (- 1 < IZR (m - n) < 1) as [H1 H2] by (rewrite minus_IZR; lra). apply lt_IZR in H1, H2. lia.
Qed.
Lemma rround_half n : rround (IZR n + 1 / 2) = IZR (if Z.even n then n else n + 1).
Proof.
  unfold rround. assert (E : Int_part (IZR n + 1 / 2) = n).
  { pose proof (Int_part_bound (IZR n + 1 / 2)) as [H1 H2]. assert (IZR (Int_part (IZR n + 1 / 2)) < IZR (n + 1)) as L1 by (rewrite plus_IZR; lra).
    assert (IZR n < IZR (Int_part (IZR n + 1 / 2) + 1)) as L2 by (rewrite plus_IZR; lra). apply lt_IZR in L1, L2. lia. }
  rewrite E. destruct (Rlt_dec _ _); [lra|]. destruct (Rlt_dec _ _); [lra|]. destruct (Z.even n); auto.
Qed.
(** every real is a half-integer or has a strictly nearest integer *)
Lemma rround_cases x : (exists n, x = IZR n + 1 / 2) \/ (exists n, - (1 / 2) < x - IZR n < 1 / 2).
Proof.
  destruct (rround_spec x) as (n & _ & B). destruct (Req_dec (x - IZR n) (1 / 2)) as [E|E]; [left; exists n; lra|].
  destruct (Req_dec (x - IZR n) (- (1 / 2))) as [E2|E2]; [left; exists (n - 1)%Z; rewrite minus_IZR; lra|]. right. exists n. lra.
Qed.
Lemma rround_shift2 x n : rround (x + IZR (2 * n)) = rround x + IZR (2 * n).
Proof.
  destruct (rround_cases x) as [[m ->]|[m H]].
  - replace (IZR m + 1 / 2 + IZR (2 * n)) with (IZR (m + 2 * n) + 1 / 2) by (rewrite plus_IZR; lra). rewrite !rround_half.
    rewrite Z.even_add_mul_2. destruct (Z.even m); rewrite !plus_IZR; ring.
  - rewrite (rround_unique x m), (rround_unique _ (m + 2 * n)) by (rewrite ?plus_IZR; lra). rewrite plus_IZR. ring.
Qed.
Lemma rround_opp x : rround (- x) = - rround x.
Proof.
  destruct (rround_cases x) as [[m ->]|[m H]].
  - replace (- (IZR m + 1 / 2)) with (IZR (- m - 1) + 1 / 2) by (rewrite minus_IZR, opp_IZR; lra). rewrite !rround_half.
    replace (Z.even (- m - 1)) with (negb (Z.even m)) by (rewrite Z.even_sub, Z.even_opp; destruct (Z.even m); reflexivity).
    destruct (Z.even m); cbn [negb]; rewrite <- opp_IZR; f_equal; lia.
  - rewrite (rround_unique x m), (rround_unique _ (- m)) by (rewrite ?opp_IZR; lra). rewrite opp_IZR. ring.
Qed.
Lemma rround_mono x y : x <= y -> rround x <= rround y.
Proof.
  intros H. destruct (rround_spec x) as (n & En & Bn). destruct (rround_spec y) as (m & Em & Bm). rewrite En, Em. apply IZR_le.
  destruct (Z_le_gt_dec n m) as [|G]; auto. exfalso. assert (IZR m + 1 <= IZR n) by (rewrite <- plus_IZR; apply IZR_le; lia).
  assert (x = y) by lra. subst y. rewrite En in Em. lra.
Qed.

(** ** Angles *)
Lemma convert_fin x : convert_angle_to_standard (Fin x) = Fin (x - 2 * PI * rround (x / (2 * PI))).
Proof.
  pose proof two_pi_pos. unfold convert_angle_to_standard, two_pi. rewrite xdiv_fin by lra. cbn. reflexivity.
Qed.
Lemma cos_congruent x n : cos (x + 2 * PI * IZR n) = cos x.
Proof.
  assert (N : forall y m, cos (y + 2 * PI * INR m) = cos y). { intros y m. replace (y + 2 * PI * INR m) with (y + 2 * INR m * PI) by ring. apply cos_period. }
  destruct (Z_le_gt_dec 0 n) as [H|H].
  - rewrite <- (Z2Nat.id n) by lia. rewrite <- INR_IZR_INZ. apply N.
  - rewrite <- (N _ (Z.to_nat (- n))). f_equal. rewrite INR_IZR_INZ, Z2Nat.id, opp_IZR by lia. ring.
Qed.
Lemma cos_one x : cos x = 1 -> exists n, x = 2 * PI * IZR n.
Proof.
  intros H. assert (S : sin (x / 2) = 0).
  { replace x with (2 * (x / 2)) in H by field. rewrite cos_2a_sin in H. assert (sin (x / 2) * sin (x / 2) = 0) by lra. apply Rmult_integral in H0. tauto. }
  apply sin_eq_0_0 in S. destruct S as [n E]. exists n. lra.
Qed.
