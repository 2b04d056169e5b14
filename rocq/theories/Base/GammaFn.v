(** Infrastructure: Euler's gamma and beta integrals. *)
From Coq Require Import Reals Lra Lia.
From Coquelicot Require Import Coquelicot.
From Verif Require Import Base.Improper Base.Mellin.
Local Open Scope R_scope.

(** ** Limits *)
Lemma lim0_squeeze (F : (R -> Prop) -> Prop) {FF : Filter F} (f g : R -> R) K : 0 < K ->
  F (fun x => 0 <= f x <= K * g x) -> filterlim g F (locally 0) -> filterlim f F (locally 0).
Proof.
  intros HK Hle Hg. apply filterlim_locally. intros eps.
  assert (He : 0 < eps / K) by (apply Rdiv_lt_0_compat; [apply eps|auto]).
  pose proof (proj1 (filterlim_locally g 0) Hg (mkposreal _ He)) as H. 
  apply (filter_imp (fun x => (0 <= f x <= K * g x) /\ ball 0 (eps / K) (g x))); [|apply filter_and; auto].
  intros x [H1 H2]. apply (proj1 (ball_abs _ _ _)) in H2. apply ball_abs.
  assert (K * g x < eps).
  { apply Rlt_le_trans with (K * (eps / K)); [|right; field; lra]. apply Rmult_lt_compat_l; auto. apply Rabs_def2 in H2; lra. }
  rewrite Rabs_right; lra.
Qed.
Lemma Rpower_lim0 a : 0 < a -> filterlim (fun x => Rpower x a) (at_right 0) (locally 0).
Proof.
  intros Ha. apply filterlim_locally. intros eps. apply lo_iff. exists (Rpower eps (/ a)). split; [apply Rpower_pos|].
  intros x Hx. apply ball_abs. rewrite Rminus_0_r, Rabs_right by (apply Rle_ge, Rlt_le, Rpower_pos).
  assert (E : pos eps = Rpower (Rpower eps (/ a)) a). { rewrite Rpower_mult, Rinv_l, Rpower_1 by (try apply eps; lra). auto. }
  rewrite E. unfold Rpower at 1 2. apply exp_increasing, Rmult_lt_compat_l; auto. apply ln_increasing; lra.
Qed.
Lemma Rpower_lim_inf a : 0 < a -> filterlim (fun x => Rpower x (- a)) (upto p_infty) (locally 0).
Proof.
  intros Ha. apply filterlim_locally. intros eps. exists (Rpower eps (- / a)). intros x Hx.
  pose proof (Rpower_pos eps (- / a)). apply ball_abs. rewrite Rminus_0_r, Rabs_right by (apply Rle_ge, Rlt_le, Rpower_pos).
  assert (E : pos eps = Rpower (Rpower eps (- / a)) (- a)). { rewrite Rpower_mult. replace (- / a * - a) with 1 by (field; lra). rewrite Rpower_1; auto. apply eps. }
  rewrite E. unfold Rpower at 1 2. apply exp_increasing. 
  assert (ln (Rpower eps (- / a)) < ln x) by (apply ln_increasing; lra).
  assert (a * ln (Rpower eps (- / a)) < a * ln x) by (apply Rmult_lt_compat_l; auto). lra.
Qed.
Lemma lim_cont (f : R -> R) a (F : (R -> Prop) -> Prop) : filter_le F (locally a) -> continuous f a -> filterlim f F (locally (f a)).
Proof. intros H C. intros P HP. apply H, C, HP. Qed.
Lemma at_right_le (a : R) : filter_le (at_right a) (locally a).
Proof. intros P H. unfold at_right, within. apply filter_imp with (2 := H). auto. Qed.
Lemma at_left_le (a : R) : filter_le (at_left a) (locally a).
Proof. intros P H. unfold at_left, within. apply filter_imp with (2 := H). auto. Qed.
(** x^a e^-x is bounded by its value at x = a *)
Lemma pow_exp_bound a x : 0 < a -> 0 < x -> Rpower x a * exp (- x) <= Rpower a a * exp (- a).
Proof.
  intros Ha Hx. unfold Rpower. rewrite <- !exp_plus.
  assert (a * ln x + - x <= a * ln a + - a).
  { assert (E : 1 + ln (x / a) <= x / a). { pose proof (exp_ge (ln (x / a))) as E. rewrite exp_ln in E; auto. apply Rdiv_lt_0_compat; auto. }
    rewrite ln_div in E by auto. apply (Rmult_le_compat_l a) in E; [|lra].
    replace (a * (x / a)) with x in E by (field; lra). lra. }
  destruct H as [H|H]; [left; apply exp_increasing; auto|right; f_equal; auto].
Qed.
Lemma pow_exp_lim a : filterlim (fun x => Rpower x a * exp (- x)) (upto p_infty) (locally 0).
Proof.
  set (c := Rmax (a + 1) 1). assert (Hc : 1 <= c) by apply Rmax_r. pose proof (Rmax_l (a + 1) 1) as Hc'. fold c in Hc'.
  apply (lim0_squeeze (upto p_infty) _ (fun x => Rpower x (- (1))) (Rpower c c * exp (- c))).
  - apply Rmult_lt_0_compat; apply exp_pos.
  - exists 1. intros x Hx. split; [apply Rlt_le, Rmult_lt_0_compat; apply exp_pos|].
    pose proof (pow_exp_bound c x ltac:(lra) ltac:(lra)) as B.
    apply Rle_trans with (Rpower x c * exp (- x) * Rpower x (-(1))); [|apply Rmult_le_compat_r; auto; apply Rlt_le, Rpower_pos].
    replace (Rpower x c * exp (- x) * Rpower x (-(1))) with (Rpower x (c - 1) * exp (- x)).
    2:{ unfold Rminus. rewrite Rpower_plus. ring. }
    apply Rmult_le_compat_r; [apply Rlt_le, exp_pos|]. apply Rle_Rpower; lra.
  - apply Rpower_lim_inf; lra.
Qed.

(** ** The gamma integral *)
Definition gamw (x : R) : R := exp (- x).
Lemma gamw_cont x : continuous gamw x.
Proof. apply (ex_derive_continuous gamw). unfold gamw. eexists. auto_derive; auto. Qed.
Lemma gam_exists a : 0 < a -> exists v, integral_on 0 p_infty (fun x => Rpower x (a - 1) * gamw x) v.
Proof.
  intros Ha.
  set (K := 1 + 2 * (Rpower a a * exp (- a)) + Rpower (2 * a) (2 * a) * exp (- (2 * a))).
  assert (Cd : forall x, inside 0 p_infty x -> continuous (fun x => Rpower x (a - 1) / (1 + Rpower x a) ^ 2) x).
  { intros x [Hx _]. apply (ex_derive_continuous (fun x => Rpower x (a - 1) / (1 + Rpower x a) ^ 2)).
    unfold Rpower. eexists. auto_derive; [|reflexivity]. pose proof (exp_pos (a * ln x)). repeat split; auto; try lra.
    apply Rgt_not_eq. assert (0 < (1 + exp (a * ln x)) * (1 + exp (a * ln x))) by (apply Rmult_lt_0_compat; lra). lra. }
  apply (integral_on_dominated 0 p_infty I _ (fun x => K * (Rpower x (a - 1) / (1 + Rpower x a) ^ 2)) (K * (- / a * 0 - - / a * 1))).
  - intros x [Hx _]. apply (continuous_mult (fun x => Rpower x (a - 1)) gamw); [apply Rpower_cont; auto|apply gamw_cont].
  - intros x Ix. apply (continuous_scal_r K (fun x => Rpower x (a - 1) / (1 + Rpower x a) ^ 2)), Cd, Ix.
  - intros x [Hx _]. cbn in Hx. pose proof (Rpower_pos x (a - 1)). pose proof (Rpower_pos x a). unfold gamw. pose proof (exp_pos (- x)).
    split; [apply Rmult_le_pos; lra|].
    assert (Hq : 0 < (1 + Rpower x a) ^ 2) by (apply pow_lt; lra).
    assert (B : (1 + Rpower x a) ^ 2 * exp (- x) <= K).
    { unfold K. pose proof (pow_exp_bound a x Ha Hx). pose proof (pow_exp_bound (2 * a) x ltac:(lra) Hx).
      assert (exp (- x) <= 1). { rewrite <- exp_0. left. apply exp_increasing. lra. }
      replace (Rpower x (2 * a)) with (Rpower x a * Rpower x a) in H3 by (rewrite <- Rpower_plus; f_equal; ring). lra. }
    apply (Rmult_le_reg_r ((1 + Rpower x a) ^ 2)); auto.
    replace (K * (Rpower x (a - 1) / (1 + Rpower x a) ^ 2) * (1 + Rpower x a) ^ 2) with (Rpower x (a - 1) * K) by (field; lra).
    rewrite Rmult_assoc. apply Rmult_le_compat_l; [lra|]. lra.
  - apply integral_on_scal; [exact I|]. 
    assert (D : forall x, 0 < x -> is_derive (fun x => - / a * / (1 + Rpower x a)) x (Rpower x (a - 1) / (1 + Rpower x a) ^ 2)).
    { intros x Hx. pose proof (Rpower_pos x a). evar_last.
      - apply (is_derive_scal (fun x => / (1 + Rpower x a)) x (- / a)), (is_derive_inv (fun x => 1 + Rpower x a)); [|lra].
        apply (is_derive_plus (fun _ => 1) (fun x => Rpower x a)); [apply (is_derive_const (K := R_AbsRing) (V := R_NormedModule))|apply Rpower_derive; auto].
      - unfold plus, zero, opp; cbn. field. lra. }
    apply (integral_on_anti 0 p_infty I _ (fun x => - / a * / (1 + Rpower x a))); auto.
    + intros x [Hx _]. apply D; auto.
    + apply (filterlim_comp _ _ _ (fun x => Rpower x a) (fun y => - / a * / (1 + y)) (at_right 0) (locally 0)); [apply Rpower_lim0; auto|].
      replace (- / a * 1) with (- / a * / (1 + 0)) by (field; lra).
      assert (C : continuous (fun y => - / a * / (1 + y)) 0). { apply (ex_derive_continuous (fun y => - / a * / (1 + y))). eexists. auto_derive; [lra|reflexivity]. }
      exact C.
    + apply (filterlim_ext (fun x => - / a * (Rpower x (- a) / (1 + Rpower x (- a))))).
      { intros x. pose proof (Rpower_pos x a). rewrite Rpower_Ropp. field. lra. }
      apply (filterlim_comp _ _ _ (fun x => Rpower x (- a)) (fun y => - / a * (y / (1 + y))) (upto p_infty) (locally 0)); [apply Rpower_lim_inf; auto|].
      replace (- / a * 0) with (- / a * (0 / (1 + 0))) by (field; lra).
      assert (C : continuous (fun y => - / a * (y / (1 + y))) 0). { apply (ex_derive_continuous (fun y => - / a * (y / (1 + y)))). eexists. auto_derive; [lra|reflexivity]. }
      exact C.
Qed.
Definition Gam (a : R) : R := RInt_gen (fun x => Rpower x (a - 1) * gamw x) (at_right 0) (upto p_infty).
#[global] Arguments Gam : simpl never.
Lemma Gam_correct a : 0 < a -> integral_on 0 p_infty (fun x => Rpower x (a - 1) * gamw x) (Gam a).
Proof.
  intros Ha. unfold integral_on, Gam. destruct (gam_exists a Ha) as [v Hv]. 
  rewrite (is_RInt_gen_unique _ v Hv). exact Hv.
Qed.
Lemma gamw_pos x : 0 < gamw x.
Proof. apply exp_pos. Qed.
Lemma gam_recurrence a u v : 0 < a -> integral_on 0 p_infty (fun x => Rpower x (a - 1) * gamw x) u ->
  integral_on 0 p_infty (fun x => Rpower x (a + 1 - 1) * gamw x) v -> v = a * u.
Proof.
  intros Ha Hu Hv.
  assert (C : forall c x, 0 < x -> continuous (fun x => Rpower x c * gamw x) x).
  { intros c x Hx. apply (continuous_mult (fun x => Rpower x c) gamw); [apply Rpower_cont; auto|apply gamw_cont]. }
  assert (H0 : integral_on 0 p_infty (fun x => a * (Rpower x (a - 1) * gamw x) - Rpower x (a + 1 - 1) * gamw x) (0 - 0)).
  { apply (integral_on_anti 0 p_infty I _ (fun x => Rpower x a * gamw x)).
    - intros x [Hx _]. cbn in Hx. apply (continuous_minus (fun x => a * (Rpower x (a - 1) * gamw x)) (fun x => Rpower x (a + 1 - 1) * gamw x)).
      + apply (continuous_scal_r a (fun x => Rpower x (a - 1) * gamw x)), C; auto.
      + apply C; auto.
    - intros x [Hx _]. cbn in Hx. evar_last.
      + apply (is_derive_mult (fun x => Rpower x a) gamw); [apply Rpower_derive; auto| |intros; apply Rmult_comm].
        unfold gamw. auto_derive; auto.
      + unfold plus, mult; cbn. unfold gamw. replace (a + 1 - 1) with a by ring. ring.
    - apply (lim0_squeeze (at_right 0) _ (fun x => Rpower x a) 1); [lra| |apply Rpower_lim0; auto].
      apply lo_iff. exists 1. split; [lra|]. intros x Hx. pose proof (Rpower_pos x a). unfold gamw. pose proof (exp_pos (- x)).
      assert (exp (- x) <= 1). { rewrite <- exp_0. left. apply exp_increasing. lra. }
      split; [apply Rmult_le_pos; lra|]. rewrite Rmult_1_l. rewrite <- (Rmult_1_r (Rpower x a)) at 2. apply Rmult_le_compat_l; lra.
    - apply pow_exp_lim. }
  assert (H1 : integral_on 0 p_infty (fun x => a * (Rpower x (a - 1) * gamw x) - Rpower x (a + 1 - 1) * gamw x) (a * u - v)).
  { apply integral_on_minus; auto; [exact I|]. apply integral_on_scal; auto. exact I. }
  pose proof (integral_on_unique 0 p_infty I _ _ _ H0 H1). lra.
Qed.
Lemma Gam_S a : 0 < a -> Gam (a + 1) = a * Gam a.
Proof. intros Ha. apply (gam_recurrence a); auto; apply Gam_correct; lra. Qed.
Lemma Gam_1 : Gam 1 = 1.
Proof.
  apply (integral_on_unique 0 p_infty I (fun x => Rpower x (1 - 1) * gamw x)); [apply Gam_correct; lra|].
  apply (integral_on_ext 0 p_infty I gamw). { intros x [Hx _]. cbn in Hx. rewrite Rminus_eq_0, Rpower_O by auto. ring. }
  replace 1 with (- 0 - - (1)) by ring. apply (integral_on_anti 0 p_infty I gamw (fun x => - gamw x)).
  - intros; apply gamw_cont.
  - intros x _. unfold gamw. auto_derive; auto. ring.
  - replace (- (1)) with (- gamw 0) by (unfold gamw; rewrite Ropp_0, exp_0; ring).
    apply (lim_cont (fun x => - gamw x) 0); [apply at_right_le|]. apply (continuous_opp gamw), gamw_cont.
  - apply (filterlim_comp _ _ _ gamw Ropp (upto p_infty) (locally 0)); [|apply (filterlim_opp 0)].
    pose proof (pow_exp_lim 0) as H. apply (filterlim_ext_loc (fun x => Rpower x 0 * exp (- x))); auto.
    exists 0. intros x Hx. rewrite Rpower_O by auto. unfold gamw. ring.
Qed.
Lemma Gam_pos a : 0 < a -> 0 < Gam a.
Proof.
  apply (M_pos p_infty gamw Gam I); [intros; apply gamw_pos|intros; apply gamw_cont|intros; apply Gam_correct; auto].
Qed.
Lemma Gam_log_convex : log_convex Gam.
Proof.
  apply (M_log_convex p_infty gamw Gam I); [intros; apply gamw_pos|intros; apply gamw_cont|intros; apply Gam_correct; auto].
Qed.
Lemma Gam_log_moment a : 0 < a -> exists L, integral_on 0 p_infty (fun x => ln x * (Rpower x (a - 1) * gamw x)) L /\ is_derive Gam a L.
Proof.
  apply (log_moment p_infty gamw Gam I); [intros; apply gamw_pos|intros; apply gamw_cont|intros; apply Gam_correct; auto].
Qed.

(** ** Uniqueness (Bohr-Mollerup) *)
Section bohr_mollerup.
Variables f g : R -> R.
Hypothesis (Pf : forall x, 0 < x -> 0 < f x) (Pg : forall x, 0 < x -> 0 < g x).
Hypothesis (Sf : forall x, 0 < x -> f (x + 1) = x * f x) (Sg : forall x, 0 < x -> g (x + 1) = x * g x).
Hypothesis (f1 : f 1 = 1) (g1 : g 1 = 1).
Hypothesis (Cf : log_convex f) (Cg : log_convex g).
Local Notation D x := (ln (f x) - ln (g x)).
Lemma bm_step h : (forall x, 0 < x -> 0 < h x) -> (forall x, 0 < x -> h (x + 1) = x * h x) -> forall x, 0 < x -> ln (h (x + 1)) = ln x + ln (h x).
Proof. intros P S x Hx. rewrite S, ln_mult; auto. Qed.
Lemma bm_shift x n : 0 < x -> D (x + INR n) = D x.
Proof.
  intros Hx. induction n as [|n IH]; [cbn; rewrite Rplus_0_r; auto|].
  rewrite S_INR, <- Rplus_assoc. pose proof (pos_INR n). rewrite !bm_step by (auto; lra). lra.
Qed.
Lemma bm_bounds h : (forall x, 0 < x -> 0 < h x) -> (forall x, 0 < x -> h (x + 1) = x * h x) -> log_convex h ->
  forall x n, 0 < x <= 1 -> ln (h (INR n + 2)) + x * ln (INR n + 1) <= ln (h (INR n + 2 + x)) <= ln (h (INR n + 2)) + x * ln (INR n + 2).
Proof.
  intros P S C x n Hx. pose proof (pos_INR n) as Hn. set (N := INR n + 2).
  pose proof (bm_step h P S N ltac:(unfold N; lra)) as S1. pose proof (bm_step h P S (INR n + 1) ltac:(lra)) as S2.
  replace (INR n + 1 + 1) with N in S2 by (unfold N; ring).
  split.
  - set (t := x / (1 + x)). assert (Ht : 0 <= t <= 1).
    { unfold t. split; [apply Rlt_le, Rdiv_lt_0_compat; lra|]. apply (Rmult_le_reg_r (1 + x)); [lra|]. unfold Rdiv. rewrite Rmult_assoc, Rinv_l; lra. }
    pose proof (C (INR n + 1) (N + x) t ltac:(lra) ltac:(unfold N; lra) Ht) as K.
    replace (t * (INR n + 1) + (1 - t) * (N + x)) with N in K by (unfold t, N; field; lra).
    assert (E : (1 + x) * (t * ln (h (INR n + 1)) + (1 - t) * ln (h (N + x))) = x * ln (h (INR n + 1)) + ln (h (N + x))) by (unfold t; field; lra).
    apply (Rmult_le_compat_l (1 + x)) in K; [|lra]. rewrite E in K. rewrite S2 in *. lra.
  - pose proof (C (N + 1) N x ltac:(unfold N; lra) ltac:(unfold N; lra) ltac:(lra)) as K.
    replace (x * (N + 1) + (1 - x) * N) with (N + x) in K by ring. rewrite S1 in K. lra.
Qed.
Lemma bm_int n : D (INR n + 1) = 0.
Proof.
  rewrite Rplus_comm, bm_shift by lra. rewrite f1, g1. ring.
Qed.
Lemma bm_unit x : 0 < x <= 1 -> D x = 0.
Proof.
  intros Hx. assert (B : forall n, Rabs (D x) <= / (INR n + 1)).
  { intros n. pose proof (bm_bounds f Pf Sf Cf x n Hx) as Bf. pose proof (bm_bounds g Pg Sg Cg x n Hx) as Bg.
    pose proof (bm_int (S n)) as E. rewrite S_INR in E. replace (INR n + 1 + 1) with (INR n + 2) in E by ring.
    pose proof (bm_shift x (S (S n)) ltac:(lra)) as Q. rewrite !S_INR in Q. replace (x + (INR n + 1 + 1)) with (INR n + 2 + x) in Q by ring.
    pose proof (pos_INR n) as Hn.
    assert (L : ln (INR n + 2) - ln (INR n + 1) <= / (INR n + 1)).
    { rewrite <- ln_div by lra. pose proof (exp_ge (ln ((INR n + 2) / (INR n + 1)))) as K. rewrite exp_ln in K by (apply Rdiv_lt_0_compat; lra).
      replace ((INR n + 2) / (INR n + 1)) with (1 + / (INR n + 1)) in K at 2 by (field; lra). lra. }
    assert (L0 : ln (INR n + 1) < ln (INR n + 2)) by (apply ln_increasing; lra).
    assert (x * (ln (INR n + 2) - ln (INR n + 1)) <= 1 * (ln (INR n + 2) - ln (INR n + 1))) by (apply Rmult_le_compat_r; lra).
    unfold Rabs; destruct (Rcase_abs _); lra. }
  destruct (Req_dec (D x) 0) as [E|E]; auto. exfalso.
  assert (P : 0 < Rabs (D x)) by (apply Rabs_pos_lt; auto).
  destruct (archimed_cor1 _ P) as (n & Hn & Hn0). specialize (B n).
  assert (0 < INR n) by (apply lt_0_INR; auto).
  assert (/ (INR n + 1) < / INR n) by (apply Rinv_lt_contravar; [apply Rmult_lt_0_compat; lra|lra]). lra.
Qed.
Theorem bohr_mollerup x : 0 < x -> f x = g x.
Proof.
  intros Hx. assert (H : forall n y, 0 < y <= INR n -> D y = 0).
  { induction n as [|n IH]; intros y Hy; [cbn in Hy; lra|]. destruct (Rle_dec y 1); [apply bm_unit; lra|].
    rewrite S_INR in Hy. pose proof (bm_shift (y - 1) 1 ltac:(lra)) as E. cbn [INR] in E. replace (y - 1 + 1) with y in E by ring.
    rewrite E. apply IH. lra. }
  destruct (nfloor_ex x ltac:(lra)) as [n Hn]. specialize (H (S n) x). rewrite S_INR in H. specialize (H ltac:(lra)).
  apply ln_inv; auto. lra.
Qed.
End bohr_mollerup.

(** ** The beta integral *)
Definition betw (b x : R) : R := Rpower (1 - x) (b - 1).
Lemma betw_pos b x : 0 < betw b x.
Proof. apply Rpower_pos. Qed.
Lemma Rpower1_derive x y : x < 1 -> is_derive (fun x => Rpower (1 - x) y) x (- (y * Rpower (1 - x) (y - 1))).
Proof.
  intros Hx. evar_last.
  - apply (is_derive_comp (fun z => Rpower z y) (fun x => 1 - x)); [apply Rpower_derive; lra|]. auto_derive; auto.
  - unfold scal; cbn. unfold mult; cbn. ring.
Qed.
Lemma Rpower1_cont x y : x < 1 -> continuous (fun x => Rpower (1 - x) y) x.
Proof. intros Hx. apply (ex_derive_continuous (fun x => Rpower (1 - x) y)). eexists. apply Rpower1_derive, Hx. Qed.
Lemma betw_cont b x : inside 0 1 x -> continuous (betw b) x.
Proof. intros [_ H]. apply Rpower1_cont, H. Qed.
Lemma lt01 : Rbar_lt 0 1.
Proof. cbn; lra. Qed.
Lemma refl_lim : filterlim (fun x => 1 - x) (at_left 1) (at_right 0).
Proof.
  intros P H. apply lo_iff in H. destruct H as (c & Hc & H). apply (hi_iff 0 1 _ lt01).
  exists (Rmax (1 - c) (1 / 2)). pose proof (Rmax_l (1 - c) (1 / 2)). pose proof (Rmax_r (1 - c) (1 / 2)).
  assert (Rmax (1 - c) (1 / 2) < 1) by (apply Rmax_lub_lt; lra). split; [lra|]. split; [cbn; lra|]. intros x Hx Hx1. cbn in Hx1. apply H. lra.
Qed.
Lemma refl_lim' : filterlim (fun x => 1 - x) (at_right 0) (at_left 1).
Proof.
  intros P H. apply (hi_iff 0 1 _ lt01) in H. destruct H as (c & Hc & Hc1 & H). cbn in Hc1. apply lo_iff.
  exists (1 - c). split; [lra|]. intros x Hx. apply H; cbn; lra.
Qed.
Lemma Rpower1_lim1 a : 0 < a -> filterlim (fun x => Rpower (1 - x) a) (at_left 1) (locally 0).
Proof.
  intros Ha. apply (filterlim_comp _ _ _ (fun x => 1 - x) (fun y => Rpower y a) (at_left 1) (at_right 0)); [apply refl_lim|apply Rpower_lim0; auto].
Qed.
Lemma Rpower_1_l y : Rpower 1 y = 1.
Proof. unfold Rpower. rewrite ln_1, Rmult_0_r. apply exp_0. Qed.
Lemma pow_integral a : 0 < a -> integral_on 0 1 (fun x => Rpower x (a - 1)) (/ a).
Proof.
  intros Ha. replace (/ a) with (/ a * Rpower 1 a - / a * 0) by (rewrite Rpower_1_l; ring).
  apply (integral_on_anti 0 1 lt01 _ (fun x => / a * Rpower x a)).
  - intros x [Hx _]. apply Rpower_cont, Hx.
  - intros x [Hx _]. evar_last; [apply (is_derive_scal (fun x => Rpower x a) x (/ a)), Rpower_derive; exact Hx|]. cbn. field. lra.
  - apply (filterlim_comp _ _ _ (fun x => Rpower x a) (fun y => / a * y) (at_right 0) (locally 0)); [apply Rpower_lim0; auto|].
    apply (filterlim_scal_r (/ a) 0).
  - apply (lim_cont (fun x => / a * Rpower x a) 1); [apply at_left_le|]. apply (continuous_scal_r (/ a) (fun x => Rpower x a)), Rpower_cont. lra.
Qed.
Lemma pow1_integral a : 0 < a -> integral_on 0 1 (fun x => Rpower (1 - x) (a - 1)) (/ a).
Proof.
  intros Ha. apply (integral_on_ext 0 1 lt01 (fun x => 1 * Rpower (1 - x) (a - 1))); [intros; ring|].
  apply (integral_on_subst_anti 0 1 0 1 (fun x => 1 - x) (fun _ => 1) (fun y => Rpower y (a - 1))); try lra.
  - intros x [H1 H2]. cbn in H2. split; cbn; lra.
  - intros x _. auto_derive; auto.
  - intros; apply continuous_const.
  - apply refl_lim'.
  - apply refl_lim.
  - intros x [Hx _]. apply Rpower_cont, Hx.
  - apply pow_integral; auto.
Qed.
Lemma half_bound y : exists K, 0 < K /\ forall x, 1 / 2 <= x <= 1 -> Rpower x y <= K.
Proof.
  exists (Rmax 1 (Rpower (1 / 2) y)). split; [eapply Rlt_le_trans; [|apply Rmax_l]; lra|].
  intros x Hx. assert (L : ln (1 / 2) <= ln x <= 0).
  { split; [apply ln_le; lra|]. rewrite <- ln_1. apply ln_le; lra. }
  destruct (Rle_dec 0 y).
  - eapply Rle_trans; [|apply Rmax_l]. rewrite <- exp_0. unfold Rpower.
    assert (y * ln x <= 0). { assert (0 <= y * - ln x) by (apply Rmult_le_pos; lra). lra. }
    destruct H as [H|H]; [left; apply exp_increasing; auto|right; rewrite H; auto].
  - eapply Rle_trans; [|apply Rmax_r]. unfold Rpower.
    assert (y * ln x <= y * ln (1 / 2)). { assert (- y * ln (1 / 2) <= - y * ln x) by (apply Rmult_le_compat_l; lra). lra. }
    destruct H as [H|H]; [left; apply exp_increasing; auto|right; rewrite H; auto].
Qed.
Lemma bet_exists a b : 0 < a -> 0 < b -> exists v, integral_on 0 1 (fun x => Rpower x (a - 1) * betw b x) v.
Proof.
  intros Ha Hb. destruct (half_bound (b - 1)) as (K1 & P1 & B1). destruct (half_bound (a - 1)) as (K2 & P2 & B2).
  apply (integral_on_dominated 0 1 lt01 _ (fun x => K1 * Rpower x (a - 1) + K2 * Rpower (1 - x) (b - 1)) (K1 * / a + K2 * / b)).
  - intros x Ix. apply (continuous_mult (fun x => Rpower x (a - 1)) (betw b)); [apply Rpower_cont, Ix|apply betw_cont, Ix].
  - intros x [H1 H2]. apply (continuous_plus (fun x => K1 * Rpower x (a - 1)) (fun x => K2 * Rpower (1 - x) (b - 1))).
    + apply (continuous_scal_r K1 (fun x => Rpower x (a - 1))), Rpower_cont, H1.
    + apply (continuous_scal_r K2 (fun x => Rpower (1 - x) (b - 1))), Rpower1_cont, H2.
  - intros x [H1 H2]. cbn in H2. unfold betw. pose proof (Rpower_pos x (a - 1)). pose proof (Rpower_pos (1 - x) (b - 1)).
    split; [apply Rmult_le_pos; lra|]. destruct (Rle_dec x (1 / 2)).
    + assert (0 <= K2 * Rpower (1 - x) (b - 1)) by (apply Rmult_le_pos; lra).
      assert (Rpower (1 - x) (b - 1) * Rpower x (a - 1) <= K1 * Rpower x (a - 1)) by (apply Rmult_le_compat_r; [lra|apply B1; lra]). lra.
    + assert (0 <= K1 * Rpower x (a - 1)) by (apply Rmult_le_pos; lra).
      assert (Rpower x (a - 1) * Rpower (1 - x) (b - 1) <= K2 * Rpower (1 - x) (b - 1)) by (apply Rmult_le_compat_r; [lra|apply B2; lra]). lra.
  - apply integral_on_plus; [exact lt01| |]; (apply integral_on_scal; [exact lt01|]); [apply pow_integral|apply pow1_integral]; auto.
Qed.
Definition Bet (b a : R) : R := RInt_gen (fun x => Rpower x (a - 1) * betw b x) (at_right 0) (upto 1).
Lemma Bet_correct a b : 0 < a -> 0 < b -> integral_on 0 1 (fun x => Rpower x (a - 1) * betw b x) (Bet b a).
Proof.
  intros Ha Hb. unfold integral_on, Bet. destruct (bet_exists a b Ha Hb) as [v Hv].
  rewrite (is_RInt_gen_unique _ v Hv). exact Hv.
Qed.
Lemma Bet_S a b : 0 < a -> 0 < b -> (a + b) * Bet b (a + 1) = a * Bet b a.
Proof.
  intros Ha Hb.
  set (f := fun x => a * (Rpower x (a - 1) * betw b x) - (a + b) * (Rpower x (a + 1 - 1) * betw b x)).
  assert (H1 : integral_on 0 1 f (a * Bet b a - (a + b) * Bet b (a + 1))).
  { apply integral_on_minus; try exact lt01; (apply integral_on_scal; [exact lt01|]); apply Bet_correct; lra. }
  assert (H0 : integral_on 0 1 f (0 - 0)).
  { apply (integral_on_anti 0 1 lt01 f (fun x => Rpower x a * Rpower (1 - x) b)).
    - intros x Ix. apply (continuous_minus (fun x => a * (Rpower x (a - 1) * betw b x)) (fun x => (a + b) * (Rpower x (a + 1 - 1) * betw b x))).
      + apply (continuous_scal_r a (fun x => Rpower x (a - 1) * betw b x)), (continuous_mult (fun x => Rpower x (a - 1)) (betw b)); [apply Rpower_cont, Ix|apply betw_cont, Ix].
      + apply (continuous_scal_r (a + b) (fun x => Rpower x (a + 1 - 1) * betw b x)), (continuous_mult (fun x => Rpower x (a + 1 - 1)) (betw b)); [apply Rpower_cont, Ix|apply betw_cont, Ix].
    - intros x [Hx Hx1]. cbn in Hx1. evar_last.
      + apply (is_derive_mult (fun x => Rpower x a) (fun x => Rpower (1 - x) b)); [apply Rpower_derive; auto|apply Rpower1_derive; auto|intros; apply Rmult_comm].
      + unfold f, plus, mult; cbn. unfold betw. replace (a + 1 - 1) with a by ring.
        replace (Rpower x a) with (x * Rpower x (a - 1)). 2:{ rewrite <- (Rpower_1 x) at 1 by auto. rewrite <- Rpower_plus. f_equal; ring. }
        replace (Rpower (1 - x) b) with ((1 - x) * Rpower (1 - x) (b - 1)). 2:{ rewrite <- (Rpower_1 (1 - x)) at 1 by lra. rewrite <- Rpower_plus. f_equal; ring. }
        ring.
    - replace 0 with (0 * Rpower (1 - 0) b) at 2 by ring.
      apply (filterlim_comp_2 (G := locally 0) (H := locally (Rpower (1 - 0) b))); [apply Rpower_lim0; auto| |apply (filterlim_mult 0 (Rpower (1 - 0) b))].
      apply (lim_cont (fun x => Rpower (1 - x) b) 0); [apply at_right_le|]. apply Rpower1_cont; lra.
    - replace 0 with (Rpower 1 a * 0) at 1 by ring.
      apply (filterlim_comp_2 (G := locally (Rpower 1 a)) (H := locally 0)); [|apply Rpower1_lim1; auto|apply (filterlim_mult (Rpower 1 a) 0)].
      apply (lim_cont (fun x => Rpower x a) 1); [apply at_left_le|]. apply Rpower_cont; lra. }
  pose proof (integral_on_unique 0 1 lt01 _ _ _ H0 H1). lra.
Qed.
Lemma Bet_1 b : 0 < b -> Bet b 1 = / b.
Proof.
  intros Hb. apply (integral_on_unique 0 1 lt01 (fun x => Rpower x (1 - 1) * betw b x)); [apply Bet_correct; lra|].
  apply (integral_on_ext 0 1 lt01 (fun x => Rpower (1 - x) (b - 1))); [|apply pow1_integral; auto].
  intros x [Hx _]. rewrite Rminus_eq_0, Rpower_O by auto. unfold betw. ring.
Qed.
Lemma Bet_pos b a : 0 < a -> 0 < b -> 0 < Bet b a.
Proof.
  intros Ha Hb. apply (M_pos 1 (betw b) (Bet b) lt01); auto; [intros; apply betw_pos|apply betw_cont|intros; apply Bet_correct; auto].
Qed.
Lemma Bet_log_convex b : 0 < b -> log_convex (Bet b).
Proof.
  intros Hb. apply (M_log_convex 1 (betw b) (Bet b) lt01); [intros; apply betw_pos|apply betw_cont|intros; apply Bet_correct; auto].
Qed.
Lemma Bet_log_moment b a : 0 < a -> 0 < b -> exists L, integral_on 0 1 (fun x => ln x * (Rpower x (a - 1) * betw b x)) L /\ is_derive (Bet b) a L.
Proof.
  intros Ha Hb. apply (log_moment 1 (betw b) (Bet b) lt01); auto; [intros; apply betw_pos|apply betw_cont|intros; apply Bet_correct; auto].
Qed.
Theorem Bet_Gam a b : 0 < a -> 0 < b -> Bet b a = Gam a * Gam b / Gam (a + b).
Proof.
  intros Ha Hb. pose proof (Gam_pos b Hb) as Pb.
  assert (P : forall x, 0 < x -> 0 < Bet b x * (Gam (x + b) / Gam b)).
  { intros x Hx. apply Rmult_lt_0_compat; [apply Bet_pos; auto|]. apply Rdiv_lt_0_compat; auto. apply Gam_pos; lra. }
  assert (E : Bet b a * (Gam (a + b) / Gam b) = Gam a).
  { apply (bohr_mollerup (fun x => Bet b x * (Gam (x + b) / Gam b)) Gam); auto.
    - apply Gam_pos.
    - intros x Hx. replace (x + 1 + b) with (x + b + 1) by ring. rewrite (Gam_S (x + b)) by lra.
      pose proof (Bet_S x b Hx Hb) as S.
      replace (Bet b (x + 1) * ((x + b) * Gam (x + b) / Gam b)) with ((x + b) * Bet b (x + 1) * (Gam (x + b) / Gam b)) by (unfold Rdiv; ring).
      rewrite S. ring.
    - intros x Hx. apply Gam_S; auto.
    - cbv beta. rewrite Bet_1 by auto. rewrite Rplus_comm, Gam_S by auto. field. lra.
    - apply Gam_1.
    - intros x y t Hx Hy Ht.
      assert (Hz : 0 < t * x + (1 - t) * y).
      { destruct (Req_dec t 0) as [-> |]; [lra|]. assert (0 < t * x) by (apply Rmult_lt_0_compat; lra). assert (0 <= (1 - t) * y) by (apply Rmult_le_pos; lra). lra. }
      pose proof (Bet_log_convex b Hb x y t Hx Hy Ht) as C1.
      pose proof (Gam_log_convex (x + b) (y + b) t ltac:(lra) ltac:(lra) Ht) as C2.
      replace (t * (x + b) + (1 - t) * (y + b)) with (t * x + (1 - t) * y + b) in C2 by ring.
      assert (LE : forall z, 0 < z -> ln (Bet b z * (Gam (z + b) / Gam b)) = ln (Bet b z) + ln (Gam (z + b)) - ln (Gam b)).
      { intros z Hz0. pose proof (Gam_pos (z + b) ltac:(lra)) as G1. pose proof (Bet_pos b z Hz0 Hb) as G2.
        rewrite ln_mult; [|exact G2|apply Rdiv_lt_0_compat; auto]. rewrite ln_div by auto. ring. }
      rewrite !LE by auto. lra.
    - apply Gam_log_convex. }
  rewrite <- E. pose proof (Gam_pos (a + b) ltac:(lra)). field. lra.
Qed.

(** ** Digamma and logarithmic moments *)
Definition psi (a : R) : R := Derive (fun x => ln (Gam x)) a.
#[global] Arguments psi : simpl never.
Lemma lnGam_derive a L : 0 < a -> is_derive Gam a L -> is_derive (fun x => ln (Gam x)) a (L / Gam a).
Proof.
  intros Ha H. pose proof (Gam_pos a Ha) as P. evar_last.
  - apply (is_derive_comp ln Gam a (/ Gam a) L); auto. apply is_derive_Reals, derivable_pt_lim_ln; auto.
  - unfold scal; cbn. unfold mult; cbn. unfold Rdiv. ring.
Qed.
Lemma psi_derive a : 0 < a -> is_derive (fun x => ln (Gam x)) a (psi a).
Proof.
  intros Ha. destruct (Gam_log_moment a Ha) as (L & _ & HL). apply Derive_correct. eexists. apply (lnGam_derive a L); auto.
Qed.
Lemma gam_log_integral a : 0 < a -> integral_on 0 p_infty (fun x => ln x * (Rpower x (a - 1) * gamw x)) (psi a * Gam a).
Proof.
  intros Ha. destruct (Gam_log_moment a Ha) as (L & HI & HL). pose proof (lnGam_derive a L Ha HL) as H.
  assert (E : psi a = L / Gam a) by exact (is_derive_unique _ _ _ H). rewrite E. pose proof (Gam_pos a Ha). replace (L / Gam a * Gam a) with L by (field; lra). auto.
Qed.
Definition Beta_fn (a b : R) : R := Gam a * Gam b / Gam (a + b).
Lemma Beta_fn_pos a b : 0 < a -> 0 < b -> 0 < Beta_fn a b.
Proof. intros Ha Hb. apply Rdiv_lt_0_compat; [apply Rmult_lt_0_compat|]; apply Gam_pos; lra. Qed.
Lemma Beta_fn_sym a b : Beta_fn a b = Beta_fn b a.
Proof. unfold Beta_fn. rewrite (Rplus_comm a b). f_equal. ring. Qed.
Lemma bet_integral a b : 0 < a -> 0 < b -> integral_on 0 1 (fun x => Rpower x (a - 1) * betw b x) (Beta_fn a b).
Proof. intros Ha Hb. unfold Beta_fn. rewrite <- Bet_Gam by auto. apply Bet_correct; auto. Qed.
Lemma bet_log_integral a b : 0 < a -> 0 < b ->
  integral_on 0 1 (fun x => ln x * (Rpower x (a - 1) * betw b x)) ((psi a - psi (a + b)) * Beta_fn a b).
Proof.
  intros Ha Hb. destruct (Bet_log_moment b a Ha Hb) as (L & HI & HL).
  assert (E : L = (psi a - psi (a + b)) * Beta_fn a b); [|rewrite <- E; auto].
  assert (D : is_derive (Bet b) a ((psi a - psi (a + b)) * Beta_fn a b)).
  { apply (is_derive_ext_loc (fun x => exp (ln (Gam x) + ln (Gam b) - ln (Gam (x + b))))).
    { exists (mkposreal a Ha). intros x Hx. apply (proj1 (ball_abs _ _ _)) in Hx. cbn in Hx. apply Rabs_def2 in Hx.
      pose proof (Gam_pos x ltac:(lra)). pose proof (Gam_pos b Hb). pose proof (Gam_pos (x + b) ltac:(lra)).
      rewrite Bet_Gam by lra. unfold Rminus. rewrite !exp_plus, exp_Ropp, !exp_ln by auto. reflexivity. }
    assert (Eb : Beta_fn a b = exp (ln (Gam a) + ln (Gam b) - ln (Gam (a + b)))).
    { pose proof (Gam_pos a Ha). pose proof (Gam_pos b Hb). pose proof (Gam_pos (a + b) ltac:(lra)).
      unfold Beta_fn, Rminus. rewrite !exp_plus, exp_Ropp, !exp_ln by auto. reflexivity. }
    evar_last.
    - apply (is_derive_comp exp (fun x => ln (Gam x) + ln (Gam b) - ln (Gam (x + b)))); [apply is_derive_exp|].
      apply (is_derive_minus (fun x => ln (Gam x) + ln (Gam b)) (fun x => ln (Gam (x + b)))).
      + apply (is_derive_plus (fun x => ln (Gam x)) (fun _ => ln (Gam b))); [apply psi_derive; auto|apply (is_derive_const (K := R_AbsRing) (V := R_NormedModule))].
      + apply (is_derive_comp (fun y => ln (Gam y)) (fun x => x + b)); [apply psi_derive; lra|auto_derive; auto].
    - rewrite Eb. unfold scal, minus, plus, opp, zero; cbn. unfold mult; cbn. ring. }
  rewrite <- (is_derive_unique _ _ _ HL). apply is_derive_unique, D.
Qed.

(** the same integrals over (0, s) *)
Lemma scale_lim_lo s : 0 < s -> filterlim (fun x => x / s) (at_right 0) (at_right 0).
Proof.
  intros Hs P H. apply lo_iff in H. destruct H as (c & Hc & H). apply lo_iff. exists (c * s). split; [apply Rmult_lt_0_compat; auto|].
  intros x Hx. apply H. split; [apply Rdiv_lt_0_compat; lra|]. apply (Rmult_lt_reg_r s); auto. unfold Rdiv. rewrite Rmult_assoc, Rinv_l; lra.
Qed.
Lemma scale_lim_hi s : 0 < s -> filterlim (fun x => x / s) (at_left s) (at_left 1).
Proof.
  intros Hs P H. apply (hi_iff 0 1 _ lt01) in H. destruct H as (c & Hc & Hc1 & H). cbn in Hc1.
  apply (hi_iff 0 s); [cbn; auto|]. exists (c * s). split; [apply Rmult_lt_0_compat; auto|]. split.
  - cbn. rewrite <- (Rmult_1_l s) at 2. apply Rmult_lt_compat_r; auto.
  - intros x Hx Hxs. cbn in Hxs. apply H; cbn; apply (Rmult_lt_reg_r s); auto; unfold Rdiv; rewrite Rmult_assoc, Rinv_l; lra.
Qed.
Lemma scale_lim_inf s : 0 < s -> filterlim (fun x => s * x) (upto p_infty) (upto p_infty).
Proof.
  intros Hs P [M H]. exists (M / s). intros x Hx. apply H. apply (Rmult_lt_compat_l s) in Hx; auto.
  replace (s * (M / s)) with M in Hx by (field; lra). auto.
Qed.
Lemma scale_lim_lo' s : 0 < s -> filterlim (fun x => s * x) (at_right 0) (at_right 0).
Proof.
  intros Hs. assert (Hi : 0 < / s) by (apply Rinv_0_lt_compat; auto). pose proof (scale_lim_lo (/ s) Hi) as H.
  eapply filterlim_ext; [|exact H]. intros x. cbv beta. unfold Rdiv. rewrite Rinv_inv. ring.
Qed.
Lemma integral_scale s (f : R -> R) v : 0 < s -> (forall x, inside 0 1 x -> continuous f x) ->
  integral_on 0 1 f v -> integral_on 0 s (fun x => / s * f (x / s)) v.
Proof.
  intros Hs Hc Hi. apply (integral_on_subst 0 1 0 s (fun x => x / s) (fun _ => / s) f); auto; try exact lt01; try (cbn; auto).
  - intros x [H1 H2]. cbn in H2. split; cbn; [apply Rdiv_lt_0_compat; lra|]. apply (Rmult_lt_reg_r s); auto. unfold Rdiv. rewrite Rmult_assoc, Rinv_l; lra.
  - intros x _. auto_derive; auto. field. lra.
  - intros; apply continuous_const.
  - apply scale_lim_lo; auto.
  - apply scale_lim_hi; auto.
Qed.
Lemma Rpower_div x s y : 0 < x -> 0 < s -> Rpower (x / s) y = Rpower x y * Rpower s (- y).
Proof. intros Hx Hs. unfold Rpower. rewrite <- exp_plus, ln_div by auto. f_equal. ring. Qed.
Lemma bet_body_cont a b x : inside 0 1 x -> continuous (fun x => Rpower x (a - 1) * betw b x) x.
Proof. intros Ix. apply (continuous_mult (fun x => Rpower x (a - 1)) (betw b)); [apply Rpower_cont, Ix|apply betw_cont, Ix]. Qed.
Lemma scaled_body a b s x : 0 < s -> inside 0 s x ->
  Rpower s (a + b - 1) * (/ s * (Rpower (x / s) (a - 1) * betw b (x / s))) = Rpower x (a - 1) * Rpower (s - x) (b - 1).
Proof.
  intros Hs [Hx Hxs]. cbn in Hx, Hxs. unfold betw. replace (1 - x / s) with ((s - x) / s) by (field; lra).
  rewrite !Rpower_div by lra.
  replace (Rpower s (a + b - 1)) with (s * (Rpower s (a - 1) * Rpower s (b - 1))).
  2:{ rewrite <- (Rpower_1 s) at 1 by auto. rewrite <- !Rpower_plus. f_equal. ring. }
  rewrite !Rpower_Ropp. pose proof (Rpower_pos s (a - 1)). pose proof (Rpower_pos s (b - 1)). field. lra.
Qed.
Lemma beta_scaled a b s : 0 < a -> 0 < b -> 0 < s ->
  integral_on 0 s (fun x => Rpower x (a - 1) * Rpower (s - x) (b - 1)) (Rpower s (a + b - 1) * Beta_fn a b).
Proof.
  intros Ha Hb Hs. assert (L : Rbar_lt 0 s) by (cbn; auto).
  apply (integral_on_ext 0 s L (fun x => Rpower s (a + b - 1) * (/ s * (Rpower (x / s) (a - 1) * betw b (x / s))))).
  - intros x Ix. apply scaled_body; auto.
  - apply integral_on_scal; [exact L|]. apply (integral_scale s (fun x => Rpower x (a - 1) * betw b x)); auto; [apply bet_body_cont|apply bet_integral; auto].
Qed.
Lemma beta_scaled_log a b s : 0 < a -> 0 < b -> 0 < s ->
  integral_on 0 s (fun x => ln x * (Rpower x (a - 1) * Rpower (s - x) (b - 1))) (Rpower s (a + b - 1) * Beta_fn a b * (ln s + psi a - psi (a + b))).
Proof.
  intros Ha Hb Hs. assert (L : Rbar_lt 0 s) by (cbn; auto).
  apply (integral_on_ext 0 s L (fun x => Rpower s (a + b - 1) * (/ s * (ln (x / s) * (Rpower (x / s) (a - 1) * betw b (x / s)))) + ln s * (Rpower x (a - 1) * Rpower (s - x) (b - 1)))).
  - intros x Ix. pose proof (scaled_body a b s x Hs Ix) as E. destruct Ix as [Hx _]. cbn in Hx. rewrite ln_div by auto.
    replace (Rpower s (a + b - 1) * (/ s * ((ln x - ln s) * (Rpower (x / s) (a - 1) * betw b (x / s))))) with
      ((ln x - ln s) * (Rpower s (a + b - 1) * (/ s * (Rpower (x / s) (a - 1) * betw b (x / s))))) by ring.
    rewrite E. ring.
  - replace (Rpower s (a + b - 1) * Beta_fn a b * (ln s + psi a - psi (a + b))) with
      (Rpower s (a + b - 1) * ((psi a - psi (a + b)) * Beta_fn a b) + ln s * (Rpower s (a + b - 1) * Beta_fn a b)) by ring.
    apply integral_on_plus; [exact L| |]; (apply integral_on_scal; [exact L|]); [|apply beta_scaled; auto].
    apply (integral_scale s (fun x => ln x * (Rpower x (a - 1) * betw b x))); auto; [|apply bet_log_integral; auto].
    intros x Ix. apply (continuous_mult ln (fun x => Rpower x (a - 1) * betw b x)); [apply ln_cont, Ix|apply bet_body_cont, Ix].
Qed.
Lemma refl_lim_s s : 0 < s -> filterlim (fun x => s - x) (at_left s) (at_right 0).
Proof.
  intros Hs P H. apply lo_iff in H. destruct H as (c & Hc & H). apply (hi_iff 0 s); [cbn; auto|].
  exists (Rmax (s - c) (s / 2)). pose proof (Rmax_l (s - c) (s / 2)). pose proof (Rmax_r (s - c) (s / 2)).
  assert (Rmax (s - c) (s / 2) < s) by (apply Rmax_lub_lt; lra). split; [lra|]. split; [cbn; lra|]. intros x Hx Hx1. cbn in Hx1. apply H. lra.
Qed.
Lemma refl_lim_s' s : 0 < s -> filterlim (fun x => s - x) (at_right 0) (at_left s).
Proof.
  intros Hs P H. apply (hi_iff 0 s) in H; [|cbn; auto]. destruct H as (c & Hc & Hc1 & H). cbn in Hc1. apply lo_iff.
  exists (s - c). split; [lra|]. intros x Hx. apply H; cbn; lra.
Qed.
Lemma beta_scaled_log' a b s : 0 < a -> 0 < b -> 0 < s ->
  integral_on 0 s (fun x => ln (s - x) * (Rpower x (a - 1) * Rpower (s - x) (b - 1))) (Rpower s (a + b - 1) * Beta_fn a b * (ln s + psi b - psi (a + b))).
Proof.
  intros Ha Hb Hs. assert (L : Rbar_lt 0 s) by (cbn; auto).
  apply (integral_on_ext 0 s L (fun x => 1 * (ln (s - x) * (Rpower (s - x) (b - 1) * Rpower (s - (s - x)) (a - 1))))).
  - intros x _. replace (s - (s - x)) with x by ring. ring.
  - rewrite (Beta_fn_sym a b), (Rplus_comm a b).
    apply (integral_on_subst_anti 0 s 0 s (fun x => s - x) (fun _ => 1) (fun y => ln y * (Rpower y (b - 1) * Rpower (s - y) (a - 1)))); auto.
    + intros x [H1 H2]. cbn in H2. split; cbn; lra.
    + intros x _. auto_derive; auto.
    + intros; apply continuous_const.
    + apply refl_lim_s'; auto.
    + apply refl_lim_s; auto.
    + intros x [H1 H2]. cbn in H1, H2. apply (continuous_mult ln (fun y => Rpower y (b - 1) * Rpower (s - y) (a - 1))); [apply ln_cont; auto|].
      apply (continuous_mult (fun y => Rpower y (b - 1)) (fun y => Rpower (s - y) (a - 1))); [apply Rpower_cont; auto|].
      apply (continuous_comp (fun y => s - y) (fun z => Rpower z (a - 1))); [|apply Rpower_cont; lra].
      apply (continuous_minus (fun _ => s) (fun y => y)); [apply continuous_const|apply continuous_id].
    + apply beta_scaled_log; auto.
Qed.
(** scaling on the half line *)
Lemma integral_scale_inf r (f : R -> R) v : 0 < r -> (forall x, 0 < x -> continuous f x) ->
  integral_on 0 p_infty f v -> integral_on 0 p_infty (fun x => r * f (r * x)) v.
Proof.
  intros Hr Hc Hi. apply (integral_on_subst 0 p_infty 0 p_infty (fun x => r * x) (fun _ => r) f); auto; try exact I.
  - intros x [H1 _]. split; cbn; auto. apply Rmult_lt_0_compat; auto.
  - intros x _. auto_derive; auto. ring.
  - intros; apply continuous_const.
  - apply scale_lim_lo'; auto.
  - apply scale_lim_inf; auto.
  - intros x [Hx _]. apply Hc, Hx.
Qed.
(** a nonnegative function with integral 0 vanishes *)
Lemma integral_zero (a : R) (b : Rbar) (f : R -> R) : Rbar_lt a b -> (forall x, inside a b x -> continuous f x) -> (forall x, inside a b x -> 0 <= f x) ->
  integral_on a b f 0 -> forall x, inside a b x -> f x = 0.
Proof.
  intros Hab Hc Hp Hi x Ix. destruct (integral_on_inv a b Hab f 0 Hc Hi) as (F & HF & Fa & Fb).
  assert (Lo : forall y, inside a b y -> 0 <= F y).
  { intros y Iy. apply Rnot_lt_le. intros Hn. assert (He : 0 < - F y) by lra.
    assert (La : at_right a (fun x => ball 0 (- F y) (F x))). { apply Fa. exists (mkposreal _ He). auto. }
    apply lo_iff in La. destruct La as (c & Hc1 & La). destruct Iy as [Iy1 Iy2]. set (z := (a + Rmin c y) / 2).
    assert (a < Rmin c y) by (apply Rmin_glb_lt; lra). pose proof (Rmin_l c y). pose proof (Rmin_r c y).
    assert (Bz : Rabs (F z - 0) < - F y) by (apply ball_abs, La; unfold z; lra). apply Rabs_def2 in Bz.
    assert (F z <= F y). { apply (anti_mono a b f F); auto; try (split; auto; unfold z; lra); [|unfold z; lra].
      split; [unfold z; lra|]. unfold z. destruct b; cbn in *; auto; lra. }
    lra. }
  assert (Hi0 : forall y, inside a b y -> F y <= 0).
  { intros y Iy. apply Rnot_lt_le. intros Hn.
    assert (Lb : upto b (fun x => ball 0 (F y) (F x))). { apply Fb. exists (mkposreal _ Hn). auto. }
    destruct Iy as [Iy1 Iy2]. apply (hi_iff y b _ Iy2) in Lb. destruct Lb as (c & Hc1 & Hc2 & Lb).
    destruct (inside_mid c b Hc2) as [z [Hz Hz']].
    assert (Bz : Rabs (F z - 0) < F y) by (apply ball_abs, Lb; auto). apply Rabs_def2 in Bz.
    assert (F y <= F z). { apply (anti_mono a b f F); auto; [split; auto|split; auto; lra|lra]. } lra. }
  assert (Z : forall y, inside a b y -> F y = 0) by (intros y Iy; apply Rle_antisym; auto).
  assert (D : is_derive F x 0).
  { destruct Ix as [I1 I2]. destruct (inside_mid x b I2) as [c [K1 K2]].
    assert (He : 0 < Rmin (x - a) (c - x)) by (apply Rmin_pos; lra).
    apply (is_derive_ext_loc (fun _ => 0)); [|exact (is_derive_const (K := R_AbsRing) (V := R_NormedModule) 0 x)].
    exists (mkposreal _ He). intros y Hy. apply (proj1 (ball_abs _ _ _)) in Hy. cbn in Hy. apply Rabs_def2 in Hy.
    pose proof (Rmin_l (x - a) (c - x)). pose proof (Rmin_r (x - a) (c - x)). symmetry. apply Z. split; [lra|]. destruct b; cbn in *; auto; lra. }
  rewrite <- (is_derive_unique _ _ _ (HF x Ix)). apply is_derive_unique, D.
Qed.
(** comparison without continuity *)
Lemma integral_on_le' (a : R) (b : Rbar) (f g : R -> R) u v : Rbar_lt a b -> (forall x, inside a b x -> f x <= g x) ->
  integral_on a b f u -> integral_on a b g v -> u <= v.
Proof.
  intros Hab Hle Hu Hv. apply Rnot_lt_le. intros Hlt.
  assert (He : 0 < (u - v) / 2) by lra.
  assert (Bu : locally u (fun y => ball u (mkposreal _ He) y)) by (exists (mkposreal _ He); auto).
  assert (Bv : locally v (fun y => ball v (mkposreal _ He) y)) by (exists (mkposreal _ He); auto).
  destruct (Hu _ Bu) as [P1 P2 HP1 HP2 HP]. destruct (Hv _ Bv) as [Q1 Q2 HQ1 HQ2 HQ].
  destruct (inside_mid a b Hab) as [c [Hc1 Hc2]].
  assert (L1 : at_right a (fun x => P1 x /\ Q1 x)) by (apply filter_and; auto).
  assert (L2 : upto b (fun x => P2 x /\ Q2 x)) by (pose proof (upto_proper a b Hab); apply filter_and; auto).
  apply lo_iff in L1. destruct L1 as (c1 & Hc & L1). apply (hi_iff c b _ Hc2) in L2. destruct L2 as (c2 & Hc' & Hc2' & L2).
  destruct (inside_mid c2 b Hc2') as [y [Hy Hy']].
  set (x := (a + Rmin c1 c) / 2). assert (a < Rmin c1 c) by (apply Rmin_glb_lt; lra). pose proof (Rmin_l c1 c). pose proof (Rmin_r c1 c).
  destruct (L1 x) as [Px Qx]; [unfold x; lra|]. destruct (L2 y) as [Py Qy]; auto.
  destruct (HP x y Px Py) as (s & Is & Bs). destruct (HQ x y Qx Qy) as (w & Iw & Bw). cbn [fst snd] in *.
  assert (s <= w). { apply (is_RInt_le f g x y s w); auto; [unfold x; lra|]. intros z Hz. apply Hle. unfold x in Hz. split; [lra|]. destruct b; cbn in *; auto; lra. }
  apply (proj1 (ball_abs _ _ _)) in Bs. apply (proj1 (ball_abs _ _ _)) in Bw. cbn in Bs, Bw. apply Rabs_def2 in Bs. apply Rabs_def2 in Bw. lra.
Qed.
