(** C93: Tanh and Sigmoid in floating point. *)
From Coq Require Import Reals Lra Lia Bool ZArith.
From Flocq Require Import Core.
From Verif Require Import Base.XR Base.Float Spec.Rounding Spec.Accuracy Proofs.FloatOrder Proofs.FloatLib
  Model.FloatBij Model.FloatDist.
Local Open Scope R_scope.

Section Dt.
Variable dt : dtype.
Notation e := (eps dt).
Lemma tiny_le_eps : tiny dt <= e.
Proof. pose proof (exp_ok dt). apply bpow_le. unfold emin. lia. Qed.
Lemma maxpow_ge_32 : 32 <= maxpow dt.
Proof. pose proof (mant_ok dt); pose proof (exp_ok dt). change 32 with (bpow radix2 5). apply bpow_le. lia. Qed.
Lemma sub_le_tiny : / 2 * bpow radix2 (emin dt) <= tiny dt.
Proof.
  unfold tiny. pose proof (mant_ok dt). pose proof (bpow_gt_0 radix2 (emin dt)).
  assert (bpow radix2 (emin dt) <= bpow radix2 (emin dt + mant dt - 1)) by (apply bpow_le; lia). lra.
Qed.
(** one rounding *)
Lemma rnd_error v : Rabs (rnd dt v - v) <= e * (Rabs v + 1).
Proof.
  pose proof tiny_le_eps. pose proof sub_le_tiny. pose proof (eps_pos dt). pose proof (Rabs_pos v).
  destruct (Rle_lt_dec (tiny dt) (Rabs v)) as [L|L].
  - pose proof (rnd_err dt v L). nra.
  - pose proof (rnd_err_sub dt v L). nra.
Qed.
Lemma repr_pow k : (emin dt <= k)%Z -> (k < emax dt)%Z -> repr dt (bpow radix2 k).
Proof. intros A B. split; [apply F_bpow; auto|]. rewrite Rabs_pos_eq by apply bpow_ge_0. apply bpow_lt. auto. Qed.
Lemma repr_half : repr dt (maxpow dt / 2).
Proof.
  pose proof (mant_ok dt); pose proof (exp_ok dt).
  replace (maxpow dt / 2) with (bpow radix2 (emax dt - 1)); [apply repr_pow; unfold emin; lia|].
  unfold maxpow. replace (emax dt) with (emax dt - 1 + 1)%Z at 2 by lia. rewrite bpow_plus. change (bpow radix2 1) with 2. lra.
Qed.
(** a rounded value below half the range is finite *)
Lemma round_fin v : Rabs v <= maxpow dt / 2 -> exists r, fround dt (Fin v) = Fin r /\ repr dt r /\ Rabs (r - v) <= e * (Rabs v + 1) /\ r = rnd dt v.
Proof.
  intros H. apply Rabs_le_inv in H.
  destruct (fround_between dt v _ _ (repr_opp dt _ repr_half) repr_half ltac:(lra)) as (Q & _ & Rr).
  exists (rnd dt v). rewrite Q. split; [auto|]. split; [auto|]. split; [apply rnd_error|auto].
Qed.
Lemma F_double x : repr dt x -> generic_format radix2 (fexp dt) (2 * x).
Proof.
  intros [Fx _]. apply FLT_format_generic in Fx; [|pose proof (mant_ok dt); unfold Prec_gt_0; lia].
  destruct Fx as [f E1 E2 E3]. apply generic_format_FLT. exists (Float radix2 (Fnum f) (Fexp f + 1)); cbn [Fnum Fexp]; [|auto|lia].
  rewrite E1. unfold F2R; cbn [Fnum Fexp]. rewrite bpow_plus. change (bpow radix2 1) with 2. ring.
Qed.
Lemma double_exact x : repr dt x -> Rabs (2 * x) < maxpow dt -> repr dt (2 * x) /\ fmul dt (Fin 2) (Fin x) = Fin (2 * x).
Proof.
  intros R H. assert (Q : repr dt (2 * x)) by (split; [apply F_double; auto|auto]). split; [auto|].
  unfold fmul. rewrite xmul_fin. now apply fround_repr.
Qed.
End Dt.

(** The exact log-determinants. *)
Definition sp (x : R) := ln (1 + exp x).
Lemma sp_pos x : 0 < sp x.
Proof. unfold sp. rewrite <- ln_1. apply ln_increasing; [lra|]. pose proof (exp_pos x). lra. Qed.
Lemma sp_sub x : sp x - sp (- x) = x.
Proof.
  unfold sp. pose proof (exp_pos x). pose proof (exp_pos (- x)).
  assert (E : 1 + exp x = exp x * (1 + exp (- x))).
  { rewrite Rmult_plus_distr_l, <- exp_plus. replace (x + - x) with 0 by lra. rewrite exp_0. lra. }
  rewrite E, ln_mult, ln_exp by lra. lra.
Qed.
Lemma tanh_ld x : ln (1 - tanh x ^ 2) = 2 * (ln 2 - x - sp (- (2) * x)).
Proof.
  unfold tanh, sinh, cosh, sp. pose proof (exp_pos x). pose proof (exp_pos (- x)). pose proof (exp_pos (- (2) * x)).
  assert (P : exp x * exp (- x) = 1) by (rewrite <- exp_plus; replace (x + - x) with 0 by lra; apply exp_0).
  assert (Q : exp (- (2) * x) = exp (- x) * exp (- x)) by (rewrite <- exp_plus; f_equal; lra).
  assert (E : 1 - ((exp x - exp (- x)) / 2 / ((exp x + exp (- x)) / 2)) ^ 2 =
              (2 * exp (- x) / (1 + exp (- (2) * x))) * (2 * exp (- x) / (1 + exp (- (2) * x)))).
  { rewrite Q. set (a := exp x) in *. set (b := exp (- x)) in *. clearbody a b.
    assert (a = / b) by (field_simplify_eq; lra). subst a. field. repeat split; nra. }
  rewrite E. assert (Pos : 0 < 2 * exp (- x) / (1 + exp (- (2) * x))) by (apply Rdiv_lt_0_compat; lra).
  rewrite ln_mult by auto. unfold Rdiv. rewrite ln_mult by (try (apply Rinv_0_lt_compat); lra).
  rewrite ln_Rinv, ln_mult, ln_exp by lra. ring.
Qed.
Lemma tanh_ld_bound x : - (2 * Rabs x) <= ln (1 - tanh x ^ 2) <= 0.
Proof.
  rewrite tanh_ld. pose proof (sp_sub (- (2) * x)) as D. replace (- (- (2) * x)) with (2 * x) in D by lra.
  pose proof (sp_pos (2 * x)). pose proof (sp_pos (- (2) * x)).
  pose proof (softplus_le (- (2) * x)) as U. fold (sp (- (2) * x)) in U.
  assert (L : ln 2 - x <= sp (- (2) * x)).
  { unfold sp. pose proof (exp_pos (- x)). apply Rnot_lt_le. intros Hlt. apply exp_increasing in Hlt. revert Hlt. apply Rle_not_lt. unfold Rminus. rewrite exp_plus, !exp_ln by (pose proof (exp_pos (- (2) * x)); lra).
    replace (exp (- (2) * x)) with (exp (- x) * exp (- x)) by (rewrite <- exp_plus; f_equal; lra).
    pose proof (Rle_0_sqr (exp (- x) - 1)) as Sq. unfold Rsqr in Sq. clear - Sq. nra. }
  pose proof ln2_bounds as L2.
  split; [|lra]. unfold Rabs. destruct (Rcase_abs x); unfold Rmax in U; destruct (Rle_dec _ _); lra.
Qed.

(** Tanh.forward_log_det_jacobian: with a softplus accurate to [k] units of roundoff the log-determinant of
    an input [x] is within [(5 k + 13) (1 + |x|)] units of [log |tanh' x|]. *)
Lemma tanh_errors k e x c s a1 a2 M t l2 :
  0 <= k -> 0 < e <= / 4 -> k * e <= 1 -> M = 1 + Rabs x -> 0 < l2 < 1 -> Rabs (c - l2) <= e ->
  0 < t <= 2 * M -> Rabs (s - t) <= k * e * t + e -> Rabs (l2 - x - t) <= Rabs x ->
  Rabs (a1 - (c - x)) <= e * (Rabs (c - x) + 1) ->
  Rabs (a1 - s) <= 5 * M /\
  (Rabs (a2 - (a1 - s)) <= e * (Rabs (a1 - s) + 1) ->
   Rabs (a2 - (l2 - x - t)) <= (5 / 2 * k + 13 / 2) * e * M).
Proof.
  intros Hk He Hke -> Hl Hc Ht Hs Ht2 H1. set (M := 1 + Rabs x) in *.
  assert (HM : 1 <= M) by (subst M; pose proof (Rabs_pos x); lra).
  assert (Hx : Rabs x = M - 1) by (subst M; lra). clearbody M.
  assert (Hcx : Rabs (c - x) <= M + / 4).
  { replace (c - x) with ((c - l2) + (l2 + - x)) by ring. eapply Rle_trans; [apply Rabs_triang|].
    pose proof (Rabs_triang l2 (- x)) as T. rewrite Rabs_Ropp, (Rabs_pos_eq l2) in T by lra. lra. }
  assert (K : k * e * t <= 2 * (k * e) * M) by (assert (0 <= k * e) by nra; nra).
  assert (Em : e <= e * M) by nra.
  assert (D1 : Rabs (a1 - (c - x)) <= 9 / 4 * (e * M)) by (eapply Rle_trans; [exact H1|]; nra).
  assert (E1 : Rabs (a1 - s - (l2 - x - t)) <= (2 * k + 17 / 4) * (e * M)).
  { replace (a1 - s - (l2 - x - t)) with ((a1 - (c - x)) + ((c - l2) + - (s - t))) by ring.
    eapply Rle_trans; [apply Rabs_triang|]. pose proof (Rabs_triang (c - l2) (- (s - t))) as T. rewrite Rabs_Ropp in T.
    assert (k * e * t + e <= (2 * k + 1) * (e * M)) by nra. lra. }
  assert (EM4 : e * M <= / 4 * M) by nra.
  assert (KM : k * (e * M) <= M) by nra.
  assert (B : Rabs (a1 - s) <= M - 1 + (2 * k + 17 / 4) * (e * M)).
  { replace (a1 - s) with ((a1 - s - (l2 - x - t)) + (l2 - x - t)) by ring.
    eapply Rle_trans; [apply Rabs_triang|]. lra. }
  split; [nra|]. intros H2.
  replace (a2 - (l2 - x - t)) with ((a2 - (a1 - s)) + (a1 - s - (l2 - x - t))) by ring.
  eapply Rle_trans; [apply Rabs_triang|].
  assert (D2 : Rabs (a2 - (a1 - s)) <= e * M + / 4 * ((2 * k + 17 / 4) * (e * M))).
  { eapply Rle_trans; [exact H2|]. assert (0 <= (2 * k + 17 / 4) * (e * M)) by nra. nra. }
  nra.
Qed.
Theorem C93_tanh_log_det dt k S c x :
  0 <= k -> k * eps dt <= 1 -> accurate dt k S (fun x => ln (1 + exp x)) (fun _ => True) ->
  Rabs (c - ln 2) <= eps dt -> repr dt x -> Rabs x <= maxpow dt / 64 ->
  close (fl_tanh_fldj dt S (Fin c) (Fin x)) (ln (1 - tanh x ^ 2)) ((5 * k + 13) * eps dt * (1 + Rabs x)).
Proof.
  intros Hk Hke HS Hc Rx Bx. pose proof (eps_pos dt) as E0. pose proof (eps_le dt) as E4. pose proof (maxpow_ge_32 dt) as M32.
  pose proof (Rabs_pos x) as Ax. pose proof ln2_bounds as L2.
  assert (A2 : Rabs (2 * x) < maxpow dt) by (rewrite Rabs_mult, (Rabs_pos_eq 2) by lra; lra).
  destruct (double_exact dt x Rx A2) as [R2 _].
  assert (Em : fmul dt (Fin (- 2)) (Fin x) = Fin (- (2) * x)).
  { unfold fmul. rewrite xmul_fin. apply fround_repr. replace (- (2) * x) with (- (2 * x)) by ring. now apply repr_opp. }
  destruct (HS (- (2) * x)) as (s & Es & Rs & Hs); [replace (- (2) * x) with (- (2 * x)) by ring; now apply repr_opp | exact I|].
  fold (sp (- (2) * x)) in Hs. pose proof (sp_pos (- (2) * x)) as Sp0. rewrite (Rabs_pos_eq (sp _)) in Hs by lra.
  pose proof (tiny_le_eps dt) as Te.
  assert (Ht2 : sp (- (2) * x) <= 2 * (1 + Rabs x)).
  { pose proof (softplus_le (- (2) * x)) as U. fold (sp (- (2) * x)) in U.
    assert (Rmax (- (2) * x) 0 <= 2 * Rabs x); [|lra]. apply Rmax_lub; [|lra]. unfold Rabs; destruct (Rcase_abs x); lra. }
  pose proof (tanh_ld_bound x) as Lb. rewrite tanh_ld in Lb.
  assert (Hl : Rabs (ln 2 - x - sp (- (2) * x)) <= Rabs x) by (apply Rabs_le; lra).
  assert (Bc : Rabs (c - x) <= maxpow dt / 2).
  { replace (c - x) with ((c - ln 2) + (ln 2 + - x)) by ring. eapply Rle_trans; [apply Rabs_triang|].
    pose proof (Rabs_triang (ln 2) (- x)) as T. rewrite Rabs_Ropp, (Rabs_pos_eq (ln 2)) in T by lra. lra. }
  destruct (round_fin dt _ Bc) as (a1 & E1 & R1 & H1 & _).
  assert (Hs' : Rabs (s - sp (- (2) * x)) <= k * eps dt * sp (- (2) * x) + eps dt) by lra.
  destruct (tanh_errors k (eps dt) x c s a1 (rnd dt (a1 - s)) (1 + Rabs x) (sp (- (2) * x)) (ln 2)) as [B5 H2]; auto.
  assert (B5' : Rabs (a1 - s) <= maxpow dt / 2) by lra.
  destruct (round_fin dt _ B5') as (a2 & E2 & R2' & H3 & Q). rewrite Q in *. clear Q.
  specialize (H2 H3).
  assert (B2 : Rabs (2 * rnd dt (a1 - s)) < maxpow dt).
  { replace (2 * rnd dt (a1 - s)) with (2 * (rnd dt (a1 - s) - (a1 - s)) + 2 * (a1 - s)) by ring.
    eapply Rle_lt_trans; [apply Rabs_triang|]. rewrite !Rabs_mult, (Rabs_pos_eq 2) by lra. nra. }
  destruct (double_exact dt _ R2' B2) as [_ Q2].
  exists (2 * rnd dt (a1 - s)). split.
  - unfold fl_tanh_fldj. rewrite Em, Es. unfold fsub at 2. rewrite xsub_fin, E1. unfold fsub. rewrite xsub_fin, E2. exact Q2.
  - rewrite tanh_ld. replace (2 * rnd dt (a1 - s) - 2 * (ln 2 - x - sp (- (2) * x))) with (2 * (rnd dt (a1 - s) - (ln 2 - x - sp (- (2) * x)))) by ring.
    rewrite Rabs_mult, (Rabs_pos_eq 2) by lra. lra.
Qed.

(** Sigmoid.forward_log_det_jacobian, likewise, against [log (s (1 - s))] for the logistic function [s]. *)
Definition logistic (x : R) : R := / (1 + exp (- x)).
Lemma sigmoid_ld x : ln (logistic x * (1 - logistic x)) = - sp (- x) - sp x.
Proof.
  unfold logistic, sp. pose proof (exp_pos x). pose proof (exp_pos (- x)).
  assert (P : exp x * exp (- x) = 1) by (rewrite <- exp_plus; replace (x + - x) with 0 by lra; apply exp_0).
  assert (E : 1 - / (1 + exp (- x)) = / (1 + exp x)).
  { set (a := exp x) in *. set (b := exp (- x)) in *. clearbody a b. assert (a = / b) by (field_simplify_eq; lra). subst a. field.
    repeat split; nra. }
  rewrite E, ln_mult, !ln_Rinv by (try apply Rinv_0_lt_compat; lra). lra.
Qed.
Lemma sp_sum x : 0 < sp (- x) + sp x <= 2 * (1 + Rabs x).
Proof.
  pose proof (sp_pos x); pose proof (sp_pos (- x)). pose proof ln2_bounds. pose proof (softplus_le x) as U; fold (sp x) in U.
  pose proof (softplus_le (- x)) as V; fold (sp (- x)) in V. split; [lra|].
  unfold Rabs; destruct (Rcase_abs x); unfold Rmax in *; destruct (Rle_dec x 0), (Rle_dec (- x) 0); lra.
Qed.
Section Sigmoid.
Variables (dt : dtype) (k : R) (E LP S : XR -> XR).
Hypothesis Hk : 0 <= k.
Hypothesis Hke : k * eps dt <= 1.
Hypothesis HS : accurate dt k S (fun x => ln (1 + exp x)) (fun _ => True).
Hypothesis HE : accurate dt k E exp (fun x => x < - 9).
Hypothesis HE0 : forall x, repr dt x -> fle (Fin 0) (E (Fin x)).
Hypothesis HLP : accurate dt k LP (fun v => ln (1 + v)) (fun v => 0 <= v).
Lemma stable_softplus x : repr dt x ->
  exists r, fl_more_stable_softplus E LP S (Fin x) = Fin r /\ Rabs (r - sp x) <= (4 * k + 2) * (eps dt * (1 + Rabs x)).
Proof.
  intros Rx. pose proof (eps_pos dt) as E0. pose proof (eps_le dt) as E4. pose proof (tiny_le_eps dt) as Te.
  pose proof (Rabs_pos x) as Ax. unfold fl_more_stable_softplus. destruct (Rlt_dec x (- 9)) as [L|L].
  - rewrite (proj2 (xltb_fin _ _) L). destruct (HE x Rx L) as (v & Ev & Rv & Hv). rewrite Ev.
    assert (V0 : 0 <= v) by (apply fle_fin; rewrite <- Ev; apply HE0; auto).
    destruct (HLP v Rv V0) as (w & Ew & Rw & Hw). exists w. split; [auto|].
    pose proof (exp_pos x) as Px. assert (X1 : exp x < 1) by (rewrite <- exp_0; apply exp_increasing; lra).
    rewrite (Rabs_pos_eq (exp x)) in Hv by lra.
    assert (Lip : Rabs (ln (1 + v) - sp x) <= Rabs (v - exp x)).
    { assert (Lp : forall a b, 0 <= a -> a <= b -> 0 <= ln (1 + b) - ln (1 + a) <= b - a).
      { intros a b Ha [Hab| <-]; [|lra]. split; [pose proof (ln_increasing (1 + a) (1 + b) ltac:(lra) ltac:(lra)); lra|].
        assert (ln (1 + b) <= (b - a) + ln (1 + a)); [|lra].
        rewrite <- (ln_exp (b - a)), <- ln_mult by (try apply exp_pos; lra).
        assert (1 + b <= exp (b - a) * (1 + a)) as [Q|Q]; [|left; apply ln_increasing; lra|rewrite Q; lra].
        pose proof (exp_ineq1 (b - a) ltac:(lra)). nra. }
      unfold sp. destruct (Rle_lt_dec v (exp x)) as [C|C].
      - pose proof (Lp v (exp x) V0 C). rewrite !Rabs_left1 by lra. lra.
      - pose proof (Lp (exp x) v ltac:(lra) ltac:(lra)). rewrite !Rabs_right by lra. lra. }
    assert (L0 : 0 <= ln (1 + v) <= v).
    { split; [rewrite <- ln_1; destruct V0 as [V0| <-]; [left; apply ln_increasing; lra|rewrite Rplus_0_r; lra]|].
      destruct V0 as [V0| <-]; [|rewrite Rplus_0_r, ln_1; lra]. rewrite <- (ln_exp v) at 2. left. apply ln_increasing; [lra|].
      apply exp_ineq1. lra. }
    rewrite (Rabs_pos_eq (ln (1 + v))) in Hw by lra.
    assert (Kx : k * eps dt * exp x <= k * eps dt) by (assert (0 <= k * eps dt) by nra; nra).
    assert (Vb : v <= 9 / 4).
    { assert (v - exp x <= Rabs (v - exp x)) by apply Rle_abs. lra. }
    assert (Kl : k * eps dt * ln (1 + v) <= 9 / 4 * (k * eps dt)) by (assert (0 <= k * eps dt) by nra; nra).
    replace (w - sp x) with ((w - ln (1 + v)) + (ln (1 + v) - sp x)) by ring. eapply Rle_trans; [apply Rabs_triang|].
    assert ((4 * k + 2) * (eps dt * 1) <= (4 * k + 2) * (eps dt * (1 + Rabs x))).
    { apply Rmult_le_compat_l; [lra|]. apply Rmult_le_compat_l; lra. }
    assert (0 <= k * eps dt) by nra. lra.
  - rewrite (proj2 (xltb_fin_f _ _) (Rnot_lt_le _ _ L)). destruct (HS x Rx I) as (r & Er & Rr & Hr). exists r. split; [auto|].
    fold (sp x) in Hr. pose proof (sp_pos x). rewrite (Rabs_pos_eq (sp x)) in Hr by lra.
    pose proof (sp_sum x). pose proof (sp_pos (- x)). assert (0 <= k * eps dt) by nra. 
    assert (k * eps dt * sp x <= k * eps dt * (2 * (1 + Rabs x))) by (apply Rmult_le_compat_l; lra).
    assert (eps dt * 1 <= eps dt * (1 + Rabs x)) by (apply Rmult_le_compat_l; lra).
    assert (0 <= k * eps dt * (1 + Rabs x)) by nra.
    lra.
Qed.
Theorem C93_sigmoid_log_det x : repr dt x -> Rabs x <= maxpow dt / 128 ->
  close (fl_sigmoid_fldj dt E LP S (Fin x)) (ln (logistic x * (1 - logistic x))) ((10 * k + 8) * eps dt * (1 + Rabs x)).
Proof.
  intros Rx Bx. pose proof (eps_pos dt) as E0. pose proof (eps_le dt) as E4. pose proof (maxpow_ge_32 dt) as M32.
  pose proof (Rabs_pos x) as Ax. destruct (stable_softplus x Rx) as (v & Ev & Hv).
  destruct (stable_softplus (- x) (repr_opp dt x Rx)) as (u & Eu & Hu). rewrite Rabs_Ropp in Hu.
  pose proof (sp_sum x) as [Q1 Q2]. set (M := 1 + Rabs x) in *. assert (HM : 1 <= M <= maxpow dt / 128 + 1) by (subst M; lra). clearbody M.
  assert (D : Rabs (- u - v - (- sp (- x) - sp x)) <= (8 * k + 4) * (eps dt * M)).
  { replace (- u - v - (- sp (- x) - sp x)) with (- (u - sp (- x)) + - (v - sp x)) by ring.
    eapply Rle_trans; [apply Rabs_triang|]. rewrite !Rabs_Ropp. lra. }
  assert (KM : k * (eps dt * M) <= M) by nra. assert (EM : 0 <= eps dt * M <= / 4 * M) by nra. assert (K0 : 0 <= k * (eps dt * M)) by nra.
  assert (B : Rabs (- u - v) <= 2 * M + (8 * k + 4) * (eps dt * M)).
  { replace (- u - v) with ((- u - v - (- sp (- x) - sp x)) + (- sp (- x) - sp x)) by ring.
    eapply Rle_trans; [apply Rabs_triang|]. rewrite (Rabs_left1 (- sp (- x) - sp x)) by lra. lra. }
  destruct (round_fin dt (- u - v)) as (r & Er & _ & Hr & _); [lra|].
  exists r. split.
  - unfold fl_sigmoid_fldj. cbn [xopp]. rewrite Eu, Ev. cbn [xopp]. unfold fsub. rewrite xsub_fin. exact Er.
  - rewrite sigmoid_ld. replace (r - (- sp (- x) - sp x)) with ((r - (- u - v)) + (- u - v - (- sp (- x) - sp x))) by ring.
    eapply Rle_trans; [apply Rabs_triang|].
    assert (eps dt * (Rabs (- u - v) + 1) <= 3 * (eps dt * M) + / 4 * ((8 * k + 4) * (eps dt * M))).
    { assert (0 <= (8 * k + 4) * (eps dt * M)) by lra. nra. }
    lra.
Qed.
End Sigmoid.

(** Transformed.sample_and_log_prob uses the forward methods only: for every base sample [x] and base
    log-probability [p] the value is finite and accurate, however close [tanh x] is to 1. *)
Lemma sub_close dt v t tol p : close v t tol -> Rabs p <= maxpow dt / 16 -> Rabs t + tol <= 3 * maxpow dt / 8 ->
  close (fsub dt (Fin p) v) (p - t) (tol + eps dt * (Rabs p + Rabs t + tol + 1)).
Proof.
  intros (r & -> & Hr) Bp Bt. pose proof (eps_pos dt) as E0. pose proof (Rabs_pos p). pose proof (maxpow_pos dt).
  assert (Br : Rabs r <= Rabs t + tol).
  { replace r with ((r - t) + t) by ring. eapply Rle_trans; [apply Rabs_triang|]. lra. }
  assert (B : Rabs (p - r) <= Rabs p + Rabs t + tol).
  { unfold Rminus. eapply Rle_trans; [apply Rabs_triang|]. rewrite Rabs_Ropp. lra. }
  destruct (round_fin dt (p - r)) as (q & Eq & _ & Hq & _); [lra|].
  exists q. split; [unfold fsub; now rewrite xsub_fin|].
  replace (q - (p - t)) with ((q - (p - r)) + - (r - t)) by ring. eapply Rle_trans; [apply Rabs_triang|]. rewrite Rabs_Ropp. nra.
Qed.
Lemma close_weaken v t a b : close v t a -> a <= b -> close v t b.
Proof. intros (r & E & H) L. exists r. split; [auto|lra]. Qed.
Theorem C93_tanh_sample_and_log_prob dt k T S c x p y :
  0 <= k -> k * eps dt <= / 2 -> accurate dt k S (fun x => ln (1 + exp x)) (fun _ => True) -> Rabs (c - ln 2) <= eps dt ->
  T (Fin x) = Fin y -> repr dt x -> Rabs x <= maxpow dt / 128 -> Rabs p <= maxpow dt / 16 ->
  exists lp, fl_transformed_sample_and_log_prob dt (fl_tanh_forward_and_log_det dt T S (Fin c)) (Fin x) (Fin p) = (Fin y, lp) /\
    close lp (p - ln (1 - tanh x ^ 2)) ((7 * k + 20) * eps dt * (1 + Rabs x + Rabs p)).
Proof.
  intros Hk Hke HS Hc Hy Rx Bx Bp. pose proof (maxpow_ge_32 dt) as M32. pose proof (eps_pos dt) as E0. pose proof (eps_le dt) as E4.
  pose proof (Rabs_pos x) as Ax. pose proof (Rabs_pos p) as Ap.
  unfold fl_transformed_sample_and_log_prob, fl_tanh_forward_and_log_det. rewrite Hy. eexists. split; [reflexivity|].
  pose proof (C93_tanh_log_det dt k S c x Hk ltac:(lra) HS Hc Rx ltac:(lra)) as C. pose proof (tanh_ld_bound x) as Lb.
  assert (Al : Rabs (ln (1 - tanh x ^ 2)) <= 2 * Rabs x) by (rewrite Rabs_left1 by lra; lra).
  assert (KE : 0 <= k * eps dt * (1 + Rabs x) <= / 2 * (1 + Rabs x)) by (assert (0 <= k * eps dt) by nra; nra).
  assert (EE : 0 <= eps dt * (1 + Rabs x) <= / 4 * (1 + Rabs x)) by nra.
  eapply close_weaken; [apply (sub_close dt _ _ _ p C Bp)|]; [lra|].
  set (tol := (5 * k + 13) * eps dt * (1 + Rabs x)) in *. assert (T0 : 0 <= tol <= (5 * k + 13) * (eps dt * (1 + Rabs x))) by (subst tol; nra).
  assert (eps dt * tol <= / 4 * tol) by nra. assert (eps dt * Rabs (ln (1 - tanh x ^ 2)) <= 2 * (eps dt * Rabs x)) by nra.
  assert (0 <= eps dt * Rabs p) by nra. assert (0 <= eps dt * Rabs x) by nra. assert (0 <= k * (eps dt * Rabs p)) by nra. assert (0 <= k * (eps dt * Rabs x)) by nra.
  assert (0 <= k * eps dt) by nra. nra.
Qed.
Theorem C93_sigmoid_sample_and_log_prob dt k E G LP S x p y :
  0 <= k -> k * eps dt <= / 2 -> accurate dt k S (fun x => ln (1 + exp x)) (fun _ => True) ->
  accurate dt k E exp (fun x => x < - 9) -> (forall x, repr dt x -> fle (Fin 0) (E (Fin x))) ->
  accurate dt k LP (fun v => ln (1 + v)) (fun v => 0 <= v) ->
  fl_more_stable_sigmoid E G (Fin x) = Fin y -> repr dt x -> Rabs x <= maxpow dt / 128 -> Rabs p <= maxpow dt / 16 ->
  exists lp, fl_transformed_sample_and_log_prob dt (fl_sigmoid_forward_and_log_det dt E G LP S) (Fin x) (Fin p) = (Fin y, lp) /\
    close lp (p - ln (logistic x * (1 - logistic x))) ((13 * k + 13) * eps dt * (1 + Rabs x + Rabs p)).
Proof.
  intros Hk Hke HS HE HE0 HLP Hy Rx Bx Bp. pose proof (maxpow_ge_32 dt) as M32. pose proof (eps_pos dt) as E0. pose proof (eps_le dt) as E4.
  pose proof (Rabs_pos x) as Ax. pose proof (Rabs_pos p) as Ap.
  unfold fl_transformed_sample_and_log_prob, fl_sigmoid_forward_and_log_det. rewrite Hy. eexists. split; [reflexivity|].
  pose proof (C93_sigmoid_log_det dt k E LP S Hk ltac:(lra) HS HE HE0 HLP x Rx ltac:(lra)) as C. pose proof (sp_sum x) as Lb.
  assert (Al : Rabs (ln (logistic x * (1 - logistic x))) <= 2 * (1 + Rabs x)) by (rewrite sigmoid_ld, Rabs_left1 by lra; lra).
  assert (KE : 0 <= k * eps dt * (1 + Rabs x) <= / 2 * (1 + Rabs x)) by (assert (0 <= k * eps dt) by nra; nra).
  assert (EE : 0 <= eps dt * (1 + Rabs x) <= / 4 * (1 + Rabs x)) by nra.
  eapply close_weaken; [apply (sub_close dt _ _ _ p C Bp)|]; [lra|].
  set (tol := (10 * k + 8) * eps dt * (1 + Rabs x)) in *. assert (T0 : 0 <= tol <= (10 * k + 8) * (eps dt * (1 + Rabs x))) by (subst tol; nra).
  assert (eps dt * tol <= / 4 * tol) by nra. assert (eps dt * Rabs (ln (logistic x * (1 - logistic x))) <= 2 * (eps dt * (1 + Rabs x))) by nra.
  assert (0 <= eps dt * Rabs p) by nra. assert (0 <= eps dt * Rabs x) by nra. assert (0 <= k * (eps dt * Rabs p)) by nra. assert (0 <= k * (eps dt * Rabs x)) by nra.
  assert (0 <= k * eps dt) by nra. nra.
Qed.

(** Transformed.log_prob inverts the bijector: NaN at the ends of the range, where the base has no density. *)
Definition no_density (a : XR) : Prop := a = NInf \/ a = NaN.
Theorem C93_tanh_log_prob_at_bounds dt A S c lp :
  softplus_fn dt S -> A (Fin 1) = PInf -> A (Fin (- 1)) = NInf -> no_density (lp PInf) -> no_density (lp NInf) ->
  fl_transformed_log_prob dt lp (fl_tanh_inverse_and_log_det dt A S (Fin c)) (Fin 1) = NaN /\
  fl_transformed_log_prob dt lp (fl_tanh_inverse_and_log_det dt A S (Fin c)) (Fin (- 1)) = NaN.
Proof.
  intros HS H1 H2 P1 P2. unfold fl_transformed_log_prob, fl_tanh_inverse_and_log_det, fl_tanh_fldj. rewrite H1, H2.
  assert (Q1 : fmul dt (Fin (- 2)) PInf = NInf) by (unfold fmul; cbn; unfold inf_times; repeat destruct (Rlt_dec _ _); try lra; reflexivity).
  assert (Q2 : fmul dt (Fin (- 2)) NInf = PInf) by (unfold fmul; cbn; unfold inf_times; repeat destruct (Rlt_dec _ _); try lra; reflexivity).
  assert (Q3 : fmul dt (Fin 2) NInf = NInf) by (unfold fmul; cbn; unfold inf_times; repeat destruct (Rlt_dec _ _); try lra; reflexivity).
  rewrite Q1, Q2, (softplus_fn_inf _ _ HS), (softplus_fn_ninf _ _ HS).
  change (fsub dt (Fin c) PInf) with NInf. change (fsub dt (Fin c) NInf) with PInf.
  change (fsub dt NInf (Fin 0)) with NInf. change (fsub dt PInf PInf) with NaN. rewrite Q3.
  split; [destruct P1 as [-> | ->]; reflexivity | destruct P2 as [-> | ->]; reflexivity].
Qed.
Theorem C93_sigmoid_log_prob_at_bounds dt E L LP S lp :
  softplus_fn dt S -> exp_fn dt E -> log_fn dt L -> LP (xopp (Fin 1)) = NInf -> LP (Fin 0) = Fin 0 ->
  no_density (lp PInf) -> no_density (lp NInf) ->
  fl_transformed_log_prob dt lp (fl_sigmoid_inverse_and_log_det dt E L LP S) (Fin 1) = NaN /\
  fl_transformed_log_prob dt lp (fl_sigmoid_inverse_and_log_det dt E L LP S) (Fin 0) = NaN.
Proof.
  intros HS HE HL L1 L0 P1 P2. unfold fl_transformed_log_prob, fl_sigmoid_inverse_and_log_det, fl_sigmoid_fldj, fl_more_stable_softplus.
  cbn [xopp] in *. rewrite Ropp_0. rewrite (log_fn_one _ _ HL), (log_fn_zero _ _ HL), L1, L0.
  change (fsub dt (Fin 0) NInf) with PInf. change (fsub dt NInf (Fin 0)) with NInf. cbn [xopp xltb].
  rewrite (exp_fn_ninf _ _ HE), L0, (softplus_fn_inf _ _ HS).
  assert (Q : fsub dt (Fin (- 0)) PInf = NInf) by reflexivity. cbn [xopp]. rewrite Q. change (fsub dt NInf (Fin 0)) with NInf.
  split; [destruct P1 as [-> | ->]; reflexivity | destruct P2 as [-> | ->]; reflexivity].
Qed.
(** ... and the end is reached: the correctly rounded tanh of every [x >= mant] is 1. *)
Theorem C93_tanh_saturates dt x : IZR (mant dt) <= x -> fround dt (Fin (tanh x)) = Fin 1.
Proof.
  intros H. pose proof (mant_ok dt) as M. pose proof (exp_ok dt) as X.
  assert (Lo : 1 - bpow radix2 (- mant dt - 1) < tanh x <= 1).
  { assert (Ee : exp (- (2) * x) <= bpow radix2 (- (2 * mant dt))).
    { replace (bpow radix2 (- (2 * mant dt))) with (exp (ln (bpow radix2 (- (2 * mant dt))))) by (apply exp_ln, bpow_gt_0).
      rewrite ln_bpow, opp_IZR, mult_IZR. pose proof ln2_bounds. assert (0 < IZR (mant dt)) by (apply IZR_lt; lia).
      apply Rnot_lt_le. intros C. apply exp_lt_inv in C. nra. }
    assert (Eb : bpow radix2 (- (2 * mant dt)) <= / 2 * bpow radix2 (- mant dt - 1)).
    { change (/ 2) with (bpow radix2 (- (1))). rewrite <- bpow_plus. apply bpow_le. lia. }
    pose proof (exp_pos (- (2) * x)) as P0.
    assert (Et : tanh x = 1 - 2 * exp (- (2) * x) / (1 + exp (- (2) * x))).
    { unfold tanh, sinh, cosh. pose proof (exp_pos x). pose proof (exp_pos (- x)).
      assert (P : exp x * exp (- x) = 1) by (rewrite <- exp_plus; replace (x + - x) with 0 by lra; apply exp_0).
      replace (exp (- (2) * x)) with (exp (- x) * exp (- x)) by (rewrite <- exp_plus; f_equal; lra).
      set (a := exp x) in *. set (b := exp (- x)) in *. clearbody a b. assert (a = / b) by (field_simplify_eq; lra). subst a. field. repeat split; nra. }
    rewrite Et. set (d := exp (- (2) * x)) in *. clearbody d.
    assert (0 <= 2 * d / (1 + d) < 2 * d).
    { split; [apply Rlt_le, Rdiv_lt_0_compat; lra|]. unfold Rdiv. rewrite <- (Rmult_1_r (2 * d)) at 2. apply Rmult_lt_compat_l; [lra|]. rewrite <- Rinv_1. apply Rinv_lt_contravar; lra. }
    lra. }
  assert (R1 : rnd dt (tanh x) = 1).
  { apply Rle_antisym; [apply rnd_le_F; [apply F_1|lra]|].
    apply (round_N_ge_midp radix2 (fexp dt) (fun t => negb (Z.even t))); [apply F_1|].
    assert (Ep : pred radix2 (fexp dt) 1 = 1 - bpow radix2 (- mant dt)).
    { change 1 with (bpow radix2 0). rewrite pred_bpow. unfold fexp, FLT_exp.
      replace (Z.max (0 - mant dt) (emin dt)) with (- mant dt)%Z by (unfold emin; lia). reflexivity. }
    rewrite Ep. assert (Eb : bpow radix2 (- mant dt) = 2 * bpow radix2 (- mant dt - 1)).
    { change 2 with (bpow radix2 1). rewrite <- bpow_plus. f_equal. lia. }
    lra. }
  transitivity (Fin (rnd dt (tanh x))); [|now rewrite R1]. apply (fround_ok dt _ 0 1); [apply repr_0 | apply repr_1 | rewrite R1; lra].
Qed.

(** Correctly rounded functions qualify, with [k = 1]. *)
Definition r_softplus dt (a : XR) : XR := fround dt (xsoftplus a).
Definition r_exp dt (a : XR) : XR := fround dt (xexp a).
Definition r_log1p dt (a : XR) : XR := fround dt (xlog (xadd (Fin 1) a)).
Definition r_tanh dt (a : XR) : XR :=
  match a with Fin x => fround dt (Fin (tanh x)) | PInf => Fin 1 | NInf => Fin (- 1) | NaN => NaN end.
Definition r_arctanh dt (a : XR) : XR :=
  match a with
  | Fin y => if Req_EM_T y 1 then PInf else if Req_EM_T y (- 1) then NInf
             else if Rlt_dec (Rabs y) 1 then fround dt (Fin (/ 2 * ln ((1 + y) / (1 - y)))) else NaN
  | _ => NaN
  end.
Lemma rounded_accurate dt x v r : fround dt (Fin v) = Fin r -> x = v -> repr dt r /\ Rabs (r - x) <= 1 * eps dt * Rabs x + tiny dt.
Proof.
  intros Q ->. pose proof (fround_value dt _ _ Q). apply fround_fin_inv in Q. destruct Q as [-> _]. split; [auto|].
  pose proof (tiny_pos dt). pose proof (eps_pos dt). pose proof (Rabs_pos v). pose proof (sub_le_tiny dt).
  destruct (Rle_lt_dec (tiny dt) (Rabs v)) as [L|L]; [pose proof (rnd_err dt v L); lra | pose proof (rnd_err_sub dt v L); nra].
Qed.
Lemma softplus_accurate dt : accurate dt 1 (r_softplus dt) (fun x => ln (1 + exp x)) (fun _ => True).
Proof.
  intros x Rx _. destruct (softplus_fn_finite _ _ (softplus_rounded dt) x Rx) as (r & Er & _). exists r. split; [exact Er|].
  unfold xsoftplus in Er. cbn [xexp xadd xlog] in Er. rewrite rlog_pos in Er by (pose proof (exp_pos x); lra). eapply rounded_accurate; eauto.
Qed.
Lemma exp_accurate dt : accurate dt 1 (r_exp dt) exp (fun x => x < - 9).
Proof.
  intros x Rx L. unfold r_exp. cbn [xexp]. pose proof (exp_pos x) as P. assert (U : exp x < 1) by (rewrite <- exp_0; apply exp_increasing; lra).
  destruct (fround_between dt (exp x) 0 1 (repr_0 dt) (repr_1 dt) ltac:(lra)) as (Q & _). exists (rnd dt (exp x)). split; [auto|].
  eapply rounded_accurate; eauto.
Qed.
Lemma exp_nonneg dt x : repr dt x -> fle (Fin 0) (r_exp dt (Fin x)).
Proof. intros _. apply fround_nonneg. cbn [xexp]. apply fle_fin. left; apply exp_pos. Qed.
Lemma log1p_accurate dt : accurate dt 1 (r_log1p dt) (fun v => ln (1 + v)) (fun v => 0 <= v).
Proof.
  intros v Rv V0. unfold r_log1p. cbn [xadd xlog]. rewrite rlog_pos by lra.
  assert (L : 0 <= ln (1 + v) <= v).
  { destruct V0 as [V0| <-]; [|rewrite Rplus_0_r, ln_1; lra]. split; [rewrite <- ln_1; left; apply ln_increasing; lra|].
    rewrite <- (ln_exp v) at 2. left. apply ln_increasing; [lra|]. apply exp_ineq1. lra. }
  destruct (fround_between dt (ln (1 + v)) 0 v (repr_0 dt) Rv L) as (Q & _). exists (rnd dt (ln (1 + v))). split; [auto|].
  eapply rounded_accurate; eauto.
Qed.
Example C93_rounded : accurate float32 1 (r_softplus float32) (fun x => ln (1 + exp x)) (fun _ => True) /\
  accurate float32 1 (r_exp float32) exp (fun x => x < - 9) /\ (forall x, repr float32 x -> fle (Fin 0) (r_exp float32 (Fin x))) /\
  accurate float32 1 (r_log1p float32) (fun v => ln (1 + v)) (fun v => 0 <= v) /\ 1 * eps float32 <= / 2 /\
  Rabs (rnd float32 (ln 2) - ln 2) <= eps float32 /\ repr float32 32 /\ Rabs 32 <= maxpow float32 / 128 /\
  r_log1p float32 (xopp (Fin 1)) = NInf /\ r_log1p float32 (Fin 0) = Fin 0 /\ r_arctanh float32 (Fin 1) = PInf.
Proof.
  split; [apply softplus_accurate|]. split; [apply exp_accurate|]. split; [apply exp_nonneg|]. split; [apply log1p_accurate|].
  split; [pose proof (eps_le float32); lra|]. split.
  { pose proof ln2_bounds as L. destruct (Rle_lt_dec (tiny float32) (Rabs (ln 2))) as [Q|Q].
    - pose proof (rnd_err float32 _ Q) as W. rewrite (Rabs_pos_eq (ln 2)) in W by lra. pose proof (eps_pos float32). nra.
    - pose proof (rnd_err_sub float32 _ Q). pose proof (sub_le_tiny float32). pose proof (tiny_le_eps float32). lra. }
  split; [change 32 with (bpow radix2 5); apply repr_pow; cbn; unfold emin; cbn; lia|].
  split. { rewrite Rabs_pos_eq by lra. unfold maxpow. cbn [emax float32]. apply Rle_trans with (bpow radix2 13 / 128); [cbn; lra|].
    apply Rmult_le_compat_r; [lra|]. apply bpow_le. lia. }
  split; [unfold r_log1p; cbn [xopp xadd xlog]; replace (1 + - (1)) with 0 by lra; rewrite rlog_0; reflexivity|].
  split; [unfold r_log1p; cbn [xadd xlog]; rewrite Rplus_0_r, rlog_pos, ln_1 by lra; apply fround_0|].
  unfold r_arctanh. destruct (Req_EM_T 1 1); [reflexivity|congruence].
Qed.

(** So sampling and then calling log_prob is not the same as sample_and_log_prob: with correctly rounded
    functions in float32, Transformed(Normal(32, 1), Tanh()) returns the sample 1 with a finite
    log-probability, and log_prob of that sample is NaN. *)
Theorem C93_log_prob_of_sample_refuted :
  let dt := float32 in
  let c := Fin (rnd dt (ln 2)) in
  let lp v := fl_normal_log_prob dt (fun a => fround dt (xlog a)) (Fin 1) v (Fin 32) (Fin 1) in
  exists q, fl_transformed_sample_and_log_prob dt (fl_tanh_forward_and_log_det dt (r_tanh dt) (r_softplus dt) c) (Fin 32) (lp (Fin 32)) = (Fin 1, Fin q) /\
    fl_transformed_log_prob dt lp (fl_tanh_inverse_and_log_det dt (r_arctanh dt) (r_softplus dt) c) (Fin 1) = NaN.
Proof.
  intros dt c lp. subst dt c. destruct C93_rounded as (HS & _ & _ & _ & He & Hc & R16 & B16 & _ & _ & A1).
  assert (L1 : fround float32 (xlog (Fin 1)) = Fin 0) by apply (log_fn_one _ _ (log_rounded float32)).
  assert (N1 : fadd float32 (Fin 1) (Fin 0) = Fin 1) by (unfold fadd; rewrite xadd_fin, Rplus_0_r; apply fround_repr, repr_1).
  assert (P16 : lp (Fin 32) = Fin (- (1))).
  { unfold lp, fl_normal_log_prob, fl_standardize. rewrite L1, N1.
    assert (Z : fsub float32 (Fin 32) (Fin 32) = Fin 0) by (unfold fsub; rewrite xsub_fin, Rminus_diag_eq by auto; apply fround_0).
    rewrite Z. assert (Z2 : fdiv float32 (Fin 0) (Fin 1) = Fin 0) by (unfold fdiv; rewrite xdiv_fin' by lra; replace (0 / 1) with 0 by lra; apply fround_0).
    rewrite Z2. assert (Z3 : forall a, fmul float32 (Fin a) (Fin 0) = Fin 0) by (intros a; unfold fmul; rewrite xmul_fin, Rmult_0_r; apply fround_0).
    rewrite !Z3. unfold fsub. rewrite xsub_fin. replace (0 - 1) with (- (1)) by lra. apply fround_repr, repr_opp, repr_1. }
  assert (Pinf : forall a, a = PInf \/ a = NInf -> no_density (lp a)).
  { intros a Ha. left. unfold lp, fl_normal_log_prob, fl_standardize. rewrite L1, N1.
    assert (W : forall a, a = PInf \/ a = NInf -> fsub float32 a (Fin 32) = a /\ fdiv float32 a (Fin 1) = a /\ fmul float32 a a = PInf).
    { intros b [-> | ->]; (split; [reflexivity|]; split; [|reflexivity]); unfold fdiv; cbn; unfold inf_times; repeat destruct (Rlt_dec _ _); repeat destruct (Req_EM_T _ _); try lra; reflexivity. }
    destruct (W a Ha) as (-> & -> & ->).
    assert (W2 : fmul float32 (Fin (- (1 / 2))) PInf = NInf) by (unfold fmul; cbn; unfold inf_times; repeat destruct (Rlt_dec _ _); try lra; reflexivity).
    rewrite W2. reflexivity. }
  destruct (C93_tanh_sample_and_log_prob float32 1 (fun _ => Fin 1) (r_softplus float32) _ 32 (- (1)) 1 ltac:(lra) He HS Hc eq_refl R16 B16) as (v & Ev & q & -> & _).
  { rewrite Rabs_Ropp, Rabs_R1. pose proof (maxpow_ge_32 float32). lra. }
  exists q. rewrite P16. split.
  - unfold fl_transformed_sample_and_log_prob, fl_tanh_forward_and_log_det in *. injection Ev as Ev. rewrite Ev. f_equal.
    cbn [r_tanh]. apply C93_tanh_saturates. cbn. lra.
  - apply C93_tanh_log_prob_at_bounds; auto.
    + apply softplus_rounded.
    + unfold r_arctanh. destruct (Req_EM_T (-1) 1); [lra|]. destruct (Req_EM_T (-1) (- 1)); [reflexivity|lra].
Qed.
Print Assumptions C93_tanh_log_det.
Print Assumptions C93_sigmoid_log_det.
Print Assumptions C93_log_prob_of_sample_refuted.
