(** C104: KL divergences of Normal, Laplace and Uniform in floating point. *)
From Coq Require Import Reals Lra Lia Bool ZArith.
From Flocq Require Import Core BinarySingleNaN.
From Verif Require Import Base.XR Base.Float Spec.Rounding Spec.Accuracy Proofs.FloatOrder Proofs.FloatLib Proofs.FloatIEEE
  Props.FloatBij Props.FloatAccuracy Props.FloatMixture.
From Verif Require Spec.Density Model.ScalarDist Props.Continuous Props.Laplace Props.Uniform.
From Verif Require Import Model.FloatKL.
Local Open Scope R_scope.

Section LogDiff.
Variables (dt : dtype) (k : R) (L : XR -> XR) (s1 s2 : R).
Notation e := (eps dt).
Hypothesis k_pos : 0 <= k.
Hypothesis k_ok : k * e <= 1.
Hypothesis HL : accurate dt k L ln (fun s => 0 < s).
Hypothesis R1 : repr dt s1.
Hypothesis R2 : repr dt s2.
Hypothesis P1 : 0 < s1.
Hypothesis P2 : 0 < s2.
Definition logs : R := 1 + Rabs (ln s1) + Rabs (ln s2).
Lemma log_diff : logs <= maxpow dt / 8 ->
  exists d, fsub dt (L (Fin s1)) (L (Fin s2)) = Fin d /\ repr dt d /\ Rabs (d - (ln s1 - ln s2)) <= (k + 5) * e * logs.
Proof.
  intros HD. pose proof (eps_pos dt) as E0. pose proof (eps_le dt) as E4.
  destruct (HL s1 R1 P1) as (x & Ex & Rx & Bx). destruct (HL s2 R2 P2) as (y & Ey & Ry & By). pose proof (tiny_le_eps dt) as T.
  pose proof (Rabs_pos (ln s1)) as A1. pose proof (Rabs_pos (ln s2)) as A2. unfold logs in *.
  assert (U : k * e * Rabs (ln s1) <= 1 * Rabs (ln s1)) by (apply Rmult_le_compat_r; lra).
  assert (V : k * e * Rabs (ln s2) <= 1 * Rabs (ln s2)) by (apply Rmult_le_compat_r; lra).
  destruct (close_sub dt (L (Fin s1)) (L (Fin s2)) (ln s1) (ln s2) (k * e * Rabs (ln s1) + e) (k * e * Rabs (ln s2) + e) (2 * (1 + Rabs (ln s1) + Rabs (ln s2)))) as (d & Ed & Bd).
  - exists x. split; [auto|lra].
  - exists y. split; [auto|lra].
  - lra.
  - lra.
  - exists d. split; [auto|]. split; [apply (fround_value dt _ _ Ed)|]. eapply Rle_trans; [exact Bd|]. nra.
Qed.
End LogDiff.

Section Normal.
Variables (dt : dtype) (k : R) (L M : XR -> XR) (l1 s1 l2 s2 : R).
Notation e := (eps dt).
Notation a := (l1 / s2).
Notation b := (l2 / s2).
Notation z := (Rabs ((l1 - l2) / s2)).
Notation rho := ((s1 / s2) ^ 2).
Hypothesis k_pos : 0 <= k.
Hypothesis HL : accurate dt k L ln (fun s => 0 < s).
Hypothesis HM : accurate dt k M (fun x => exp x - 1) (fun x => exp x <= maxpow dt / 2).
Hypothesis Rl1 : repr dt l1.
Hypothesis Rl2 : repr dt l2.
Hypothesis R1 : repr dt s1.
Hypothesis R2 : repr dt s2.
Hypothesis P1 : 0 < s1.
Hypothesis P2 : 0 < s2.
(** the standardised locations themselves are not too large *)
Notation W := (1 + Rabs a + Rabs b).
Notation Lam := (logs s1 s2).
Hypothesis W_ok : 16 * e * W <= 1.
Hypothesis Lam_ok : 16 * (k + 5) * e * Lam <= 1.
Hypothesis range : W + z ^ 2 + rho + Lam <= maxpow dt / 64.
Notation delta := ((k + 5) * e * Lam).

Lemma shift_part : close (fmul dt (Fin (1 / 2)) (fmul dt (fsub dt (fdiv dt (Fin l1) (Fin s2)) (fdiv dt (Fin l2) (Fin s2))) (fsub dt (fdiv dt (Fin l1) (Fin s2)) (fdiv dt (Fin l2) (Fin s2)))))
  (1 / 2 * z ^ 2) (e * W * (8 * z + 5)).
Proof.
  pose proof (eps_pos dt) as E0. pose proof (eps_le dt) as E4. pose proof (Rabs_pos a) as A0. pose proof (Rabs_pos b) as B0.
  assert (L1 : 1 <= Lam) by (unfold logs; pose proof (Rabs_pos (ln s1)); pose proof (Rabs_pos (ln s2)); lra).
  assert (rho0 : 0 <= rho) by apply pow2_ge_0. pose proof (Rabs_pos ((l1 - l2) / s2)) as Z0.
  assert (Zab : (l1 - l2) / s2 = a - b) by (field; lra).
  assert (ZW : z <= W - 1). { rewrite Zab. eapply Rle_trans; [apply (Rabs_triang a (- b))|]. rewrite Rabs_Ropp. lra. }
  assert (Sq : z ^ 2 = (a - b) * (a - b)). { rewrite <- Zab, pow2_abs. ring. }
  unfold fdiv. rewrite !xdiv_fin' by lra.
  assert (Ca : close (fround dt (Fin a)) a (e * (Rabs a + 1))) by (apply round_close; nra).
  assert (Cb : close (fround dt (Fin b)) b (e * (Rabs b + 1))) by (apply round_close; nra).
  assert (Cd : close (fsub dt (fround dt (Fin a)) (fround dt (Fin b))) (a - b) (5 * e * W)).
  { eapply close_weaken; [apply (close_sub dt _ _ _ _ _ _ (3 / 2 * W) Ca Cb)|]; nra. }
  rewrite Zab in *. set (w := W) in *. clearbody w. set (d := a - b) in *. clearbody d. set (y := Rabs d) in *.
  replace (5 * e * w) with (5 * (e * w)) in Cd by ring. assert (W1 : 1 <= w) by lra. assert (U0 : e <= e * w) by nra. assert (U1 : 16 * (e * w) <= 1) by lra.
  assert (U2 : e * y <= e * w) by (apply Rmult_le_compat_l; lra). set (u := e * w) in *. clearbody u.
  assert (F1 : u * y <= / 16 * y) by (apply Rmult_le_compat_r; lra). assert (F2 : u * u <= / 16 * u) by (apply Rmult_le_compat_r; lra).
  assert (F3 : e * y * y <= u * y) by (apply Rmult_le_compat_r; lra). assert (F4 : 0 <= u * y) by (apply Rmult_le_pos; lra).
  assert (Sy : y * y = d * d) by (rewrite <- Sq; ring). rewrite Sq in range |- *. rewrite <- Sy in range. assert (Dd : Rabs (d * d) = y * y) by (rewrite Rabs_mult; reflexivity).
  assert (Cs : close (fmul dt (fsub dt (fround dt (Fin a)) (fround dt (Fin b))) (fsub dt (fround dt (Fin a)) (fround dt (Fin b)))) (d * d) (u * (12 * y + 5))).
  { eapply close_weaken; [apply (close_mul dt _ _ _ _ _ _ (2 * (1 + y * y)) Cd Cd)|].
    - fold y. rewrite Dd. nra.
    - nra.
    - fold y. nra. }
  eapply close_weaken; [apply (close_mul dt (Fin (1 / 2)) _ (1 / 2) _ 0 _ (1 + y * y) (close_exact (1 / 2)) Cs)|].
  - rewrite Rabs_mult, (Rabs_pos_eq (1 / 2)), Dd by lra. nra.
  - nra.
  - rewrite (Rabs_pos_eq (1 / 2)) by lra. nra.
Qed.
Lemma rho_exp : exp (2 * (ln s1 - ln s2)) = rho.
Proof.
  rewrite <- ln_div by auto. assert (Q : 0 < s1 / s2) by (apply Rdiv_lt_0_compat; auto).
  replace (2 * ln (s1 / s2)) with (ln (s1 / s2) + ln (s1 / s2)) by ring. rewrite exp_plus, exp_ln by auto. ring.
Qed.
Lemma scale_part d : repr dt d -> Rabs (d - (ln s1 - ln s2)) <= delta ->
  close (fmul dt (Fin (1 / 2)) (M (fmul dt (Fin 2) (Fin d)))) (1 / 2 * (rho - 1)) (4 * delta * (1 + rho)).
Proof.
  intros Rd Bd. pose proof (eps_pos dt) as E0. pose proof (eps_le dt) as E4. pose proof (maxpow_pos dt) as M0.
  assert (A1 : 0 <= Rabs (ln s1)) by apply Rabs_pos. assert (A2 : 0 <= Rabs (ln s2)) by apply Rabs_pos.
  assert (L1 : Lam = 1 + Rabs (ln s1) + Rabs (ln s2)) by reflexivity. pose proof (Rabs_pos a) as A0. pose proof (Rabs_pos b) as B0. pose proof (pow2_ge_0 z) as Z2.
  assert (rho0 : 0 <= rho) by apply pow2_ge_0.
  assert (D16 : delta <= / 16) by lra. assert (D0 : (k + 5) * e <= delta) by (assert (0 <= (k + 5) * e) by nra; nra).
  assert (Dm : Rabs d <= Lam). { replace d with ((d - (ln s1 - ln s2)) + (ln s1 - ln s2)) by ring. eapply Rle_trans; [apply Rabs_triang|].
    assert (Dl : Rabs (ln s1 - ln s2) <= Lam - 1). { pose proof (Rabs_triang (ln s1) (- ln s2)) as Q. rewrite Rabs_Ropp in Q. unfold Rminus. lra. } lra. }
  destruct (double_exact dt d Rd) as (Rdd & ->). { rewrite Rabs_mult, (Rabs_pos_eq 2) by lra. lra. }
  pose (h := 2 * d - 2 * (ln s1 - ln s2)).
  assert (Hh : Rabs h <= 2 * delta). { unfold h. replace (2 * d - 2 * (ln s1 - ln s2)) with (2 * (d - (ln s1 - ln s2))) by ring. rewrite Rabs_mult, (Rabs_pos_eq 2) by lra. lra. }
  assert (Ee : exp (2 * d) = rho * exp h). { rewrite <- rho_exp, <- exp_plus. f_equal. unfold h. ring. }
  pose proof (exp_near h ltac:(lra)) as N. assert (Ne : Rabs (exp h - 1) <= 4 * delta) by lra. clearbody h.
  assert (Up : rho * exp h <= 5 / 4 * rho). { rewrite (Rmult_comm rho). apply Rmult_le_compat_r; [auto|]. apply Rabs_le_inv in Ne. lra. }
  assert (Up0 : 0 <= rho * exp h) by (apply Rmult_le_pos; [auto|left; apply exp_pos]).
  destruct (HM (2 * d) Rdd) as (r & Er & Rr & Br). { rewrite Ee. lra. }
  rewrite Ee in Br. pose proof (tiny_le_eps dt) as T.
  assert (Nr : Rabs (rho * exp h - 1) <= 5 / 4 * rho + 1) by (apply Rabs_le; lra).
  set (dl := delta) in *. clearbody dl. assert (Dp : 0 <= dl) by nra. assert (Dr : 0 <= dl * rho) by (apply Rmult_le_pos; auto).
  assert (Cr : close (M (Fin (2 * d))) (rho - 1) (6 * dl * (1 + rho))).
  { exists r. split; [auto|]. replace (r - (rho - 1)) with ((r - (rho * exp h - 1)) + rho * (exp h - 1)) by ring.
    eapply Rle_trans; [apply Rabs_triang|]. rewrite Rabs_mult, (Rabs_pos_eq rho) by auto.
    assert (rho * Rabs (exp h - 1) <= rho * (4 * dl)) by (apply Rmult_le_compat_l; auto).
    assert (k * e * Rabs (rho * exp h - 1) <= k * e * (5 / 4 * rho + 1)) by (apply Rmult_le_compat_l; [nra|auto]).
    assert (k * e * (5 / 4 * rho + 1) + e <= (k + 5) * e * (5 / 4 * (1 + rho))) by (assert (0 <= k * e) by nra; nra).
    assert ((k + 5) * e * (5 / 4 * (1 + rho)) <= dl * (5 / 4 * (1 + rho))) by (apply Rmult_le_compat_r; lra).
    lra. }
  set (p := rho) in *. clearbody p.
  assert (F1 : dl * p <= / 16 * p) by (apply Rmult_le_compat_r; lra). assert (F2 : 5 * e <= dl) by nra.
  assert (F3 : 5 * e * p <= dl * p) by (apply Rmult_le_compat_r; lra).
  assert (Ab : Rabs (p - 1) <= p + 1) by (apply Rabs_le; lra).
  eapply close_weaken; [apply (close_mul dt (Fin (1 / 2)) _ (1 / 2) _ 0 _ (1 + p) (close_exact (1 / 2)) Cr)|].
  - rewrite Rabs_mult, (Rabs_pos_eq (1 / 2)) by lra. lra.
  - lra.
  - rewrite (Rabs_pos_eq (1 / 2)) by lra. lra.
Qed.
Theorem normal_kl_close :
  close (fl_normal_kl dt L M (Fin l1) (Fin s1) (Fin l2) (Fin s2)) (1 / 2 * ((l1 - l2) / s2) ^ 2 + 1 / 2 * (rho - 1) - (ln s1 - ln s2))
    (16 * e * W * (1 + z) + 12 * delta * (1 + rho)).
Proof.
  pose proof (eps_pos dt) as E0. pose proof (eps_le dt) as E4. pose proof (maxpow_pos dt) as M0.
  assert (A1 : 0 <= Rabs (ln s1)) by apply Rabs_pos. assert (A2 : 0 <= Rabs (ln s2)) by apply Rabs_pos.
  assert (L1 : Lam = 1 + Rabs (ln s1) + Rabs (ln s2)) by reflexivity. pose proof (Rabs_pos a) as A0. pose proof (Rabs_pos b) as B0. pose proof (pow2_ge_0 z) as Z2.
  assert (rho0 : 0 <= rho) by apply pow2_ge_0. pose proof (Rabs_pos ((l1 - l2) / s2)) as Z0.
  assert (D16 : delta <= / 16) by lra. assert (D0 : (k + 5) * e <= delta) by (assert (0 <= (k + 5) * e) by nra; nra).
  assert (K1 : k * e <= 1) by nra.
  unfold fl_normal_kl. cbv zeta. destruct (log_diff dt k L s1 s2 k_pos K1 HL R1 R2 P1 P2) as (d & -> & Rd & Bd); [lra|].
  pose proof (scale_part d Rd Bd) as C2. pose proof shift_part as C1.
  assert (C3 : close (Fin d) (ln s1 - ln s2) delta) by (exists d; auto).
  assert (Dl : Rabs (ln s1 - ln s2) <= Lam - 1). { pose proof (Rabs_triang (ln s1) (- ln s2)) as Q. rewrite Rabs_Ropp in Q. unfold Rminus. lra. }
  assert (eL : 5 * e * Lam <= delta). { assert (0 <= k * (e * Lam)) by (apply Rmult_le_pos; [auto|apply Rmult_le_pos; lra]). lra. }
  assert (ZW : z <= W - 1). { replace ((l1 - l2) / s2) with (a - b) by (field; lra). eapply Rle_trans; [apply (Rabs_triang a (- b))|]. rewrite Rabs_Ropp. lra. }
  rewrite <- (pow2_abs ((l1 - l2) / s2)). 
  set (y := z) in *. clearbody y. set (dl := delta) in *. clearbody dl. set (p := rho) in *. clearbody p. set (w := W) in *. clearbody w.
  set (lam := Lam) in *. clearbody lam.
  assert (Ab : Rabs (p - 1) <= p + 1) by (apply Rabs_le; lra).
  assert (U0 : e * 1 <= e * w) by (apply Rmult_le_compat_l; lra). rewrite Rmult_1_r in U0. assert (U2 : e * y <= e * w) by (apply Rmult_le_compat_l; lra). replace (16 * e * w) with (16 * (e * w)) in * by ring. set (u := e * w) in *. clearbody u.
  assert (F0 : 0 <= u * y) by (apply Rmult_le_pos; lra). assert (F1 : u * y <= / 16 * y) by (apply Rmult_le_compat_r; lra).
  assert (F3 : e * y * y <= u * y) by (apply Rmult_le_compat_r; lra). assert (Ke : 0 <= k * e) by (apply Rmult_le_pos; lra). assert (G0 : 0 <= dl * p) by (apply Rmult_le_pos; lra).
  assert (G1 : dl * p <= / 16 * p) by (apply Rmult_le_compat_r; lra). assert (F2 : 5 * e <= dl) by (assert (0 <= k * e) by (apply Rmult_le_pos; lra); lra).
  assert (G3 : 5 * e * p <= dl * p) by (apply Rmult_le_compat_r; lra).
  assert (H1 : e * (u * y) <= / 4 * (u * y)) by (apply Rmult_le_compat_r; lra). assert (H2 : e * (dl * p) <= / 4 * (dl * p)) by (apply Rmult_le_compat_r; lra).
  assert (H3 : e * u <= / 4 * u) by (apply Rmult_le_compat_r; lra). assert (H4 : e * dl <= / 4 * dl) by (apply Rmult_le_compat_r; lra).
  assert (T1 : Rabs (1 / 2 * y ^ 2) = 1 / 2 * y ^ 2) by (apply Rabs_pos_eq; nra).
  assert (T2 : Rabs (1 / 2 * (p - 1)) <= 1 / 2 * (p + 1)) by (rewrite Rabs_mult, (Rabs_pos_eq (1 / 2)) by lra; lra).
  assert (C4 := close_add dt _ _ _ _ _ _ (1 / 2 * y ^ 2 + 1 / 2 * (p + 1) + u * (8 * y + 5) + 4 * dl * (1 + p)) C1 C2 ltac:(lra) ltac:(nra)).
  apply (close_weaken _ _ _ (u * (11 * y + 8) + 6 * dl * (1 + p))) in C4; [|nra].
  assert (T3 : Rabs (1 / 2 * y ^ 2 + 1 / 2 * (p - 1)) <= 1 / 2 * y ^ 2 + 1 / 2 * (p + 1)) by (eapply Rle_trans; [apply Rabs_triang|]; lra).
  eapply close_weaken; [apply (close_sub dt _ _ _ _ _ _ (1 / 2 * y ^ 2 + 1 / 2 * (p + 1) + lam + (u * (11 * y + 8) + 6 * dl * (1 + p)) + dl) C4 C3)|].
  - lra.
  - nra.
  - nra.
Qed.
(** the float result is close to the integral that defines the divergence *)
Theorem C104_normal : exists K, Density.is_kl (Density.gaussian l1 s1) (Density.gaussian l2 s2) K /\
  close (fl_normal_kl dt L M (Fin l1) (Fin s1) (Fin l2) (Fin s2)) K (16 * e * W * (1 + z) + 12 * delta * (1 + rho)).
Proof.
  destruct (Continuous.C48_normal_kl l1 s1 l2 s2 P1 P2) as (K & EK & IK & _). exists K. split; [exact IK|].
  assert (K = 1 / 2 * ((l1 - l2) / s2) ^ 2 + 1 / 2 * (rho - 1) - (ln s1 - ln s2)) as ->; [|apply normal_kl_close].
  unfold ScalarDist.normal_kl in EK. cbn [xlog] in EK. rewrite !rlog_pos in EK by auto. rewrite !xdiv_fin' in EK by lra. rewrite !xsub_fin in EK. cbn in EK. injection EK as <-.
  rewrite <- rho_exp. unfold Rminus. field. lra.
Qed.
End Normal.

Section Laplace.
Variables (dt : dtype) (k : R) (L E : XR -> XR) (l1 s1 l2 s2 : R).
Notation e := (eps dt).
Notation D := (Rabs (l1 - l2)).
Notation q1 := (D / s1).
Notation q2 := (D / s2).
Notation r := (s1 / s2).
Notation Lam := (logs s1 s2).
Notation delta := ((k + 5) * e * Lam).
Hypothesis k_pos : 0 <= k.
Hypothesis HL : accurate dt k L ln (fun s => 0 < s).
Hypothesis HE : accurate dt k E exp (fun x => exp x <= maxpow dt / 2).
Hypothesis Rl1 : repr dt l1.
Hypothesis Rl2 : repr dt l2.
Hypothesis R1 : repr dt s1.
Hypothesis R2 : repr dt s2.
Hypothesis P1 : 0 < s1.
Hypothesis P2 : 0 < s2.
Hypothesis Lam_ok : 16 * (k + 5) * e * Lam <= 1.
Hypothesis range : D + q1 + q2 + r + Lam <= maxpow dt / 64.
Lemma exp_shift x h : Rabs (exp (x + h) - exp x) <= Rabs h * exp (x + Rabs h).
Proof.
  pose proof (exp_pos x) as X. pose proof (exp_pos h) as H. pose proof (exp_ineq1_le h) as A. pose proof (exp_ineq1_le (- h)) as B. rewrite exp_Ropp in B.
  assert (C : exp h - 1 <= h * exp h). { apply Rmult_le_compat_l with (r := exp h) in B; [|lra]. rewrite Rinv_r in B by lra. lra. }
  rewrite exp_plus. replace (exp x * exp h - exp x) with (exp x * (exp h - 1)) by ring. rewrite Rabs_mult, (Rabs_pos_eq (exp x)) by lra.
  rewrite exp_plus. replace (Rabs h * (exp x * exp (Rabs h))) with (exp x * (Rabs h * exp (Rabs h))) by ring. apply Rmult_le_compat_l; [lra|].
  destruct (Rle_lt_dec 0 h) as [Hh|Hh].
  - rewrite (Rabs_pos_eq h) by auto. rewrite Rabs_pos_eq by lra. auto.
  - rewrite (Rabs_left h) by auto. assert (exp h < 1) by (rewrite <- exp_0; apply exp_increasing; auto). rewrite Rabs_left by lra.
    assert (1 <= exp (- h)) by (rewrite <- exp_0; left; apply exp_increasing; lra). nra.
Qed.
(** the distance divided by a scale *)
Lemma quotient s : 0 < s -> D / s <= maxpow dt / 64 ->
  exists x, fsub dt (Fin l1) (Fin l2) = Fin x /\
    close (fdiv dt (xabs (Fin x)) (Fin s)) (D / s) (e * (9 / 4 * (D / s) + 1)) /\ close (fdiv dt (xopp (xabs (Fin x))) (Fin s)) (- (D / s)) (e * (9 / 4 * (D / s) + 1)).
Proof.
  intros Hs Hq. pose proof (eps_pos dt) as E0. pose proof (eps_le dt) as E4. pose proof (maxpow_pos dt) as M0.
  assert (A1 : 0 <= Rabs (ln s1)) by apply Rabs_pos. assert (A2 : 0 <= Rabs (ln s2)) by apply Rabs_pos.
  assert (L1 : Lam = 1 + Rabs (ln s1) + Rabs (ln s2)) by reflexivity. pose proof (Rabs_pos (l1 - l2)) as D0.
  assert (Q1 : 0 <= q1) by (apply Rmult_le_pos; [auto|left; apply Rinv_0_lt_compat; auto]). assert (Q2 : 0 <= q2) by (apply Rmult_le_pos; [auto|left; apply Rinv_0_lt_compat; auto]).
  assert (Rr : 0 <= r) by (left; apply Rdiv_lt_0_compat; auto).
  unfold fsub. rewrite xsub_fin. destruct (round_fin dt (l1 - l2)) as (x & -> & Rx & _ & Ex); [lra|]. exists x. split; [auto|].
  pose proof (sub_rel dt l1 l2 Rl1 Rl2) as B. rewrite <- Ex in B.
  assert (Bx : Rabs (Rabs x - D) <= e * D) by (eapply Rle_trans; [apply Rabs_triang_inv2|auto]).
  assert (Qs : 0 <= D / s) by (apply Rmult_le_pos; [auto|left; apply Rinv_0_lt_compat; auto]).
  assert (Bq : Rabs (Rabs x / s - D / s) <= e * (D / s)).
  { replace (Rabs x / s - D / s) with ((Rabs x - D) / s) by (field; lra). unfold Rdiv at 1. rewrite Rabs_mult, (Rabs_pos_eq (/ s)) by (left; apply Rinv_0_lt_compat; auto).
    replace (e * (D / s)) with (e * D * / s) by (field; lra). apply Rmult_le_compat_r; [left; apply Rinv_0_lt_compat; auto|auto]. }
  assert (C : close (Fin (Rabs x / s)) (D / s) (e * (D / s))) by (eexists; split; [reflexivity|auto]).
  assert (Eq : e * (D / s) <= / 4 * (D / s)) by (apply Rmult_le_compat_r; auto).
  cbn [xabs xopp]. unfold fdiv. rewrite !xdiv_fin' by lra. split.
  - eapply close_weaken; [apply (round_from dt _ (Fin (Rabs x / s)) _ _ (5 / 4 * (D / s)) C)|]; auto; try (rewrite (Rabs_pos_eq (D / s)) by auto; lra); lra.
  - replace (- Rabs x / s) with (- (Rabs x / s)) by (field; lra). apply close_opp in C. cbn [xopp] in C.
    eapply close_weaken; [apply (round_from dt _ (Fin (- (Rabs x / s))) _ _ (5 / 4 * (D / s)) C)|]; auto; try (rewrite Rabs_Ropp, (Rabs_pos_eq (D / s)) by auto; lra); lra.
Qed.
Lemma laplace_kl_close :
  close (fl_laplace_kl dt L E (Fin l1) (Fin s1) (Fin l2) (Fin s2)) (- (ln s1 - ln s2) + q2 - 1 + r * exp (- q1))
    (12 * delta * (1 + r) + 10 * e * q2).
Proof.
  pose proof (eps_pos dt) as E0. pose proof (eps_le dt) as E4. pose proof (maxpow_pos dt) as M0.
  assert (A1 : 0 <= Rabs (ln s1)) by apply Rabs_pos. assert (A2 : 0 <= Rabs (ln s2)) by apply Rabs_pos.
  assert (L1 : Lam = 1 + Rabs (ln s1) + Rabs (ln s2)) by reflexivity. pose proof (Rabs_pos (l1 - l2)) as D0.
  assert (Q1 : 0 <= q1) by (apply Rmult_le_pos; [auto|left; apply Rinv_0_lt_compat; auto]). assert (Q2 : 0 <= q2) by (apply Rmult_le_pos; [auto|left; apply Rinv_0_lt_compat; auto]).
  assert (Rr : 0 < r) by (apply Rdiv_lt_0_compat; auto).
  assert (Ke : 0 <= k * e) by (apply Rmult_le_pos; lra). assert (KeL : 0 <= k * e * (Lam - 1)) by (apply Rmult_le_pos; lra).
  assert (eL : 0 <= e * (Lam - 1)) by (apply Rmult_le_pos; lra).
  assert (D16 : delta <= / 16) by lra. assert (D1 : (k + 5) * e <= delta) by lra.
  assert (eLd : 5 * e * Lam + k * e <= delta) by lra.
  assert (K1 : k * e <= 1) by lra.
  unfold fl_laplace_kl. cbv zeta. destruct (log_diff dt k L s1 s2 k_pos K1 HL R1 R2 P1 P2) as (d & -> & Rd & Bd); [lra|].
  destruct (quotient s2 P2 ltac:(lra)) as (x & Ex & C2 & _). destruct (quotient s1 P1 ltac:(lra)) as (x' & Ex' & _ & C1).
  rewrite Ex in Ex'. injection Ex' as <-. rewrite Ex.
  assert (Cd : close (Fin d) (ln s1 - ln s2) delta) by (exists d; auto).
  assert (Dl : Rabs (ln s1 - ln s2) <= Lam - 1). { pose proof (Rabs_triang (ln s1) (- ln s2)) as Q. rewrite Rabs_Ropp in Q. unfold Rminus. lra. }
  assert (Er : exp (ln s1 - ln s2) = r) by (rewrite <- ln_div by auto; apply exp_ln; auto).
  set (dl := delta) in *. clearbody dl. set (lam := Lam) in *. clearbody lam. set (t := ln s1 - ln s2) in *. clearbody t.
  set (p := q1) in *. clearbody p. set (q := q2) in *. clearbody q. set (ra := r) in *. clearbody ra.
  assert (ep : e * p <= / 80 * p). { apply Rmult_le_compat_r; [auto|]. lra. }
  assert (eq : 0 <= e * q) by (apply Rmult_le_pos; lra). assert (eq' : e * q <= / 80 * q). { apply Rmult_le_compat_r; [auto|]. lra. } assert (ep0 : 0 <= e * p) by (apply Rmult_le_pos; lra).
  (* the exponential *)
  assert (CE : close (E (fadd dt (fdiv dt (xopp (xabs (Fin x))) (Fin s1)) (Fin d))) (ra * exp (- p)) (7 * dl * (1 + ra))).
  { assert (Ca := close_add dt _ _ _ _ _ _ (2 * (p + lam)) C1 Cd ltac:(rewrite Rabs_Ropp, (Rabs_pos_eq p) by auto; lra) ltac:(lra)).
    destruct Ca as (y & Ey & By). assert (Ry : repr dt y) by apply (fround_value dt _ _ Ey). rewrite Ey.
    pose (h := y - (- p + t)). assert (Hh : Rabs h <= 2 * dl + 5 * (e * p)) by (unfold h; lra).
    assert (Yh : exp y = ra * exp (- p + h)). { rewrite <- Er, <- exp_plus. f_equal. unfold h. ring. }
    assert (Hb : exp (- p + Rabs h) <= 5 / 4 * exp (- (3 / 4 * p))).
    { apply Rle_trans with (exp (2 * dl + - (3 / 4 * p))).
      - assert (Q : - p + Rabs h <= 2 * dl + - (3 / 4 * p)) by lra. destruct Q as [Q| ->]; [left; apply exp_increasing; auto|lra].
      - rewrite exp_plus. apply Rmult_le_compat_r; [left; apply exp_pos|]. assert (N : Rabs (exp (2 * dl) - 1) <= 2 * Rabs (2 * dl)) by (apply exp_near; rewrite Rabs_pos_eq; lra).
        rewrite (Rabs_pos_eq (2 * dl)) in N by lra. apply Rabs_le_inv in N. lra. }
    assert (H1 : exp (- (3 / 4 * p)) <= 1) by (rewrite <- exp_0; destruct (Req_dec p 0) as [-> |Np]; [replace (- (3 / 4 * 0)) with 0 by ring; lra|left; apply exp_increasing; lra]).
    pose proof (exp_pos (- (3 / 4 * p))) as H0.
    assert (Hp : 3 / 4 * p * exp (- (3 / 4 * p)) <= 1).
    { rewrite exp_Ropp. pose proof (exp_ineq1_le (3 / 4 * p)) as I. pose proof (exp_pos (3 / 4 * p)) as I0.
      apply Rmult_le_reg_r with (exp (3 / 4 * p)); [auto|]. rewrite Rmult_assoc, Rinv_l by lra. lra. }
    set (v := exp (- (3 / 4 * p))) in *. clearbody v.
    assert (Hs : Rabs h * exp (- p + Rabs h) <= 5 * dl).
    { apply Rle_trans with ((2 * dl + 5 * (e * p)) * (5 / 4 * v)); [apply Rmult_le_compat; auto; [apply Rabs_pos|left; apply exp_pos]|].
      assert (e * (3 / 4 * p * v) <= e * 1) by (apply Rmult_le_compat_l; lra). assert (dl * v <= dl * 1) by (apply Rmult_le_compat_l; lra). lra. }
    pose proof (exp_shift (- p) h) as S.
    assert (Up : exp (- p + h) <= 5 / 4). { apply Rle_trans with (exp (- p + Rabs h)); [|lra]. pose proof (Rle_abs h) as Q. destruct Q as [Q|Q]; [left; apply exp_increasing; lra|rewrite <- Q; lra]. }
    pose proof (exp_pos (- p + h)) as Up0.
    assert (Yu : exp y <= 5 / 4 * ra) by (rewrite Yh, Rmult_comm; apply Rmult_le_compat_r; lra).
    destruct (HE y Ry) as (w & Ew & Rw & Bw); [lra|]. exists w. split; [auto|]. pose proof (tiny_le_eps dt) as T. rewrite (Rabs_pos_eq (exp y)) in Bw by (left; apply exp_pos).
    assert (k * e * exp y <= k * e * (5 / 4 * ra)) by (apply Rmult_le_compat_l; auto).
    assert (k * e * ra <= dl * ra) by (apply Rmult_le_compat_r; lra).
    replace (w - ra * exp (- p)) with ((w - exp y) + ra * (exp (- p + h) - exp (- p))) by (rewrite Yh; ring).
    eapply Rle_trans; [apply Rabs_triang|]. rewrite Rabs_mult, (Rabs_pos_eq ra) by lra.
    assert (ra * Rabs (exp (- p + h) - exp (- p)) <= ra * (5 * dl)) by (apply Rmult_le_compat_l; lra).
    assert (0 <= dl * ra) by (apply Rmult_le_pos; lra). lra. }
  assert (Pr : 0 <= ra * exp (- p) <= ra). { pose proof (exp_pos (- p)). assert (exp (- p) <= 1) by (rewrite <- exp_0; destruct (Req_dec p 0) as [-> |Np]; [rewrite Ropp_0; lra|left; apply exp_increasing; lra]). nra. }
  set (pr := ra * exp (- p)) in *. clearbody pr.
  assert (G0 : 0 <= dl * ra) by (apply Rmult_le_pos; lra). assert (G1 : dl * ra <= / 16 * ra) by (apply Rmult_le_compat_r; lra).
  assert (G2 : 5 * e * ra <= dl * ra) by (apply Rmult_le_compat_r; lra).
  apply close_opp in Cd.
  assert (C3 := close_add dt _ _ _ _ _ _ (2 * (lam + q)) Cd C2 ltac:(rewrite Rabs_Ropp, (Rabs_pos_eq q) by auto; lra) ltac:(lra)).
  apply (close_weaken _ _ _ (2 * dl + 5 * (e * q))) in C3; [|lra].
  assert (T3 : Rabs (- t + q) <= lam - 1 + q) by (eapply Rle_trans; [apply Rabs_triang|]; rewrite Rabs_Ropp, (Rabs_pos_eq q) by auto; lra).
  assert (C4 := close_sub dt _ _ _ _ _ _ (2 * (lam + q)) C3 (close_exact 1) ltac:(rewrite Rabs_R1; lra) ltac:(lra)).
  apply (close_weaken _ _ _ (3 * dl + 7 * (e * q))) in C4; [|lra].
  assert (T4 : Rabs (- t + q - 1) <= lam + q) by (unfold Rminus at 1; eapply Rle_trans; [apply Rabs_triang|]; rewrite Rabs_Ropp, Rabs_R1; lra).
  eapply close_weaken; [apply (close_add dt _ _ _ _ _ _ (3 * (lam + q + ra)) C4 CE)|].
  - rewrite (Rabs_pos_eq pr) by lra. lra.
  - lra.
  - lra.
Qed.
Theorem C104_laplace : exists K, Density.is_kl (Density.laplacian l1 s1) (Density.laplacian l2 s2) K /\
  close (fl_laplace_kl dt L E (Fin l1) (Fin s1) (Fin l2) (Fin s2)) K (12 * delta * (1 + r) + 10 * e * q2).
Proof.
  destruct (Laplace.C49_laplace_kl l1 s1 l2 s2 P1 P2) as (K & EK & IK & _). exists K. split; [exact IK|].
  assert (K = - (ln s1 - ln s2) + q2 - 1 + r * exp (- q1)) as ->; [|apply laplace_kl_close].
  unfold ScalarDist.laplace_kl in EK. cbn [xlog] in EK. rewrite !rlog_pos in EK by auto. rewrite !xsub_fin in EK. cbn [xabs xopp] in EK. rewrite !xdiv_fin' in EK by lra. cbn in EK. injection EK as <-.
  assert (Er : exp (ln s1 - ln s2) = r) by (rewrite <- ln_div by auto; apply exp_ln, Rdiv_lt_0_compat; auto).
  rewrite exp_plus, Er. replace (- Rabs (l1 - l2) / s1) with (- q1) by (field; lra). ring.
Qed.
End Laplace.

(** Uniform: accurate when the supports are nested, +inf exactly when they are not *)
Section Uniform.
Variables (dt : dtype) (k : R) (L : XR -> XR) (a1 b1 a2 b2 : R).
Notation e := (eps dt).
Hypothesis k_pos : 0 <= k.
Hypothesis k_ok : k * e <= 1.
Hypothesis HL : accurate dt k L ln (fun s => 0 < s).
Hypothesis Ra1 : repr dt a1.
Hypothesis Rb1 : repr dt b1.
Hypothesis Ra2 : repr dt a2.
Hypothesis Rb2 : repr dt b2.
Hypothesis P1 : a1 < b1.
Hypothesis P2 : a2 < b2.
Lemma width a b : repr dt a -> repr dt b -> a < b -> b - a <= maxpow dt / 4 ->
  exists w, fsub dt (Fin b) (Fin a) = Fin w /\ repr dt w /\ 0 < w /\ Rabs (ln w - ln (b - a)) <= 2 * e.
Proof.
  intros Ra Rb H M. pose proof (eps_pos dt) as E0. pose proof (eps_le dt) as E4. unfold fsub. rewrite xsub_fin.
  destruct (round_fin dt (b - a)) as (w & -> & Rw & _ & Ew); [rewrite Rabs_pos_eq by lra; pose proof (maxpow_pos dt); lra|].
  exists w. split; [auto|]. split; [auto|]. pose proof (sub_rel dt b a Rb Ra) as B. rewrite <- Ew, (Rabs_pos_eq (b - a)) in B by lra.
  apply ln_ratio; lra.
Qed.
Theorem C104_uniform :
  (a2 <= a1 /\ b1 <= b2 -> b2 - a2 <= maxpow dt / 4 -> logs (b2 - a2) (b1 - a1) <= maxpow dt / 32 ->
   exists K, Density.is_kl (Density.uniform_density a1 b1) (Density.uniform_density a2 b2) K /\
     close (fl_uniform_kl dt L (Fin a1) (Fin b1) (Fin a2) (Fin b2)) K (3 * (k + 5) * e * logs (b2 - a2) (b1 - a1))) /\
  (~ (a2 <= a1 /\ b1 <= b2) -> fl_uniform_kl dt L (Fin a1) (Fin b1) (Fin a2) (Fin b2) = PInf).
Proof.
  pose proof (eps_pos dt) as E0. pose proof (eps_le dt) as E4. unfold fl_uniform_kl. split.
  - intros N Hw Hl. destruct (Uniform.C47_uniform_kl a1 b1 a2 b2 P1 P2) as (U & _). destruct (U N) as (K & _ & EK & IK & _). exists K. split; [exact IK|].
    destruct N as (Na & Nb). rewrite (proj2 (xleb_fin a2 a1) Na), (proj2 (xleb_fin b1 b2) Nb). cbn [andb].
    destruct (width a2 b2 Ra2 Rb2 P2 Hw) as (w2 & -> & Rw2 & W2 & B2). destruct (width a1 b1 Ra1 Rb1 P1 ltac:(lra)) as (w1 & -> & Rw1 & W1 & B1).
    assert (LL : logs w2 w1 <= logs (b2 - a2) (b1 - a1) + 4 * e).
    { unfold logs. replace (ln w2) with ((ln w2 - ln (b2 - a2)) + ln (b2 - a2)) by ring. replace (ln w1) with ((ln w1 - ln (b1 - a1)) + ln (b1 - a1)) by ring.
      pose proof (Rabs_triang (ln w2 - ln (b2 - a2)) (ln (b2 - a2))). pose proof (Rabs_triang (ln w1 - ln (b1 - a1)) (ln (b1 - a1))). lra. }
    assert (G1 : 1 <= logs (b2 - a2) (b1 - a1)) by (unfold logs; pose proof (Rabs_pos (ln (b2 - a2))); pose proof (Rabs_pos (ln (b1 - a1))); lra).
    destruct (log_diff dt k L w2 w1 k_pos k_ok HL Rw2 Rw1 W2 W1) as (d & -> & Rd & Bd); [pose proof (maxpow_ge_32 dt); lra|].
    exists d. split; [auto|]. rewrite EK, ln_div by lra.
    replace (d - (ln (b2 - a2) - ln (b1 - a1))) with ((d - (ln w2 - ln w1)) + ((ln w2 - ln (b2 - a2)) - (ln w1 - ln (b1 - a1)))) by ring.
    eapply Rle_trans; [apply Rabs_triang|]. assert (T : Rabs (ln w2 - ln (b2 - a2) - (ln w1 - ln (b1 - a1))) <= 4 * e) by (unfold Rminus at 1; eapply Rle_trans; [apply Rabs_triang|]; rewrite Rabs_Ropp; lra).
    set (lg := logs (b2 - a2) (b1 - a1)) in *. clearbody lg.
    assert (Ke : 0 <= k * e) by (apply Rmult_le_pos; lra).
    assert ((k + 5) * e * logs w2 w1 <= (k + 5) * e * (2 * lg)) by (apply Rmult_le_compat_l; lra).
    assert (0 <= k * e * (lg - 1)) by (apply Rmult_le_pos; lra). assert (0 <= e * (lg - 1)) by (apply Rmult_le_pos; lra).
    lra.
  - intros N. destruct (xleb (Fin a2) (Fin a1)) eqn:Q1; cbn [andb]; [|auto]. destruct (xleb (Fin b1) (Fin b2)) eqn:Q2; [|auto].
    exfalso. apply N. apply xleb_fin in Q1. apply xleb_fin in Q2. auto.
Qed.
End Uniform.

(** a distribution has divergence exactly 0 from itself *)
Theorem C104_self dt (L E M : XR -> XR) l s v : repr dt l -> repr dt v -> 0 < s -> L (Fin s) = Fin v -> E (Fin 0) = Fin 1 -> M (Fin 0) = Fin 0 ->
  (Rabs (l / s) <= maxpow dt / 2 -> fl_normal_kl dt L M (Fin l) (Fin s) (Fin l) (Fin s) = Fin 0) /\
  fl_laplace_kl dt L E (Fin l) (Fin s) (Fin l) (Fin s) = Fin 0.
Proof.
  intros Rl Rv Hs EL EE EM.
  assert (Z : forall x, fsub dt (Fin x) (Fin x) = Fin 0) by (intros x; unfold fsub; rewrite xsub_fin, Rminus_diag_eq by auto; apply fround_0).
  assert (F0 : forall r, repr dt r -> fround dt (Fin r) = Fin r) by (intros; apply fround_repr; auto).
  split.
  - intros H. unfold fl_normal_kl. cbv zeta. rewrite EL, Z. unfold fdiv. rewrite xdiv_fin' by lra. destruct (round_fin dt (l / s) H) as (x & -> & _). rewrite Z.
    unfold fmul, fadd, fsub. rewrite !xmul_fin, !Rmult_0_r, !fround_0, EM, xmul_fin, !Rmult_0_r, fround_0, xadd_fin, Rplus_0_r, fround_0, xsub_fin, Rminus_0_r. apply fround_0.
  - unfold fl_laplace_kl. cbv zeta. rewrite EL, !Z. cbn [xabs xopp]. rewrite Rabs_R0, Ropp_0. unfold fdiv. rewrite !xdiv_fin' by lra. unfold Rdiv. rewrite Rmult_0_l, fround_0.
    unfold fadd, fsub. rewrite !xadd_fin, Rplus_0_r, fround_0, EE, xsub_fin. replace (0 - 1) with (- (1)) by ring. rewrite (F0 (- (1))) by (apply repr_opp, repr_1).
    rewrite xadd_fin, Rplus_opp_l. apply fround_0.
Qed.
(** Normal: rounding never makes the divergence negative, as long as expm1(x) is not rounded below x *)
Theorem C104_normal_nonnegative dt k (L M : XR -> XR) l1 s1 l2 s2 : 0 <= k -> k * eps dt <= 1 -> accurate dt k L ln (fun s => 0 < s) ->
  (forall x, repr dt x -> fle (Fin x) (M (Fin x))) -> repr dt s1 -> repr dt s2 -> 0 < s1 -> 0 < s2 -> logs s1 s2 <= maxpow dt / 8 ->
  fl_normal_kl dt L M (Fin l1) (Fin s1) (Fin l2) (Fin s2) = NaN \/ fle (Fin 0) (fl_normal_kl dt L M (Fin l1) (Fin s1) (Fin l2) (Fin s2)).
Proof.
  intros k0 k1 HL HM R1 R2 P1 P2 HD. pose proof (eps_pos dt) as E0. pose proof (eps_le dt) as E4. pose proof (maxpow_pos dt) as M0.
  unfold fl_normal_kl. cbv zeta. destruct (log_diff dt k L s1 s2 k0 k1 HL R1 R2 P1 P2 HD) as (d & -> & Rd & Bd).
  assert (Dm : Rabs d < maxpow dt / 2).
  { assert (Dl : Rabs (ln s1 - ln s2) <= logs s1 s2 - 1). { unfold logs. pose proof (Rabs_triang (ln s1) (- ln s2)) as Q. rewrite Rabs_Ropp in Q. unfold Rminus. lra. }
    assert (G1 : 1 <= logs s1 s2) by (unfold logs; pose proof (Rabs_pos (ln s1)); pose proof (Rabs_pos (ln s2)); lra).
    replace d with ((d - (ln s1 - ln s2)) + (ln s1 - ln s2)) by ring. eapply Rle_lt_trans; [apply Rabs_triang|].
    assert ((k + 5) * eps dt * logs s1 s2 <= 9 / 4 * logs s1 s2) by (apply Rmult_le_compat_r; lra). lra. }
  destruct (double_exact dt d Rd) as (Rdd & ->). { rewrite Rabs_mult, (Rabs_pos_eq 2) by lra. lra. }
  set (z := fsub dt (fdiv dt (Fin l1) (Fin s2)) (fdiv dt (Fin l2) (Fin s2))).
  assert (Hq : fmul dt (Fin (1 / 2)) (fmul dt z z) = NaN \/ fle (Fin 0) (fmul dt (Fin (1 / 2)) (fmul dt z z))).
  { assert (Sq : fmul dt z z = NaN \/ fle (Fin 0) (fmul dt z z)).
    { unfold fmul. destruct z as [x| | |]; [right|right|right|left; reflexivity]; try reflexivity. rewrite xmul_fin. apply fround_nonneg, fle_fin. nra. }
    destruct Sq as [-> |Sq]; [left; reflexivity|]. destruct (fmul dt z z) as [x| | |]; [right|right|discriminate Sq|left; reflexivity].
    - unfold fmul. rewrite xmul_fin. apply fround_nonneg, fle_fin. apply fle_fin in Sq. lra.
    - unfold fmul. cbn [xmul]. unfold inf_times. destruct (Rlt_dec 0 (1 / 2)); [reflexivity|lra]. }
  pose proof (HM _ Rdd) as Hm.
  assert (Hh : fle (Fin d) (fmul dt (Fin (1 / 2)) (M (Fin (2 * d))))).
  { unfold fmul. destruct (M (Fin (2 * d))) as [y| | |]; try discriminate Hm.
    - rewrite xmul_fin. rewrite <- (fround_repr dt d Rd) at 1. apply fround_mono, fle_fin. apply fle_fin in Hm. lra.
    - cbn [xmul]. unfold inf_times. destruct (Rlt_dec 0 (1 / 2)); [reflexivity|lra]. }
  destruct Hq as [-> |Hq]; [left; reflexivity|]. right.
  set (u := fmul dt (Fin (1 / 2)) (fmul dt z z)) in *. set (v := fmul dt (Fin (1 / 2)) (M (Fin (2 * d)))) in *. clearbody u v.
  assert (Hs : fle (Fin d) (fadd dt u v)).
  { rewrite <- (fround_repr dt d Rd). apply fround_mono. destruct u as [x| | |], v as [y| | |]; try discriminate; try reflexivity.
    rewrite xadd_fin. apply fle_fin. apply fle_fin in Hq. apply fle_fin in Hh. lra. }
  destruct (fadd dt u v) as [x| | |]; try discriminate; try reflexivity. unfold fsub. rewrite xsub_fin. apply fround_nonneg, fle_fin. apply fle_fin in Hs. lra.
Qed.

(** ** Limits *)
(** adjacent locations whose quotients round to the same float: the divergence is computed as 0 although it exceeds 2^70 *)
Theorem C104_normal_cancellation_refuted (M : XR -> XR) : M (Fin 0) = Fin 0 ->
  exists l1 l2 s K, repr float32 l1 /\ repr float32 l2 /\ repr float32 s /\ 0 < s /\
    fl_normal_kl float32 (fun a => fround float32 (xlog a)) M (Fin l1) (Fin s) (Fin l2) (Fin s) = Fin 0 /\
    Density.is_kl (Density.gaussian l1 s) (Density.gaussian l2 s) K /\ bpow radix2 70 <= K.
Proof.
  intros HM.
  set (xa := @B754_finite 24 128 false 12582913 38 eq_refl). set (xb := @B754_finite 24 128 false 12582914 38 eq_refl). set (xs := @B754_finite 24 128 false 12582912 (-23) eq_refl).
  set (xq := @B754_finite 24 128 false 8388609 38 eq_refl).
  assert (RB : forall m ex H, repr float32 (B2R (@B754_finite 24 128 false m ex H))).
  { intros m ex H. split; [apply (generic_format_B2R 24 128)|apply (abs_B2R_lt_emax 24 128)]. }
  assert (Es : B2R xs = 3 / 2) by (cbn; unfold F2R; cbn; lra).
  assert (Ea : fdiv float32 (Fin (B2R xa)) (Fin (B2R xs)) = Fin (B2R xq)).
  { change (Fin (B2R xa)) with (of_ieee float32 xa). change (Fin (B2R xs)) with (of_ieee float32 xs). rewrite fdiv_ieee by discriminate.
    change (Fin (B2R xq)) with (of_ieee float32 xq). apply (f_equal (of_ieee float32)). apply B2SF_inj. vm_compute. reflexivity. }
  assert (Eb : fdiv float32 (Fin (B2R xb)) (Fin (B2R xs)) = Fin (B2R xq)).
  { change (Fin (B2R xb)) with (of_ieee float32 xb). change (Fin (B2R xs)) with (of_ieee float32 xs). rewrite fdiv_ieee by discriminate.
    change (Fin (B2R xq)) with (of_ieee float32 xq). apply (f_equal (of_ieee float32)). apply B2SF_inj. vm_compute. reflexivity. }
  assert (Dd : B2R xa - B2R xb = - bpow radix2 38) by (unfold xa, xb; cbn [B2R]; unfold F2R; cbn [Fnum Fexp cond_Zopp]; lra).
  assert (S0 : 0 < B2R xs) by lra.
  destruct (Continuous.C48_normal_kl (B2R xa) (B2R xs) (B2R xb) (B2R xs) S0 S0) as (K & EK & IK & _).
  exists (B2R xa), (B2R xb), (B2R xs), K. split; [apply RB|]. split; [apply RB|]. split; [apply RB|]. split; [auto|].
  assert (Z : forall x, fsub float32 (Fin x) (Fin x) = Fin 0) by (intros x; unfold fsub; rewrite xsub_fin, Rminus_diag_eq by auto; apply fround_0).
  split.
  - unfold fl_normal_kl. cbv zeta. rewrite Ea, Eb, Z.
    cbn [xlog]. rewrite rlog_pos by auto. destruct (round_fin float32 (ln (B2R xs))) as (v & -> & _).
    { rewrite Es. pose proof (maxpow_ge_32 float32). assert (0 < ln (3 / 2)) by (rewrite <- ln_1; apply ln_increasing; lra). assert (ln (3 / 2) < 1) by (apply exp_lt_inv; rewrite exp_ln by lra; pose proof (exp_ineq1 1 ltac:(lra)); lra). rewrite Rabs_pos_eq; lra. }
    rewrite Z. unfold fmul, fadd, fsub. rewrite !xmul_fin, !Rmult_0_r, !fround_0, HM, xmul_fin, !Rmult_0_r, fround_0, xadd_fin, Rplus_0_r, fround_0, xsub_fin, Rminus_0_r. apply fround_0.
  - split; [exact IK|]. clear IK Ea Eb. revert EK Dd Es S0. generalize (B2R xa) (B2R xb) (B2R xs). intros ra rb rs EK Dd Es S0. unfold ScalarDist.normal_kl in EK. cbn [xlog] in EK. rewrite !rlog_pos in EK by auto. rewrite !xdiv_fin' in EK by lra. rewrite !xsub_fin in EK.
    rewrite (Rminus_diag_eq (ln rs)) in EK by auto. rewrite xmul_fin, Rmult_0_r in EK. cbn in EK. rewrite exp_0 in EK. injection EK as <-.
    replace (ra / rs - rb / rs) with ((ra - rb) / rs) by (field; lra). rewrite Dd, Es.
    replace (bpow radix2 70) with (bpow radix2 38 * bpow radix2 38 * / 64) by (rewrite <- bpow_plus; change (/ 64) with (bpow radix2 (-6)); rewrite <- bpow_plus; reflexivity).
    pose proof (bpow_gt_0 radix2 38). set (g := bpow radix2 38) in *. clearbody g. nra.
Qed.
(** the quotient overflows: the divergence of a distribution from itself is NaN *)
Theorem C104_normal_self_refuted (L M : XR -> XR) :
  repr float32 (bpow radix2 100) /\ repr float32 (bpow radix2 (-100)) /\
  fl_normal_kl float32 L M (Fin (bpow radix2 100)) (Fin (bpow radix2 (-100))) (Fin (bpow radix2 100)) (Fin (bpow radix2 (-100))) = NaN.
Proof.
  split; [apply repr_pow; cbn; unfold emin; cbn; lia|]. split; [apply repr_pow; cbn; unfold emin; cbn; lia|].
  unfold fl_normal_kl. cbv zeta. unfold fdiv. rewrite xdiv_fin' by (apply Rgt_not_eq, bpow_gt_0).
  assert (bpow radix2 100 / bpow radix2 (-100) = bpow radix2 200) as ->. { change (-100)%Z with (- (100))%Z. rewrite (bpow_opp radix2 100). unfold Rdiv. rewrite Rinv_inv, <- bpow_plus. reflexivity. }
  assert (O : fround float32 (Fin (bpow radix2 200)) = PInf).
  { cbn [fround]. assert (Fm : rnd float32 (bpow radix2 200) = bpow radix2 200) by (apply round_generic; [apply valid_rnd_N|apply F_bpow; cbn; unfold emin; cbn; lia]).
    rewrite Fm, Rabs_pos_eq by apply bpow_ge_0. destruct (Rlt_dec _ _) as [Q|_].
    - exfalso. revert Q. apply Rle_not_lt. apply bpow_le. cbn. lia.
    - destruct (Rlt_dec _ 0) as [Q|_]; [|reflexivity]. exfalso. pose proof (bpow_gt_0 radix2 200). lra. }
  rewrite O. change (fsub float32 PInf PInf) with NaN. reflexivity.
Qed.

(** ** The premises are met: correctly rounded library functions, Normal and Laplace (4, 2) against (2, 4), Uniform(1, 2) against (0, 4), in float32 *)
Definition r_expm1 (dt : dtype) (x : XR) : XR := fround dt (xsub (xexp x) (Fin 1)).
Lemma expm1_accurate dt : accurate dt 1 (r_expm1 dt) (fun x => exp x - 1) (fun x => exp x <= maxpow dt / 2).
Proof.
  intros x Rx Hx. unfold r_expm1. cbn [xexp]. rewrite xsub_fin. pose proof (exp_pos x). pose proof (maxpow_ge_32 dt).
  destruct (round_fin dt (exp x - 1)) as (r & Er & _); [apply Rabs_le; lra|]. exists r. split; [auto|]. eapply rounded_accurate; eauto.
Qed.
Lemma expm1_above dt x : repr dt x -> fle (Fin x) (r_expm1 dt (Fin x)).
Proof.
  intros Rx. unfold r_expm1. cbn [xexp]. rewrite xsub_fin. rewrite <- (fround_repr dt x Rx) at 1. apply fround_mono, fle_fin. pose proof (exp_ineq1_le x). lra.
Qed.
Example ex_kl :
  let log := fun a => fround float32 (xlog a) in
  (exists K, Density.is_kl (Density.gaussian 4 2) (Density.gaussian 2 4) K /\ close (fl_normal_kl float32 log (r_expm1 float32) (Fin 4) (Fin 2) (Fin 2) (Fin 4)) K (/ 10000)) /\
  fle (Fin 0) (fl_normal_kl float32 log (r_expm1 float32) (Fin 4) (Fin 2) (Fin 2) (Fin 4)) /\
  (exists K, Density.is_kl (Density.laplacian 4 2) (Density.laplacian 2 4) K /\ close (fl_laplace_kl float32 log (r_exp float32) (Fin 4) (Fin 2) (Fin 2) (Fin 4)) K (/ 10000)) /\
  (exists K, Density.is_kl (Density.uniform_density 1 2) (Density.uniform_density 0 4) K /\ close (fl_uniform_kl float32 log (Fin 1) (Fin 2) (Fin 0) (Fin 4)) K (/ 10000)).
Proof.
  cbv zeta. pose proof ln2_bounds as L2.
  assert (R4 : repr float32 4) by (change 4 with (bpow radix2 2); apply repr_pow; cbn; unfold emin; cbn; lia).
  assert (R2 : repr float32 2) by (change 2 with (bpow radix2 1); apply repr_pow; cbn; unfold emin; cbn; lia).
  assert (MM : 65536 <= maxpow float32) by (change 65536 with (bpow radix2 16); apply bpow_le; cbn; lia).
  assert (E32 : eps float32 = / 2 ^ 24) by (cbn; lra).
  assert (L4 : ln 4 = 2 * ln 2) by (replace 4 with (2 * 2) by ring; rewrite ln_mult by lra; ring).
  assert (LG : 1 <= logs 2 4 <= 4) by (unfold logs; rewrite L4, (Rabs_pos_eq (ln 2)), (Rabs_pos_eq (2 * ln 2)) by lra; lra).
  assert (LU : 1 <= logs (4 - 0) (2 - 1) <= 3). { unfold logs. replace (4 - 0) with 4 by ring. replace (2 - 1) with 1 by ring. rewrite ln_1, Rabs_R0, L4, Rabs_pos_eq by lra. lra. }
  assert (A1 : Rabs (4 / 4) = 1) by (rewrite Rabs_pos_eq; lra). assert (A2 : Rabs (2 / 4) = / 2) by (rewrite Rabs_pos_eq; lra). assert (A3 : Rabs ((4 - 2) / 4) = / 2) by (rewrite Rabs_pos_eq; lra).
  assert (A4 : (2 / 4) ^ 2 = / 4) by lra. assert (A5 : Rabs (4 - 2) = 2) by (rewrite Rabs_pos_eq; lra).
  split; [|split; [|split]].
  - destruct (C104_normal float32 1 (fun a => fround float32 (xlog a)) (r_expm1 float32) 4 2 2 4) as (K & IK & C); auto using log_accurate, expm1_accurate; rewrite ?A1, ?A2, ?A3, ?A4, ?E32; try lra.
    exists K. split; [exact IK|]. eapply close_weaken; [exact C|]. rewrite ?A1, ?A2, ?A3, ?A4, ?E32. lra.
  - destruct (C104_normal_nonnegative float32 1 (fun a => fround float32 (xlog a)) (r_expm1 float32) 4 2 2 4) as [N|N]; auto using log_accurate, expm1_above; rewrite ?E32; try lra.
    destruct (C104_normal float32 1 (fun a => fround float32 (xlog a)) (r_expm1 float32) 4 2 2 4) as (K & IK & C); auto using log_accurate, expm1_accurate; rewrite ?A1, ?A2, ?A3, ?A4, ?E32; try lra.
    destruct C as (r & Er & _). rewrite Er in N. discriminate.
  - destruct (C104_laplace float32 1 (fun a => fround float32 (xlog a)) (r_exp float32) 4 2 2 4) as (K & IK & C); auto using log_accurate, exp_accurate_range; rewrite ?A5, ?E32; try lra.
    exists K. split; [exact IK|]. eapply close_weaken; [exact C|]. rewrite ?A5, ?E32. lra.
  - destruct (C104_uniform float32 1 (fun a => fround float32 (xlog a)) 1 2 0 4) as (C & _); auto using log_accurate, repr_0, repr_1; rewrite ?E32; try lra.
    destruct C as (K & IK & C); try lra. exists K. split; [exact IK|]. eapply close_weaken; [exact C|]. rewrite E32. lra.
Qed.

Print Assumptions C104_normal.
Print Assumptions C104_laplace.
Print Assumptions C104_uniform.
Print Assumptions C104_self.
Print Assumptions C104_normal_nonnegative.
Print Assumptions C104_normal_cancellation_refuted.
Print Assumptions C104_normal_self_refuted.
