(** C94: accuracy of log_prob of the location-scale families in floating point. *)
From Coq Require Import Reals Lra Lia Bool ZArith.
From Flocq Require Import Core Plus_error Relative.
From Verif Require Import Base.XR Base.Float Spec.Rounding Spec.Accuracy Proofs.FloatOrder Proofs.FloatLib
  Model.FloatDist Props.FloatBij.
Local Open Scope R_scope.

Section Calculus.
Variable dt : dtype.
Notation e := (eps dt).
Lemma round_close v : Rabs v <= maxpow dt / 2 -> close (fround dt (Fin v)) v (e * (Rabs v + 1)).
Proof. intros H. destruct (round_fin dt v H) as (r & E & _ & B & _). exists r. auto. Qed.
Lemma close_fin v t a : close v t a -> exists r, v = Fin r /\ Rabs r <= Rabs t + a /\ Rabs (r - t) <= a.
Proof.
  intros (r & -> & H). exists r. split; [auto|]. split; [|auto]. replace r with ((r - t) + t) by ring.
  eapply Rle_trans; [apply Rabs_triang|]. lra.
Qed.
Lemma close_opp v t a : close v t a -> close (xopp v) (- t) a.
Proof. intros (r & -> & H). exists (- r). split; [reflexivity|]. replace (- r - - t) with (- (r - t)) by ring. now rewrite Rabs_Ropp. Qed.
Lemma close_abs v t a : close v t a -> close (xabs v) (Rabs t) a.
Proof. intros (r & -> & H). exists (Rabs r). split; [reflexivity|]. eapply Rle_trans; [apply Rabs_triang_inv2|auto]. Qed.
Lemma round_from v w t a m : close v t a -> (forall r, v = Fin r -> w = Fin r) -> Rabs t + a <= m -> m <= maxpow dt / 2 ->
  close (fround dt w) t (a + e * (m + 1)).
Proof.
  intros C Hw Hm Hx. destruct (close_fin v t a C) as (r & Er & B & H). rewrite (Hw r Er).
  destruct (round_close r) as (q & Eq & Hq); [lra|]. exists q. split; [auto|].
  replace (q - t) with ((q - r) + (r - t)) by ring. eapply Rle_trans; [apply Rabs_triang|].
  pose proof (eps_pos dt). nra.
Qed.
Lemma close_add u v s t a b m : close u s a -> close v t b -> Rabs s + Rabs t + a + b <= m -> m <= maxpow dt / 2 ->
  close (fadd dt u v) (s + t) (a + b + e * (m + 1)).
Proof.
  intros (p & -> & Hp) (q & -> & Hq) Hm Hx. unfold fadd. rewrite xadd_fin.
  apply (round_from (Fin (p + q))); auto.
  - exists (p + q). split; [auto|]. replace (p + q - (s + t)) with ((p - s) + (q - t)) by ring.
    eapply Rle_trans; [apply Rabs_triang|]. lra.
  - pose proof (Rabs_triang s t). lra.
Qed.
Lemma close_sub u v s t a b m : close u s a -> close v t b -> Rabs s + Rabs t + a + b <= m -> m <= maxpow dt / 2 ->
  close (fsub dt u v) (s - t) (a + b + e * (m + 1)).
Proof.
  intros C (q & -> & Hq) Hm Hx. replace (fsub dt u (Fin q)) with (fadd dt u (xopp (Fin q))).
  - apply (close_add u (xopp (Fin q)) s (- t) a b m C); [|rewrite Rabs_Ropp; lra|auto].
    apply close_opp. exists q. auto.
  - destruct C as (p & -> & _). unfold fadd, fsub. cbn [xopp]. rewrite xadd_fin, xsub_fin. reflexivity.
Qed.
Lemma close_mul u v s t a b m : close u s a -> close v t b -> Rabs (s * t) + (a * Rabs t + b * Rabs s + a * b) <= m -> m <= maxpow dt / 2 ->
  close (fmul dt u v) (s * t) (a * Rabs t + b * Rabs s + a * b + e * (m + 1)).
Proof.
  intros (p & -> & Hp) (q & -> & Hq) Hm Hx. unfold fmul. rewrite xmul_fin.
  apply (round_from (Fin (p * q))); auto. exists (p * q). split; [auto|].
  replace (p * q - s * t) with ((p - s) * t + (q - t) * s + (p - s) * (q - t)) by ring.
  eapply Rle_trans; [apply Rabs_triang|]. eapply Rle_trans; [apply Rplus_le_compat_r, Rabs_triang|]. rewrite !Rabs_mult.
  pose proof (Rabs_pos (p - s)). pose proof (Rabs_pos (q - t)). pose proof (Rabs_pos s). pose proof (Rabs_pos t).
  assert (Rabs (p - s) * Rabs t <= a * Rabs t) by (apply Rmult_le_compat_r; lra).
  assert (Rabs (q - t) * Rabs s <= b * Rabs s) by (apply Rmult_le_compat_r; lra).
  assert (Rabs (p - s) * Rabs (q - t) <= a * b) by (apply Rmult_le_compat; lra). lra.
Qed.
Lemma close_exact x : close (Fin x) x 0.
Proof. exists x. split; [auto|]. rewrite Rminus_diag_eq, Rabs_R0 by auto. lra. Qed.

(** a difference of floats has a relative error, however small *)
Lemma sub_rel x y : repr dt x -> repr dt y -> Rabs (rnd dt (x - y) - (x - y)) <= e * Rabs (x - y).
Proof.
  intros [Fx _] [Fy _]. assert (P : Prec_gt_0 (mant dt)) by (pose proof (mant_ok dt); unfold Prec_gt_0; lia).
  destruct (FLT_plus_error_N_ex radix2 (emin dt) (mant dt) (fun t => negb (Z.even t)) x (- y) Fx (generic_format_opp _ _ _ Fy)) as (d & Hd & Eq).
  change (round radix2 (FLT_exp (emin dt) (mant dt)) (Znearest (fun t => negb (Z.even t))) (x + - y)) with (rnd dt (x - y)) in Eq.
  rewrite Eq. replace ((x + - y) * (1 + d) - (x - y)) with (d * (x - y)) by ring. rewrite Rabs_mult.
  apply Rmult_le_compat_r; [apply Rabs_pos|]. eapply Rle_trans; [exact Hd|].
  unfold u_ro. pose proof (bpow_gt_0 radix2 (- mant dt + 1)) as B0.
  assert (Ee : / 2 * bpow radix2 (- mant dt + 1) = e) by (rewrite bpow_plus; change (bpow radix2 1) with 2; unfold eps; lra).
  rewrite Ee. pose proof (eps_pos dt). apply Rmult_le_reg_r with (1 + e); [lra|]. unfold Rdiv. rewrite Rmult_assoc, Rinv_l by lra. nra.
Qed.
Theorem C94_standardize v loc s :
  repr dt v -> repr dt loc -> repr dt s -> 0 < s -> Rabs (v - loc) <= maxpow dt / 2 -> Rabs ((v - loc) / s) <= maxpow dt / 4 ->
  close (fl_standardize dt (Fin v) (Fin loc) (Fin s)) ((v - loc) / s) (9 / 4 * e * Rabs ((v - loc) / s) + tiny dt).
Proof.
  intros Rv Rl Rs Hs Hd Hz. unfold fl_standardize, fsub. rewrite xsub_fin.
  destruct (round_fin dt _ Hd) as (d & Ed & Rd & _ & Qd). rewrite Ed.
  pose proof (sub_rel v loc Rv Rl) as Hr. rewrite <- Qd in Hr. unfold fdiv. rewrite xdiv_fin' by lra.
  pose proof (eps_pos dt) as E0. pose proof (eps_le dt) as E4. pose proof (tiny_pos dt) as T0.
  assert (Hw : Rabs (d / s - (v - loc) / s) <= e * Rabs ((v - loc) / s)).
  { replace (d / s - (v - loc) / s) with ((d - (v - loc)) / s) by (field; lra). unfold Rdiv. rewrite !Rabs_mult.
    rewrite <- Rmult_assoc. apply Rmult_le_compat_r; [apply Rabs_pos|auto]. }
  set (z := (v - loc) / s) in *. clearbody z. pose proof (Rabs_pos z).
  assert (Bw : Rabs (d / s) <= 5 / 4 * Rabs z).
  { replace (d / s) with ((d / s - z) + z) by ring. eapply Rle_trans; [apply Rabs_triang|]. nra. }
  assert (Bm : Rabs (d / s) <= maxpow dt / 2) by lra.
  destruct (round_fin dt _ Bm) as (q & Eq & _ & _ & Qq). exists q. split; [auto|].
  assert (Rabs (q - d / s) <= e * Rabs (d / s) + tiny dt).
  { subst q. pose proof (sub_le_tiny dt). destruct (Rle_lt_dec (tiny dt) (Rabs (d / s))) as [L|L];
      [pose proof (rnd_err dt _ L); lra | pose proof (rnd_err_sub dt _ L); pose proof (Rabs_pos (d / s)); nra]. }
  replace (q - z) with ((q - d / s) + (d / s - z)) by ring. eapply Rle_trans; [apply Rabs_triang|]. nra.
Qed.
End Calculus.

(** The log-densities in the reals. *)
Definition normal_log_density (v loc s : R) : R := ln (exp (- (((v - loc) / s) ^ 2) / 2) / (s * sqrt (2 * PI))).
Definition laplace_log_density (v loc s : R) : R := ln (exp (- Rabs ((v - loc) / s)) / (2 * s)).
Definition logistic_log_density (v loc s : R) : R := ln (exp (- ((v - loc) / s)) / (s * (1 + exp (- ((v - loc) / s))) ^ 2)).
Definition gumbel_log_density (v loc s : R) : R := ln (exp (- ((v - loc) / s + exp (- ((v - loc) / s)))) / s).
Definition half_log_2pi : R := / 2 * ln (2 * PI).
Lemma half_log_2pi_bounds : 0 < half_log_2pi < 3 / 2.
Proof.
  unfold half_log_2pi. pose proof PI_RGT_0. pose proof PI_4. pose proof PI2_3_2. pose proof ln2_bounds.
  split; [assert (0 < ln (2 * PI)); [rewrite <- ln_1; apply ln_increasing; [lra|]; pose proof PI2_3_2; unfold Rdiv in *; lra|lra]|].
  assert (H8 : ln (2 * PI) <= ln 8). { destruct (Rle_lt_or_eq_dec (2 * PI) 8 ltac:(lra)) as [Q|Q]; [left; apply ln_increasing; lra|rewrite Q; lra]. }
  assert (E8 : ln 8 = 3 * ln 2) by (replace 8 with (2 * (2 * 2)) by lra; rewrite !ln_mult by lra; lra). lra.
Qed.
Lemma normal_log_density_eq v loc s : 0 < s ->
  normal_log_density v loc s = - (1 / 2) * (((v - loc) / s) * ((v - loc) / s)) - (half_log_2pi + ln s).
Proof.
  intros Hs. unfold normal_log_density, half_log_2pi. pose proof PI_RGT_0. pose proof (sqrt_lt_R0 (2 * PI) ltac:(lra)).
  unfold Rdiv at 1. rewrite ln_mult by (try apply Rinv_0_lt_compat; try apply exp_pos; apply Rmult_lt_0_compat; lra).
  rewrite ln_exp, ln_Rinv, ln_mult by (try apply Rmult_lt_0_compat; lra).
  assert (E : ln (2 * PI) = 2 * ln (sqrt (2 * PI))).
  { rewrite <- (sqrt_sqrt (2 * PI)) at 1 by lra. rewrite ln_mult by lra. lra. }
  rewrite E. lra.
Qed.

Lemma abs_sq x : Rabs x * Rabs x = x ^ 2.
Proof. rewrite <- Rabs_mult, Rabs_pos_eq; [ring|]. apply Rle_0_sqr. Qed.
Lemma abs_half x : Rabs x <= (1 + x ^ 2) / 2.
Proof. pose proof (Rle_0_sqr (Rabs x - 1)) as Q. unfold Rsqr in Q. pose proof (abs_sq x). lra. Qed.
Section Families.
Variables (dt : dtype) (k : R) (L : XR -> XR).
Notation e := (eps dt).
Hypothesis Hk : 0 <= k.
Hypothesis Hke : k * e <= 1.
Hypothesis HL : accurate dt k L ln (fun s => 0 < s).
Variables (v loc s : R).
Hypothesis Rv : repr dt v.
Hypothesis Rl : repr dt loc.
Hypothesis Rs : repr dt s.
Hypothesis Hs : 0 < s.
Hypothesis Hd : Rabs (v - loc) <= maxpow dt / 2.
Notation z := ((v - loc) / s).

Lemma log_scale : close (L (Fin s)) (ln s) (k * e * Rabs (ln s) + e).
Proof.
  destruct (HL s Rs Hs) as (r & Er & _ & H). exists r. split; [auto|]. pose proof (tiny_le_eps dt). lra.
Qed.
Lemma z_close : Rabs z <= maxpow dt / 4 -> close (fl_standardize dt (Fin v) (Fin loc) (Fin s)) z (9 / 4 * e * Rabs z + e).
Proof. intros H. eapply close_weaken; [apply C94_standardize; auto|]. pose proof (tiny_le_eps dt). lra. Qed.

(** Normal: within [(k + 25) (1 + z^2 + |log scale|)] units of roundoff, with a log accurate to [k] units. *)
Theorem C94_normal c :
  Rabs (c - half_log_2pi) <= 2 * e -> 1 + z ^ 2 + Rabs (ln s) <= maxpow dt / 64 ->
  close (fl_normal_log_prob dt L (Fin c) (Fin v) (Fin loc) (Fin s)) (normal_log_density v loc s)
    ((k + 25) * e * (1 + z ^ 2 + Rabs (ln s))).
Proof.
  intros Hc HD. rewrite normal_log_density_eq by auto. unfold fl_normal_log_prob. cbv zeta.
  pose proof (eps_pos dt) as E0. pose proof (eps_le dt) as E4. pose proof half_log_2pi_bounds as Hp.
  pose proof log_scale as Cl. pose proof (abs_half z) as Az.
  assert (Cz : close (fl_standardize dt (Fin v) (Fin loc) (Fin s)) z (9 / 4 * e * Rabs z + e)).
  { apply z_close. pose proof (Rabs_pos (ln s)). pose proof (maxpow_pos dt). lra. }
  pose proof (abs_sq z) as Zz.
  set (x := z) in *. clearbody x. set (l := ln s) in *. clearbody l. set (D := 1 + x ^ 2 + Rabs l) in *.
  pose proof (Rabs_pos x) as A0. pose proof (Rabs_pos l) as L0.
  assert (D1 : 1 <= D) by (subst D; nra). assert (Dz : x ^ 2 <= D) by (subst D; nra). assert (Dl : Rabs l <= D - 1) by (subst D; nra).
  assert (Da : Rabs x <= D / 2) by (subst D; nra). assert (Dsum : x ^ 2 + Rabs l = D - 1) by (subst D; ring). clearbody D.
  assert (F1 : 0 < e * D) by nra. assert (F2 : e <= e * D) by nra. assert (F3 : e * D <= D / 4) by nra.
  assert (F4 : 0 <= k * (e * D)) by nra. assert (F5 : k * (e * D) <= D) by nra.
  assert (F6 : k * e * Rabs l <= k * (e * D)). { rewrite Rmult_assoc. apply Rmult_le_compat_l; [auto|]. apply Rmult_le_compat_l; lra. }
  (* the square *)
  set (a0 := 9 / 4 * e * Rabs x + e) in *.
  assert (G1 : a0 * Rabs x <= 11 / 4 * (e * D)).
  { subst a0. replace ((9 / 4 * e * Rabs x + e) * Rabs x) with (e * (9 / 4 * (Rabs x * Rabs x) + Rabs x)) by ring. rewrite Zz.
    replace (11 / 4 * (e * D)) with (e * (11 / 4 * D)) by ring. apply Rmult_le_compat_l; lra. }
  assert (G2 : 0 <= a0 * a0 <= 2 * (e * D)).
  { split; [nra|]. assert (a0 <= e * (9 / 4 * Rabs x + 1)) by (subst a0; lra). assert (0 <= a0) by (subst a0; nra).
    assert (a0 * a0 <= (e * (9 / 4 * Rabs x + 1)) * (e * (9 / 4 * Rabs x + 1))) by (apply Rmult_le_compat; lra).
    assert ((9 / 4 * Rabs x + 1) * (9 / 4 * Rabs x + 1) <= 8 * D) by nra.
    assert (e * e <= e * / 4) by nra. assert (e * e * ((9 / 4 * Rabs x + 1) * (9 / 4 * Rabs x + 1)) <= (e * / 4) * (8 * D)).
    { apply Rmult_le_compat; nra. } nra. }
  assert (Cq : close (fmul dt (fl_standardize dt (Fin v) (Fin loc) (Fin s)) (fl_standardize dt (Fin v) (Fin loc) (Fin s))) (x * x) (12 * (e * D))).
  { eapply close_weaken; [apply (close_mul dt _ _ _ _ _ _ (3 * D) Cz Cz)|].
    - rewrite Rabs_mult, Zz. lra.
    - lra.
    - lra. }
  assert (Xx : Rabs (x * x) <= D) by (rewrite Rabs_mult, Zz; lra).
  assert (Ch : close (fmul dt (Fin (- (1 / 2))) (fmul dt (fl_standardize dt (Fin v) (Fin loc) (Fin s)) (fl_standardize dt (Fin v) (Fin loc) (Fin s)))) (- (1 / 2) * (x * x)) (9 * (e * D))).
  { assert (Hh : Rabs (- (1 / 2)) = / 2) by (rewrite Rabs_Ropp, Rabs_pos_eq; lra).
    eapply close_weaken; [apply (close_mul dt _ _ _ _ _ _ (2 * D) (close_exact (- (1 / 2))) Cq)|].
    - rewrite (Rabs_mult (- (1 / 2))), Hh. lra.
    - lra.
    - rewrite Hh. lra. }
  assert (Cn : close (fadd dt (Fin c) (L (Fin s))) (half_log_2pi + l) ((k + 8) * (e * D))).
  { assert (Cc : close (Fin c) half_log_2pi (2 * e)) by (exists c; auto).
    eapply close_weaken; [apply (close_add dt _ _ _ _ _ _ (4 * D) Cc Cl)|].
    - rewrite (Rabs_pos_eq half_log_2pi) by lra. lra.
    - lra.
    - lra. }
  eapply close_weaken; [apply (close_sub dt _ _ _ _ _ _ (7 * D) Ch Cn)|].
  - rewrite (Rabs_mult (- (1 / 2))), Rabs_Ropp, (Rabs_pos_eq (1 / 2)) by lra.
    pose proof (Rabs_triang half_log_2pi l) as T. rewrite (Rabs_pos_eq half_log_2pi) in T by lra. rewrite Rabs_mult, Zz. lra.
  - lra.
  - lra.
Qed.

Lemma ln_div a b : 0 < a -> 0 < b -> ln (a / b) = ln a - ln b.
Proof. intros Ha Hb. unfold Rdiv. rewrite ln_mult, ln_Rinv by (try apply Rinv_0_lt_compat; lra). ring. Qed.

(** Laplace: within [(k + 13) (1 + |z| + |log scale|)] units. *)
Theorem C94_laplace c :
  Rabs (c - ln 2) <= e -> 1 + Rabs z + Rabs (ln s) <= maxpow dt / 64 ->
  close (fl_laplace_log_prob dt L (Fin c) (Fin v) (Fin loc) (Fin s)) (laplace_log_density v loc s)
    ((k + 13) * e * (1 + Rabs z + Rabs (ln s))).
Proof.
  intros Hc HD. assert (Eq : laplace_log_density v loc s = - Rabs z - ln 2 - ln s).
  { unfold laplace_log_density. rewrite ln_div, ln_exp, ln_mult by (try apply exp_pos; lra). ring. }
  rewrite Eq. unfold fl_laplace_log_prob. cbv zeta. pose proof (maxpow_pos dt) as Mp. pose proof ln2_bounds as L2.
  pose proof (eps_pos dt) as E0. pose proof (eps_le dt) as E4. pose proof log_scale as Cl.
  pose proof (Rabs_pos z) as A0. pose proof (Rabs_pos (ln s)) as L0.
  assert (Cz : close (fl_standardize dt (Fin v) (Fin loc) (Fin s)) z (9 / 4 * e * Rabs z + e)) by (apply z_close; lra).
  apply close_abs, close_opp in Cz. set (zf := fl_standardize dt (Fin v) (Fin loc) (Fin s)) in *. clearbody zf.
  set (x := Rabs z) in *. clearbody x. set (l := ln s) in *. clearbody l. set (D := 1 + x + Rabs l) in *.
  assert (D1 : 1 <= D) by (subst D; lra). assert (Dx : 0 <= x <= D - 1) by (subst D; lra). assert (Dl : Rabs l <= D - 1) by (subst D; lra).
  assert (Ds : x + Rabs l = D - 1) by (subst D; lra). clearbody D.
  assert (F1 : 0 < e * D) by nra. assert (F2 : e <= e * D) by nra. assert (F3 : e * D <= D / 4) by nra.
  assert (F4 : 0 <= k * (e * D)) by nra. assert (F5 : k * (e * D) <= D) by nra.
  assert (F6 : k * e * Rabs l <= k * (e * D)). { rewrite Rmult_assoc. apply Rmult_le_compat_l; [auto|]. apply Rmult_le_compat_l; lra. }
  assert (F7 : 9 / 4 * e * x + e <= 9 / 4 * (e * D)) by nra.
  apply (close_weaken _ _ _ _ Cz) in F7. assert (Ax : Rabs (- x) = x) by (rewrite Rabs_Ropp, Rabs_pos_eq; lra).
  assert (C1 : close (fsub dt (xopp (xabs zf)) (Fin c)) (- x - ln 2) (25 / 4 * (e * D))).
  { eapply close_weaken; [apply (close_sub dt _ _ _ (ln 2) _ e (2 * D) F7)|]; [exists c; auto | | lra | lra].
    rewrite Ax, (Rabs_pos_eq (ln 2)) by lra. lra. }
  eapply close_weaken; [apply (close_sub dt _ _ _ _ _ _ (4 * D) C1 Cl)|]; [ | lra | lra].
  pose proof (Rabs_triang (- x) (- ln 2)) as T. rewrite Ax, Rabs_Ropp, (Rabs_pos_eq (ln 2)) in T by lra.
  unfold Rminus in *. lra.
Qed.

Lemma z_repr r : fl_standardize dt (Fin v) (Fin loc) (Fin s) = Fin r -> repr dt r.
Proof. unfold fl_standardize, fdiv. apply fround_value. Qed.
Lemma sp_lip a b : Rabs (sp a - sp b) <= Rabs (a - b).
Proof.
  assert (G : forall a b, a <= b -> 0 <= sp b - sp a <= b - a).
  { intros p q H. unfold sp. pose proof (exp_pos p) as Pp. pose proof (exp_pos q) as Pq. destruct H as [H| ->]; [|lra].
    pose proof (exp_increasing _ _ H) as He. split.
    - pose proof (ln_increasing (1 + exp p) (1 + exp q) ltac:(lra) ltac:(lra)). lra.
    - assert (ln (1 + exp q) <= (q - p) + ln (1 + exp p)); [|lra].
      rewrite <- (ln_exp (q - p)), <- ln_mult by (try apply exp_pos; lra).
      assert (E : exp q = exp (q - p) * exp p) by (rewrite <- exp_plus; f_equal; lra).
      assert (1 < exp (q - p)) by (rewrite <- exp_0; apply exp_increasing; lra).
      left. apply ln_increasing; [lra|]. rewrite E. nra. }
  destruct (Rle_lt_dec a b) as [H|H].
  - pose proof (G a b H). rewrite !Rabs_left1 by lra. lra.
  - pose proof (G b a ltac:(lra)). rewrite !Rabs_right by lra. lra.
Qed.

(** Logistic: within [(5 k + 46) (1 + |z| + |log scale|)] units. *)
Theorem C94_logistic S :
  accurate dt k S (fun x => ln (1 + exp x)) (fun _ => True) -> 1 + Rabs z + Rabs (ln s) <= maxpow dt / 64 ->
  close (fl_logistic_log_prob dt L S (Fin v) (Fin loc) (Fin s)) (logistic_log_density v loc s)
    ((5 * k + 46) * e * (1 + Rabs z + Rabs (ln s))).
Proof.
  intros HS HD. assert (Eq : logistic_log_density v loc s = - z - 2 * sp (- z) - ln s).
  { unfold logistic_log_density, sp. pose proof (exp_pos (- z)) as P. assert (0 < (1 + exp (- z)) ^ 2) by (apply pow_lt; lra).
    rewrite ln_div, ln_exp, ln_mult by (try apply exp_pos; try apply Rmult_lt_0_compat; lra).
    cbn [pow]. rewrite Rmult_1_r, ln_mult by lra. ring. }
  rewrite Eq. unfold fl_logistic_log_prob. cbv zeta. pose proof (maxpow_pos dt) as Mp. pose proof ln2_bounds as L2.
  pose proof (eps_pos dt) as E0. pose proof (eps_le dt) as E4. pose proof log_scale as Cl. pose proof (tiny_le_eps dt) as Te.
  pose proof (Rabs_pos z) as A0. pose proof (Rabs_pos (ln s)) as L0.
  assert (Cz : close (fl_standardize dt (Fin v) (Fin loc) (Fin s)) z (9 / 4 * e * Rabs z + e)) by (apply z_close; lra).
  destruct Cz as (zf & Ez & Hz). pose proof (z_repr zf Ez) as Rz. rewrite Ez. cbn [xopp].
  destruct (HS (- zf) (repr_opp dt zf Rz) I) as (sv & Es & _ & Hsv). fold (sp (- zf)) in Hsv.
  pose proof (sp_pos (- zf)) as S0. rewrite (Rabs_pos_eq (sp (- zf))) in Hsv by lra.
  pose proof (sp_lip (- zf) (- z)) as Lip. replace (- zf - - z) with (- (zf - z)) in Lip by ring. rewrite Rabs_Ropp in Lip.
  pose proof (sp_pos (- z)) as S1. pose proof (sp_sum z) as S2. pose proof (sp_pos z) as S3. rewrite Es.
  assert (S4 : sp (- z) <= Rabs z + 1).
  { pose proof (softplus_le (- z)) as U. fold (sp (- z)) in U. assert (Rmax (- z) 0 <= Rabs z); [|lra].
    apply Rmax_lub; [|lra]. rewrite <- Rabs_Ropp. apply Rle_abs. }
  set (x := z) in *. clearbody x. set (l := ln s) in *. clearbody l. set (D := 1 + Rabs x + Rabs l) in *.
  assert (D1 : 1 <= D) by (subst D; lra). assert (Dx : 0 <= Rabs x <= D - 1) by (subst D; lra). assert (Dl : Rabs l <= D - 1) by (subst D; lra).
  assert (Ds : Rabs x + Rabs l = D - 1) by (subst D; lra). clearbody D.
  assert (F1 : 0 < e * D) by nra. assert (F2 : e <= e * D) by nra. assert (F3 : e * D <= D / 4) by nra.
  assert (F4 : 0 <= k * (e * D)) by nra. assert (F5 : k * (e * D) <= D) by nra.
  assert (F6 : k * e * Rabs l <= k * (e * D)). { rewrite Rmult_assoc. apply Rmult_le_compat_l; [auto|]. apply Rmult_le_compat_l; lra. }
  assert (F7 : 9 / 4 * e * Rabs x + e <= 9 / 4 * (e * D)) by nra.
  assert (Cs : close (Fin sv) (sp (- x)) ((8 / 5 * k + 13 / 4) * (e * D))).
  { exists sv. split; [auto|]. replace (sv - sp (- x)) with ((sv - sp (- zf)) + (sp (- zf) - sp (- x))) by ring.
    eapply Rle_trans; [apply Rabs_triang|].
    assert (Sb : sp (- zf) <= 8 / 5 * D). { pose proof (Rle_abs (sp (- zf) - sp (- x))). lra. }
    assert (k * e * sp (- zf) <= 8 / 5 * (k * (e * D))).
    { replace (8 / 5 * (k * (e * D))) with (k * e * (8 / 5 * D)) by ring. apply Rmult_le_compat_l; [nra|auto]. }
    lra. }
  assert (C2 : close (fmul dt (Fin 2) (Fin sv)) (2 * sp (- x)) ((16 / 5 * k + 29 / 2) * (e * D))).
  { assert (Q2 : Rabs 2 = 2) by (apply Rabs_pos_eq; lra).
    eapply close_weaken; [apply (close_mul dt _ _ _ _ _ _ (7 * D) (close_exact 2) Cs)|]; [ | lra | rewrite Q2; lra].
    rewrite Rabs_mult, Q2, (Rabs_pos_eq (sp (- x))) by lra. lra. }
  assert (Cz : close (Fin (- zf)) (- x) (9 / 4 * (e * D))).
  { exists (- zf). split; [auto|]. replace (- zf - - x) with (- (zf - x)) by ring. rewrite Rabs_Ropp. lra. }
  assert (C3 : close (fsub dt (Fin (- zf)) (fmul dt (Fin 2) (Fin sv))) (- x - 2 * sp (- x)) ((16 / 5 * k + 57 / 2) * (e * D))).
  { eapply close_weaken; [apply (close_sub dt _ _ _ _ _ _ (21 / 2 * D) Cz C2)|]; [ | lra | lra].
    rewrite Rabs_Ropp, (Rabs_pos_eq (2 * sp (- x))) by lra. lra. }
  eapply close_weaken; [apply (close_sub dt _ _ _ _ _ _ (15 * D) C3 Cl)|]; [ | lra | lra].
  pose proof (Rabs_triang (- x) (- (2 * sp (- x)))) as T. rewrite !Rabs_Ropp, (Rabs_pos_eq (2 * sp (- x))) in T by lra.
  unfold Rminus in *. lra.
Qed.

(** Gumbel: the exponential multiplies the error of its argument. *)
Theorem C94_gumbel E :
  accurate dt k E exp (fun x => exp x <= maxpow dt / 2) -> e * (9 / 4 * Rabs z + 1) <= 1 ->
  1 + Rabs z + Rabs (ln s) + (1 + Rabs z) * exp (- z) <= maxpow dt / 64 ->
  close (fl_gumbel_log_prob dt L E (Fin v) (Fin loc) (Fin s)) (gumbel_log_density v loc s)
    ((4 * k + 26) * e * (1 + Rabs z + Rabs (ln s) + (1 + Rabs z) * exp (- z))).
Proof.
  intros HE Hsmall HD. assert (Eq : gumbel_log_density v loc s = - (z + exp (- z)) - ln s).
  { unfold gumbel_log_density. rewrite ln_div, ln_exp by (try apply exp_pos; lra). ring. }
  rewrite Eq. unfold fl_gumbel_log_prob. cbv zeta. pose proof (maxpow_pos dt) as Mp.
  pose proof (eps_pos dt) as E0. pose proof (eps_le dt) as E4. pose proof log_scale as Cl. pose proof (tiny_le_eps dt) as Te.
  pose proof (Rabs_pos z) as A0. pose proof (Rabs_pos (ln s)) as L0. pose proof (exp_pos (- z)) as X0.
  assert (X1 : 0 <= Rabs z * exp (- z)) by nra.
  assert (Cz : close (fl_standardize dt (Fin v) (Fin loc) (Fin s)) z (9 / 4 * e * Rabs z + e)) by (apply z_close; lra).
  destruct Cz as (zf & Ez & Hz). pose proof (z_repr zf Ez) as Rz. rewrite Ez. cbn [xopp].
  set (x := z) in *. clearbody x. set (l := ln s) in *. clearbody l.
  assert (Ee : Rabs (exp (- zf) - exp (- x)) <= 2 * (9 / 4 * e * Rabs x + e) * exp (- x) /\ exp (- zf) <= 3 * exp (- x)).
  { assert (E2 : exp (- zf) = exp (x - zf) * exp (- x)) by (rewrite <- exp_plus; f_equal; lra).
    set (d := x - zf) in *. assert (Hd' : Rabs d <= 9 / 4 * e * Rabs x + e) by (replace d with (- (zf - x)) by (subst d; ring); now rewrite Rabs_Ropp).
    assert (Hd1 : Rabs d <= 1) by lra. clearbody d.
    assert (B : - (2 * Rabs d) <= exp d - 1 <= 2 * Rabs d).
    { pose proof (Rabs_pos d) as Pd. split.
      - assert (1 + d <= exp d) by (destruct (Req_dec d 0) as [-> |N]; [rewrite exp_0; lra|left; apply exp_ineq1; auto]).
        pose proof (Rle_abs (- d)) as Q. rewrite Rabs_Ropp in Q. lra.
      - destruct (Rle_lt_dec d 0) as [N|N].
        + assert (exp d <= 1) by (rewrite <- exp_0; destruct N as [N| ->]; [left; apply exp_increasing; auto|lra]). lra.
        + rewrite (Rabs_pos_eq d) in * by lra.
          (* convexity on [0, 1] *)
          assert (H3 : exp 1 <= 3) by apply exp_le_3.
          assert (Hm : exp d * (1 - d) <= 1).
          { assert (1 - d <= exp (- d)) by (left; pose proof (exp_ineq1 (- d) ltac:(lra)); lra).
            pose proof (exp_pos d). assert (exp d * exp (- d) = 1) by (rewrite <- exp_plus; replace (d + - d) with 0 by lra; apply exp_0). nra. }
          destruct (Rle_lt_dec d (1 / 2)) as [P|P]; [nra|].
          assert (Hs2 : exp d <= 3 * (1 / (2 - d))).
          { assert (1 - (d - 1) <= exp (- (d - 1))).
            { destruct (Req_dec d 1) as [-> |N1]; [replace (- (1 - 1)) with 0 by lra; rewrite exp_0; lra|].
              pose proof (exp_ineq1 (- (d - 1)) ltac:(lra)). lra. }
            assert (Ed : exp d * exp (- (d - 1)) = exp 1) by (rewrite <- exp_plus; f_equal; lra).
            pose proof (exp_pos d). assert (exp d * (2 - d) <= 3) by nra.
            apply Rmult_le_reg_r with (2 - d); [lra|]. replace (3 * (1 / (2 - d)) * (2 - d)) with 3 by (field; lra). auto. }
          assert (3 * (1 / (2 - d)) <= 1 + 2 * d).
          { apply Rmult_le_reg_r with (2 - d); [lra|]. replace (3 * (1 / (2 - d)) * (2 - d)) with 3 by (field; lra). nra. }
          lra. }
    rewrite E2. split.
    - replace (exp d * exp (- x) - exp (- x)) with ((exp d - 1) * exp (- x)) by ring. rewrite Rabs_mult, (Rabs_pos_eq (exp (- x))) by lra.
      apply Rmult_le_compat_r; [lra|]. apply Rabs_le. lra.
    - apply Rmult_le_compat_r; [lra|]. lra. }
  destruct Ee as [Ee1 Ee2].
  destruct (HE (- zf) (repr_opp dt zf Rz)) as (ev & Eev & _ & Hev); [lra|]. rewrite Eev.
  pose proof (exp_pos (- zf)) as X2. rewrite (Rabs_pos_eq (exp (- zf))) in Hev by lra.
  set (w := exp (- x)) in *. clearbody w. set (D := 1 + Rabs x + Rabs l + (1 + Rabs x) * w) in *.
  assert (D1 : 1 <= D) by (subst D; nra). assert (Dx : 0 <= Rabs x <= D - 1) by (subst D; nra). assert (Dl : Rabs l <= D - 1) by (subst D; nra).
  assert (Ds : Rabs x + Rabs l + w <= D - 1) by (subst D; nra). assert (Dw : (1 + Rabs x) * w <= D) by (subst D; nra). clearbody D.
  assert (F1 : 0 < e * D) by nra. assert (F2 : e <= e * D) by nra. assert (F3 : e * D <= D / 4) by nra.
  assert (F4 : 0 <= k * (e * D)) by nra. assert (F5 : k * (e * D) <= D) by nra.
  assert (F6 : k * e * Rabs l <= k * (e * D)). { rewrite Rmult_assoc. apply Rmult_le_compat_l; [auto|]. apply Rmult_le_compat_l; lra. }
  assert (F7 : 9 / 4 * e * Rabs x + e <= 9 / 4 * (e * D)) by nra.
  assert (F8 : 2 * (9 / 4 * e * Rabs x + e) * w <= 9 / 2 * (e * D)).
  { assert (e * ((1 + Rabs x) * w) <= e * D) by (apply Rmult_le_compat_l; lra). assert (0 <= e * w) by nra. nra. }
  assert (F9 : k * e * exp (- zf) <= 3 * (k * (e * D))).
  { replace (3 * (k * (e * D))) with (k * e * (3 * D)) by ring. apply Rmult_le_compat_l; [nra|lra]. }
  assert (Ce : close (Fin ev) w ((3 * k + 11 / 2) * (e * D))).
  { exists ev. split; [auto|]. replace (ev - w) with ((ev - exp (- zf)) + (exp (- zf) - w)) by ring.
    eapply Rle_trans; [apply Rabs_triang|]. lra. }
  assert (Cz : close (Fin zf) x (9 / 4 * (e * D))) by (exists zf; split; [auto|lra]).
  assert (C1 : close (fadd dt (Fin zf) (Fin ev)) (x + w) ((3 * k + 15) * (e * D))).
  { eapply close_weaken; [apply (close_add dt _ _ _ _ _ _ (6 * D) Cz Ce)|]; [ | lra | lra].
    rewrite (Rabs_pos_eq w) by lra. lra. }
  apply close_opp in C1.
  eapply close_weaken; [apply (close_sub dt _ _ _ _ _ _ (9 * D) C1 Cl)|]; [ | lra | lra].
  rewrite Rabs_Ropp. pose proof (Rabs_triang x w) as T. rewrite (Rabs_pos_eq w) in T by lra. lra.
Qed.
End Families.

(** Correctly rounded log and exp qualify; a concrete case in float32. *)
Lemma log_accurate dt : accurate dt 1 (fun a => fround dt (xlog a)) ln (fun s => 0 < s).
Proof.
  intros x Rx P. destruct (log_fn_finite _ _ (log_rounded dt) x P Rx) as (r & Er & _). exists r. split; [auto|].
  cbn [xlog] in Er. rewrite rlog_pos in Er by auto. eapply rounded_accurate; eauto.
Qed.
Lemma exp_accurate_range dt : accurate dt 1 (r_exp dt) exp (fun x => exp x <= maxpow dt / 2).
Proof.
  intros x Rx P. unfold r_exp. cbn [xexp]. pose proof (exp_pos x).
  destruct (fround_between dt (exp x) 0 _ (repr_0 dt) (repr_half dt) ltac:(lra)) as (Q & _). exists (rnd dt (exp x)). split; [auto|].
  eapply rounded_accurate; eauto.
Qed.

Lemma rounded_const dt v : Rabs v <= 2 -> Rabs (rnd dt v - v) <= 2 * eps dt.
Proof.
  intros B. pose proof (eps_pos dt). pose proof (tiny_le_eps dt). pose proof (sub_le_tiny dt).
  destruct (Rle_lt_dec (tiny dt) (Rabs v)) as [W|W]; [pose proof (rnd_err dt v W); nra|pose proof (rnd_err_sub dt v W); lra].
Qed.
Example C94_float32 :
  close (fl_normal_log_prob float32 (fun a => fround float32 (xlog a)) (Fin (rnd float32 half_log_2pi)) (Fin 4) (Fin 2) (Fin 2))
    (normal_log_density 4 2 2) (78 * eps float32) /\
  close (fl_gumbel_log_prob float32 (fun a => fround float32 (xlog a)) (r_exp float32) (Fin 4) (Fin 2) (Fin 2))
    (gumbel_log_density 4 2 2) (150 * eps float32).
Proof.
  pose proof ln2_bounds as L2. pose proof (eps_pos float32) as E0. pose proof (eps_le float32) as E4.
  assert (Z : (4 - 2) / 2 = 1) by lra.
  assert (M : 1024 <= maxpow float32) by (change 1024 with (bpow radix2 10); apply bpow_le; cbn; lia).
  assert (R4 : repr float32 4) by (change 4 with (bpow radix2 2); apply repr_pow; cbn; unfold emin; cbn; lia).
  assert (R2 : repr float32 2) by (change 2 with (bpow radix2 1); apply repr_pow; cbn; unfold emin; cbn; lia).
  assert (Al : Rabs (ln 2) = ln 2) by (apply Rabs_pos_eq; lra). assert (A2 : Rabs (4 - 2) = 2) by (rewrite Rabs_pos_eq; lra).
  pose proof (exp_increasing (- (1)) 0 ltac:(lra)) as X. rewrite exp_0 in X. pose proof (exp_pos (- (1))).
  assert (Es : 8 * eps float32 <= 1).
  { unfold eps. change 8 with (bpow radix2 3). rewrite <- bpow_plus. change 1 with (bpow radix2 0). apply bpow_le. cbn. lia. }
  split.
  - eapply close_weaken; [apply (C94_normal float32 1)|]; rewrite ?Z, ?A2, ?Al; try lra; auto using log_accurate.
    + apply rounded_const. pose proof half_log_2pi_bounds. rewrite Rabs_pos_eq by lra. lra.
    + nra.
  - eapply close_weaken; [apply (C94_gumbel float32 1)|]; rewrite ?Z, ?A2, ?Al, ?Rabs_R1; try lra; auto using log_accurate, exp_accurate_range.
    nra.
Qed.
Print Assumptions C94_normal.
Print Assumptions C94_gumbel.
