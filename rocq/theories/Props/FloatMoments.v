(** C109: moments, medians and entropies in floating point. *)
From Coq Require Import Reals Lra Lia List Bool Arith ZArith.
From Flocq Require Import Core.
From Verif Require Import Base.XR Base.Float Spec.Rounding Spec.Accuracy Spec.Near Proofs.FloatOrder Proofs.FloatLib
  Model.FloatDist Model.FloatMoments Props.FloatBij Props.FloatAccuracy.
Import ListNotations.
Local Open Scope R_scope.

Section Moments.
Variable dt : dtype.
Notation e := (eps dt).
Notation near := (near dt).

Lemma near_round w t A B : 0 <= A -> 0 <= B -> Rabs (w - t) <= A * e * Rabs t + B * tiny dt -> Rabs w <= maxpow dt / 2 ->
  near (5 / 4 * A + 1) (5 / 4 * B + 1) (fround dt (Fin w)) t.
Proof.
  intros HA HB H Hm. destruct (round_fin dt w Hm) as (r & Er & _ & _ & Qr). exists r. split; [auto|].
  pose proof (eps_pos dt) as E0. pose proof (eps_le dt) as E4. pose proof (tiny_pos dt) as T0. pose proof (sub_le_tiny dt).
  assert (Hr : Rabs (r - w) <= e * Rabs w + tiny dt).
  { subst r. destruct (Rle_lt_dec (tiny dt) (Rabs w)) as [L|L]; [pose proof (rnd_err dt w L); lra|pose proof (rnd_err_sub dt w L); pose proof (Rabs_pos w); nra]. }
  assert (Hw : Rabs w <= Rabs t + Rabs (w - t)). { pose proof (Rabs_triang t (w - t)) as Q. replace (t + (w - t)) with w in Q by ring. lra. }
  pose proof (Rabs_pos t) as Pt. set (d := Rabs (w - t)) in *. assert (d0 : 0 <= d) by apply Rabs_pos. assert (e * Rabs w <= e * Rabs t + e * d) by (rewrite <- Rmult_plus_distr_l; apply Rmult_le_compat_l; lra).
  assert (e * d <= / 4 * d) by (apply Rmult_le_compat_r; lra). replace (r - t) with ((r - w) + (w - t)) by ring. eapply Rle_trans; [apply Rabs_triang|]. fold d. lra.
Qed.
Lemma near_weaken v t j l j' l' : near j l v t -> j <= j' -> l <= l' -> near j' l' v t.
Proof.
  intros (r & -> & H) Hj Hl. exists r. split; [auto|]. pose proof (eps_pos dt). pose proof (tiny_pos dt). pose proof (Rabs_pos t).
  assert (j * (e * Rabs t) <= j' * (e * Rabs t)) by (apply Rmult_le_compat_r; [apply Rmult_le_pos; lra|auto]). assert (l * tiny dt <= l' * tiny dt) by (apply Rmult_le_compat_r; lra). lra.
Qed.
Lemma near_size r t j l : 0 <= j -> 0 <= l -> Rabs (r - t) <= j * e * Rabs t + l * tiny dt -> Rabs r <= (1 + j / 4) * Rabs t + l / 4.
Proof.
  intros Hj Hl H. pose proof (eps_pos dt). pose proof (eps_le dt). pose proof (tiny_le_eps dt). pose proof (Rabs_pos t). replace r with ((r - t) + t) by ring. eapply Rle_trans; [apply Rabs_triang|].
  assert (j * e * Rabs t <= j * / 4 * Rabs t) by (apply Rmult_le_compat_r; [auto|apply Rmult_le_compat_l; lra]). assert (l * tiny dt <= l * / 4) by (apply Rmult_le_compat_l; lra). lra.
Qed.
Lemma constant_bounds c C : 0 < C -> constant dt c C -> 3 / 4 * C <= c <= 5 / 4 * C.
Proof. intros HC H. unfold constant in H. pose proof (eps_le dt). pose proof (eps_pos dt). assert (e * C <= / 4 * C) by (apply Rmult_le_compat_r; lra). apply Rabs_le_inv in H. lra. Qed.

(** a scale times a constant, and its quotient and square *)
Lemma scaled s c C : 0 < C -> constant dt c C -> Rabs s * C <= maxpow dt / 4 -> near (9 / 4) 1 (fmul dt (Fin s) (Fin c)) (s * C).
Proof.
  intros HC Hc Hm. unfold fmul. rewrite xmul_fin. pose proof (constant_bounds c C HC Hc). pose proof (Rabs_pos s). assert (Rabs s * c <= Rabs s * (5 / 4 * C)) by (apply Rmult_le_compat_l; lra).
  eapply near_weaken; [apply (near_round (s * c) (s * C) 1 0)|lra|lra]; try lra.
  - replace (s * c - s * C) with (s * (c - C)) by ring. rewrite !Rabs_mult, (Rabs_pos_eq C) by lra. unfold constant in Hc. assert (Rabs s * Rabs (c - C) <= Rabs s * (e * C)) by (apply Rmult_le_compat_l; auto). lra.
  - rewrite Rabs_mult, (Rabs_pos_eq c) by lra. pose proof (maxpow_ge_32 dt). lra.
Qed.
Lemma quotient v t c C j l : 0 <= j -> 0 <= l -> near j l v t -> 1 <= C -> constant dt c C -> (1 + j / 4) * Rabs t + l / 4 <= maxpow dt / 4 ->
  near (5 / 3 * j + 8 / 3) (5 / 3 * l + 1) (fdiv dt v (Fin c)) (t / C).
Proof.
  intros Hj Hl (r & -> & Hr) HC Hc Hm. pose proof (constant_bounds c C ltac:(lra) Hc) as Bc. pose proof (near_size r t j l Hj Hl Hr) as Sr. pose proof (eps_pos dt) as E0. pose proof (tiny_pos dt) as T0. pose proof (Rabs_pos t) as Pt.
  unfold fdiv. rewrite xdiv_fin' by lra. assert (Ic : 0 < / c <= 4 / 3 * / C).
  { split; [apply Rinv_0_lt_compat; lra|]. apply Rmult_le_reg_r with (c * C); [nra|]. replace (/ c * (c * C)) with C by (field; lra). replace (4 / 3 * / C * (c * C)) with (4 / 3 * c) by (field; lra). lra. }
  assert (IC : 0 < / C <= 1) by (split; [apply Rinv_0_lt_compat; lra|rewrite <- Rinv_1; apply Rinv_le_contravar; lra]).
  assert (At : Rabs (t / C) = Rabs t * / C) by (unfold Rdiv; rewrite Rabs_mult, (Rabs_pos_eq (/ C)); lra).
  eapply near_weaken; [apply (near_round (r / c) (t / C) (4 / 3 * j + 4 / 3) (4 / 3 * l))|lra|lra]; try lra.
  - replace (r / c - t / C) with ((r - t) * / c + t * ((C - c) * / C) * / c) by (field; lra). eapply Rle_trans; [apply Rabs_triang|]. rewrite !Rabs_mult, (Rabs_pos_eq (/ c)), (Rabs_pos_eq (/ C)), At by lra.
    unfold constant in Hc. rewrite Rabs_minus_sym in Hc. assert (H1 : Rabs (C - c) * / C <= e). { apply Rmult_le_reg_r with C; [lra|]. rewrite Rmult_assoc, Rinv_l by lra. lra. }
    assert (H2 : Rabs t * (Rabs (C - c) * / C) * / c <= Rabs t * e * (4 / 3 * / C)). { apply Rmult_le_compat; try lra; [apply Rmult_le_pos; [auto|]; apply Rmult_le_pos; [apply Rabs_pos|lra]|]. apply Rmult_le_compat_l; auto. }
    assert (H3 : Rabs (r - t) * / c <= (j * e * Rabs t + l * tiny dt) * (4 / 3 * / C)) by (apply Rmult_le_compat; try lra; apply Rabs_pos).
    assert (H4 : l * tiny dt * / C <= l * tiny dt * 1) by (apply Rmult_le_compat_l; [apply Rmult_le_pos; lra|lra]). lra.
  - unfold Rdiv. rewrite Rabs_mult, (Rabs_pos_eq (/ c)) by lra. assert (Rabs r * / c <= Rabs r * (4 / 3)) by (apply Rmult_le_compat_l; [apply Rabs_pos|lra]). pose proof (maxpow_ge_32 dt). lra.
Qed.
Lemma exact_constant C : 0 < C -> constant dt C C.
Proof. intros H. unfold constant. rewrite Rminus_diag_eq, Rabs_R0 by auto. pose proof (eps_pos dt). apply Rmult_le_pos; lra. Qed.
Lemma squared v t j : 0 <= j -> near j 1 v t -> (1 + j / 4) ^ 2 * t ^ 2 + 1 <= maxpow dt / 8 -> near (5 / 4 * (2 * j + j ^ 2 / 2 + 1) + 1) 3 (fl_square dt v) (t ^ 2).
Proof.
  intros Hj (r & -> & Hr) Hm. unfold fl_square, fmul. rewrite xmul_fin. pose proof (near_size r t j 1 Hj ltac:(lra) Hr) as Sr. pose proof (eps_pos dt) as E0. pose proof (eps_le dt) as E4. pose proof (tiny_pos dt) as T0. pose proof (tiny_le_eps dt) as TE. pose proof (Rabs_pos t) as Pt.
  assert (At : Rabs (t ^ 2) = Rabs t * Rabs t) by (rewrite <- (abs_sq t), Rabs_pos_eq; auto; apply Rmult_le_pos; auto). rewrite <- (abs_sq t) in Hm.
  eapply near_weaken; [apply (near_round (r * r) (t ^ 2) (2 * j + j ^ 2 / 2 + 1) (8 / 5))|lra|lra]; try lra.
  - nra.
  - rewrite At. replace (r * r - t ^ 2) with ((r - t) * (r - t) + 2 * (t * (r - t))) by ring. eapply Rle_trans; [apply Rabs_triang|]. rewrite !Rabs_mult, (Rabs_pos_eq 2) by lra. set (a := Rabs t) in *. clearbody a. set (d := Rabs (r - t)) in *. assert (d0 : 0 <= d) by apply Rabs_pos. clearbody d.
    rewrite Rmult_1_l in Hr. set (u := j * e * a) in *. assert (u0 : 0 <= u) by (unfold u; apply Rmult_le_pos; [apply Rmult_le_pos; lra|auto]). set (q := tiny dt) in *.
    assert (D1 : d * d <= 2 * (u * u) + 2 * (q * q)). { assert (d * d <= (u + q) * (u + q)) by (apply Rmult_le_compat; lra). pose proof (Rle_0_sqr (u - q)) as Sq. unfold Rsqr in Sq. lra. }
    assert (D2 : a * d <= a * u + a * q) by (rewrite <- Rmult_plus_distr_l; apply Rmult_le_compat_l; lra).
    assert (D3 : 2 * (a * q) <= q * (a * a) + q). { pose proof (Rle_0_sqr (a - 1)) as Sq. unfold Rsqr in Sq. assert (0 <= q * ((a - 1) * (a - 1))) by (apply Rmult_le_pos; lra). lra. }
    assert (D4 : q * (a * a) <= e * (a * a)) by (apply Rmult_le_compat_r; [apply Rmult_le_pos; auto|lra]). assert (D5 : q * q <= / 4 * q) by (apply Rmult_le_compat_r; lra).
    assert (D6 : u * u <= j ^ 2 / 4 * (e * (a * a))). { unfold u. replace (j * e * a * (j * e * a)) with (e * (j ^ 2 * e * (a * a))) by ring. replace (j ^ 2 / 4 * (e * (a * a))) with (/ 4 * (j ^ 2 * e * (a * a))) by field. apply Rmult_le_compat_r; [|lra]. apply Rmult_le_pos; [apply Rmult_le_pos; [apply pow2_ge_0|lra]|apply Rmult_le_pos; auto]. }
    assert (D7 : a * u = j * (e * (a * a))) by (unfold u; ring). lra.
  - rewrite Rabs_mult. assert (0 <= Rabs r) by apply Rabs_pos. set (a := Rabs t) in *. clearbody a. assert (Rabs r * Rabs r <= ((1 + j / 4) * a + 1 / 4) * ((1 + j / 4) * a + 1 / 4)) by (apply Rmult_le_compat; lra).
    pose proof (Rle_0_sqr ((1 + j / 4) * a - 1 / 4)) as Sq. unfold Rsqr in Sq. pose proof (maxpow_ge_32 dt). lra.
Qed.

(** Uniform.mean and median, while [low + high] does not overflow: between the bounds, and accurate. *)
Theorem C109_uniform_mean low high : repr dt low -> repr dt high -> low <= high -> Rabs (low + high) <= maxpow dt / 2 ->
  exists m, fl_uniform_mean dt (Fin low) (Fin high) = Fin m /\ low <= m <= high /\ Rabs (m - (low + high) / 2) <= 9 / 4 * e * Rabs ((low + high) / 2) + 2 * tiny dt.
Proof.
  intros Rl Rh Hlh Hm. unfold fl_uniform_mean, fadd. rewrite xadd_fin. destruct (round_fin dt (low + high) Hm) as (s & Es & Rs & _ & Qs). rewrite Es.
  unfold fdiv. rewrite xdiv_fin' by lra. assert (B : 2 * low <= s <= 2 * high).
  { subst s. split; [replace (2 * low) with (rnd dt (2 * low)) by (apply round_generic; [apply valid_rnd_N|apply F_double; auto])|replace (2 * high) with (rnd dt (2 * high)) by (apply round_generic; [apply valid_rnd_N|apply F_double; auto])]; apply rnd_le; lra. }
  destruct (fround_between dt (s / 2) low high Rl Rh ltac:(lra)) as (Q & B2 & _). exists (rnd dt (s / 2)). split; [exact Q|]. split; [exact B2|].
  pose proof (eps_pos dt) as E0. pose proof (eps_le dt) as E4. pose proof (tiny_pos dt) as T0. pose proof (sub_le_tiny dt). set (t := (low + high) / 2).
  assert (Hs : Rabs (s / 2 - t) <= e * Rabs t). { pose proof (sub_rel dt high (- low) Rh (repr_opp dt low Rl)) as Q'. replace (high - - low) with (low + high) in Q' by ring. rewrite <- Qs in Q'. unfold t. replace (s / 2 - (low + high) / 2) with ((s - (low + high)) * / 2) by field. unfold Rdiv. rewrite !Rabs_mult, (Rabs_pos_eq (/ 2)) by lra. lra. }
  assert (Hr : Rabs (rnd dt (s / 2) - s / 2) <= e * Rabs (s / 2) + tiny dt).
  { destruct (Rle_lt_dec (tiny dt) (Rabs (s / 2))) as [L|L]; [pose proof (rnd_err dt _ L); lra|pose proof (rnd_err_sub dt _ L); pose proof (Rabs_pos (s / 2)); nra]. }
  assert (Hw : Rabs (s / 2) <= Rabs t + e * Rabs t). { replace (s / 2) with ((s / 2 - t) + t) by ring. eapply Rle_trans; [apply Rabs_triang|]. lra. }
  replace (rnd dt (s / 2) - t) with ((rnd dt (s / 2) - s / 2) + (s / 2 - t)) by ring. eapply Rle_trans; [apply Rabs_triang|]. pose proof (Rabs_pos t). assert (e * Rabs (s / 2) <= e * (Rabs t + e * Rabs t)) by (apply Rmult_le_compat_l; lra). assert (e * (e * Rabs t) <= / 4 * (e * Rabs t)) by (apply Rmult_le_compat_r; [apply Rmult_le_pos; lra|lra]). lra.
Qed.
(** When it overflows the mean is infinite, outside the support although the mean of two floats is always in range. *)
Theorem C109_uniform_mean_refuted : exists low high, repr dt low /\ repr dt high /\ low < high /\ fl_uniform_mean dt (Fin low) (Fin high) = PInf.
Proof.
  pose proof (maxpow_ge_32 dt) as M32. assert (R1 : repr dt (maxpow dt / 2)) by apply repr_half.
  assert (R3 : repr dt (3 * (maxpow dt / 4))).
  { assert (E : maxpow dt / 4 = bpow radix2 (emax dt - 2)). { unfold maxpow. replace (emax dt) with ((emax dt - 2) + 2)%Z at 1 by ring. rewrite bpow_plus. change (bpow radix2 2) with 4. field. }
    split; [|rewrite Rabs_pos_eq; lra]. rewrite E. apply generic_format_FLT. exists (Float radix2 3 (emax dt - 2)); cbn [Fnum Fexp].
    - unfold F2R; cbn [Fnum Fexp]. reflexivity.
    - pose proof (mant_ok dt). change (radix_val radix2) with 2%Z. apply Z.lt_le_trans with (2 ^ 2)%Z; [reflexivity|]. apply Z.pow_le_mono_r; lia.
    - pose proof (mant_ok dt). pose proof (exp_ok dt). unfold emin. lia. }
  exists (maxpow dt / 2), (3 * (maxpow dt / 4)). split; [auto|]. split; [auto|]. split; [lra|]. unfold fl_uniform_mean, fadd. rewrite xadd_fin.
  assert (O : fround dt (Fin (maxpow dt / 2 + 3 * (maxpow dt / 4))) = PInf).
  { unfold fround. assert (Q : maxpow dt <= rnd dt (maxpow dt / 2 + 3 * (maxpow dt / 4))).
    { replace (maxpow dt) with (rnd dt (maxpow dt)) at 1; [apply rnd_le; lra|]. apply round_generic; [apply valid_rnd_N|]. replace (maxpow dt) with (2 * (maxpow dt / 2)) by field. apply F_double. auto. }
    destruct (Rlt_dec _ _) as [C|C]; [exfalso|]; try (destruct (Rlt_dec _ _)); try reflexivity; try lra; rewrite Rabs_pos_eq in * by lra; lra. }
  rewrite O. unfold fdiv. cbn. unfold inf_times. repeat destruct (Rlt_dec _ _); repeat destruct (Req_EM_T _ _); try lra; reflexivity.
Qed.

(** Uniform's standard deviation and variance. *)
Lemma range_near low high : repr dt low -> repr dt high -> Rabs (high - low) <= maxpow dt / 2 -> near 1 0 (fl_range dt (Fin low) (Fin high)) (high - low) /\ exists r, fl_range dt (Fin low) (Fin high) = Fin r /\ repr dt r.
Proof.
  intros Rl Rh Hm. unfold fl_range, fsub. rewrite xsub_fin. destruct (round_fin dt _ Hm) as (r & Er & Rr & _ & Qr). rewrite Er. split; [|exists r; auto]. exists r. split; [auto|].
  pose proof (sub_rel dt high low Rh Rl) as Q. rewrite <- Qr in Q. lra.
Qed.
Theorem C109_uniform_spread c low high : repr dt low -> repr dt high -> constant dt c (sqrt 12) -> 1 + (high - low) ^ 2 <= maxpow dt / 16 ->
  near 5 1 (fl_uniform_stddev dt (Fin c) (Fin low) (Fin high)) ((high - low) / sqrt 12) /\
  near 12 6 (fl_uniform_variance dt (Fin low) (Fin high)) ((high - low) ^ 2 / 12).
Proof.
  intros Rl Rh Hc Hm. set (d := high - low) in *. assert (Bd : Rabs d <= 1 + d ^ 2) by (pose proof (abs_half d); pose proof (pow2_ge_0 d); lra). pose proof (maxpow_ge_32 dt) as M32. pose proof (pow2_ge_0 d) as P2.
  destruct (range_near low high Rl Rh ltac:(fold d; lra)) as (N & _). fold d in N.
  assert (S12 : 1 <= sqrt 12) by (rewrite <- sqrt_1; apply sqrt_le_1; lra). split.
  - eapply near_weaken; [apply (quotient _ d c (sqrt 12) 1 0); auto; try lra|lra|lra].
  - eapply near_weaken; [apply (quotient _ (d ^ 2) 12 12 (5 / 4 * (2 * 1 + 1 ^ 2 / 2 + 1) + 1) 3)|lra|lra]; try lra.
    + apply squared; [lra|eapply near_weaken; [exact N|lra|lra]|]. lra.
    + apply exact_constant. lra.
    + rewrite Rabs_pos_eq by auto. lra.
Qed.

(** Entropies, with a log accurate to [k] units. *)
Section Scale.
Variables (k : R) (L : XR -> XR).
Hypothesis Hk : 0 <= k.
Hypothesis Hke : k * e <= 1.
Hypothesis HL : accurate dt k L ln (fun s => 0 < s).
Variable s : R.
Hypothesis Rs : repr dt s.
Hypothesis Hs : 0 < s.

Lemma log_s_close : close (L (Fin s)) (ln s) (k * e * Rabs (ln s) + e).
Proof. destruct (HL s Rs Hs) as (r & Er & _ & H). exists r. split; [auto|]. pose proof (tiny_le_eps dt). lra. Qed.
Lemma plus_log c C : Rabs (c - C) <= 2 * e -> Rabs C <= 4 -> Rabs (ln s) + 8 <= maxpow dt / 8 ->
  close (fadd dt (Fin c) (L (Fin s))) (C + ln s) ((2 * k + 10) * e * (1 + Rabs (ln s))).
Proof.
  intros Hc HC Hm. pose proof (eps_pos dt) as E0. pose proof (eps_le dt) as E4. pose proof (Rabs_pos (ln s)) as P. assert (Cc : close (Fin c) C (2 * e)) by (exists c; auto).
  assert (K1 : 0 <= k * e) by (apply Rmult_le_pos; lra). assert (K2 : k * e * Rabs (ln s) <= 1 * Rabs (ln s)) by (apply Rmult_le_compat_r; auto). assert (K0 : 0 <= k * e * Rabs (ln s)) by (apply Rmult_le_pos; auto).
  eapply close_weaken; [apply (close_add dt _ _ _ _ _ _ (5 + Rabs (ln s) + k * e * Rabs (ln s)) Cc log_s_close)|]; try lra.
  assert (e * (k * e * Rabs (ln s)) <= / 4 * (k * e * Rabs (ln s))) by (apply Rmult_le_compat_r; auto). nra.
Qed.
Theorem C109_entropy half_log_2pi_f log2_plus_1 g G : Rabs (half_log_2pi_f - half_log_2pi) <= 2 * e -> Rabs (log2_plus_1 - (ln 2 + 1)) <= 2 * e -> Rabs (g - G) <= e -> 0 < G < 1 ->
  Rabs (ln s) + 8 <= maxpow dt / 64 ->
  close (fl_normal_entropy dt L (Fin half_log_2pi_f) (Fin s)) (1 / 2 + half_log_2pi + ln s) ((3 * k + 20) * e * (1 + Rabs (ln s))) /\
  close (fl_laplace_entropy dt L (Fin log2_plus_1) (Fin s)) (1 + ln 2 + ln s) ((2 * k + 10) * e * (1 + Rabs (ln s))) /\
  close (fl_logistic_entropy dt L (Fin s)) (2 + ln s) ((2 * k + 10) * e * (1 + Rabs (ln s))) /\
  close (fl_gumbel_entropy dt L (Fin g) (Fin s)) (ln s + 1 + G) ((3 * k + 20) * e * (1 + Rabs (ln s))).
Proof.
  intros H1 H2 HG BG Hm. pose proof (eps_pos dt) as E0. pose proof (eps_le dt) as E4. pose proof (Rabs_pos (ln s)) as P. pose proof half_log_2pi_bounds as Hp. pose proof ln2_bounds as L2.
  assert (Z : forall x, Rabs (x - x) = 0) by (intros; rewrite Rminus_diag_eq, Rabs_R0; auto).
  assert (K1 : 0 <= k * (e * (1 + Rabs (ln s)))) by (apply Rmult_le_pos; [auto|apply Rmult_le_pos; lra]). assert (K2 : k * e * (1 + Rabs (ln s)) <= 1 * (1 + Rabs (ln s))) by (apply Rmult_le_compat_r; lra). assert (K3 : 0 <= e * (1 + Rabs (ln s)) <= / 4 * (1 + Rabs (ln s))) by (split; [apply Rmult_le_pos; lra|apply Rmult_le_compat_r; lra]).
  set (D := (2 * k + 10) * e * (1 + Rabs (ln s))). assert (D0 : 0 <= D <= 5 * (1 + Rabs (ln s))) by (unfold D; lra). assert (De : e * D <= / 4 * D) by (apply Rmult_le_compat_r; lra). split; [|split; [|split]].
  - unfold fl_normal_entropy. cbv zeta. pose proof (plus_log _ _ H1 ltac:(rewrite Rabs_pos_eq; lra) ltac:(lra)) as C1. fold D in C1. replace (1 / 2 + half_log_2pi + ln s) with (1 / 2 + (half_log_2pi + ln s)) by ring.
    assert (Bt : Rabs (half_log_2pi + ln s) <= 3 / 2 + Rabs (ln s)) by (eapply Rle_trans; [apply Rabs_triang|]; rewrite (Rabs_pos_eq half_log_2pi); lra).
    eapply close_weaken; [apply (close_add dt _ _ _ _ _ _ (2 + Rabs (ln s) + D) (close_exact _) C1)|]; rewrite ?(Rabs_pos_eq (1 / 2)) by lra; try lra. unfold D in *. nra.
  - unfold fl_laplace_entropy. replace (1 + ln 2) with (ln 2 + 1) by ring. apply plus_log; [auto|rewrite Rabs_pos_eq; lra|lra].
  - unfold fl_logistic_entropy. apply plus_log; [rewrite Z; lra|rewrite Rabs_pos_eq; lra|lra].
  - unfold fl_gumbel_entropy. assert (C1 : close (fadd dt (L (Fin s)) (Fin 1)) (ln s + 1) D).
    { replace (fadd dt (L (Fin s)) (Fin 1)) with (fadd dt (Fin 1) (L (Fin s))). replace (ln s + 1) with (1 + ln s) by ring. apply plus_log; [rewrite Z; lra|rewrite Rabs_R1; lra|lra].
      unfold fadd. f_equal. destruct log_s_close as (r & -> & _). cbn. f_equal. ring. }
    assert (C2 : close (Fin g) G e) by (exists g; auto). assert (Bt : Rabs (ln s + 1) <= 1 + Rabs (ln s)) by (eapply Rle_trans; [apply Rabs_triang|]; rewrite Rabs_R1; lra).
    eapply close_weaken; [apply (close_add dt _ _ _ _ _ _ (3 + Rabs (ln s) + D) C1 C2)|]; rewrite ?(Rabs_pos_eq G) by lra; try lra. unfold D in *. nra.
Qed.

(** Standard deviations and variances. *)
Theorem C109_spread pi c2 c3 c6 : constant dt pi PI -> constant dt c2 (sqrt 2) -> constant dt c3 (sqrt 3) -> constant dt c6 (sqrt 6) -> 1 + s ^ 2 <= maxpow dt / 512 ->
  near 4 3 (fl_normal_variance dt (Fin s)) (s ^ 2) /\
  near 3 1 (fl_laplace_stddev dt (Fin c2) (Fin s)) (sqrt 2 * s) /\ near 4 9 (fl_laplace_variance dt (Fin s)) (2 * s ^ 2) /\
  near 7 3 (fl_logistic_stddev dt (Fin pi) (Fin c3) (Fin s)) (s * PI / sqrt 3) /\ near 24 6 (fl_logistic_variance dt (Fin pi) (Fin s)) ((s * PI) ^ 2 / 3) /\
  near 7 3 (fl_gumbel_stddev dt (Fin pi) (Fin c6) (Fin s)) (s * PI / sqrt 6) /\ near 24 6 (fl_gumbel_variance dt (Fin pi) (Fin s)) ((s * PI) ^ 2 / 6).
Proof.
  intros Hpi H2 H3 H6 Hm. pose proof PI_4 as P4. pose proof PI2_3_2 as P3. assert (BP : 3 <= PI <= 4) by lra. pose proof (maxpow_ge_32 dt) as M32. pose proof (pow2_ge_0 s) as P2. assert (Bs : s <= 1 + s ^ 2) by nra.
  assert (S2 : 1 <= sqrt 2 <= 2). { split; [rewrite <- sqrt_1 at 1; apply sqrt_le_1; lra|]. replace 2 with (sqrt (2 * 2)) at 2 by (apply sqrt_square; lra). apply sqrt_le_1; lra. }
  assert (S3 : 1 <= sqrt 3) by (rewrite <- sqrt_1; apply sqrt_le_1; lra). assert (S6 : 1 <= sqrt 6) by (rewrite <- sqrt_1; apply sqrt_le_1; lra).
  assert (A0 : Rabs s = s) by (apply Rabs_pos_eq; lra). assert (N0 : near 0 1 (Fin s) s). { exists s. split; [auto|]. rewrite Rminus_diag_eq, Rabs_R0 by auto. pose proof (tiny_pos dt). lra. }
  assert (sPi : 0 <= s * PI <= 4 * s) by (split; [apply Rmult_le_pos; lra|rewrite Rmult_comm; apply Rmult_le_compat_r; lra]). assert (sPi2 : (s * PI) ^ 2 <= 16 * s ^ 2) by nra. pose proof (pow2_ge_0 (s * PI)) as Q2.
  assert (N1 : near (9 / 4) 1 (fmul dt (Fin s) (Fin pi)) (s * PI)) by (apply scaled; auto; try lra; rewrite A0; lra).
  assert (N2 : near (5 / 4 * (2 * (9 / 4) + (9 / 4) ^ 2 / 2 + 1) + 1) 3 (fl_square dt (fmul dt (Fin s) (Fin pi))) ((s * PI) ^ 2)). { apply squared; [lra|auto|]. lra. }
  assert (One : fmul dt (Fin s) (Fin 1) = Fin s) by (unfold fmul; rewrite xmul_fin, Rmult_1_r; apply fround_repr; auto).
  assert (N3 : near (5 / 4 * (2 * 0 + 0 ^ 2 / 2 + 1) + 1) 3 (fl_square dt (Fin s)) (s ^ 2)) by (apply squared; [lra|auto|lra]).
  assert (Ap : Rabs (s * PI) = s * PI) by (apply Rabs_pos_eq; lra). assert (Ap2 : Rabs ((s * PI) ^ 2) = (s * PI) ^ 2) by (apply Rabs_pos_eq; lra).
  assert (Qsd : forall c C, 1 <= C -> constant dt c C -> near 7 3 (fdiv dt (fmul dt (Fin s) (Fin pi)) (Fin c)) (s * PI / C)).
  { intros c C HC Hc. eapply near_weaken; [apply (quotient _ _ c C (9 / 4) 1); auto; try lra; rewrite Ap; lra|lra|lra]. }
  assert (Qvar : forall C, 1 <= C -> near 24 6 (fdiv dt (fl_square dt (fmul dt (Fin s) (Fin pi))) (Fin C)) ((s * PI) ^ 2 / C)).
  { intros C HC. eapply near_weaken; [apply (quotient _ _ C C (5 / 4 * (2 * (9 / 4) + (9 / 4) ^ 2 / 2 + 1) + 1) 3 ltac:(lra) ltac:(lra) N2 HC (exact_constant C ltac:(lra)))|lra|lra]. rewrite Ap2. lra. }
  repeat split.
  - unfold fl_normal_variance. eapply near_weaken; [exact N3|lra|lra].
  - unfold fl_laplace_stddev. replace (fmul dt (Fin c2) (Fin s)) with (fmul dt (Fin s) (Fin c2)) by (unfold fmul; rewrite !xmul_fin; do 2 f_equal; ring). replace (sqrt 2 * s) with (s * sqrt 2) by ring. eapply near_weaken; [apply scaled; auto; try lra; rewrite A0|lra|lra]. assert (s * sqrt 2 <= s * 2) by (apply Rmult_le_compat_l; lra). lra.
  - unfold fl_laplace_variance. destruct N3 as (q & -> & Hq). unfold fmul. rewrite xmul_fin. assert (Aq : Rabs (2 * s ^ 2) = 2 * s ^ 2) by (apply Rabs_pos_eq; lra). rewrite (Rabs_pos_eq (s ^ 2)) in Hq by lra.
    pose proof (eps_le dt). pose proof (tiny_le_eps dt). pose proof (eps_pos dt). pose proof (tiny_pos dt). assert (e * s ^ 2 <= / 4 * s ^ 2) by (apply Rmult_le_compat_r; lra).
    assert (W : Rabs (2 * q - 2 * s ^ 2) <= 9 / 4 * e * Rabs (2 * s ^ 2) + 6 * tiny dt) by (replace (2 * q - 2 * s ^ 2) with (2 * (q - s ^ 2)) by ring; rewrite Rabs_mult, (Rabs_pos_eq 2), Aq by lra; lra).
    eapply near_weaken; [apply (near_round (2 * q) (2 * s ^ 2) (9 / 4) 6); auto; try lra|lra|lra]. replace (2 * q) with ((2 * q - 2 * s ^ 2) + 2 * s ^ 2) by ring. eapply Rle_trans; [apply Rabs_triang|]. rewrite Aq in *. lra.
  - apply Qsd; auto.
  - apply Qvar. lra.
  - unfold fl_gumbel_stddev. rewrite One. apply Qsd; auto.
  - unfold fl_gumbel_variance. rewrite One. apply Qvar. lra.
Qed.

(** Gumbel's mean and median: the error is relative to the result and to the term added to the location. *)
Lemma offset loc c C (sub : bool) : repr dt loc -> Rabs (c - C) <= e * Rabs C -> Rabs loc + s * Rabs C <= maxpow dt / 8 ->
  let t := if sub then loc - s * C else loc + s * C in
  exists r, (if sub then fsub dt (Fin loc) (fmul dt (Fin s) (Fin c)) else fadd dt (Fin loc) (fmul dt (Fin s) (Fin c))) = Fin r /\
    Rabs (r - t) <= e * Rabs t + 3 * e * (s * Rabs C) + 3 * tiny dt.
Proof.
  intros Rl Hc Hm t. pose proof (eps_pos dt) as E0. pose proof (eps_le dt) as E4. pose proof (tiny_pos dt) as T0. pose proof (tiny_le_eps dt) as TE. pose proof (maxpow_ge_32 dt) as M32. pose proof (sub_le_tiny dt) as ST.
  pose proof (Rabs_pos C) as PC. pose proof (Rabs_pos loc) as Pl. assert (S0 : 0 <= s * Rabs C) by (apply Rmult_le_pos; lra). assert (As : Rabs s = s) by (apply Rabs_pos_eq; lra).
  assert (Rd : forall w, Rabs (rnd dt w - w) <= e * Rabs w + tiny dt).
  { intros w. destruct (Rle_lt_dec (tiny dt) (Rabs w)) as [W|W]; [pose proof (rnd_err dt w W); lra|pose proof (rnd_err_sub dt w W); pose proof (Rabs_pos w); nra]. }
  assert (H1 : Rabs (s * c - s * C) <= e * (s * Rabs C)). { replace (s * c - s * C) with (s * (c - C)) by ring. rewrite Rabs_mult, As. replace (e * (s * Rabs C)) with (s * (e * Rabs C)) by ring. apply Rmult_le_compat_l; lra. }
  assert (H2 : Rabs (s * C) = s * Rabs C) by (rewrite Rabs_mult, As; auto). assert (ES : 0 <= e * (s * Rabs C) <= / 4 * (s * Rabs C)) by (split; [apply Rmult_le_pos; lra|apply Rmult_le_compat_r; lra]).
  assert (H3 : Rabs (s * c) <= 5 / 4 * (s * Rabs C)) by (replace (s * c) with ((s * c - s * C) + s * C) by ring; eapply Rle_trans; [apply Rabs_triang|]; lra).
  destruct (round_fin dt (s * c)) as (p & Ep & _ & _ & Qp); [lra|]. pose proof (Rd (s * c)) as Hp. rewrite <- Qp in Hp. assert (e * Rabs (s * c) <= e * (5 / 4 * (s * Rabs C))) by (apply Rmult_le_compat_l; lra).
  assert (Hp2 : Rabs (p - s * C) <= 9 / 4 * (e * (s * Rabs C)) + tiny dt) by (replace (p - s * C) with ((p - s * c) + (s * c - s * C)) by ring; eapply Rle_trans; [apply Rabs_triang|]; lra).
  assert (Fin_sum : forall x, Rabs (x - t) <= 9 / 4 * (e * (s * Rabs C)) + tiny dt -> exists r, fround dt (Fin x) = Fin r /\ Rabs (r - t) <= e * Rabs t + 3 * e * (s * Rabs C) + 3 * tiny dt).
  { intros x Hx. assert (Bt : Rabs t <= Rabs loc + s * Rabs C). { unfold t. destruct sub; [unfold Rminus|]; (eapply Rle_trans; [apply Rabs_triang|]); rewrite ?Rabs_Ropp; lra. }
    assert (Bx : Rabs x <= Rabs t + (9 / 4 * (e * (s * Rabs C)) + tiny dt)) by (replace x with ((x - t) + t) by ring; eapply Rle_trans; [apply Rabs_triang|]; lra).
    destruct (round_fin dt x) as (r & Er & _ & _ & Qr); [lra|]. exists r. split; [auto|]. pose proof (Rd x) as Hr. rewrite <- Qr in Hr.
    assert (e * Rabs x <= e * Rabs t + e * (9 / 4 * (e * (s * Rabs C)) + tiny dt)) by (rewrite <- Rmult_plus_distr_l; apply Rmult_le_compat_l; lra).
    assert (e * (9 / 4 * (e * (s * Rabs C)) + tiny dt) <= / 4 * (9 / 4 * (e * (s * Rabs C)) + tiny dt)) by (apply Rmult_le_compat_r; lra).
    replace (r - t) with ((r - x) + (x - t)) by ring. eapply Rle_trans; [apply Rabs_triang|]. lra. }
  unfold fmul. rewrite xmul_fin, Ep. destruct sub.
  - unfold fsub. rewrite xsub_fin. apply Fin_sum. unfold t. replace (loc - p - (loc - s * C)) with (- (p - s * C)) by ring. now rewrite Rabs_Ropp.
  - unfold fadd. rewrite xadd_fin. apply Fin_sum. unfold t. replace (loc + p - (loc + s * C)) with (p - s * C) by ring. auto.
Qed.
Theorem C109_gumbel_centre g G c loc : repr dt loc -> constant dt g G -> 0 < G < 1 -> Rabs (c - ln (ln 2)) <= e * Rabs (ln (ln 2)) -> Rabs loc + s <= maxpow dt / 8 ->
  (exists m, fl_gumbel_mean dt (Fin g) (Fin loc) (Fin s) = Fin m /\ Rabs (m - (loc + s * G)) <= e * Rabs (loc + s * G) + 3 * e * (s * G) + 3 * tiny dt) /\
  (exists m, fl_gumbel_median dt (Fin c) (Fin loc) (Fin s) = Fin m /\ Rabs (m - (loc - s * ln (ln 2))) <= e * Rabs (loc - s * ln (ln 2)) + 3 * e * (s * Rabs (ln (ln 2))) + 3 * tiny dt).
Proof.
  intros Rl Hg HG Hc Hm. assert (Ag : Rabs G = G) by (apply Rabs_pos_eq; lra). split.
  - pose proof (offset loc g G false Rl) as Q. cbv zeta in Q. cbn iota in Q. rewrite Ag in Q. apply Q; [apply Hg|]. assert (s * G <= s * 1) by (apply Rmult_le_compat_l; lra). lra.
  - apply (offset loc c (ln (ln 2)) true); auto. assert (B : Rabs (ln (ln 2)) <= 1).
    { pose proof ln2_bounds as L2. assert (H : / 2 <= ln 2). { apply Rnot_lt_le. intros C. apply exp_increasing in C. rewrite exp_ln in C by lra. assert (Q : exp (/ 2) * exp (/ 2) = exp 1) by (rewrite <- exp_plus; f_equal; lra). pose proof (exp_pos (/ 2)). pose proof exp_le_3. nra. }
      apply Rabs_le. split; [|pose proof (ln_increasing (ln 2) 1 ltac:(lra) ltac:(lra)) as Q1; rewrite ln_1 in Q1; lra].
      rewrite <- (ln_exp (- (1))). apply Rnot_lt_le. intros C. apply ln_lt_inv in C; [|lra|apply exp_pos]. rewrite exp_Ropp in C. assert (/ exp 1 <= / 2) by (apply Rinv_le_contravar; [lra|]; pose proof (exp_ineq1 1 ltac:(lra)); lra). lra. }
    assert (s * Rabs (ln (ln 2)) <= s * 1) by (apply Rmult_le_compat_l; lra). lra.
Qed.
End Scale.
(** Uniform's entropy: the rounding of the range costs less than two units. *)
Theorem C109_uniform_entropy k L low high : 0 <= k -> k * e <= 1 -> accurate dt k L ln (fun s => 0 < s) -> repr dt low -> repr dt high -> low < high -> high - low <= maxpow dt / 2 ->
  close (fl_uniform_entropy dt L (Fin low) (Fin high)) (ln (high - low)) (k * e * Rabs (ln (high - low)) + 4 * e).
Proof.
  intros Hk Hke HL Rl Rh Hlh Hm. set (d := high - low) in *. assert (D0 : 0 < d) by (unfold d; lra). destruct (range_near low high Rl Rh) as ((r & Er & Hr) & r' & Er' & Rr); [fold d; rewrite Rabs_pos_eq; lra|]. rewrite Er in Er'. injection Er' as <-.
  unfold fl_uniform_entropy. rewrite Er. pose proof (eps_pos dt) as E0. pose proof (eps_le dt) as E4. pose proof (tiny_le_eps dt) as TE. fold d in Hr. rewrite (Rabs_pos_eq d) in Hr by lra. assert (Br : Rabs (r - d) <= e * d) by lra.
  assert (e * d <= / 4 * d) by (apply Rmult_le_compat_r; lra). pose proof (Rabs_le_inv _ _ Br) as Bi. assert (R0 : 0 < r) by lra. destruct (HL r Rr R0) as (q & Eq & _ & Hq). exists q. split; [auto|].
  assert (Ld : Rabs (ln r - ln d) <= 4 / 3 * e).
  { assert (U : forall a b, 0 < a -> 0 < b -> ln a - ln b <= (a - b) / b). { intros a b Ha Hb. rewrite <- ln_div by auto. assert (P : 0 < a / b) by (apply Rdiv_lt_0_compat; auto). pose proof (exp_ineq1_le (ln (a / b))) as Q. rewrite exp_ln in Q by auto. replace ((a - b) / b) with (a / b - 1) by (field; lra). lra. }
    pose proof (U r d R0 D0) as U1. pose proof (U d r D0 R0) as U2. apply Rabs_le. split.
    - assert ((d - r) / r <= 4 / 3 * e); [|lra]. apply Rmult_le_reg_r with r; [auto|]. unfold Rdiv at 1. rewrite Rmult_assoc, Rinv_l by lra. assert (e * (3 / 4 * d) <= e * r) by (apply Rmult_le_compat_l; lra). lra.
    - assert ((r - d) / d <= 4 / 3 * e); [|lra]. apply Rmult_le_reg_r with d; [auto|]. unfold Rdiv at 1. rewrite Rmult_assoc, Rinv_l by lra. assert (0 <= e * d) by (apply Rmult_le_pos; lra). lra. }
  assert (Bl : Rabs (ln r) <= Rabs (ln d) + 4 / 3 * e) by (replace (ln r) with ((ln r - ln d) + ln d) by ring; eapply Rle_trans; [apply Rabs_triang|]; lra).
  assert (0 <= k * e) by (apply Rmult_le_pos; lra). assert (k * e * Rabs (ln r) <= k * e * (Rabs (ln d) + 4 / 3 * e)) by (apply Rmult_le_compat_l; auto). assert (k * e * (4 / 3 * e) <= 1 * (4 / 3 * e)) by (apply Rmult_le_compat_r; lra).
  replace (q - ln d) with ((q - ln r) + (ln r - ln d)) by ring. eapply Rle_trans; [apply Rabs_triang|]. lra.
Qed.
End Moments.

(** A concrete case in float32: scale 2, Uniform(1, 4), location 1, correctly rounded log and constants. *)
Lemma constant_rounded dt C : 1 <= C -> constant dt (rnd dt C) C.
Proof. intros H. unfold constant. pose proof (rnd_err dt C) as Q. rewrite (Rabs_pos_eq C) in Q by lra. apply Q. pose proof (tiny_le_eps dt). pose proof (eps_le dt). lra. Qed.
Example C109_float32 :
  let log a := fround float32 (xlog a) in
  (exists m, fl_uniform_mean float32 (Fin 1) (Fin 4) = Fin m /\ 1 <= m <= 4) /\
  near float32 12 6 (fl_uniform_variance float32 (Fin 1) (Fin 4)) ((4 - 1) ^ 2 / 12) /\
  close (fl_uniform_entropy float32 log (Fin 1) (Fin 4)) (ln (4 - 1)) (1 * eps float32 * Rabs (ln (4 - 1)) + 4 * eps float32) /\
  close (fl_normal_entropy float32 log (Fin (rnd float32 half_log_2pi)) (Fin 2)) (1 / 2 + half_log_2pi + ln 2) ((3 * 1 + 20) * eps float32 * (1 + Rabs (ln 2))) /\
  near float32 7 3 (fl_gumbel_stddev float32 (Fin (rnd float32 PI)) (Fin (rnd float32 (sqrt 6))) (Fin 2)) (2 * PI / sqrt 6) /\
  near float32 24 6 (fl_logistic_variance float32 (Fin (rnd float32 PI)) (Fin 2)) ((2 * PI) ^ 2 / 3).
Proof.
  intros log. pose proof ln2_bounds as L2. pose proof (eps_pos float32) as E0. pose proof (eps_le float32) as E4. pose proof half_log_2pi_bounds as Hp.
  assert (M : 1048576 <= maxpow float32) by (change 1048576 with (bpow radix2 20); apply bpow_le; cbn; lia).
  assert (R1 : repr float32 1) by apply repr_1. assert (R2 : repr float32 2) by (change 2 with (bpow radix2 1); apply repr_pow; cbn; unfold emin; cbn; lia). assert (R4 : repr float32 4) by (change 4 with (bpow radix2 2); apply repr_pow; cbn; unfold emin; cbn; lia).
  assert (S : forall x, 1 <= x -> 1 <= sqrt x) by (intros x Hx; rewrite <- sqrt_1; apply sqrt_le_1; lra). pose proof PI2_3_2 as P3.
  destruct (C109_spread float32 2 R2 ltac:(lra) (rnd float32 PI) (rnd float32 (sqrt 2)) (rnd float32 (sqrt 3)) (rnd float32 (sqrt 6))) as (_ & _ & _ & _ & V & D & _); try (apply constant_rounded; try apply S; lra); [lra|].
  assert (Ke : 1 * eps float32 <= 1) by lra.
  split; [|split; [|split; [|split; [|split; auto]]]].
  - destruct (C109_uniform_mean float32 1 4 R1 R4 ltac:(lra)) as (m & E & B & _); [rewrite Rabs_pos_eq; lra|]. exists m. auto.
  - apply (C109_uniform_spread float32 (rnd float32 (sqrt 12))); auto; [apply constant_rounded, S; lra|lra].
  - apply C109_uniform_entropy; auto using (log_accurate float32); lra.
  - refine (proj1 (C109_entropy float32 1 log ltac:(lra) Ke (log_accurate float32) 2 R2 ltac:(lra) (rnd float32 half_log_2pi) (rnd float32 (ln 2 + 1)) (/ 2) (/ 2) _ _ _ _ _)); try lra.
    + apply rounded_const. rewrite Rabs_pos_eq; lra.
    + apply rounded_const. rewrite Rabs_pos_eq; lra.
    + rewrite Rminus_diag_eq, Rabs_R0 by auto. lra.
    + rewrite Rabs_pos_eq; lra.
Qed.
Print Assumptions C109_uniform_mean.
Print Assumptions C109_uniform_mean_refuted.
Print Assumptions C109_uniform_spread.
Print Assumptions C109_uniform_entropy.
Print Assumptions C109_entropy.
Print Assumptions C109_spread.
Print Assumptions C109_gumbel_centre.
Print Assumptions C109_float32.
