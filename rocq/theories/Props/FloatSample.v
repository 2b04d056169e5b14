(** C95: sample_and_log_prob and log_prob of the sample in floating point. *)
From Coq Require Import Reals Lra Lia Bool ZArith.
From Flocq Require Import Core IEEE754.BinarySingleNaN.
From Verif Require Import Base.XR Base.Float Spec.Rounding Spec.Accuracy Proofs.FloatIEEE Proofs.FloatOrder Proofs.FloatLib
  Model.FloatDist Model.FloatSample Props.FloatBij Props.FloatAccuracy.
Local Open Scope R_scope.

Section Families.
Variables (dt : dtype) (k : R) (L : XR -> XR).
Notation e := (eps dt).
Hypothesis Hk : 0 <= k.
Hypothesis Hke : k * e <= 1.
Hypothesis HL : accurate dt k L ln (fun s => 0 < s).
Variables (u loc s : R).
Hypothesis Rl : repr dt loc.
Hypothesis Rs : repr dt s.
Hypothesis Hs : 0 < s.

(** The value returned is the log-density of the exact [loc + s u]. *)
Theorem C95_normal_log_prob c :
  Rabs (c - half_log_2pi) <= 2 * e -> 1 + u ^ 2 + Rabs (ln s) <= maxpow dt / 64 ->
  close (fl_normal_sample_log_prob dt L (Fin c) (Fin u) (Fin s)) (normal_log_density (loc + s * u) loc s)
    ((k + 17) * e * (1 + u ^ 2 + Rabs (ln s))).
Proof.
  intros Hc HD. rewrite normal_log_density_eq by auto. replace ((loc + s * u - loc) / s) with u by (field; lra).
  unfold fl_normal_sample_log_prob. pose proof (eps_pos dt) as E0. pose proof (eps_le dt) as E4. pose proof half_log_2pi_bounds as Hp.
  pose proof (log_scale dt k L HL s Rs Hs) as Cl. pose proof (abs_sq u) as Zz. pose proof (Rabs_pos (ln s)) as L0.
  set (l := ln s) in *. clearbody l. set (D := 1 + u ^ 2 + Rabs l) in *.
  assert (U0 : 0 <= u ^ 2) by (rewrite <- Zz; pose proof (Rabs_pos u); nra).
  assert (D1 : 1 <= D) by (subst D; lra). assert (Dz : u ^ 2 <= D - 1) by (subst D; lra). assert (Dl : Rabs l <= D - 1) by (subst D; lra).
  assert (Ds : u ^ 2 + Rabs l = D - 1) by (subst D; lra). clearbody D.
  assert (F1 : 0 < e * D) by nra. assert (F2 : e <= e * D) by nra. assert (F3 : e * D <= D / 4) by nra.
  assert (F4 : 0 <= k * (e * D)) by nra. assert (F5 : k * (e * D) <= D) by nra.
  assert (F6 : k * e * Rabs l <= k * (e * D)). { rewrite Rmult_assoc. apply Rmult_le_compat_l; [auto|]. apply Rmult_le_compat_l; lra. }
  assert (Xx : Rabs (u * u) = u ^ 2) by (rewrite Rabs_mult; auto).
  assert (Cq : close (fmul dt (Fin u) (Fin u)) (u * u) (e * D)).
  { eapply close_weaken; [apply (close_mul dt _ _ _ _ _ _ (D - 1) (close_exact u) (close_exact u))|]; rewrite ?Xx; lra. }
  assert (Hh : Rabs (- (1 / 2)) = / 2) by (rewrite Rabs_Ropp, Rabs_pos_eq; lra).
  assert (Ch : close (fmul dt (Fin (- (1 / 2))) (fmul dt (Fin u) (Fin u))) (- (1 / 2) * (u * u)) (5 / 2 * (e * D))).
  { eapply close_weaken; [apply (close_mul dt _ _ _ _ _ _ D (close_exact (- (1 / 2))) Cq)|];
      rewrite ?(Rabs_mult (- (1 / 2))), ?Hh, ?Xx; lra. }
  assert (Cc : close (Fin c) half_log_2pi (2 * e)) by (exists c; auto).
  assert (C1 : close (fsub dt (fmul dt (Fin (- (1 / 2))) (fmul dt (Fin u) (Fin u))) (Fin c)) (- (1 / 2) * (u * u) - half_log_2pi) (17 / 2 * (e * D))).
  { eapply close_weaken; [apply (close_sub dt _ _ _ _ _ _ (3 * D) Ch Cc)|];
      rewrite ?(Rabs_mult (- (1 / 2))), ?Hh, ?Xx, ?(Rabs_pos_eq half_log_2pi) by lra; lra. }
  replace (- (1 / 2) * (u * u) - (half_log_2pi + l)) with (- (1 / 2) * (u * u) - half_log_2pi - l) by ring.
  eapply close_weaken; [apply (close_sub dt _ _ _ _ _ _ (6 * D) C1 Cl)|]; [ | lra | lra].
  pose proof (Rabs_triang (- (1 / 2) * (u * u)) (- half_log_2pi)) as T.
  rewrite (Rabs_mult (- (1 / 2))), Hh, Xx, Rabs_Ropp, (Rabs_pos_eq half_log_2pi) in T by lra. unfold Rminus in *. lra.
Qed.
Theorem C95_laplace_log_prob c :
  Rabs (c - ln 2) <= e -> 1 + Rabs u + Rabs (ln s) <= maxpow dt / 64 ->
  close (fl_laplace_sample_log_prob dt L (Fin c) (Fin u) (Fin s)) (laplace_log_density (loc + s * u) loc s)
    ((k + 10) * e * (1 + Rabs u + Rabs (ln s))).
Proof.
  intros Hc HD. pose proof ln2_bounds as L2.
  assert (Eq : laplace_log_density (loc + s * u) loc s = - Rabs u - ln 2 - ln s).
  { unfold laplace_log_density. replace ((loc + s * u - loc) / s) with u by (field; lra).
    rewrite ln_div, ln_exp, ln_mult by (try apply exp_pos; lra). ring. }
  rewrite Eq. unfold fl_laplace_sample_log_prob. pose proof (eps_pos dt) as E0. pose proof (eps_le dt) as E4.
  pose proof (log_scale dt k L HL s Rs Hs) as Cl. pose proof (Rabs_pos (ln s)) as L0. pose proof (Rabs_pos u) as U0.
  assert (Cu : close (xopp (xabs (Fin u))) (- Rabs u) 0) by (apply close_opp, close_abs, close_exact).
  set (l := ln s) in *. clearbody l. set (x := Rabs u) in *. clearbody x. set (D := 1 + x + Rabs l) in *.
  assert (D1 : 1 <= D) by (subst D; lra). assert (Dz : x <= D - 1) by (subst D; lra). assert (Dl : Rabs l <= D - 1) by (subst D; lra).
  assert (Ds : x + Rabs l = D - 1) by (subst D; lra). clearbody D.
  assert (F1 : 0 < e * D) by nra. assert (F2 : e <= e * D) by nra. assert (F3 : e * D <= D / 4) by nra.
  assert (F4 : 0 <= k * (e * D)) by nra. assert (F5 : k * (e * D) <= D) by nra.
  assert (F6 : k * e * Rabs l <= k * (e * D)). { rewrite Rmult_assoc. apply Rmult_le_compat_l; [auto|]. apply Rmult_le_compat_l; lra. }
  assert (Ax : Rabs (- x) = x) by (rewrite Rabs_Ropp, Rabs_pos_eq; lra).
  assert (C1 : close (fsub dt (xopp (xabs (Fin u))) (Fin c)) (- x - ln 2) (4 * (e * D))).
  { eapply close_weaken; [apply (close_sub dt _ _ _ (ln 2) _ e (2 * D) Cu)|]; [exists c; auto | | lra | lra].
    rewrite Ax, (Rabs_pos_eq (ln 2)) by lra. lra. }
  eapply close_weaken; [apply (close_sub dt _ _ _ _ _ _ (4 * D) C1 Cl)|]; [ | lra | lra].
  pose proof (Rabs_triang (- x) (- ln 2)) as T. rewrite Ax, Rabs_Ropp, (Rabs_pos_eq (ln 2)) in T by lra.
  unfold Rminus in *. lra.
Qed.

(** The sample is finite, and standardising it gives the draw back up to [drift]. *)
Definition drift : R := 9 / 4 * e * Rabs u + e * (Rabs loc / s) + 5 / 4 * (tiny dt / s).
Lemma drift_pos : 0 <= drift.
Proof.
  unfold drift. pose proof (eps_pos dt). pose proof (tiny_pos dt). pose proof (Rabs_pos u). pose proof (Rabs_pos loc).
  assert (0 <= Rabs loc / s) by (apply Rmult_le_pos; [lra | apply Rlt_le, Rinv_0_lt_compat; lra]). assert (0 <= tiny dt / s) by (apply Rmult_le_pos; [lra | apply Rlt_le, Rinv_0_lt_compat; lra]).
  assert (0 <= e * (Rabs loc / s)) by (apply Rmult_le_pos; lra). nra.
Qed.
Lemma fmul_close : Rabs (s * u) + Rabs loc <= maxpow dt / 8 ->
  exists p, fmul dt (Fin s) (Fin u) = Fin p /\ repr dt p /\ Rabs (p - s * u) <= e * Rabs (s * u) + tiny dt.
Proof.
  intros B. pose proof (Rabs_pos loc). pose proof (Rabs_pos (s * u)). pose proof (maxpow_pos dt). pose proof (sub_le_tiny dt). pose proof (eps_pos dt). pose proof (tiny_pos dt).
  destruct (round_fin dt (s * u)) as (p & Ep & Rp & _ & Q); [lra|]. exists p. unfold fmul. rewrite xmul_fin.
  split; [auto|]. split; [auto|]. subst p.
  destruct (Rle_lt_dec (tiny dt) (Rabs (s * u))) as [W|W]; [pose proof (rnd_err dt _ W); lra|pose proof (rnd_err_sub dt _ W); nra].
Qed.
Theorem C95_sample : Rabs (s * u) + Rabs loc <= maxpow dt / 8 ->
  exists x, fl_normal_sample dt (Fin u) (Fin loc) (Fin s) = Fin x /\ fl_laplace_sample dt (Fin u) (Fin loc) (Fin s) = Fin x /\
    repr dt x /\ Rabs ((x - loc) / s - u) <= drift.
Proof.
  intros B. pose proof (eps_pos dt) as E0. pose proof (eps_le dt) as E4. pose proof (tiny_pos dt) as T0. pose proof (tiny_le_eps dt) as Te. pose proof (maxpow_ge_32 dt) as M.
  destruct (fmul_close B) as (p & Ep & Rp & Hp). pose proof (Rabs_pos (s * u)) as A0. pose proof (Rabs_pos loc) as A1.
  assert (Bp : Rabs p <= 5 / 4 * Rabs (s * u) + tiny dt).
  { replace p with ((p - s * u) + s * u) by ring. eapply Rle_trans; [apply Rabs_triang|]. nra. }
  pose proof (Rabs_triang p loc) as T.
  destruct (round_fin dt (p + loc)) as (x & Ex & Rx & _ & Q); [lra|]. exists x.
  unfold fl_normal_sample, fl_laplace_sample. rewrite Ep. unfold fadd. rewrite !xadd_fin. rewrite (Rplus_comm loc p).
  split; [auto|]. split; [auto|]. split; [auto|].
  pose proof (sub_rel dt p (- loc) Rp (repr_opp dt _ Rl)) as Hr. replace (p - - loc) with (p + loc) in Hr by ring. rewrite <- Q in Hr.
  replace ((x - loc) / s - u) with ((x - loc - s * u) / s) by (field; lra). unfold Rdiv at 1. rewrite Rabs_mult, (Rabs_pos_eq (/ s)) by (apply Rlt_le, Rinv_0_lt_compat; auto).
  assert (H : Rabs (x - loc - s * u) <= 9 / 4 * e * Rabs (s * u) + e * Rabs loc + 5 / 4 * tiny dt).
  { replace (x - loc - s * u) with ((x - (p + loc)) + (p - s * u)) by ring. eapply Rle_trans; [apply Rabs_triang|].
    assert (e * Rabs (p + loc) <= e * (5 / 4 * Rabs (s * u) + tiny dt + Rabs loc)) by (apply Rmult_le_compat_l; lra). nra. }
  apply Rle_trans with ((9 / 4 * e * Rabs (s * u) + e * Rabs loc + 5 / 4 * tiny dt) * / s).
  - apply Rmult_le_compat_r; [apply Rlt_le, Rinv_0_lt_compat; auto|auto].
  - unfold drift. rewrite Rabs_mult, (Rabs_pos_eq s) by lra. right. field. lra.
Qed.

Lemma sq_bound a b : 0 <= a -> 0 <= b -> a <= b + 1 -> a * a <= 2 * (b * b) + 2.
Proof. intros. assert (a * a <= (b + 1) * (b + 1)) by (apply Rmult_le_compat; lra). pose proof (Rle_0_sqr (b - 1)). unfold Rsqr in *. lra. Qed.
(** The log-probability returned with a sample and the one [log_prob] computes for that sample: they differ
    by rounding in the evaluation plus the effect of the drift of the sample. *)
Theorem C95_normal_consistency c :
  Rabs (c - half_log_2pi) <= 2 * e -> 1 + u ^ 2 + Rabs (ln s) <= maxpow dt / 256 ->
  Rabs (s * u) + Rabs loc <= maxpow dt / 8 -> drift <= 1 ->
  exists r r', fl_normal_sample_log_prob dt L (Fin c) (Fin u) (Fin s) = Fin r /\
    fl_normal_log_prob dt L (Fin c) (fl_normal_sample dt (Fin u) (Fin loc) (Fin s)) (Fin loc) (Fin s) = Fin r' /\
    Rabs (r - r') <= (4 * k + 92) * e * (1 + u ^ 2 + Rabs (ln s)) + drift * (Rabs u + 1 / 2).
Proof.
  intros Hc HD HB Hdr. pose proof drift_pos as D0. pose proof (eps_pos dt) as E0. pose proof (eps_le dt) as E4. pose proof (tiny_le_eps dt) as Te. pose proof (maxpow_ge_32 dt) as M.
  destruct (C95_sample HB) as (x & Ex & _ & Rx & Hx).
  pose proof (abs_sq u) as Zz. pose proof (Rabs_pos u) as U0. pose proof (Rabs_pos (ln s)) as L0.
  assert (Q0 : 0 <= u ^ 2) by nra.
  destruct (C95_normal_log_prob c Hc ltac:(lra)) as (r & Er & Hr). exists r.
  assert (Zb : Rabs ((x - loc) / s) <= Rabs u + drift).
  { replace ((x - loc) / s) with (((x - loc) / s - u) + u) by ring. eapply Rle_trans; [apply Rabs_triang|]. lra. }
  set (z' := (x - loc) / s) in *.
  assert (Hxl : Rabs (x - loc) <= maxpow dt / 2).
  { replace (x - loc) with (s * z') by (unfold z'; field; lra). rewrite Rabs_mult, (Rabs_pos_eq s) by lra.
    apply Rle_trans with (s * (Rabs u + drift)); [apply Rmult_le_compat_l; lra|].
    replace (s * (Rabs u + drift)) with (s * Rabs u + 9 / 4 * e * (s * Rabs u) + e * Rabs loc + 5 / 4 * tiny dt) by (unfold drift; field; lra).
    rewrite Rabs_mult, (Rabs_pos_eq s) in HB by lra. pose proof (Rabs_pos loc). assert (0 <= s * Rabs u) by nra.
    assert (e * (s * Rabs u) <= / 4 * (s * Rabs u)) by (apply Rmult_le_compat_r; lra).
    assert (e * Rabs loc <= / 4 * Rabs loc) by (apply Rmult_le_compat_r; lra). lra. }
  pose proof (abs_sq z') as Zz'. pose proof (Rabs_pos z') as Z0'.
  assert (Sq : z' ^ 2 <= 2 * u ^ 2 + 2) by (rewrite <- Zz, <- Zz'; apply sq_bound; lra).
  destruct (C94_normal dt k L Hk Hke HL x loc s Rx Rl Rs Hs Hxl c Hc) as (r' & Er' & Hr'); [fold z'; lra|].
  fold z' in Hr'. exists r'. rewrite Ex. split; [auto|]. split; [auto|].
  rewrite normal_log_density_eq in Hr, Hr' by auto. fold z' in Hr'. replace ((loc + s * u - loc) / s) with u in Hr by (field; lra).
  assert (Df : Rabs (- (1 / 2) * (u * u) - - (1 / 2) * (z' * z')) <= drift * (Rabs u + 1 / 2)).
  { replace (- (1 / 2) * (u * u) - - (1 / 2) * (z' * z')) with ((z' - u) * ((z' + u) / 2)) by field. rewrite Rabs_mult.
    apply Rmult_le_compat; try apply Rabs_pos; auto. unfold Rdiv. rewrite Rabs_mult, (Rabs_pos_eq (/ 2)) by lra.
    pose proof (Rabs_triang z' u). lra. }
  set (a := - (1 / 2) * (u * u)) in *. set (b := - (1 / 2) * (z' * z')) in *. set (h := half_log_2pi + ln s) in *.
  assert (T : Rabs (r - r') <= Rabs (r - (a - h)) + Rabs (a - b) + Rabs (r' - (b - h))).
  { replace (r - r') with ((r - (a - h)) + (a - b) + - (r' - (b - h))) by ring.
    eapply Rle_trans; [apply Rabs_triang|]. rewrite Rabs_Ropp. pose proof (Rabs_triang (r - (a - h)) (a - b)). lra. }
  assert (Kp : (k + 25) * e * (1 + z' ^ 2 + Rabs (ln s)) <= (k + 25) * e * (3 * (1 + u ^ 2 + Rabs (ln s)))).
  { apply Rmult_le_compat_l; [apply Rmult_le_pos; lra|lra]. }
  lra.
Qed.
Theorem C95_laplace_consistency c :
  Rabs (c - ln 2) <= e -> 1 + Rabs u + Rabs (ln s) <= maxpow dt / 256 ->
  Rabs (s * u) + Rabs loc <= maxpow dt / 8 -> drift <= 1 ->
  exists r r', fl_laplace_sample_log_prob dt L (Fin c) (Fin u) (Fin s) = Fin r /\
    fl_laplace_log_prob dt L (Fin c) (fl_laplace_sample dt (Fin u) (Fin loc) (Fin s)) (Fin loc) (Fin s) = Fin r' /\
    Rabs (r - r') <= (3 * k + 36) * e * (1 + Rabs u + Rabs (ln s)) + drift.
Proof.
  intros Hc HD HB Hdr. pose proof drift_pos as D0. pose proof (eps_pos dt) as E0. pose proof (eps_le dt) as E4. pose proof (tiny_le_eps dt) as Te. pose proof (maxpow_ge_32 dt) as M.
  destruct (C95_sample HB) as (x & _ & Ex & Rx & Hx).
  pose proof (Rabs_pos u) as U0. pose proof (Rabs_pos (ln s)) as L0.
  destruct (C95_laplace_log_prob c Hc ltac:(lra)) as (r & Er & Hr). exists r.
  assert (Zb : Rabs ((x - loc) / s) <= Rabs u + drift).
  { replace ((x - loc) / s) with (((x - loc) / s - u) + u) by ring. eapply Rle_trans; [apply Rabs_triang|]. lra. }
  set (z' := (x - loc) / s) in *.
  assert (Hxl : Rabs (x - loc) <= maxpow dt / 2).
  { replace (x - loc) with (s * z') by (unfold z'; field; lra). rewrite Rabs_mult, (Rabs_pos_eq s) by lra.
    apply Rle_trans with (s * (Rabs u + drift)); [apply Rmult_le_compat_l; lra|].
    replace (s * (Rabs u + drift)) with (s * Rabs u + 9 / 4 * e * (s * Rabs u) + e * Rabs loc + 5 / 4 * tiny dt) by (unfold drift; field; lra).
    rewrite Rabs_mult, (Rabs_pos_eq s) in HB by lra. pose proof (Rabs_pos loc). assert (0 <= s * Rabs u) by nra.
    assert (e * (s * Rabs u) <= / 4 * (s * Rabs u)) by (apply Rmult_le_compat_r; lra).
    assert (e * Rabs loc <= / 4 * Rabs loc) by (apply Rmult_le_compat_r; lra). lra. }
  destruct (C94_laplace dt k L Hk Hke HL x loc s Rx Rl Rs Hs Hxl c Hc) as (r' & Er' & Hr'); [fold z'; lra|].
  fold z' in Hr'. exists r'. rewrite Ex. split; [auto|]. split; [auto|].
  assert (Eq : forall w, laplace_log_density (loc + s * w) loc s = - Rabs w - ln 2 - ln s).
  { intros w. unfold laplace_log_density. replace ((loc + s * w - loc) / s) with w by (field; lra).
    rewrite ln_div, ln_exp, ln_mult by (try apply exp_pos; lra). ring. }
  rewrite Eq in Hr. replace x with (loc + s * z') in Hr' at 1 by (unfold z'; field; lra). rewrite Eq in Hr'.
  assert (Df : Rabs (- Rabs u - - Rabs z') <= drift).
  { replace (- Rabs u - - Rabs z') with (Rabs z' - Rabs u) by ring. eapply Rle_trans; [apply Rabs_triang_inv2|]. exact Hx. }
  set (a := - Rabs u) in *. set (b := - Rabs z') in *.
  assert (T : Rabs (r - r') <= Rabs (r - (a - ln 2 - ln s)) + Rabs (a - b) + Rabs (r' - (b - ln 2 - ln s))).
  { replace (r - r') with ((r - (a - ln 2 - ln s)) + (a - b) + - (r' - (b - ln 2 - ln s))) by ring.
    eapply Rle_trans; [apply Rabs_triang|]. rewrite Rabs_Ropp. pose proof (Rabs_triang (r - (a - ln 2 - ln s)) (a - b)). lra. }
  assert (Kp : (k + 13) * e * (1 + Rabs z' + Rabs (ln s)) <= (k + 13) * e * (2 * (1 + Rabs u + Rabs (ln s)))).
  { apply Rmult_le_compat_l; [apply Rmult_le_pos; lra|lra]. }
  lra.
Qed.
End Families.

(** ** Concrete cases *)
(** float32 Normal(1, 1) with the draw 1/2: the two log-probabilities agree to about 1e-4. *)
Example C95_float32 :
  let lg a := fround float32 (xlog a) in let c := Fin (rnd float32 half_log_2pi) in
  exists r r', fl_normal_sample_log_prob float32 lg c (Fin (/ 2)) (Fin 1) = Fin r /\
    fl_normal_log_prob float32 lg c (fl_normal_sample float32 (Fin (/ 2)) (Fin 1) (Fin 1)) (Fin 1) (Fin 1) = Fin r' /\
    Rabs (r - r') <= 130 * eps float32.
Proof.
  intros lg c. pose proof (eps_pos float32) as E0. pose proof (tiny_le_eps float32) as Te. pose proof (tiny_pos float32) as T0.
  assert (Es : 8 * eps float32 <= 1).
  { unfold eps. change 8 with (bpow radix2 3). rewrite <- bpow_plus. change 1 with (bpow radix2 0). apply bpow_le. cbn. lia. }
  assert (M : 1024 <= maxpow float32) by (change 1024 with (bpow radix2 10); apply bpow_le; cbn; lia).
  assert (Rh : repr float32 (/ 2)) by (change (/ 2) with (bpow radix2 (-1)); apply repr_pow; cbn; unfold emin; cbn; lia).
  assert (Ah : Rabs (/ 2) = / 2) by (apply Rabs_pos_eq; lra).
  assert (Ad : drift float32 (/ 2) 1 1 <= 4 * eps float32) by (unfold drift; rewrite Ah, Rabs_R1; unfold Rdiv; rewrite Rinv_1; lra).
  destruct (C95_normal_consistency float32 1 lg ltac:(lra) ltac:(lra) (log_accurate float32) (/ 2) 1 1 (repr_1 _) (repr_1 _) ltac:(lra) (rnd float32 half_log_2pi))
    as (r & r' & A & B & C); rewrite ?ln_1, ?Rabs_R0, ?Rmult_1_l, ?Ah, ?Rabs_R1 in *; try lra.
  - apply rounded_const. pose proof half_log_2pi_bounds. rewrite Rabs_pos_eq by lra. lra.
  - exists r, r'. split; [auto|]. split; [auto|]. lra.
Qed.

Local Instance gt32 : Prec_gt_0 24 := mant_gt_0 float32.
Local Instance lt32 : Prec_lt_emax 24 128 := mant_lt_emax float32.
(** The drift term cannot be dropped: in float32, Normal(2^24, 1) with the draw 1/2 returns the sample [loc]
    with the log-probability of a point half a standard deviation away, but log_prob of that sample is the
    log-density at the mode: they differ by more than 0.12. *)
Theorem C95_exact_consistency_refuted :
  let lg a := fround float32 (xlog a) in let c := Fin (rnd float32 half_log_2pi) in let loc := 16777216 in
  repr float32 loc /\ repr float32 (/ 2) /\
  exists r r', fl_normal_sample float32 (Fin (/ 2)) (Fin loc) (Fin 1) = Fin loc /\
    fl_normal_sample_log_prob float32 lg c (Fin (/ 2)) (Fin 1) = Fin r /\
    fl_normal_log_prob float32 lg c (fl_normal_sample float32 (Fin (/ 2)) (Fin loc) (Fin 1)) (Fin loc) (Fin 1) = Fin r' /\
    12 / 100 <= r' - r.
Proof.
  intros lg c loc. pose proof (eps_pos float32) as E0. pose proof (tiny_le_eps float32) as Te. pose proof (tiny_pos float32) as T0.
  assert (Es : 100000 * eps float32 <= 1) by (unfold eps; cbn; lra).
  assert (M : 1024 <= maxpow float32) by (change 1024 with (bpow radix2 10); apply bpow_le; cbn; lia).
  assert (Rh : repr float32 (/ 2)) by (change (/ 2) with (bpow radix2 (-1)); apply repr_pow; cbn; unfold emin; cbn; lia).
  assert (RL : repr float32 loc).
  { replace loc with (bpow radix2 24) by (unfold loc; cbn; lra). apply repr_pow; cbn; unfold emin; cbn; lia. }
  assert (Ah : Rabs (/ 2) = / 2) by (apply Rabs_pos_eq; lra).
  pose proof half_log_2pi_bounds as Hp.
  assert (Hc : Rabs (rnd float32 half_log_2pi - half_log_2pi) <= 2 * eps float32) by (apply rounded_const; rewrite Rabs_pos_eq; lra).
  assert (M1 : fmul float32 (Fin 1) (Fin (/ 2)) = Fin (/ 2)) by (unfold fmul; rewrite xmul_fin, Rmult_1_l; apply fround_repr; auto).
  assert (ES : fl_normal_sample float32 (Fin (/ 2)) (Fin loc) (Fin 1) = Fin loc).
  { unfold fl_normal_sample. rewrite M1.
    assert (V1 : Fin (/ 2) = of_ieee float32 (@B754_finite 24 128 false 8388608 (-24) eq_refl)) by (cbn; f_equal; unfold F2R; cbn; lra).
    assert (V2 : Fin loc = of_ieee float32 (@B754_finite 24 128 false 8388608 1 eq_refl)) by (cbn; f_equal; unfold F2R, loc; cbn; lra).
    rewrite V1, V2, fadd_ieee. apply (f_equal (of_ieee float32)). apply B2SF_inj. vm_compute. reflexivity. }
  split; [auto|]. split; [auto|].
  destruct (C95_normal_log_prob float32 1 lg ltac:(lra) ltac:(lra) (log_accurate float32) (/ 2) loc 1 (repr_1 _) ltac:(lra) (rnd float32 half_log_2pi) Hc)
    as (r & Er & Hr); [rewrite ln_1, Rabs_R0; lra|].
  assert (Z0 : (loc - loc) / 1 = 0) by (unfold Rdiv; rewrite Rminus_diag_eq by auto; ring).
  destruct (C94_normal float32 1 lg ltac:(lra) ltac:(lra) (log_accurate float32) loc loc 1 RL RL (repr_1 _) ltac:(lra)) with (c := rnd float32 half_log_2pi)
    as (r' & Er' & Hr'); auto.
  { rewrite Rminus_diag_eq, Rabs_R0 by auto. lra. }
  { rewrite Z0, ln_1, Rabs_R0. lra. }
  exists r, r'. rewrite ES. split; [auto|]. split; [auto|]. split; [auto|].
  rewrite normal_log_density_eq in Hr, Hr' by lra. replace ((loc + 1 * / 2 - loc) / 1) with (/ 2) in Hr by field.
  rewrite Z0 in Hr'. rewrite ln_1, Rabs_R0 in *. apply Rabs_le_inv in Hr. apply Rabs_le_inv in Hr'. lra.
Qed.
Print Assumptions C95_normal_consistency.
Print Assumptions C95_laplace_consistency.
Print Assumptions C95_exact_consistency_refuted.
