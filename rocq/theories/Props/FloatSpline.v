(** C82: one bin of the rational-quadratic spline in floating point.  C83: the draw of Logistic. *)
From Coq Require Import Reals List Bool Lra Lia ZArith.
From Flocq Require Import Core Plus_error Mult_error.
From Verif Require Import Base.XR Base.Float Model.FloatDist Spec.Rounding Props.FloatUniform Props.FloatNormalize Props.FloatAffine.
Import ListNotations.
Local Open Scope R_scope.

Section S.
Variable dt : dtype.
Notation F := (generic_format radix2 (fexp dt)).
Notation RN := (rnd dt).
Notation u := (eps dt).

Lemma eps_le_8 : u <= / 8.
Proof.
  unfold eps. replace (/ 8) with (bpow radix2 (-3)) by (cbn; lra). apply bpow_le. pose proof (mant_ok dt). lia.
Qed.
(** absolute error of one rounding on [-1, 1] *)
Lemma rnd_err_1 x : Rabs x <= 1 -> Rabs (RN x - x) <= u.
Proof.
  intros H. pose proof (error_le_half_ulp radix2 (fexp dt) (fun t => negb (Z.even t)) x) as E.
  apply Rle_trans with (1 := E). assert (L : ulp radix2 (fexp dt) x <= ulp radix2 (fexp dt) 1).
  { apply ulp_le; [typeclasses eauto|typeclasses eauto|]. rewrite Rabs_R1; auto. }
  assert (Hu : ulp radix2 (fexp dt) 1 = 2 * u).
  { change 1 with (bpow radix2 0). rewrite ulp_bpow. unfold fexp, FLT_exp.
    rewrite Z.max_l by (unfold emin; pose proof (exp_ok dt); pose proof (mant_ok dt); lia).
    replace (0 + 1 - mant dt)%Z with (- mant dt + 1)%Z by lia. rewrite bpow_plus. unfold eps. cbn [bpow]. change (IZR (Z.pow_pos radix2 1)) with 2. ring. }
  rewrite Hu in L. lra.
Qed.
Lemma F_dyadic (m : Z) e : (Z.abs m < 8)%Z -> (emin dt <= e)%Z -> F (IZR m * bpow radix2 e).
Proof.
  intros M E. apply generic_format_FLT. exists (Defs.Float radix2 m e); cbn [Fnum Fexp]; auto.
  apply Z.lt_le_trans with (1 := M). change 8%Z with (2 ^ 3)%Z. change (2 ^ 3 <= 2 ^ mant dt)%Z. apply Z.pow_le_mono_r; pose proof (mant_ok dt); lia.
Qed.
Lemma emin_le_3 : (emin dt <= -3)%Z. Proof. unfold emin. pose proof (exp_ok dt); pose proof (mant_ok dt); lia. Qed.
Lemma F_3_8 : F (3 / 8).
Proof. replace (3 / 8) with (IZR 3 * bpow radix2 (-3)) by (cbn; lra). apply F_dyadic; [cbn; lia|apply emin_le_3]. Qed.
Lemma F_half : F (/ 2).
Proof. replace (/ 2) with (IZR 1 * bpow radix2 (-1)) by (cbn; lra). apply F_dyadic; [cbn; lia|]. pose proof emin_le_3; lia. Qed.
Lemma F_quarter : F (/ 4).
Proof. replace (/ 4) with (IZR 1 * bpow radix2 (-2)) by (cbn; lra). apply F_dyadic; [cbn; lia|]. pose proof emin_le_3; lia. Qed.
(** scaling by a power of two is exact away from underflow *)
Lemma F_scale x k : F x -> tiny dt <= Rabs (x * bpow radix2 k) -> F (x * bpow radix2 k).
Proof.
  intros Fx H. destruct (Req_EM_T x 0) as [->|N]; [rewrite Rmult_0_l; apply F_0|].
  apply mult_bpow_exact_FLT; auto.
  unfold tiny in H. apply mag_ge_bpow in H. rewrite (mag_mult_bpow radix2 x k N) in H. lia.
Qed.

(** C82, position in the bin: a number between 0 and 1, whatever the input. *)
Theorem C82_position x xl width : (x = PInf \/ x = NInf \/ exists r, x = Fin r /\ repr dt r) -> repr dt xl -> repr dt width -> 0 < width ->
  exists z, fl_rqs_z dt x (Fin xl) (Fin width) = Fin z /\ repr dt z /\ 0 <= z <= 1.
Proof.
  intros X Rl Rw W.
  assert (C : forall a, (a = PInf \/ a = NInf \/ exists r, a = Fin r /\ F r) -> exists z, fl_clip01 a = Fin z /\ repr dt z /\ 0 <= z <= 1).
  { intros a [->|[->|(r & -> & Fr)]]; unfold fl_clip01, xmin, xmax; cbn [xis_nan orb].
    - cbn. exists 1. split; auto. split; [apply repr_1|lra].
    - cbn. destruct (Rlt_dec 0 1); [|lra]. exists 0. split; auto. split; [apply repr_0|lra].
    - destruct (xltb (Fin 0) (Fin r)) eqn:E0; [apply xltb_fin in E0|apply xltb_fin_f in E0].
      + cbn [xis_nan orb]. destruct (xltb (Fin r) (Fin 1)) eqn:E1; [apply xltb_fin in E1|apply xltb_fin_f in E1].
        * exists r. split; auto. split; [|lra]. split; auto. rewrite Rabs_pos_eq by lra. pose proof (maxpow_ge_2 dt); lra.
        * exists 1. split; auto. split; [apply repr_1|lra].
      + cbn [xis_nan orb]. assert (E1 : xltb (Fin 0) (Fin 1) = true) by (apply xltb_fin; lra). rewrite E1.
        exists 0. split; auto. split; [apply repr_0|lra]. }
  assert (G : forall r, fround dt (Fin r) = PInf \/ fround dt (Fin r) = NInf \/ exists s, fround dt (Fin r) = Fin s /\ F s).
  { intros r. cbn. destruct (Rlt_dec (Rabs _) _); [right; right; eexists; split; [reflexivity|apply F_rnd]|]. destruct (Rlt_dec r 0); auto. }
  apply C. unfold fdiv, fsub.
  assert (I : forall s, xdiv (Fin s) (Fin width) = Fin (s / width)) by (intros; apply xdiv_fin'; lra).
  assert (IP : fround dt (xdiv PInf (Fin width)) = PInf /\ fround dt (xdiv NInf (Fin width)) = NInf)
    by (cbn; destruct (Rlt_dec width 0); [lra|auto]).
  destruct X as [->|[->|(r & -> & _)]].
  - left. apply IP.
  - right; left. apply IP.
  - rewrite xsub_fin. destruct (G (r - xl)) as [E|[E|(s & E & _)]]; rewrite E; [left; apply IP|right; left; apply IP|]. rewrite I. apply G.
Qed.

Section Bin.
Variables s0 s1 bs z : R.
Hypothesis R0 : repr dt s0.
Hypothesis R1 : repr dt s1.
Hypothesis Rb : repr dt bs.
Hypothesis Rz : repr dt z.
Hypothesis B0 : 8 * tiny dt <= s0 <= maxpow dt / 16.
Hypothesis B1 : 8 * tiny dt <= s1 <= maxpow dt / 16.
Hypothesis Bb : 8 * tiny dt <= bs <= maxpow dt / 16.
Hypothesis Bz : 0 <= z <= 1.

Lemma sq_z : fmul dt (Fin z) (Fin z) = Fin (RN (z * z)) /\ 0 <= RN (z * z) <= z.
Proof.
  unfold fmul. rewrite xmul_fin. destruct (fround_between dt (z * z) 0 z (repr_0 dt) Rz) as (E & B & _); [nra|]. auto.
Qed.
Lemma z1mz : exists v, fl_rqs_z1mz dt (Fin z) = Fin v /\ repr dt v /\ 0 <= v <= 3 / 8.
Proof.
  destruct sq_z as [E B]. unfold fl_rqs_z1mz, fsub. rewrite E, xsub_fin.
  assert (R38 : repr dt (3 / 8)).
  { split; [apply F_3_8|]. rewrite Rabs_pos_eq by lra. pose proof (maxpow_ge_2 dt). lra. }
  assert (Er : Rabs (RN (z * z) - z * z) <= u) by (apply rnd_err_1; rewrite Rabs_pos_eq; nra).
  apply Rabs_le_inv in Er. pose proof eps_le_8 as U8.
  assert (Z4 : z - z * z <= / 4) by (pose proof (Rle_0_sqr (z - / 2)) as Sq; unfold Rsqr in Sq; lra).
  destruct (fround_between dt (z - RN (z * z)) 0 (3 / 8) (repr_0 dt) R38) as (E' & B' & R'); [lra|].
  eexists; split; [exact E'|]. auto.
Qed.
Lemma max_8 : repr dt (maxpow dt / 8).
Proof.
  assert (E : maxpow dt / 8 = bpow radix2 (emax dt - 3)) by (unfold maxpow, Zminus; rewrite bpow_plus; cbn; lra).
  pose proof (maxpow_pos dt). split; [rewrite E; apply F_bpow; unfold emin; pose proof (exp_ok dt); pose proof (mant_ok dt); lia|].
  rewrite Rabs_pos_eq; lra.
Qed.
Lemma max_4 : repr dt (maxpow dt / 4).
Proof.
  assert (E : maxpow dt / 4 = bpow radix2 (emax dt - 2)) by (unfold maxpow, Zminus; rewrite bpow_plus; cbn; lra).
  pose proof (maxpow_pos dt). split; [rewrite E; apply F_bpow; unfold emin; pose proof (exp_ok dt); pose proof (mant_ok dt); lia|].
  rewrite Rabs_pos_eq; lra.
Qed.
Lemma repr_between a b x : repr dt a -> repr dt b -> F x -> a <= x <= b -> repr dt x.
Proof.
  intros [_ Ha] [_ Hb] Fx B. split; auto. apply Rabs_def2 in Ha. apply Rabs_def2 in Hb. apply Rabs_def1; lra.
Qed.
Lemma repr_opp x : repr dt x -> repr dt (- x).
Proof. intros [Fx Hx]. split; [apply F_opp; auto|rewrite Rabs_Ropp; auto]. Qed.
Lemma scale_down x k : repr dt x -> (0 <= k <= 3)%Z -> 8 * tiny dt <= x -> repr dt (x * bpow radix2 (- k)).
Proof.
  intros Rx K H. pose proof (tiny_pos dt). pose proof (bpow_gt_0 radix2 (- k)).
  assert (L : / 8 <= bpow radix2 (- k)) by (replace (/ 8) with (bpow radix2 (-3)) by (cbn; lra); apply bpow_le; lia).
  assert (U : bpow radix2 (- k) <= 1) by (change 1 with (bpow radix2 0); apply bpow_le; lia).
  apply repr_between with 0 x; auto; [apply repr_0| |nra]. apply F_scale; [apply Rx|]. rewrite Rabs_pos_eq; nra.
Qed.
Lemma two_bs : fmul dt (Fin 2) (Fin bs) = Fin (2 * bs) /\ repr dt (2 * bs).
Proof.
  pose proof (tiny_pos dt). pose proof (maxpow_pos dt).
  assert (R : repr dt (2 * bs)).
  { apply repr_between with 0 (maxpow dt / 8); [apply repr_0|apply max_8| |lra].
    replace (2 * bs) with (bs * bpow radix2 1) by (cbn; lra). apply F_scale; [apply Rb|]. cbn. rewrite Rabs_pos_eq; lra. }
  split; auto. unfold fmul. rewrite xmul_fin. apply fround_repr; auto.
Qed.
Lemma slopes_term : exists t, fl_rqs_slopes_term dt (Fin s0) (Fin s1) (Fin bs) = Fin t /\ repr dt t /\ - (2 * bs) <= t <= maxpow dt / 8.
Proof.
  pose proof (tiny_pos dt). pose proof (maxpow_pos dt). destruct two_bs as [E2 R2].
  unfold fl_rqs_slopes_term, fadd, fsub. rewrite E2, xadd_fin.
  destruct (fround_between dt (s1 + s0) 0 (maxpow dt / 8) (repr_0 dt) max_8) as (E & B & R); [lra|]. rewrite E, xsub_fin.
  destruct (fround_between dt (RN (s1 + s0) - 2 * bs) (- (2 * bs)) (maxpow dt / 8) (repr_opp _ R2) max_8) as (E' & B' & R'); [lra|].
  eexists; split; [exact E'|]. auto.
Qed.

(** C82: the denominator is positive (at least an eighth of the bin slope) and finite ... *)
Theorem C82_denominator_positive :
  exists d, fl_rqs_denominator dt (Fin s0) (Fin s1) (Fin bs) (Fin z) = Fin d /\ repr dt d /\ bs / 8 <= d.
Proof.
  pose proof (tiny_pos dt) as T. pose proof (maxpow_pos dt) as M. pose proof eps_le_8 as U8. pose proof (eps_pos dt) as U0.
  destruct slopes_term as (t & Et & Rt & Bt). destruct z1mz as (v & Ev & Rv & Bv).
  unfold fl_rqs_denominator. rewrite Et, Ev.
  assert (P : - (3 / 4 * bs) <= t * v <= maxpow dt / 8) by nra.
  assert (Q : RN (- (3 / 4 * bs)) <= RN (t * v) <= maxpow dt / 8).
  { split; [apply rnd_le; lra|]. apply rnd_le_F; [apply max_8|lra]. }
  assert (Er : Rabs (RN (3 / 4 * bs) - 3 / 4 * bs) <= u * (3 / 4 * bs)).
  { pose proof (rnd_err dt (3 / 4 * bs)) as E. rewrite (Rabs_pos_eq (3 / 4 * bs)) in E by lra. apply E. lra. }
  apply Rabs_le_inv in Er. rewrite rnd_opp in Q.
  assert (Lo : - bs <= RN (t * v)) by nra.
  assert (Ep : fmul dt (Fin t) (Fin v) = Fin (RN (t * v))).
  { unfold fmul. rewrite xmul_fin. apply (fround_ok dt _ (- bs) (maxpow dt / 8) (repr_opp _ Rb) max_8). lra. }
  rewrite Ep. unfold fadd. rewrite xadd_fin.
  assert (R8 : repr dt (bs / 8)).
  { replace (bs / 8) with (bs * bpow radix2 (- (3))) by (cbn; lra). apply scale_down; auto; [lia|lra]. }
  destruct (fround_between dt (bs + RN (t * v)) (bs / 8) (maxpow dt / 4) R8 max_4) as (E & B & R); [split; [nra|lra]|].
  exists (RN (bs + RN (t * v))). split; auto. split; auto. lra.
Qed.

(** ... and so is the argument of the other logarithm: at least a quarter of the smaller knot slope. *)
Theorem C82_log_argument_positive :
  exists a, fl_rqs_logarg dt (Fin s0) (Fin s1) (Fin bs) (Fin z) = Fin a /\ repr dt a /\ Rmin s0 s1 / 4 <= a.
Proof.
  pose proof (tiny_pos dt) as T. pose proof (maxpow_pos dt) as M.
  destruct z1mz as (v & Ev & Rv & Bv). destruct sq_z as [Eq Bq]. destruct two_bs as [E2 R2].
  unfold fl_rqs_logarg, fl_rqs_sq_1mz. rewrite Ev, Eq, E2.
  assert (O : fsub dt (Fin 1) (Fin z) = Fin (RN (1 - z)) /\ 0 <= RN (1 - z) <= 1 /\ repr dt (RN (1 - z))).
  { unfold fsub. rewrite xsub_fin. apply (fround_between dt (1 - z) 0 1 (repr_0 dt) (repr_1 dt)). lra. }
  destruct O as (Eo & Bo & Ro). rewrite Eo.
  set (w := RN (1 - z)) in *.
  destruct (fround_between dt (w * w) 0 1 (repr_0 dt) (repr_1 dt)) as (Ew & Bw & Rw); [nra|].
  change (fmul dt (Fin w) (Fin w)) with (fround dt (Fin (w * w))). rewrite Ew.
  destruct (fround_between dt (s1 * RN (z * z)) 0 s1 (repr_0 dt) R1) as (Ea & Ba & Ra); [nra|].
  change (fmul dt (Fin s1) (Fin (RN (z * z)))) with (fround dt (Fin (s1 * RN (z * z)))). rewrite Ea.
  destruct (fround_between dt (2 * bs * v) 0 (2 * bs) (repr_0 dt) R2) as (Eb & Bb' & Rb'); [nra|].
  change (fmul dt (Fin (2 * bs)) (Fin v)) with (fround dt (Fin (2 * bs * v))). rewrite Eb.
  destruct (fround_between dt (s0 * RN (w * w)) 0 s0 (repr_0 dt) R0) as (Ec & Bc & Rc); [nra|].
  change (fmul dt (Fin s0) (Fin (RN (w * w)))) with (fround dt (Fin (s0 * RN (w * w)))). rewrite Ec.
  set (A := RN (s1 * RN (z * z))) in *. set (B := RN (2 * bs * v)) in *. set (C := RN (s0 * RN (w * w))) in *.
  assert (R84 : 2 * bs <= maxpow dt / 8) by lra.
  destruct (fround_between dt (A + B) A (maxpow dt / 4) Ra max_4) as (E3 & B3 & R3); [lra|].
  unfold fadd. rewrite xadd_fin, E3, xadd_fin.
  assert (Mx : repr dt (maxpow dt / 2)) by apply half_max_repr.
  destruct (fround_between dt (RN (A + B) + C) 0 (maxpow dt / 2) (repr_0 dt) Mx) as (E4 & B4 & R4); [lra|].
  eexists. split; [exact E4|]. split; auto.
  assert (Q0 : repr dt (s0 * bpow radix2 (- (2)))) by (apply scale_down; auto; [lia|lra]).
  assert (Q1 : repr dt (s1 * bpow radix2 (- (2)))) by (apply scale_down; auto; [lia|lra]).
  replace (s0 * bpow radix2 (- (2))) with (s0 / 4) in Q0 by (cbn; lra).
  replace (s1 * bpow radix2 (- (2))) with (s1 / 4) in Q1 by (cbn; lra).
  destruct (Rle_lt_dec (/ 2) z) as [H|H].
  - assert (/ 4 <= RN (z * z)) by (apply rnd_ge_F; [apply F_quarter|nra]).
    assert (K : s1 / 4 <= A) by (apply rnd_ge_F; [apply Q1|nra]).
    apply Rle_trans with (s1 / 4); [pose proof (Rmin_r s0 s1); lra|]. apply rnd_ge_F; [apply Q1|lra].
  - assert (/ 2 <= w) by (apply rnd_ge_F; [apply F_half|lra]).
    assert (/ 4 <= RN (w * w)) by (apply rnd_ge_F; [apply F_quarter|nra]).
    assert (K : s0 / 4 <= C) by (apply rnd_ge_F; [apply Q0|nra]).
    apply Rle_trans with (s0 / 4); [pose proof (Rmin_l s0 s1); lra|]. apply rnd_ge_F; [apply Q0|lra].
Qed.

(** ... and the output is never below the left knot (it may be +inf if the bin is enormous). *)
Theorem C82_output_above_left_knot h yl : repr dt h -> repr dt yl -> 0 <= h ->
  xleb (Fin yl) (fl_rqs_y dt (Fin s0) (Fin s1) (Fin bs) (Fin h) (Fin yl) (Fin z)) = true.
Proof.
  intros Rh Ry Ph. pose proof (tiny_pos dt) as T. pose proof (maxpow_pos dt) as M.
  destruct C82_denominator_positive as (d & Ed & Rd & Pd). destruct z1mz as (v & Ev & Rv & Bv). destruct sq_z as [Eq Bq].
  unfold fl_rqs_y, fl_rqs_numerator. rewrite Ed, Eq, Ev.
  destruct (fround_between dt (bs * RN (z * z)) 0 bs (repr_0 dt) Rb) as (Ea & Ba & Ra); [nra|].
  change (fmul dt (Fin bs) (Fin (RN (z * z)))) with (fround dt (Fin (bs * RN (z * z)))). rewrite Ea.
  destruct (fround_between dt (s0 * v) 0 s0 (repr_0 dt) R0) as (Ec & Bc & Rc); [nra|].
  change (fmul dt (Fin s0) (Fin v)) with (fround dt (Fin (s0 * v))). rewrite Ec.
  unfold fadd at 2. rewrite xadd_fin.
  destruct (fround_between dt (RN (bs * RN (z * z)) + RN (s0 * v)) 0 (maxpow dt / 8) (repr_0 dt) max_8) as (E3 & B3 & R3); [lra|].
  rewrite E3. set (X := RN (RN (bs * RN (z * z)) + RN (s0 * v))) in *. clearbody X.
  assert (G : forall r, 0 <= r -> fround dt (Fin r) = PInf \/ exists q, fround dt (Fin r) = Fin q /\ 0 <= q).
  { intros r Pr. cbn. destruct (Rlt_dec (Rabs _) _); [right; eexists; split; [reflexivity|apply rnd_nonneg; auto]|].
    left. destruct (Rlt_dec r 0); [lra|auto]. }
  assert (NQ : fdiv dt (fmul dt (Fin h) (Fin X)) (Fin d) = PInf \/ exists q, fdiv dt (fmul dt (Fin h) (Fin X)) (Fin d) = Fin q /\ 0 <= q).
  { unfold fmul. rewrite xmul_fin. assert (PX : 0 <= h * X) by nra.
    destruct (G (h * X) PX) as [E|(q & E & Pq)]; rewrite E; unfold fdiv; [left; cbn; destruct (Rlt_dec d 0); [lra|auto]|].
    rewrite xdiv_fin' by lra. apply G. apply Rle_mult_inv_pos; lra. }
  destruct NQ as [->|(q & -> & Pq)]; [reflexivity|].
  unfold fadd. rewrite xadd_fin. cbn [fround]. destruct (Rlt_dec (Rabs _) _) as [L|L].
  - apply xleb_fin. apply rnd_ge_F; [apply Ry|lra].
  - destruct (Rlt_dec (yl + q) 0) as [K|K]; [|reflexivity]. exfalso. apply L.
    assert (Q : yl <= RN (yl + q) <= 0) by (split; [apply rnd_ge_F; [apply Ry|lra]|apply rnd_le_F; [apply F_0|lra]]).
    destruct Ry as [_ Hy]. apply Rabs_def2 in Hy. apply Rabs_def1; lra.
Qed.
End Bin.

(** Together: whatever the input, the three logarithms of the log-determinant are taken of positive
    finite numbers, so the log-determinant is never NaN or infinite inside a bin. *)
Theorem C82_log_det_defined s0 s1 bs x xl width :
  repr dt s0 -> repr dt s1 -> repr dt bs ->
  8 * tiny dt <= s0 <= maxpow dt / 16 -> 8 * tiny dt <= s1 <= maxpow dt / 16 -> 8 * tiny dt <= bs <= maxpow dt / 16 ->
  (x = PInf \/ x = NInf \/ exists r, x = Fin r /\ repr dt r) -> repr dt xl -> repr dt width -> 0 < width ->
  let z := fl_rqs_z dt x (Fin xl) (Fin width) in
  exists d a, fl_rqs_denominator dt (Fin s0) (Fin s1) (Fin bs) z = Fin d /\ 0 < d /\
              fl_rqs_logarg dt (Fin s0) (Fin s1) (Fin bs) z = Fin a /\ 0 < a /\ 0 < bs.
Proof.
  intros R0 R1 Rb B0 B1 Bb X Rl Rw W z. pose proof (tiny_pos dt) as T.
  destruct (C82_position x xl width X Rl Rw W) as (r & Er & Rr & Br). unfold z; rewrite Er.
  destruct (C82_denominator_positive s0 s1 bs r) as (d & Ed & _ & Pd); auto.
  destruct (C82_log_argument_positive s0 s1 bs r) as (a & Ea & _ & Pa); auto.
  exists d, a. repeat split; auto; try lra.
  assert (0 < Rmin s0 s1) by (apply Rmin_glb_lt; lra). lra.
Qed.

(** ** C83 *)
Lemma below_one : repr dt (1 - grid dt / 2).
Proof.
  pose proof (grid_pos dt) as G. assert (E : grid dt / 2 = bpow radix2 (- mant dt)).
  { unfold grid. replace (1 - mant dt)%Z with (- mant dt + 1)%Z by lia. rewrite bpow_plus. cbn. lra. }
  pose proof (eps_le_8) as U8. unfold eps in U8. split.
  - apply generic_format_FLT. exists (Defs.Float radix2 (2 ^ mant dt - 1) (- mant dt)); cbn [Fnum Fexp].
    + unfold F2R. cbn [Fnum Fexp]. rewrite E, minus_IZR. pose proof (mant_ok dt). rewrite (IZR_Zpower radix2) by lia.
      rewrite Rmult_minus_distr_r, <- bpow_plus. replace (mant dt + - mant dt)%Z with 0%Z by lia. cbn [bpow]. ring.
    + change (Z.abs (2 ^ mant dt - 1) < 2 ^ mant dt)%Z. assert (0 < 2 ^ mant dt)%Z by (apply Z.pow_pos_nonneg; pose proof (mant_ok dt); lia). lia.
    + unfold emin. pose proof (exp_ok dt); pose proof (mant_ok dt). lia.
  - rewrite E. rewrite Rabs_pos_eq by lra. pose proof (maxpow_ge_2 dt). pose proof (bpow_gt_0 radix2 (- mant dt)). lra.
Qed.
Lemma tiny_repr : repr dt (tiny dt).
Proof.
  pose proof (tiny_pos dt). split; [apply F_bpow; pose proof (mant_ok dt); lia|]. rewrite Rabs_pos_eq by lra.
  apply bpow_lt. unfold emin. pose proof (exp_ok dt); pose proof (mant_ok dt); lia.
Qed.

(** C83: the uniform draw of Logistic is strictly between 0 and 1, so its two logarithms are finite. *)
Theorem C83_logistic_draw_in_open_interval w : uniform_output dt w ->
  exists v, fl_logistic_uniform dt (Fin w) = Fin v /\ repr dt v /\ 0 < v < 1 /\ tiny dt <= v.
Proof.
  intros W. pose proof (uniform_output_bounds dt w W) as B. pose proof (uniform_output_F dt w W) as Rw.
  pose proof (grid_pos dt) as G. pose proof (tiny_pos dt) as T.
  assert (TG : tiny dt <= grid dt / 2).
  { assert (E : grid dt / 2 = bpow radix2 (- mant dt)).
    { unfold grid. replace (1 - mant dt)%Z with (- mant dt + 1)%Z by lia. rewrite bpow_plus. cbn. lra. }
    rewrite E. apply bpow_le. unfold emin. pose proof (exp_ok dt). lia. }
  unfold fl_logistic_uniform, fsub. rewrite xsub_fin.
  destruct (fround_between dt (1 - tiny dt) 0 1 (repr_0 dt) (repr_1 dt)) as (E1 & B1 & R1); [pose proof eps_le_8; unfold grid in *; lra|].
  rewrite E1. set (m := RN (1 - tiny dt)) in *.
  destruct (fround_between dt (w * m) 0 w (repr_0 dt) Rw) as (E2 & B2 & R2); [nra|].
  change (fmul dt (Fin w) (Fin m)) with (fround dt (Fin (w * m))). rewrite E2. unfold fadd. rewrite xadd_fin.
  destruct (fround_between dt (RN (w * m) + tiny dt) (tiny dt) (1 - grid dt / 2) tiny_repr below_one) as (E3 & B3 & R3); [lra|].
  rewrite E3. unfold xmax. cbn [xis_nan orb].
  destruct (xltb (Fin (tiny dt)) (Fin (RN (RN (w * m) + tiny dt)))).
  - eexists; split; [reflexivity|]. split; auto. lra.
  - exists (tiny dt). split; auto. split; [apply tiny_repr|]. lra.
Qed.
End S.

(** The premises hold for the identity-like bin in float32. *)
Example C82_example : repr float32 1 /\ 8 * tiny float32 <= 1 <= maxpow float32 / 16.
Proof.
  split; [apply repr_1|]. split.
  - replace (8 * tiny float32) with (bpow radix2 (3 + (emin float32 + mant float32 - 1))) by (rewrite bpow_plus; cbn [bpow]; unfold tiny; change (IZR (Z.pow_pos radix2 3)) with 8; reflexivity).
    change 1 with (bpow radix2 0). apply bpow_le. cbn; lia.
  - apply Rle_trans with (bpow radix2 6 / 16); [cbn; lra|]. apply Rmult_le_compat_r; [lra|]. apply bpow_le. cbn; lia.
Qed.
Print Assumptions C82_log_det_defined.
Print Assumptions C83_logistic_draw_in_open_interval.
