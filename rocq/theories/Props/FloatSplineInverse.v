(** C82, the inverse direction: the position in the bin found by the stable quadratic root is always
    a number in [0, 1]. *)
From Coq Require Import Reals List Bool Lra Lia ZArith.
From Flocq Require Import Core.
From Verif Require Import Base.XR Base.Float Model.FloatDist Spec.Rounding Proofs.FloatOrder Proofs.FloatLib.
From Verif Require Import Props.FloatSpline.
Import ListNotations.
Local Open Scope R_scope.

Section Inv.
Variable dt : dtype.
Notation F := (generic_format radix2 (fexp dt)).
Notation RN := (rnd dt).
Notation pw := (bpow radix2).

Lemma pw_S k : pw (k + 1) = 2 * pw k.
Proof. rewrite bpow_plus. change (pw 1) with 2. ring. Qed.
Lemma pw_repr k : (emin dt <= k < emax dt)%Z -> repr dt (pw k).
Proof. intros H. split; [apply F_bpow; lia|]. rewrite Rabs_pos_eq by apply bpow_ge_0. apply bpow_lt. lia. Qed.
(** rounding a number of magnitude at most a power of two *)
Lemma rnd_pw x k : (emin dt <= k < emax dt)%Z -> - pw k <= x <= pw k ->
  fround dt (Fin x) = Fin (RN x) /\ repr dt (RN x) /\ - pw k <= RN x <= pw k.
Proof.
  intros H B. destruct (fround_between dt x _ _ (FloatLib.repr_opp dt _ (pw_repr k H)) (pw_repr k H) B) as (Q1 & Q2 & Q3). auto.
Qed.
(** the same for the three operations *)
Lemma mul_pw x y k : (emin dt <= k < emax dt)%Z -> - pw k <= x * y <= pw k ->
  fmul dt (Fin x) (Fin y) = Fin (RN (x * y)) /\ repr dt (RN (x * y)) /\ - pw k <= RN (x * y) <= pw k.
Proof. intros H B. unfold fmul. rewrite xmul_fin. apply rnd_pw; auto. Qed.
Lemma add_pw x y k : (emin dt <= k < emax dt)%Z -> - pw k <= x + y <= pw k ->
  fadd dt (Fin x) (Fin y) = Fin (RN (x + y)) /\ repr dt (RN (x + y)) /\ - pw k <= RN (x + y) <= pw k.
Proof. intros H B. unfold fadd. rewrite xadd_fin. apply rnd_pw; auto. Qed.
Lemma sub_pw x y k : (emin dt <= k < emax dt)%Z -> - pw k <= x - y <= pw k ->
  fsub dt (Fin x) (Fin y) = Fin (RN (x - y)) /\ repr dt (RN (x - y)) /\ - pw k <= RN (x - y) <= pw k.
Proof. intros H B. unfold fsub. rewrite xsub_fin. apply rnd_pw; auto. Qed.
Lemma sqrt_in lo hi v : 0 < lo <= 1 -> 1 <= hi -> lo <= v <= hi -> lo <= sqrt v <= hi.
Proof.
  intros A B C. split.
  - rewrite <- (sqrt_Rsqr lo) by lra. apply sqrt_le_1; unfold Rsqr; nra.
  - rewrite <- (sqrt_Rsqr hi) by lra. apply sqrt_le_1; unfold Rsqr; nra.
Qed.
(** clipping a quotient of the right sign *)
Lemma clip_quotient num den : (0 <= num /\ 0 < den \/ num <= 0 /\ den < 0) ->
  exists z, fl_clip01 (fdiv dt (Fin num) (Fin den)) = Fin z /\ repr dt z /\ 0 <= z <= 1 /\ (num = 0 -> z = 0).
Proof.
  intros H. unfold fdiv. assert (D : den <> 0) by lra. rewrite xdiv_fin' by auto.
  assert (P : 0 <= num / den).
  { destruct H as [[H1 H2]|[H1 H2]]; [apply Rle_mult_inv_pos; auto|]. replace (num / den) with ((- num) / (- den)) by (field; auto). apply Rle_mult_inv_pos; lra. }
  assert (N : fle (Fin 0) (fround dt (Fin (num / den)))) by (apply fround_nonneg, fle_fin, P).
  assert (Z0 : num = 0 -> fround dt (Fin (num / den)) = Fin 0) by (intros ->; unfold Rdiv; rewrite Rmult_0_l; apply fround_0).
  destruct (fround dt (Fin (num / den))) as [q| | |] eqn:Eq; try discriminate N.
  - apply fle_fin in N. pose proof (fround_value dt _ _ Eq) as Rq. unfold fl_clip01, xmin, xmax. cbn [xis_nan orb].
    assert (M : (if xltb (Fin 0) (Fin q) then Fin q else Fin 0) = Fin q).
    { destruct (xltb (Fin 0) (Fin q)) eqn:L; [auto|]. apply xltb_fin_f in L. f_equal; lra. }
    rewrite M. cbn [xis_nan orb]. destruct (xltb (Fin q) (Fin 1)) eqn:L.
    + apply xltb_fin in L. exists q. split; auto. split; auto. split; [lra|]. intros H0. specialize (Z0 H0). congruence.
    + exists 1. split; auto. split; [apply repr_1|]. split; [lra|]. intros H0. specialize (Z0 H0). injection Z0 as ->. apply xltb_fin_f in L. lra.
  - exists 1. unfold fl_clip01, xmin, xmax. cbn. split; auto. split; [apply repr_1|]. split; [lra|]. intros H0. specialize (Z0 H0). discriminate.
Qed.

(** Slopes between [2^-K] and [2^K], with [4 K + 8] within the exponent range (K = 30 for float32). *)
Variables (K : Z) (s0 s1 bs w : R).
Hypothesis K_ok : (0 <= K /\ 4 * K + 8 <= emax dt)%Z.
Hypothesis R0 : repr dt s0. Hypothesis R1 : repr dt s1. Hypothesis Rb : repr dt bs. Hypothesis Rw : repr dt w.
Hypothesis B0 : pw (- K) <= s0 <= pw K.
Hypothesis B1 : pw (- K) <= s1 <= pw K.
Hypothesis Bb : pw (- K) <= bs <= pw K.
Hypothesis Bw : 0 <= w <= 1.

Theorem C82_inverse_position :
  exists z, fl_rqs_inv_z dt (Fin s0) (Fin s1) (Fin bs) (Fin w) = Fin z /\ repr dt z /\ 0 <= z <= 1 /\ (w = 0 -> z = 0).
Proof.
  pose proof (mant_ok dt) as M1. pose proof (exp_ok dt) as M2. assert (Em : (emin dt <= - 4 * K)%Z) by (unfold emin; lia).
  pose proof (bpow_gt_0 radix2 K) as PK. pose proof (bpow_gt_0 radix2 (- K)) as PmK.
  assert (K1 : pw (K + 1) = 2 * pw K) by apply pw_S.
  assert (K2 : pw (K + 2) = 4 * pw K) by (replace (K + 2)%Z with (K + 1 + 1)%Z by lia; rewrite !pw_S; ring).
  assert (K3 : pw (K + 3) = 8 * pw K) by (replace (K + 3)%Z with (K + 2 + 1)%Z by lia; rewrite pw_S; lra).
  unfold fl_rqs_inv_z, fl_rqs_slopes_term. cbn [xopp].
  (* slopes_term *)
  destruct (add_pw s1 s0 (K + 1) ltac:(lia) ltac:(lra)) as (-> & Rs & Bs).
  assert (Ps : 0 <= RN (s1 + s0)) by (apply rnd_nonneg; lra).
  destruct (mul_pw 2 bs (K + 1) ltac:(lia) ltac:(lra)) as (-> & R2 & B2).
  assert (P2 : 0 <= RN (2 * bs)) by (apply rnd_nonneg; lra).
  destruct (sub_pw (RN (s1 + s0)) (RN (2 * bs)) (K + 1) ltac:(lia) ltac:(lra)) as (-> & Rt & Bt).
  set (t := RN (RN (s1 + s0) - RN (2 * bs))) in *. clearbody t.
  (* c *)
  assert (Bc : - pw K <= - bs * w <= pw K) by nra.
  destruct (mul_pw (- bs) w K ltac:(lia) Bc) as (-> & Rc & Bc'). 
  assert (Nc : RN (- bs * w) <= 0). { rewrite <- (rnd_0 dt). apply rnd_le. nra. }
  set (c := RN (- bs * w)) in *.
  assert (Hc0 : w = 0 -> c = 0). { intros W0. unfold c. rewrite W0, Rmult_0_r. apply rnd_0. }
  (* b *)
  assert (Btw : - pw (K + 1) <= t * w <= pw (K + 1)) by nra.
  destruct (mul_pw t w (K + 1) ltac:(lia) Btw) as (-> & Rtw & Btw').
  set (tw := RN (t * w)) in *.
  destruct (sub_pw s0 tw (K + 2) ltac:(lia) ltac:(lra)) as (-> & Rbb & Bbb).
  assert (B0z : RN (s0 - tw) = 0 -> tw = s0).
  { intros Z. destruct (Rtotal_order tw s0) as [L|[L|L]]; auto; exfalso.
    - pose proof (rnd_sub_pos dt tw s0 (proj1 Rtw) (proj1 R0) L). lra.
    - pose proof (rnd_sub_pos dt s0 tw (proj1 R0) (proj1 Rtw) L) as Q. replace (s0 - tw) with (- (tw - s0)) in Z by lra. rewrite rnd_opp in Z. lra. }
  assert (Hb0 : w = 0 -> RN (s0 - tw) = s0).
  { intros W0. unfold tw. rewrite W0, Rmult_0_r, rnd_0, Rminus_0_r. apply rnd_id, R0. }
  set (b := RN (s0 - tw)) in *.
  (* a *)
  destruct (sub_pw bs b (K + 3) ltac:(lia) ltac:(lra)) as (-> & Ra & Ba).
  assert (An : b < 0 -> bs <= RN (bs - b)) by (intros; apply rnd_ge_F; [apply Rb|lra]).
  assert (A0 : b = 0 -> RN (bs - b) = bs) by (intros ->; rewrite Rminus_0_r; apply rnd_id, Rb).
  set (a := RN (bs - b)) in *.
  (* the discriminant *)
  unfold fl_safe_quadratic_root.
  assert (Kbb : pw (2 * K + 4) = pw (K + 2) * pw (K + 2)) by (rewrite <- bpow_plus; f_equal; lia).
  assert (K5 : pw (K + 5) = 4 * pw (K + 3)) by (replace (K + 5)%Z with (K + 3 + 1 + 1)%Z by lia; rewrite !pw_S; ring).
  assert (K2c : pw (2 * K + 5) = pw (K + 5) * pw K) by (rewrite <- bpow_plus; f_equal; lia).
  assert (K6 : pw (2 * K + 6) = 2 * pw (2 * K + 5)) by (replace (2 * K + 6)%Z with (2 * K + 5 + 1)%Z by lia; apply pw_S).
  assert (K54 : pw (2 * K + 5) = 2 * pw (2 * K + 4)) by (replace (2 * K + 5)%Z with (2 * K + 4 + 1)%Z by lia; apply pw_S).
  pose proof (bpow_gt_0 radix2 (2 * K + 4)) as P4.
  assert (Bsq : - pw (2 * K + 4) <= b * b <= pw (2 * K + 4)) by (rewrite Kbb; nra).
  destruct (mul_pw b b (2 * K + 4) ltac:(lia) Bsq) as (-> & Rsq & Bsq').
  destruct (mul_pw 4 a (K + 5) ltac:(lia) ltac:(lra)) as (-> & R4a & B4a).
  assert (B4c : - pw (2 * K + 5) <= RN (4 * a) * c <= pw (2 * K + 5)) by (rewrite K2c; nra).
  destruct (mul_pw (RN (4 * a)) c (2 * K + 5) ltac:(lia) B4c) as (-> & R4c & B4c').
  destruct (sub_pw (RN (b * b)) (RN (RN (4 * a) * c)) (2 * K + 6) ltac:(lia) ltac:(lra)) as (-> & Rdis & Bdis).
  (* when b = 0 the discriminant is positive *)
  assert (Dpos : b = 0 -> 0 < RN (RN (b * b) - RN (RN (4 * a) * c))).
  { intros Z. pose proof (B0z Z) as T0. pose proof (A0 Z) as Ea. rewrite Z, Ea, Rmult_0_l, rnd_0.
    assert (Kh : pw (- K) = 2 * pw (- K - 1)) by (replace (- K)%Z with (- K - 1 + 1)%Z at 1 by lia; apply pw_S).
    pose proof (bpow_gt_0 radix2 (- K - 1)) as Ph.
    assert (W1 : pw (- K - 1) <= t * w).
    { apply Rnot_lt_le. intros L. assert (tw <= pw (- K - 1)); [|lra]. apply rnd_le_F; [|lra]. apply F_bpow. unfold emin. lia. }
    assert (W2 : pw (- 2 * K - 2) <= w).
    { assert (Q : pw (- K - 1) = pw (K + 1) * pw (- 2 * K - 2)) by (rewrite <- bpow_plus; f_equal; lia).
      pose proof (bpow_gt_0 radix2 (K + 1)). assert (t * w <= pw (K + 1) * w) by (apply Rmult_le_compat_r; lra).
      apply (Rmult_le_reg_l (pw (K + 1))); [auto|]. lra. }
    assert (C1 : c <= - pw (- 3 * K - 2)).
    { assert (Q : pw (- 3 * K - 2) = pw (- K) * pw (- 2 * K - 2)) by (rewrite <- bpow_plus; f_equal; lia).
      unfold c. replace (- bs * w) with (- (bs * w)) by ring. rewrite rnd_opp. apply Ropp_le_contravar. apply rnd_ge_F; [apply F_bpow; unfold emin; lia|].
      rewrite Q. pose proof (bpow_gt_0 radix2 (- 2 * K - 2)). apply Rmult_le_compat; lra. }
    assert (A4 : pw (2 - K) <= RN (4 * bs)).
    { apply rnd_ge_F; [apply F_bpow; unfold emin; lia|]. replace (2 - K)%Z with (2 + - K)%Z by lia. rewrite bpow_plus. change (pw 2) with 4. lra. }
    pose proof (bpow_gt_0 radix2 (2 - K)) as Pa. pose proof (bpow_gt_0 radix2 (- 3 * K - 2)) as Pc.
    assert (AC : RN (RN (4 * bs) * c) <= - pw (- 4 * K)).
    { assert (Q : pw (- 4 * K) = pw (2 - K) * pw (- 3 * K - 2)) by (rewrite <- bpow_plus; f_equal; lia).
      apply rnd_le_F; [apply F_opp, F_bpow; lia|]. rewrite Q. nra. }
    apply Rlt_le_trans with (pw (- 4 * K)); [apply bpow_gt_0|]. apply rnd_ge_F; [apply F_bpow; lia|lra]. }
  set (dis := RN (RN (b * b) - RN (RN (4 * a) * c))) in *.
  (* the square root *)
  set (sq := if xltb (Fin 0) (Fin dis) then fround dt (xsqrt (xmax (Fin (tiny dt)) (Fin dis))) else Fin 0).
  assert (Sq : exists r, sq = Fin r /\ 0 <= r <= pw (2 * K + 6) /\ (0 < dis -> tiny dt <= r)).
  { unfold sq. destruct (xltb (Fin 0) (Fin dis)) eqn:L.
    - apply xltb_fin in L. pose proof (tiny_pos dt) as T0.
      assert (X : exists v, xmax (Fin (tiny dt)) (Fin dis) = Fin v /\ tiny dt <= v <= pw (2 * K + 6)).
      { unfold xmax. cbn [xis_nan orb]. assert (tiny dt <= pw (2 * K + 6)) by (apply bpow_le; unfold emin; lia).
        destruct (xltb (Fin (tiny dt)) (Fin dis)) eqn:L'; [apply xltb_fin in L'|apply xltb_fin_f in L']; eexists; (split; [reflexivity|lra]). }
      destruct X as (v & -> & Bv). cbn [xsqrt]. destruct (Rle_dec 0 v); [|lra].
      assert (T1 : tiny dt <= 1). { change 1 with (pw 0). apply bpow_le. unfold emin. lia. }
      assert (G1 : 1 <= pw (2 * K + 6)). { change 1 with (pw 0). apply bpow_le. lia. }
      assert (Sv : tiny dt <= sqrt v <= pw (2 * K + 6)) by (apply sqrt_in; lra).
      destruct (fround_between dt (sqrt v) _ _ (tiny_repr dt) (pw_repr (2 * K + 6) ltac:(unfold emin in *; lia)) Sv) as (-> & Q & _).
      eexists. split; [reflexivity|]. split; [lra|]. intros _. lra.
    - apply xltb_fin_f in L. exists 0. split; auto. pose proof (bpow_gt_0 radix2 (2 * K + 6)). split; [lra|]. intros; lra. }
  destruct Sq as (r & Er & Br & Pr). cbv zeta. fold sq. rewrite Er. clear Er sq. cbn [xopp].
  assert (K7 : pw (2 * K + 7) = 2 * pw (2 * K + 6)) by (replace (2 * K + 7)%Z with (2 * K + 6 + 1)%Z by lia; apply pw_S).
  assert (KB : pw (K + 2) <= pw (2 * K + 4)) by (apply bpow_le; lia).
  destruct (xleb (Fin 0) (Fin b)) eqn:L.
  - apply xleb_fin in L. destruct (mul_pw 2 c (K + 1) ltac:(lia) ltac:(lra)) as (-> & R2c & B2c).
    assert (N2c : RN (2 * c) <= 0) by (rewrite <- (rnd_0 dt); apply rnd_le; lra).
    destruct (sub_pw (- b) r (2 * K + 7) ltac:(lia) ltac:(lra)) as (-> & Rden & Bden).
    assert (Dn : RN (- b - r) < 0).
    { assert (0 < RN (b + r)); [|replace (- b - r) with (- (b + r)) by lra; rewrite rnd_opp; lra].
      destruct L as [L|L].
      - apply Rlt_le_trans with b; [auto|]. apply rnd_ge_F; [apply Rbb|lra].
      - assert (tiny dt <= r) by (apply Pr, Dpos; lra). rewrite <- L, Rplus_0_l.
        apply Rlt_le_trans with (tiny dt); [apply tiny_pos|]. apply rnd_ge_F; [apply (tiny_repr dt)|lra]. }
    destruct (clip_quotient (RN (2 * c)) (RN (- b - r)) ltac:(lra)) as (z & Ez & Rz & Bz & Z0). exists z. split; auto. split; auto. split; auto.
    intros W0. apply Z0. rewrite (Hc0 W0), Rmult_0_r. apply rnd_0.
  - apply xleb_fin_f in L. specialize (An L). destruct (add_pw (- b) r (2 * K + 7) ltac:(lia) ltac:(lra)) as (-> & Rnum & Bnum).
    assert (Nn : 0 <= RN (- b + r)) by (apply rnd_nonneg; lra).
    destruct (mul_pw 2 a (K + 5) ltac:(lia) ltac:(lra)) as (-> & R2a & B2a).
    assert (Pa : 0 < RN (2 * a)). { apply Rlt_le_trans with bs; [lra|]. apply rnd_ge_F; [apply Rb|lra]. }
    destruct (clip_quotient (RN (- b + r)) (RN (2 * a)) ltac:(lra)) as (z & Ez & Rz & Bz & _). exists z. split; auto. split; auto. split; auto.
    intros W0. specialize (Hb0 W0). lra.
Qed.

(** The inverse value itself, for any [y], infinities included: never NaN, at or above the left knot, and
    at most the float sum of left knot and bin width; the lower end of the bin is mapped back exactly. *)
End Inv.
Theorem C82_inverse_in_bin dt K s0 s1 bs y yl h xl width :
  (0 <= K /\ 4 * K + 8 <= emax dt)%Z -> repr dt s0 -> repr dt s1 -> repr dt bs ->
  bpow radix2 (- K) <= s0 <= bpow radix2 K -> bpow radix2 (- K) <= s1 <= bpow radix2 K -> bpow radix2 (- K) <= bs <= bpow radix2 K ->
  (y = PInf \/ y = NInf \/ exists r, y = Fin r /\ repr dt r) -> repr dt yl -> repr dt h -> 0 < h ->
  repr dt xl -> repr dt width -> 0 < width ->
  let x := fl_rqs_inv_x dt (Fin width) (Fin xl)
             (fl_rqs_inv_z dt (Fin s0) (Fin s1) (Fin bs) (fl_rqs_w dt y (Fin yl) (Fin h))) in
  fle (Fin xl) x /\ fle x (fadd dt (Fin width) (Fin xl)) /\ (y = Fin yl -> x = Fin xl).
Proof.
  intros HK R0 R1 Rb B0 B1 Bb Hy Ryl Rh Ph Rxl Rwd Pw x.
  destruct (C82_position dt y yl h Hy Ryl Rh Ph) as (w & Ew & Rw & Bw). change (fl_rqs_z dt y (Fin yl) (Fin h)) with (fl_rqs_w dt y (Fin yl) (Fin h)) in Ew.
  destruct (C82_inverse_position dt K s0 s1 bs w HK R0 Rb B0 B1 Bb Bw) as (z & Ez & Rz & Bz & Z0).
  assert (Ex : x = fadd dt (fmul dt (Fin width) (Fin z)) (Fin xl)) by (unfold x, fl_rqs_inv_x; rewrite Ew, Ez; reflexivity).
  unfold fmul in Ex. rewrite xmul_fin in Ex.
  destruct (fround_between dt (width * z) 0 width (repr_0 dt) Rwd ltac:(split; nra)) as (Q1 & Q2 & Q3). rewrite Q1 in Ex.
  unfold fadd in Ex |- *. rewrite !xadd_fin in *. rewrite Ex. split; [|split].
  - rewrite <- (fround_repr dt xl Rxl) at 1. apply fround_mono, fle_fin. lra.
  - apply fround_mono, fle_fin. lra.
  - intros ->. assert (W0 : w = 0).
    { assert (E : fl_rqs_w dt (Fin yl) (Fin yl) (Fin h) = Fin 0).
      { unfold fl_rqs_w, fsub. rewrite xsub_fin, Rminus_diag_eq by auto. rewrite (fround_repr dt 0 (repr_0 dt)).
        destruct (clip_quotient dt 0 h ltac:(lra)) as (q & Eq & _ & _ & Q0). rewrite Eq, (Q0 eq_refl). reflexivity. }
      rewrite E in Ew. injection Ew as <-. reflexivity. }
    rewrite (Z0 W0), Rmult_0_r, rnd_0, Rplus_0_l. apply fround_repr, Rxl.
Qed.
Print Assumptions C82_inverse_in_bin.

(** slopes between 2^-30 and 2^30 are covered in float32 *)
Example C82_inverse_example : (0 <= 30 /\ 4 * 30 + 8 <= emax float32)%Z /\ repr float32 1 /\ bpow radix2 (- (30)) <= 1 <= bpow radix2 30.
Proof. split; [cbn; lia|]. split; [apply repr_1|]. change 1 with (bpow radix2 0). split; apply bpow_le; lia. Qed.
