(** C81: the scalar affine bijector in floating point. *)
From Coq Require Import Reals List Bool Lra Lia ZArith.
From Flocq Require Import Core Plus_error BinarySingleNaN.
From Verif Require Import Base.XR Base.Float Model.FloatDist Spec.Rounding Proofs.FloatIEEE Props.FloatNormalize.
Import ListNotations.
Local Open Scope R_scope.

(** The exact result [r] of a product or quotient is not in the underflow range of the dtype. *)
Definition no_underflow (dt : dtype) (r : R) : Prop := r = 0 \/ tiny dt <= Rabs r.

Section A.
Variable dt : dtype.
Notation F := (generic_format radix2 (fexp dt)).
Notation RN := (rnd dt).
Notation u := (eps dt).

Lemma rel_of_err r s : Rabs (s - r) <= u * Rabs r -> exists e, Rabs e <= u /\ s = r * (1 + e).
Proof.
  intros H. pose proof (eps_pos dt) as U. destruct (Req_EM_T r 0) as [->|N].
  - exists 0. rewrite Rabs_R0 in *. split; [lra|]. rewrite Rmult_0_r, Rminus_0_r in H.
    assert (Rabs s = 0) by (pose proof (Rabs_pos s); lra). destruct (Req_dec s 0) as [->|K]; [lra|].
    apply Rabs_no_R0 in K. contradiction.
  - exists ((s - r) / r). split; [|field; auto].
    unfold Rdiv. rewrite Rabs_mult, Rabs_inv. apply Rabs_pos_lt in N.
    apply (Rmult_le_reg_r (Rabs r)); auto. rewrite Rmult_assoc, Rinv_l by lra. lra.
Qed.
Lemma rnd_rel r : no_underflow dt r -> exists e, Rabs e <= u /\ RN r = r * (1 + e).
Proof.
  intros [->|T]; [|apply rel_of_err, rnd_err; auto].
  exists 0. rewrite rnd_0, Rabs_R0. split; [left; apply eps_pos|lra].
Qed.
Lemma add_rel x y : F x -> F y -> exists e, Rabs e <= u /\ RN (x + y) = (x + y) * (1 + e).
Proof. intros. apply rel_of_err, add_err; auto. Qed.

Lemma prod_near c e n : Rabs (c - 1) <= (1 + u) ^ n - 1 -> Rabs e <= u -> Rabs (c * (1 + e) - 1) <= (1 + u) ^ (S n) - 1.
Proof.
  intros H1 H2. pose proof (eps_pos dt) as U. cbn [pow].
  replace (c * (1 + e) - 1) with ((c - 1) * (1 + e) + e) by ring.
  apply Rle_trans with (Rabs ((c - 1) * (1 + e)) + Rabs e); [apply Rabs_triang|].
  rewrite Rabs_mult. assert (H3 : Rabs (1 + e) <= 1 + u).
  { apply Rle_trans with (Rabs 1 + Rabs e); [apply Rabs_triang|]. rewrite Rabs_R1. lra. }
  pose proof (Rabs_pos (c - 1)). pose proof (Rabs_pos (1 + e)).
  assert (Rabs (c - 1) * Rabs (1 + e) <= ((1 + u) ^ n - 1) * (1 + u)) by (apply Rmult_le_compat; auto). lra.
Qed.
Lemma prod_bound c e n : Rabs c <= (1 + u) ^ n -> Rabs e <= u -> Rabs (c * (1 + e)) <= (1 + u) ^ (S n).
Proof.
  intros H1 H2. pose proof (eps_pos dt) as U. cbn [pow]. rewrite Rabs_mult, Rmult_comm.
  assert (H3 : Rabs (1 + e) <= 1 + u).
  { apply Rle_trans with (Rabs 1 + Rabs e); [apply Rabs_triang|]. rewrite Rabs_R1. lra. }
  apply Rmult_le_compat; auto; apply Rabs_pos.
Qed.

Lemma fadd_fin_inv a b r : fadd dt a (Fin b) = Fin r -> exists a', a = Fin a' /\ r = RN (a' + b) /\ repr dt r.
Proof.
  unfold fadd. destruct a as [a'| | |]; try discriminate. rewrite xadd_fin. intros H. apply fround_fin_inv in H. exists a'; tauto.
Qed.
Lemma fmul_fin_inv a b r : fmul dt a b = Fin r -> exists a' b', a = Fin a' /\ b = Fin b' /\ r = RN (a' * b') /\ repr dt r.
Proof.
  unfold fmul. destruct a as [a'| | |], b as [b'| | |]; try discriminate; cbn [xmul]; unfold inf_times.
  1: { intros H. apply fround_fin_inv in H. exists a', b'. repeat split; try tauto; apply H. }
  all: intros H; exfalso; repeat destruct (Rlt_dec _ _); discriminate H.
Qed.
Lemma fsub_fin_inv a b r : fsub dt (Fin a) (Fin b) = Fin r -> r = RN (a - b) /\ repr dt r.
Proof. unfold fsub. rewrite xsub_fin. apply fround_fin_inv. Qed.

(** C81: going through forward and inverse changes [x] by at most a few units of roundoff of |x| and
    of |shift / scale|, unless an intermediate product under- or overflows. *)
Theorem C81_affine_round_trip shift scale x y x' :
  repr dt shift -> repr dt scale -> repr dt x -> scale <> 0 ->
  fl_affine_forward dt (Fin shift) (Fin scale) (Fin x) = Fin y ->
  fl_affine_inverse dt (Fin shift) (Fin scale) (Fin y) = Fin x' ->
  no_underflow dt (scale * x) -> no_underflow dt (1 / scale) ->
  no_underflow dt (toR (fl_inv_scale dt (Fin scale)) * toR (fsub dt (Fin y) (Fin shift))) ->
  Rabs (x' - x) <= ((1 + u) ^ 5 - 1) * Rabs x + u * (1 + u) ^ 3 * Rabs (shift / scale).
Proof.
  intros Rb Ra Rx Na Hf Hi U1 U2 U3.
  apply fadd_fin_inv in Hf as (t & Et & Ey & Ry).
  apply fmul_fin_inv in Et as (a1 & x1 & Ea & Ex & Et & Rt). injection Ea as <-. injection Ex as <-.
  unfold fl_affine_inverse in Hi. apply fmul_fin_inv in Hi as (ia & w & Eia & Ew & Ex' & _).
  rewrite Eia, Ew in U3. cbn [toR] in U3.
  unfold fl_inv_scale, fdiv in Eia. rewrite xdiv_fin' in Eia by auto. apply fround_fin_inv in Eia as [Eia _].
  apply fsub_fin_inv in Ew as [Ew Rw].
  destruct (rnd_rel _ U1) as (e1 & E1 & Q1). destruct (add_rel t shift (proj1 Rt) (proj1 Rb)) as (e2 & E2 & Q2).
  destruct (add_rel y (- shift) (proj1 Ry) (F_opp dt _ (proj1 Rb))) as (e3 & E3 & Q3).
  destruct (rnd_rel _ U2) as (e4 & E4 & Q4). destruct (rnd_rel _ U3) as (e5 & E5 & Q5).
  change (y + - shift) with (y - shift) in Q3.
  set (c3 := 1 * (1 + e3) * (1 + e4) * (1 + e5)).
  set (c4 := 1 * (1 + e3) * (1 + e4) * (1 + e5) * (1 + e1)).
  assert (X : x' - x = x * (c4 - 1) + (t / scale + shift / scale) * e2 * c3).
  { rewrite Ex', Q5, Eia, Q4, Ew, Q3, Ey, Q2. unfold c3, c4. rewrite Et, Q1. field. auto. }
  assert (B0 : Rabs (1 - 1) <= (1 + u) ^ 0 - 1) by (rewrite Rminus_diag_eq, Rabs_R0 by auto; cbn; lra).
  assert (B1 : Rabs 1 <= (1 + u) ^ 0) by (rewrite Rabs_R1; cbn; lra).
  assert (C4 : Rabs (c4 - 1) <= (1 + u) ^ 4 - 1) by (unfold c4; repeat (apply prod_near; auto)).
  assert (C3 : Rabs c3 <= (1 + u) ^ 3) by (unfold c3; repeat (apply prod_bound; auto)).
  assert (T : Rabs (t / scale) <= (1 + u) * Rabs x).
  { rewrite Et, Q1. replace (scale * x * (1 + e1) / scale) with (x * (1 * (1 + e1))) by (field; auto).
    rewrite Rabs_mult, Rmult_comm. apply Rmult_le_compat_r; [apply Rabs_pos|].
    replace (1 + u) with ((1 + u) ^ 1) by ring. apply prod_bound; auto. }
  rewrite X. apply Rle_trans with (Rabs (x * (c4 - 1)) + Rabs ((t / scale + shift / scale) * e2 * c3)); [apply Rabs_triang|].
  rewrite !Rabs_mult.
  assert (P3 : 0 <= (1 + u) ^ 3) by (apply pow_le; pose proof (eps_pos dt); lra).
  pose proof (Rabs_pos x) as Px. pose proof (Rabs_pos (shift / scale)) as Pb. pose proof (eps_pos dt) as PU.
  assert (S : Rabs (t / scale + shift / scale) <= (1 + u) * Rabs x + Rabs (shift / scale)).
  { apply Rle_trans with (1 := Rabs_triang _ _). lra. }
  assert (M : Rabs (t / scale + shift / scale) * Rabs e2 * Rabs c3 <= ((1 + u) * Rabs x + Rabs (shift / scale)) * u * (1 + u) ^ 3).
  { apply Rmult_le_compat; auto; try apply Rabs_pos; [apply Rmult_le_pos; apply Rabs_pos|].
    apply Rmult_le_compat; auto; apply Rabs_pos. }
  assert (M2 : Rabs x * Rabs (c4 - 1) <= Rabs x * ((1 + u) ^ 4 - 1)) by (apply Rmult_le_compat_l; auto).
  apply Rle_trans with (1 := Rplus_le_compat _ _ _ _ M2 M). right. ring.
Qed.

(** The same for Shift. *)
Theorem C81_shift_round_trip shift x y x' :
  repr dt shift -> repr dt x ->
  fl_shift_forward dt (Fin shift) (Fin x) = Fin y -> fl_shift_inverse dt (Fin shift) (Fin y) = Fin x' ->
  Rabs (x' - x) <= u * Rabs x + u * (1 + u) * Rabs (x + shift).
Proof.
  intros Rb Rx Hf Hi. apply fadd_fin_inv in Hf as (x1 & E & Ey & Ry). injection E as <-.
  apply fsub_fin_inv in Hi as [Ex' _].
  destruct (add_rel x shift (proj1 Rx) (proj1 Rb)) as (e2 & E2 & Q2).
  destruct (add_rel y (- shift) (proj1 Ry) (F_opp dt _ (proj1 Rb))) as (e3 & E3 & Q3).
  change (y + - shift) with (y - shift) in Q3.
  replace (x' - x) with (x * e3 + e2 * (1 * (1 + e3)) * (x + shift)) by (rewrite Ex', Q3, Ey, Q2; ring).
  apply Rle_trans with (1 := Rabs_triang _ _). rewrite !Rabs_mult.
  assert (B1 : Rabs 1 <= (1 + u) ^ 0) by (rewrite Rabs_R1; cbn; lra).
  assert (C : Rabs (1 * (1 + e3)) <= 1 + u) by (replace (1 + u) with ((1 + u) ^ 1) by ring; apply prod_bound; auto).
  rewrite Rabs_mult in C. pose proof (eps_pos dt).
  apply Rplus_le_compat; [rewrite Rmult_comm; apply Rmult_le_compat_r; auto; apply Rabs_pos|].
  apply Rmult_le_compat_r; [apply Rabs_pos|]. apply Rmult_le_compat; auto; try apply Rabs_pos.
  apply Rmult_le_pos; apply Rabs_pos.
Qed.

(** With a power of two as scale and no shift the round trip is exact. *)
Theorem C81_power_of_two_exact k x :
  let a := bpow radix2 k in
  repr dt x -> repr dt a -> repr dt (/ a) -> repr dt (a * x) ->
  fl_affine_forward dt (Fin 0) (Fin a) (Fin x) = Fin (a * x) /\
  fl_affine_inverse dt (Fin 0) (Fin a) (Fin (a * x)) = Fin x.
Proof.
  intros a Rx Ra Ri Rax. assert (Pa : 0 < a) by apply bpow_gt_0. split.
  - unfold fl_affine_forward, fmul, fadd. rewrite xmul_fin, (fround_repr dt _ Rax), xadd_fin, Rplus_0_r. apply fround_repr; auto.
  - unfold fl_affine_inverse, fl_inv_scale, fdiv, fsub, fmul. rewrite xdiv_fin' by lra.
    replace (1 / a) with (/ a) by (field; lra). rewrite (fround_repr dt _ Ri), xsub_fin, Rminus_0_r, (fround_repr dt _ Rax), xmul_fin.
    replace (/ a * (a * x)) with x by (field; lra). apply fround_repr; auto.
Qed.
End A.

(** The bounds are reached: in float32, x = 1 with shift 2^24 and scale 1 comes back as 0; the error
    is 1 = eps * |shift|. *)
Local Instance gt32 : Prec_gt_0 24 := mant_gt_0 float32.
Local Instance lt32 : Prec_lt_emax 24 128 := mant_lt_emax float32.
Definition b_one : binary_float 24 128 := @B754_finite 24 128 false 8388608 (-23) eq_refl.
Definition b_shift : binary_float 24 128 := @B754_finite 24 128 false 8388608 1 eq_refl.
Example C81_bound_reached :
  repr float32 (bpow radix2 24) /\ repr float32 1 /\ no_underflow float32 (1 * 1) /\ no_underflow float32 (1 / 1) /\
  no_underflow float32 (toR (fl_inv_scale float32 (Fin 1)) * toR (fsub float32 (Fin (bpow radix2 24)) (Fin (bpow radix2 24)))) /\
  fl_affine_forward float32 (Fin (bpow radix2 24)) (Fin 1) (Fin 1) = Fin (bpow radix2 24) /\
  fl_affine_inverse float32 (Fin (bpow radix2 24)) (Fin 1) (Fin (bpow radix2 24)) = Fin 0 /\
  fl_shift_forward float32 (Fin (bpow radix2 24)) (Fin 1) = Fin (bpow radix2 24) /\
  fl_shift_inverse float32 (Fin (bpow radix2 24)) (Fin (bpow radix2 24)) = Fin 0 /\
  eps float32 * Rabs (bpow radix2 24 / 1) = 1.
Proof.
  assert (V1 : Fin 1 = of_ieee float32 b_one) by (cbn; f_equal; unfold F2R; cbn; lra).
  assert (V2 : Fin (bpow radix2 24) = of_ieee float32 b_shift) by (cbn; f_equal; unfold F2R; cbn; lra).
  assert (R1 := repr_1 float32).
  assert (R2 : repr float32 (bpow radix2 24)).
  { replace (bpow radix2 24) with (B2R b_shift) by (cbn; unfold F2R; cbn; lra). apply (B2R_repr float32). }
  assert (A : fadd float32 (Fin 1) (Fin (bpow radix2 24)) = Fin (bpow radix2 24)).
  { rewrite V1, V2, fadd_ieee. apply (f_equal (of_ieee float32)). apply B2SF_inj. vm_compute. reflexivity. }
  assert (D : fsub float32 (Fin (bpow radix2 24)) (Fin (bpow radix2 24)) = Fin 0).
  { unfold fsub. rewrite xsub_fin, Rminus_diag_eq by auto. apply fround_repr, repr_0. }
  assert (I : fl_inv_scale float32 (Fin 1) = Fin 1).
  { unfold fl_inv_scale, fdiv. rewrite xdiv_fin' by lra. replace (1 / 1) with 1 by lra. apply fround_repr; auto. }
  assert (T : tiny float32 <= 1) by (unfold tiny; change 1 with (bpow radix2 0); apply bpow_le; cbn; lia).
  repeat split; try apply R2; try apply R1.
  - right. rewrite Rmult_1_r, Rabs_R1; auto.
  - right. replace (1 / 1) with 1 by lra. rewrite Rabs_R1; auto.
  - left. rewrite D. cbn [toR]. ring.
  - unfold fl_affine_forward, fmul. rewrite xmul_fin, Rmult_1_r, (fround_repr _ _ R1). exact A.
  - unfold fl_affine_inverse. rewrite I, D. unfold fmul. rewrite xmul_fin, Rmult_0_r. apply fround_repr, repr_0.
  - exact A.
  - exact D.
  - unfold eps. rewrite Rabs_pos_eq by (pose proof (bpow_gt_0 radix2 24); lra). cbn. lra.
Qed.
Print Assumptions C81_affine_round_trip.
