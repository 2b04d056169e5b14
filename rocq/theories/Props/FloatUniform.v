(** C78: Uniform in floating point.  C79: Bernoulli samples in floating point. *)
From Coq Require Import Reals List Bool Lra Lia ZArith.
From Flocq Require Import Core Plus_error BinarySingleNaN.
From Verif Require Import Base.XR Base.Float Model.FloatDist Spec.Rounding Proofs.FloatIEEE.
Import ListNotations.
Local Open Scope R_scope.

Section U.
Variable dt : dtype.
Notation F := (generic_format radix2 (fexp dt)).
Notation RN := (rnd dt).

Lemma grid_pos : 0 < grid dt. Proof. apply bpow_gt_0. Qed.
Lemma grid_inv : IZR (2 ^ (mant dt - 1)) * grid dt = 1.
Proof.
  unfold grid. pose proof (mant_ok dt). rewrite (IZR_Zpower radix2) by lia. rewrite <- bpow_plus.
  replace (mant dt - 1 + (1 - mant dt))%Z with 0%Z by lia. reflexivity.
Qed.
Lemma uniform_output_bounds u : uniform_output dt u -> 0 <= u <= 1 - grid dt.
Proof.
  intros (k & [K1 K2] & ->). pose proof grid_pos as G. pose proof grid_inv as I.
  apply IZR_le in K1. assert (K3 : (k <= 2 ^ (mant dt - 1) - 1)%Z) by lia. apply IZR_le in K3. rewrite minus_IZR in K3.
  split; nra.
Qed.
Lemma uniform_output_F u : uniform_output dt u -> repr dt u.
Proof.
  intros U. pose proof (uniform_output_bounds u U) as B. pose proof grid_pos as G. destruct U as (k & [K1 K2] & ->). split.
  - apply generic_format_FLT. exists (Float radix2 k (1 - mant dt)); cbn [Fnum Fexp].
    + unfold F2R; cbn [Fnum Fexp]. reflexivity.
    + rewrite Z.abs_eq by lia. apply Z.lt_le_trans with (1 := K2). change (2 ^ (mant dt - 1) <= 2 ^ mant dt)%Z. apply Z.pow_le_mono_r; lia.
    + unfold emin. pose proof (exp_ok dt). pose proof (mant_ok dt). lia.
  - rewrite Rabs_pos_eq by lra. pose proof (maxpow_ge_2 dt). lra.
Qed.

(** the rounded range times a draw never exceeds the exact range *)
Lemma range_times_draw low high u : F low -> F high -> low < high -> uniform_output dt u ->
  0 <= RN (high - low) * u /\
  exists e, F e /\ RN (high - low) * u <= e /\ e <= high - low /\ e <= RN (high - low).
Proof.
  intros Fl Fh L U. pose proof (uniform_output_bounds u U) as [U1 U2]. pose proof grid_pos as G.
  assert (P : 0 < RN (high - low)) by (apply rnd_sub_pos; auto). split; [nra|].
  destruct (Rle_lt_dec (RN (high - low)) (high - low)) as [C|C].
  - exists (RN (high - low)). split; [apply F_rnd|]. repeat split; auto; try lra. nra.
  - assert (NF : ~ F (high - low)) by (intros K; rewrite (rnd_id dt _ K) in C; lra).
    assert (Big : bpow radix2 (mant dt + emin dt) < high - low).
    { apply Rnot_le_lt. intros K. apply NF, F_small_sub; auto. rewrite Rabs_pos_eq; lra. }
    assert (E : RN (high - low) = round radix2 (fexp dt) Zceil (high - low)).
    { destruct (round_DN_or_UP radix2 (fexp dt) ZnearestE (high - low)) as [E|E]; [|exact E].
      exfalso. assert (D : round radix2 (fexp dt) Zfloor (high - low) <= high - low)
        by (apply round_DN_pt; typeclasses eauto).
      unfold rnd in C. rewrite E in C. lra. }
    assert (PD : pred radix2 (fexp dt) (RN (high - low)) = round radix2 (fexp dt) Zfloor (high - low))
      by (rewrite E; apply pred_UP_eq_DN; auto; typeclasses eauto).
    exists (pred radix2 (fexp dt) (RN (high - low))).
    assert (BR : bpow radix2 (emin dt + mant dt - 1) <= Rabs (RN (high - low))).
    { rewrite Rabs_pos_eq by lra. apply Rle_trans with (bpow radix2 (mant dt + emin dt)); [apply bpow_le; lia|]. lra. }
    pose proof (ulp_FLT_le radix2 (emin dt) (mant dt) _ BR) as UL. rewrite Rabs_pos_eq in UL by lra.
    fold (fexp dt) in UL. fold (grid dt) in UL.
    assert (PL : RN (high - low) - ulp radix2 (fexp dt) (RN (high - low)) <= pred radix2 (fexp dt) (RN (high - low))).
    { pose proof (succ_le_plus_ulp radix2 (fexp dt) (- RN (high - low))) as S. rewrite ulp_opp in S. unfold pred. lra. }
    repeat split.
    + apply generic_format_pred; [typeclasses eauto|apply F_rnd].
    + nra.
    + rewrite PD. apply round_DN_pt; typeclasses eauto.
    + apply pred_le_id.
Qed.

Lemma mul_nonneg_range low high u : repr dt low -> repr dt high -> low < high -> uniform_output dt u ->
  fl_range dt (Fin low) (Fin high) <> PInf ->
  exists range t, fl_range dt (Fin low) (Fin high) = Fin range /\ repr dt range /\ 0 < range /\ range = RN (high - low) /\
    fmul dt (Fin range) (Fin u) = Fin t /\ repr dt t /\ 0 <= t <= high - low /\ 0 <= range * u <= high - low.
Proof.
  intros Rl Rh L U NI. pose proof Rl as [Fl _]. pose proof Rh as [Fh _].
  destruct (range_times_draw low high u Fl Fh L U) as (N & e & Fe & E1 & E2 & E3).
  unfold fl_range, fsub in *. rewrite xsub_fin in *.
  assert (P : 0 < RN (high - low)) by (apply rnd_sub_pos; auto).
  destruct (fround dt (Fin (high - low))) as [r| | |] eqn:ER.
  - destruct (fround_fin_inv dt _ _ ER) as [-> RR].
    assert (Re : repr dt e).
    { split; auto. destruct RR as [_ M]. rewrite Rabs_pos_eq in * by lra. lra. }
    destruct (fround_between dt (RN (high - low) * u) 0 e (repr_0 dt) Re) as (Q1 & Q2 & Q3); [lra|].
    exists (RN (high - low)), (RN (RN (high - low) * u)). unfold fmul. rewrite xmul_fin.
    split; [auto|]. split; [auto|]. split; [auto|]. split; [auto|]. split; [exact Q1|]. split; [exact Q3|]. split; lra.
  - congruence.
  - exfalso. cbn in ER. destruct (Rlt_dec (Rabs _) _); [discriminate|]. destruct (Rlt_dec _ 0); [lra|discriminate].
  - exfalso. cbn in ER. destruct (Rlt_dec (Rabs _) _); [discriminate|]. destruct (Rlt_dec _ 0); discriminate.
Qed.

(** C78: samples stay inside [low, high], whatever the draw, rounded twice or once. *)
Theorem C78_sample_in_support low high u :
  repr dt low -> repr dt high -> low < high ->
  fl_range dt (Fin low) (Fin high) <> PInf ->
  uniform_output dt u ->
  exists s s', fl_uniform_sample dt (Fin u) (Fin low) (Fin high) = Fin s /\
               fl_uniform_sample_fused dt (Fin u) (Fin low) (Fin high) = Fin s' /\
               repr dt s /\ repr dt s' /\ low <= s <= high /\ low <= s' <= high.
Proof.
  intros Rl Rh L NI U.
  destruct (mul_nonneg_range low high u Rl Rh L U NI) as (range & t & E1 & R1 & P & _ & E2 & Rt & Bt & Bu).
  unfold fl_uniform_sample, fl_uniform_sample_fused, fadd, ffma. rewrite E1, E2, xadd_fin, xmul_fin, xadd_fin.
  destruct (fround_between dt (low + t) low high Rl Rh) as (A1 & A2 & A3); [lra|].
  destruct (fround_between dt (range * u + low) low high Rl Rh) as (B1 & B2 & B3); [lra|].
  exists (RN (low + t)), (RN (range * u + low)). repeat split; auto; try apply A2; try apply B2; try apply A3; try apply B3.
Qed.

Lemma inv_range_pos r : repr dt r -> 0 < r -> xltb (Fin 0) (fdiv dt (Fin 1) (Fin r)) = true.
Proof.
  intros [Fr M] P. unfold fdiv. rewrite xdiv_fin' by lra. rewrite Rabs_pos_eq in M by lra.
  assert (I : bpow radix2 (emin dt) <= 1 / r).
  { unfold Rdiv. rewrite Rmult_1_l. apply Rle_trans with (/ maxpow dt).
    - unfold maxpow. rewrite <- bpow_opp. apply bpow_le. unfold emin. pose proof (mant_ok dt). lia.
    - apply Rinv_le; lra. }
  assert (G : bpow radix2 (emin dt) <= RN (1 / r)) by (apply rnd_ge_F; [apply F_bpow; lia|auto]).
  pose proof (bpow_gt_0 radix2 (emin dt)).
  cbn. destruct (Rlt_dec (Rabs _) _); [apply xltb_fin; lra|]. destruct (Rlt_dec _ 0); [lra|reflexivity].
Qed.

(** ... and therefore have the density [1 / (high - low)], never zero. *)
Theorem C78_sample_has_density low high u :
  repr dt low -> repr dt high -> low < high ->
  fl_range dt (Fin low) (Fin high) <> PInf ->
  uniform_output dt u ->
  let p := fdiv dt (Fin 1) (fl_range dt (Fin low) (Fin high)) in
  fl_uniform_prob dt (fl_uniform_sample dt (Fin u) (Fin low) (Fin high)) (Fin low) (Fin high) = p /\
  xltb (Fin 0) p = true.
Proof.
  intros Rl Rh L NI U p. destruct (C78_sample_in_support low high u Rl Rh L NI U) as (s & s' & E & _ & _ & _ & B & _).
  destruct (mul_nonneg_range low high u Rl Rh L U NI) as (range & t & E1 & R1 & P & _).
  split.
  - rewrite E. unfold fl_uniform_prob.
    assert (Q1 : xltb (Fin s) (Fin low) = false) by (apply xltb_fin_f; lra).
    assert (Q2 : xltb (Fin high) (Fin s) = false) by (apply xltb_fin_f; lra).
    rewrite Q1, Q2. reflexivity.
  - unfold p. rewrite E1. apply inv_range_pos; auto.
Qed.

(** The density is 0 outside [low, high] and the rounded [1 / range] inside, for every float value. *)
Theorem C78_prob low high v :
  repr dt low -> repr dt high -> low < high -> repr dt v ->
  fl_uniform_prob dt (Fin v) (Fin low) (Fin high)
  = (if Rlt_dec v low then Fin 0 else if Rlt_dec high v then Fin 0
     else fdiv dt (Fin 1) (fsub dt (Fin high) (Fin low))) /\
  fl_uniform_prob dt NInf (Fin low) (Fin high) = Fin 0 /\ fl_uniform_prob dt PInf (Fin low) (Fin high) = Fin 0.
Proof.
  intros Rl Rh L Rv. split; [|split; reflexivity]. unfold fl_uniform_prob, fl_range.
  destruct (xltb (Fin v) (Fin low)) eqn:X1; [apply xltb_fin in X1|apply xltb_fin_f in X1];
    destruct (Rlt_dec v low); try lra; auto.
  destruct (xltb (Fin high) (Fin v)) eqn:X2; [apply xltb_fin in X2|apply xltb_fin_f in X2];
    destruct (Rlt_dec high v); try lra; auto.
Qed.

(** The computed cdf is 0 up to [low], 1 from [high] on, between 0 and 1, and never decreases. *)
Theorem C78_cdf low high :
  repr dt low -> repr dt high -> low < high ->
  fl_range dt (Fin low) (Fin high) <> PInf ->
  exists c : R -> R,
    (forall v, repr dt v -> fl_uniform_cdf dt (Fin v) (Fin low) (Fin high) = Fin (c v)) /\
    (forall v, repr dt v -> v <= low -> c v = 0) /\
    (forall v, repr dt v -> high <= v -> c v = 1) /\
    (forall v, repr dt v -> 0 <= c v <= 1) /\
    (forall v w, repr dt v -> repr dt w -> v <= w -> c v <= c w) /\
    fl_uniform_cdf dt NInf (Fin low) (Fin high) = Fin 0 /\ fl_uniform_cdf dt PInf (Fin low) (Fin high) = Fin 1.
Proof.
  intros Rl Rh L NI.
  assert (U0 : uniform_output dt 0).
  { exists 0%Z. split; [|lra]. pose proof (mant_ok dt). split; [lia|]. apply Z.pow_pos_nonneg; lia. }
  destruct (mul_nonneg_range low high 0 Rl Rh L U0 NI) as (range & _ & E1 & R1 & P & ER & _).
  set (q := fun v => RN (RN (v - low) / range)).
  exists (fun v => if Rlt_dec high v then 1 else if Rlt_dec v low then 0 else q v).
  assert (Q : forall v, low <= v <= high -> 0 <= RN (v - low) <= range).
  { intros v [V1 V2]. split; [apply rnd_nonneg; lra|]. rewrite ER. apply rnd_le; lra. }
  assert (Q' : forall v, low <= v <= high -> 0 <= RN (v - low) / range <= 1).
  { intros v V. specialize (Q v V). split; [apply Rle_mult_inv_pos; lra|].
    apply (Rmult_le_reg_r range); [lra|]. unfold Rdiv. rewrite Rmult_assoc, Rinv_l by lra. lra. }
  assert (Qv : forall v, low <= v <= high -> 0 <= q v <= 1).
  { intros v V. specialize (Q' v V). split; [apply rnd_nonneg; lra|apply rnd_le_F; [apply F_1|lra]]. }
  assert (Qm : forall v w, low <= v -> v <= w -> w <= high -> q v <= q w).
  { intros v w V1 V2 V3. apply rnd_le. apply Rmult_le_compat_r; [left; apply Rinv_0_lt_compat; lra|]. apply rnd_le; lra. }
  assert (Ql : q low = 0). { unfold q. rewrite Rminus_diag_eq by auto. rewrite rnd_0. unfold Rdiv. rewrite Rmult_0_l. apply rnd_0. }
  assert (Qh : q high = 1). { unfold q. rewrite <- ER. unfold Rdiv. rewrite Rinv_r by lra. apply rnd_1. }
  repeat split.
  - intros v [Fv Mv]. unfold fl_uniform_cdf. rewrite E1.
    destruct (xltb (Fin high) (Fin v)) eqn:X1; [apply xltb_fin in X1|apply xltb_fin_f in X1];
      destruct (Rlt_dec high v); try lra; auto.
    destruct (xltb (Fin v) (Fin low)) eqn:X2; [apply xltb_fin in X2|apply xltb_fin_f in X2];
      destruct (Rlt_dec v low); try lra; auto.
    assert (V : low <= v <= high) by lra.
    unfold fdiv, fsub. rewrite xsub_fin.
    rewrite (fround_ok dt (v - low) 0 range (repr_0 dt) R1 (Q v V)), xdiv_fin' by lra.
    apply (fround_ok dt _ 0 1 (repr_0 dt) (repr_1 dt)), (Qv v V).
  - intros v _ V. destruct (Rlt_dec high v); [lra|]. destruct (Rlt_dec v low); [auto|].
    replace v with low by lra. exact Ql.
  - intros v _ V. destruct (Rlt_dec high v); [auto|]. destruct (Rlt_dec v low); [lra|].
    replace v with high by lra. exact Qh.
  - destruct (Rlt_dec high v); [lra|]. destruct (Rlt_dec v low); [lra|]. apply Qv; lra.
  - destruct (Rlt_dec high v); [lra|]. destruct (Rlt_dec v low); [lra|]. apply Qv; lra.
  - intros v w _ _ V. destruct (Rlt_dec high v), (Rlt_dec high w); try lra.
    + destruct (Rlt_dec v low); [lra|]. apply Qv; lra.
    + destruct (Rlt_dec v low), (Rlt_dec w low); try lra; [apply Qv; lra|apply Qm; lra].
Qed.

Lemma half_max_repr : repr dt (maxpow dt / 2).
Proof.
  assert (E : maxpow dt / 2 = bpow radix2 (emax dt - 1)) by (unfold maxpow, Zminus; rewrite bpow_plus; cbn; lra).
  pose proof (maxpow_pos dt). split; [rewrite E; apply F_bpow; unfold emin; pose proof (exp_ok dt); pose proof (mant_ok dt); lia|].
  rewrite Rabs_pos_eq; lra.
Qed.
(** The premise about the range is needed: when [high - low] overflows, no sample is in the support
    (the draw 0 gives NaN and every other draw infinity). *)
Theorem C78_needs_finite_range :
  let low := - (maxpow dt / 2) in let high := maxpow dt / 2 in
  repr dt low /\ repr dt high /\ low < high /\ fl_range dt (Fin low) (Fin high) = PInf /\
  fl_uniform_sample dt (Fin 0) (Fin low) (Fin high) = NaN /\
  forall u, uniform_output dt u -> 0 < u -> fl_uniform_sample dt (Fin u) (Fin low) (Fin high) = PInf.
Proof.
  pose proof half_max_repr as [FH MH]. pose proof (maxpow_pos dt) as P. intros low high.
  assert (E : fl_range dt (Fin low) (Fin high) = PInf).
  { unfold fl_range, fsub. rewrite xsub_fin. cbn. unfold low, high.
    replace (maxpow dt / 2 - - (maxpow dt / 2)) with (maxpow dt) by lra.
    rewrite (rnd_id dt (maxpow dt)), Rabs_pos_eq by (try lra; apply F_bpow; unfold emin; pose proof (exp_ok dt); pose proof (mant_ok dt); lia).
    destruct (Rlt_dec (maxpow dt) (maxpow dt)); [lra|]. destruct (Rlt_dec (maxpow dt) 0); [lra|auto]. }
  repeat split; auto.
  - unfold low. apply F_opp, FH.
  - unfold low. rewrite Rabs_Ropp. exact MH.
  - unfold low, high; lra.
  - unfold fl_uniform_sample. rewrite E. unfold fmul. cbn [xmul]. rewrite inf_times_0. reflexivity.
  - intros u _ U. unfold fl_uniform_sample. rewrite E. unfold fmul. cbn [xmul]. unfold inf_times.
    destruct (Rlt_dec 0 u); [reflexivity|lra].
Qed.

(** ** C79 *)
Lemma count_below (g p : R) n : 0 < g ->
  let c := length (filter (fun k => xltb (Fin (INR k * g)) (Fin p)) (seq 0 n)) in
  (c <= n)%nat /\ (forall k, (k < c)%nat -> INR k * g < p) /\ ((c < n)%nat -> p <= INR c * g).
Proof.
  intros G. induction n as [|n (I1 & I2 & I3)]; [cbn; repeat split; intros; lia|].
  cbn zeta. rewrite seq_S, filter_app, app_length. cbn [filter plus].
  set (c := length (filter (fun k => xltb (Fin (INR k * g)) (Fin p)) (seq 0 n))) in *.
  destruct (xltb (Fin (INR n * g)) (Fin p)) eqn:X; [apply xltb_fin in X|apply xltb_fin_f in X]; cbn [length].
  - assert (c = n) as ->.
    { destruct (Nat.eq_dec c n); auto. exfalso. assert (L : (c < n)%nat) by lia. specialize (I3 L).
      apply lt_INR in L. nra. }
    repeat split; [lia| |lia]. intros k K. destruct (Nat.eq_dec k n) as [->|]; auto. apply I2; lia.
  - rewrite Nat.add_0_r. repeat split; [lia|auto|]. intros _. destruct (Nat.eq_dec c n) as [->|]; auto. apply I3; lia.
Qed.
Lemma filter_map_len {A B} (h : A -> B) f l : length (filter f (map h l)) = length (filter (fun x => f (h x)) l).
Proof. induction l as [|a l IH]; cbn; auto. destruct (f (h a)); cbn; auto. Qed.
Lemma outputs_length : INR (length (outputs dt)) * grid dt = 1.
Proof.
  unfold outputs. rewrite map_length, seq_length, INR_IZR_INZ, Z2Nat.id; [apply grid_inv|]. apply Z.pow_nonneg; lia.
Qed.
(** the outputs are exactly the possible draws *)
Lemma outputs_spec u : In u (outputs dt) <-> uniform_output dt u.
Proof.
  unfold outputs. rewrite in_map_iff. split.
  - intros (k & <- & K). apply in_seq in K. exists (Z.of_nat k). split; [lia|]. rewrite INR_IZR_INZ. auto.
  - intros (k & K & ->). exists (Z.to_nat k). split; [rewrite INR_IZR_INZ, Z2Nat.id by lia; auto|]. apply in_seq. lia.
Qed.

(** C79: a Bernoulli sample is 1 with a probability that is at least [p] and exceeds it by less than
    one step of the generator, [2 ^ (1 - mant)]; never for p = 0, always for p = 1. *)
Theorem C79_bernoulli_frequency p : 0 <= p <= 1 ->
  let f := frequency dt (fun u => fl_bernoulli_sample (Fin u) (Fin p)) in
  p <= f < p + grid dt /\ (f = 0 <-> p = 0) /\ (f = 1 <-> 1 - grid dt < p).
Proof.
  intros P f. pose proof grid_pos as G. pose proof outputs_length as OL.
  set (n := length (outputs dt)) in *. 
  pose proof (count_below (grid dt) p n G) as C. cbn zeta in C.
  set (c := length (filter (fun k => xltb (Fin (INR k * grid dt)) (Fin p)) (seq 0 n))) in *.
  assert (E : f = INR c * grid dt).
  { unfold f, frequency. fold n. unfold outputs. rewrite filter_map_len.
    replace (Z.to_nat (2 ^ (mant dt - 1))) with n by (unfold n, outputs; rewrite map_length, seq_length; auto).
    unfold fl_bernoulli_sample. fold c. 
    assert (INR n <> 0) by (intros K; rewrite K in OL; lra).
    apply (Rmult_eq_reg_r (INR n)); auto. unfold Rdiv. rewrite Rmult_assoc, Rinv_l by auto.
    rewrite Rmult_assoc, (Rmult_comm (grid dt)), OL. auto. }
  destruct C as (C1 & C2 & C3). rewrite E. clear E f. pose proof (pos_INR c) as PC.
  assert (Lo : p <= INR c * grid dt).
  { destruct (Nat.eq_dec c n) as [->|N]; [lra|]. apply C3; lia. }
  assert (Hi : INR c * grid dt < p + grid dt /\ (c <> 0%nat -> 0 < p)).
  { destruct c as [|c']; [cbn; split; [lra|congruence]|]. rewrite S_INR. specialize (C2 c' ltac:(lia)).
    pose proof (pos_INR c'). split; [nra|]. intros _. nra. }
  destruct Hi as [Hi Hp]. split; [lra|]. split; split; intros H.
  - lra.
  - subst p. destruct (Nat.eq_dec c 0) as [->|N]; [cbn; lra|]. specialize (Hp N). lra.
  - lra.
  - destruct (Nat.eq_dec c n) as [->|N]; [auto|]. exfalso.
    assert (K : (c <= n - 1)%nat) by lia. apply le_INR in K. rewrite minus_INR in K by lia. cbn in K. nra.
Qed.
(** Every positive probability below one step is rounded up to one step. *)
Theorem C79_bernoulli_small p : 0 < p <= grid dt ->
  frequency dt (fun u => fl_bernoulli_sample (Fin u) (Fin p)) = grid dt.
Proof.
  intros P. pose proof grid_pos as G. pose proof outputs_length as OL.
  set (n := length (outputs dt)) in *.
  assert (N : (0 < n)%nat) by (destruct n; [cbn in OL; lra|lia]).
  pose proof (count_below (grid dt) p n G) as C. cbn zeta in C.
  set (c := length (filter (fun k => xltb (Fin (INR k * grid dt)) (Fin p)) (seq 0 n))) in *.
  assert (E : c = 1%nat).
  { destruct C as (C1 & C2 & C3). destruct c as [|[|c]]; auto.
    - specialize (C3 N). cbn in C3. lra.
    - specialize (C2 1%nat ltac:(lia)). cbn in C2. lra. }
  unfold frequency. fold n. unfold outputs. rewrite filter_map_len.
  replace (Z.to_nat (2 ^ (mant dt - 1))) with n by (unfold n, outputs; rewrite map_length, seq_length; auto).
  unfold fl_bernoulli_sample. fold c. rewrite E. cbn [INR].
  assert (INR n <> 0) by (apply not_0_INR; lia).
  apply (Rmult_eq_reg_r (INR n)); auto. unfold Rdiv. rewrite Rmult_assoc, Rinv_l by auto. lra.
Qed.
End U.

(** ** Concrete cases *)
(** float32, low = 2^24, high = 2^24 + 2 and the largest draw: the sample is [high] itself (one
    rounding or two), which no exact-arithmetic sample is. *)
Definition f32 := binary_float 24 128.
Local Instance gt32 : Prec_gt_0 24 := mant_gt_0 float32.
Local Instance lt32 : Prec_lt_emax 24 128 := mant_lt_emax float32.
Definition b_low : f32 := @B754_finite 24 128 false 8388608 1 eq_refl.
Definition b_high : f32 := @B754_finite 24 128 false 8388609 1 eq_refl.
Definition b_u : f32 := @B754_finite 24 128 false 16777214 (-24) eq_refl.
Lemma b_low_val : B2R b_low = 16777216. Proof. cbn. unfold F2R; cbn. lra. Qed.
Lemma b_high_val : B2R b_high = 16777218. Proof. cbn. unfold F2R; cbn. lra. Qed.
Lemma b_u_val : B2R b_u = 1 - / 8388608. Proof. cbn. unfold F2R; cbn. lra. Qed.

Theorem C78_high_is_returned :
  exists u low high, uniform_output float32 u /\ repr float32 low /\ repr float32 high /\ low < high /\
    fl_range float32 (Fin low) (Fin high) <> PInf /\
    fl_uniform_sample float32 (Fin u) (Fin low) (Fin high) = Fin high.
Proof.
  exists (B2R b_u), (B2R b_low), (B2R b_high).
  pose proof (B2R_repr float32 b_low) as R1. pose proof (B2R_repr float32 b_high) as R2.
  assert (ER : fl_range float32 (Fin (B2R b_low)) (Fin (B2R b_high)) = Fin 2).
  { unfold fl_range. change (Fin (B2R b_low)) with (of_ieee float32 b_low). change (Fin (B2R b_high)) with (of_ieee float32 b_high).
    rewrite fsub_ieee. 
    assert (E : Bminus mode_NE b_high b_low = @B754_finite 24 128 false 8388608 (-22) eq_refl :> f32).
    { apply B2SF_inj. vm_compute. reflexivity. }
    etransitivity; [apply (f_equal (of_ieee float32) E)|]. cbn. f_equal. unfold F2R; cbn. lra. }
  split; [|split; [exact R1|split; [exact R2|split; [rewrite b_low_val, b_high_val; lra|split]]]].
  - exists 8388607%Z. split; [cbn; lia|]. rewrite b_u_val. unfold grid; cbn. lra.
  - rewrite ER. discriminate.
  - unfold fl_uniform_sample. rewrite ER.
    assert (E2 : Fin 2 = of_ieee float32 (@B754_finite 24 128 false 8388608 (-22) eq_refl)).
    { cbn. f_equal. unfold F2R; cbn. lra. }
    rewrite E2.
    change (Fin (B2R b_low)) with (of_ieee float32 b_low). change (Fin (B2R b_u)) with (of_ieee float32 b_u).
    rewrite fmul_ieee, fadd_ieee.
    change (Fin (B2R b_high)) with (of_ieee float32 b_high).
    apply (f_equal (of_ieee float32)). apply B2SF_inj. vm_compute. reflexivity.
Qed.

(** A Bernoulli with probability 2^-100 in float32 is 1 with probability 2^-23. *)
Example C79_small_example :
  frequency float32 (fun u => fl_bernoulli_sample (Fin u) (Fin (bpow radix2 (-100)))) = bpow radix2 (-23).
Proof.
  apply C79_bernoulli_small. split; [apply bpow_gt_0|]. unfold grid. apply bpow_le. cbn. lia.
Qed.
Print Assumptions C78_high_is_returned.
Print Assumptions C79_bernoulli_frequency.
