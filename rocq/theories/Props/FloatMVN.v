(** C103: MultivariateNormalDiag.log_prob in floating point. *)
From Coq Require Import Reals Lra Lia List Bool Arith ZArith Permutation.
From Flocq Require Import Core.
From Verif Require Import Base.XR Base.Float Spec.Rounding Spec.Accuracy Proofs.FloatOrder Proofs.FloatLib
  Props.FloatNormalize Props.FloatBij Props.FloatCategorical Props.FloatAccuracy Props.FloatReduce.
From Verif Require Import Model.FloatDist Model.FloatReduce.
Import ListNotations.
Local Open Scope R_scope.

Section MVN.
Variables (dt : dtype) (o1 o2 o3 : order) (n : nat) (k c : R) (L : XR -> XR) (y loc s : nat -> R).
Notation e := (eps dt).
Notation z i := ((y i - loc i) / s i).
Hypothesis H1 : adds_all o1 n.
Hypothesis H2 : adds_all o2 n.
Hypothesis H3 : adds_all o3 n.
Hypothesis k_pos : 0 <= k.
Hypothesis HL : accurate dt k L ln (fun s => 0 < s).
Hypothesis Hc : Rabs (c - half_log_2pi) <= 2 * e.
(** the scales may be negative; their inverses neither overflow nor underflow *)
Hypothesis inputs : forall i, (i < n)%nat -> repr dt (y i) /\ repr dt (loc i) /\ repr dt (s i) /\
  tiny dt <= Rabs (/ s i) <= maxpow dt / 2 /\ Rabs (y i - loc i) <= maxpow dt / 4.
Definition mvn_size : R := total (fun i => 1 + (z i) ^ 2 + Rabs (ln (Rabs (s i)))) (seq 0 n).
Definition mvn_units : R := 6 * k + 200 + 5 * INR (depth o1) + 4 * INR (depth o3).
Hypothesis units_ok : mvn_units * e <= 1.
Hypothesis size_ok : mvn_size <= maxpow dt / 512.
Notation inv i := (fl_mvn_diag_inverse dt (fun i => Fin (loc i)) (fun i => Fin (s i)) (fun i => Fin (y i)) i).
Notation g := (fun i => 1 + (z i) ^ 2 + Rabs (ln (Rabs (s i)))).
Lemma g_ge i : 1 + (z i) ^ 2 <= g i. Proof. pose proof (Rabs_pos (ln (Rabs (s i)))). lra. Qed.
Lemma g_ge1 i : 1 <= g i. Proof. pose proof (pow2_ge_0 (z i)). pose proof (g_ge i). cbv beta in *. lra. Qed.
Lemma g_le i : (i < n)%nat -> g i <= maxpow dt / 512.
Proof. intros Hi. apply Rle_trans with (2 := size_ok). apply (term_le_total g); [intros j _; pose proof (g_ge1 j); cbv beta in *; lra|apply in_seq; lia]. Qed.
Lemma s_nz i : (i < n)%nat -> s i <> 0.
Proof. intros Hi Z. destruct (inputs i Hi) as (_ & _ & _ & (T & _) & _). rewrite Z, Rinv_0, Rabs_R0 in T. pose proof (tiny_pos dt). lra. Qed.

(** the standardised coordinate *)
Lemma inverse_close i : (i < n)%nat -> exists x, inv i = Fin x /\ repr dt x /\ Rabs (x - z i) <= 4 * e * Rabs (z i) + e.
Proof.
  intros Hi. destruct (inputs i Hi) as (Ry & Rl & Rs & (Ta & Tb) & D). pose proof (eps_pos dt) as E0. pose proof (eps_le dt) as E1.
  pose proof (s_nz i Hi) as Sn. unfold fl_mvn_diag_inverse, fl_affine_inverse, fl_shift_inverse, fl_inv_scale, fsub, fdiv.
  pose proof (maxpow_pos dt) as M0.
  rewrite xsub_fin. destruct (round_fin dt (y i - loc i)) as (d & -> & Rd & _ & Ed); [lra|]. rewrite xsub_fin, Rminus_0_r, (fround_repr dt d Rd).
  rewrite xdiv_fin' by auto. destruct (round_fin dt (1 / s i)) as (w & -> & Rw & _ & Ew); [unfold Rdiv; rewrite Rmult_1_l; lra|].
  unfold fmul. rewrite xmul_fin.
  pose proof (sub_rel dt (y i) (loc i) Ry Rl) as Bd. rewrite <- Ed in Bd.
  assert (Bw : Rabs (w - / s i) <= e * Rabs (/ s i)). { rewrite Ew. unfold Rdiv. rewrite Rmult_1_l. apply rnd_err; auto. }
  assert (Bp : Rabs (w * d - z i) <= (2 * e + e * e) * Rabs (z i)).
  { unfold Rdiv. set (u := y i - loc i) in *. set (q := / s i) in *.
    replace (w * d - u * q) with ((w - q) * (d - u) + (w - q) * u + q * (d - u)) by ring.
    eapply Rle_trans; [apply Rabs_triang|]. eapply Rle_trans; [apply Rplus_le_compat_r, Rabs_triang|]. rewrite !Rabs_mult.
    pose proof (Rabs_pos u). pose proof (Rabs_pos q). pose proof (Rabs_pos (w - q)). pose proof (Rabs_pos (d - u)).
    assert (Rabs (w - q) * Rabs (d - u) <= (e * Rabs q) * (e * Rabs u)) by (apply Rmult_le_compat; lra).
    assert (Rabs (w - q) * Rabs u <= (e * Rabs q) * Rabs u) by (apply Rmult_le_compat_r; lra).
    assert (Rabs q * Rabs (d - u) <= Rabs q * (e * Rabs u)) by (apply Rmult_le_compat_l; lra). nra. }
  pose proof (Rabs_pos (z i)) as Z0. pose proof (g_le i Hi) as G. pose proof (g_ge i) as G'. pose proof (abs_half (z i)) as A. cbv beta in *.
  assert (Q : (2 * e + e * e) * Rabs (z i) <= 9 / 4 * e * Rabs (z i)) by (apply Rmult_le_compat_r; nra).
  assert (Bv : Rabs (w * d) <= 25 / 16 * Rabs (z i)).
  { replace (w * d) with ((w * d - z i) + z i) by ring. eapply Rle_trans; [apply Rabs_triang|]. assert (9 / 4 * e * Rabs (z i) <= 9 / 16 * Rabs (z i)) by (apply Rmult_le_compat_r; lra). lra. }
  destruct (round_fin dt (w * d)) as (x & -> & Rx & Bx & _). { pose proof (Rabs_pos (ln (Rabs (s i)))). lra. }
  exists x. split; [auto|]. split; [auto|]. replace (x - z i) with ((x - w * d) + (w * d - z i)) by ring. eapply Rle_trans; [apply Rabs_triang|].
  assert (e * (Rabs (w * d) + 1) <= e * (25 / 16 * Rabs (z i) + 1)) by (apply Rmult_le_compat_l; lra). nra.
Qed.
Lemma density_std x : normal_log_density x 0 1 = - (1 / 2) * (x * x) - half_log_2pi.
Proof. rewrite normal_log_density_eq by lra. rewrite ln_1, Rminus_0_r. unfold Rdiv. rewrite Rinv_1. ring. Qed.
(** the base's log_prob of one coordinate *)
Lemma base_close i : (i < n)%nat ->
  close (fl_normal_log_prob dt L (Fin c) (inv i) (Fin 0) (Fin 1)) (- (1 / 2) * (z i * z i) - half_log_2pi) ((5 * k + 133) * e * g i) /\
  value dt (fl_normal_log_prob dt L (Fin c) (inv i) (Fin 0) (Fin 1)).
Proof.
  intros Hi. split.
  2: { unfold fl_normal_log_prob, fsub. cbv zeta. match goal with |- value _ (fround _ ?x) => destruct (fround dt x) eqn:Q; cbn [value]; auto; eapply fround_value; eauto end. }
  destruct (inverse_close i Hi) as (x & -> & Rx & Bx). pose proof (eps_pos dt) as E0. pose proof (eps_le dt) as E1.
  pose proof (Rabs_pos (z i)) as Z0. pose proof (abs_half (z i)) as A. pose proof (g_le i Hi) as G. pose proof (g_ge i) as G'. cbv beta in *. pose proof (maxpow_pos dt) as M0.
  assert (Ax : Rabs x <= 2 * Rabs (z i) + / 4).
  { replace x with ((x - z i) + z i) by ring. eapply Rle_trans; [apply Rabs_triang|]. assert (4 * e * Rabs (z i) <= 1 * Rabs (z i)) by (apply Rmult_le_compat_r; lra). lra. }
  pose proof (Rabs_pos x) as X0. pose proof (abs_sq x) as Sx. pose proof (abs_sq (z i)) as Sz.
  assert (X2 : 1 + x ^ 2 <= 5 * (1 + (z i) ^ 2)). { rewrite <- Sx, <- Sz. rewrite <- Sz in A. nra. }
  assert (K1 : k * e <= 1). { unfold mvn_units in units_ok. pose proof (pos_INR (depth o1)). pose proof (pos_INR (depth o3)). nra. }
  assert (C := C94_normal dt k L k_pos K1 HL x 0 1 Rx (repr_0 dt) (repr_1 dt) ltac:(lra)).
  rewrite Rminus_0_r in C. unfold Rdiv in C. rewrite Rinv_1, !Rmult_1_r, ln_1, Rabs_R0, Rplus_0_r in C.
  assert (Cl : close (fl_normal_log_prob dt L (Fin c) (Fin x) (Fin 0) (Fin 1)) (normal_log_density x 0 1) ((k + 25) * e * (1 + x ^ 2))).
  { apply C; auto.
    - pose proof (Rabs_pos (ln (Rabs (s i)))). pose proof (pow2_ge_0 (z i)). lra.
    - pose proof (Rabs_pos (ln (Rabs (s i)))). lra. }
  rewrite density_std in Cl. destruct Cl as (r & Er & Br). exists r. split; [auto|].
  replace (r - (- (1 / 2) * (z i * z i) - half_log_2pi)) with ((r - (- (1 / 2) * (x * x) - half_log_2pi)) + - (1 / 2) * ((x - z i) * (x + z i))) by ring.
  eapply Rle_trans; [apply Rabs_triang|]. rewrite Rabs_mult, Rabs_Ropp, (Rabs_pos_eq (1 / 2)), Rabs_mult by lra.
  assert (S : Rabs (x + z i) <= 3 * Rabs (z i) + / 4) by (eapply Rle_trans; [apply Rabs_triang|]; lra).
  assert (P : Rabs (x - z i) * Rabs (x + z i) <= (4 * e * Rabs (z i) + e) * (3 * Rabs (z i) + / 4)) by (apply Rmult_le_compat; auto using Rabs_pos).
  assert (P2 : (4 * e * Rabs (z i) + e) * (3 * Rabs (z i) + / 4) <= 16 * e * (1 + (z i) ^ 2)).
  { replace ((4 * e * Rabs (z i) + e) * (3 * Rabs (z i) + / 4)) with (e * (12 * (Rabs (z i) * Rabs (z i)) + 4 * Rabs (z i) + / 4)) by field. rewrite Sz.
    replace (16 * e * (1 + z i ^ 2)) with (e * (16 * (1 + z i ^ 2))) by ring. apply Rmult_le_compat_l; lra. }
  assert (P3 : (k + 25) * e * (1 + x ^ 2) <= (k + 25) * e * (5 * (1 + z i ^ 2))) by (apply Rmult_le_compat_l; nra).
  assert (P4 : (5 * k + 133) * e * (1 + z i ^ 2) <= (5 * k + 133) * e * g i) by (apply Rmult_le_compat_l; [nra|auto]). cbv beta in P4. lra.
Qed.
Lemma log_close i : (i < n)%nat -> close (xopp (L (xabs (Fin (s i))))) (- ln (Rabs (s i))) (k * e * Rabs (ln (Rabs (s i))) + e) /\ value dt (xopp (L (xabs (Fin (s i))))).
Proof.
  intros Hi. destruct (inputs i Hi) as (_ & _ & Rs & _). pose proof (s_nz i Hi) as Sn.
  assert (Ra : repr dt (Rabs (s i))). { unfold Rabs. destruct (Rcase_abs (s i)); [apply repr_opp; auto|auto]. }
  destruct (HL (Rabs (s i)) Ra (Rabs_pos_lt _ Sn)) as (r & Er & Rr & Br). cbn [xabs]. rewrite Er. cbn [xopp]. split; [|apply repr_opp; auto].
  exists (- r). split; [auto|]. replace (- r - - ln (Rabs (s i))) with (- (r - ln (Rabs (s i)))) by ring. rewrite Rabs_Ropp. pose proof (tiny_le_eps dt). lra.
Qed.
Lemma zeros o : sum_in dt o (fun _ => Fin 0) = Fin 0.
Proof. induction o as [i|l IHl r IHr]; cbn [sum_in]; [auto|]. rewrite IHl, IHr. apply fadd_0_l, repr_0. Qed.
Theorem C103_mvn_diag :
  close (fl_mvn_diag_log_prob dt L (Fin c) o1 o2 o3 (fun i => Fin (loc i)) (fun i => Fin (s i)) (fun i => Fin (y i)))
    (total (fun i => normal_log_density (y i) (loc i) (Rabs (s i))) (seq 0 n)) (mvn_units * e * mvn_size).
Proof.
  pose proof (eps_pos dt) as E0. pose proof (eps_le dt) as E1. pose proof (pos_INR (depth o1)) as D1. pose proof (pos_INR (depth o3)) as D3. pose proof (maxpow_pos dt) as M0.
  set (d1 := INR (depth o1)) in *. set (d3 := INR (depth o3)) in *.
  assert (EW : mvn_size = total g (seq 0 n)) by reflexivity.
  assert (N1 : (0 < n)%nat). { pose proof (Permutation_length H1) as Q. rewrite seq_length in Q. destruct n; [|lia]. destruct o1 as [j|l r]; cbn in Q; [discriminate|].
    exfalso. assert (V : forall o, (0 < length (visits o))%nat) by (induction o as [j|a IHa b IHb]; cbn; [lia|rewrite app_length; lia]). rewrite app_length in Q. pose proof (V l). lia. }
  assert (W1 : 1 <= mvn_size). { rewrite EW. apply Rle_trans with (g 0%nat); [apply g_ge1|]. apply (term_le_total g); [intros j _; pose proof (g_ge1 j); cbv beta in *; lra|apply in_seq; lia]. }
  assert (U1 : (5 * k + 133) * e <= 1 /\ 2 * d1 * e <= 1 /\ 2 * d3 * e <= 1 /\ k * e <= 1). { unfold mvn_units in units_ok. fold d1 d3 in units_ok. repeat split; nra. }
  destruct U1 as (U1 & U2 & U3 & U4).
  pose (t1 := fun i => - (1 / 2) * (z i * z i) - half_log_2pi). pose (t3 := fun i => - ln (Rabs (s i))).
  assert (A1 : total (fun i => Rabs (t1 i) + (5 * k + 133) * e * g i) (seq 0 n) <= 5 / 2 * mvn_size).
  { rewrite EW, <- total_scale. apply total_le. intros i Hi. pose proof half_log_2pi_bounds. pose proof (g_ge i) as G. pose proof (g_ge1 i) as G1. pose proof (pow2_ge_0 (z i)) as Z. cbv beta in *.
    assert (Rabs (t1 i) <= 3 / 2 * (1 + z i ^ 2)). { unfold t1. replace (z i * z i) with (z i ^ 2) by ring. apply Rabs_le. lra. }
    assert ((5 * k + 133) * e * (1 + z i ^ 2 + Rabs (ln (Rabs (s i)))) <= 1 * (1 + z i ^ 2 + Rabs (ln (Rabs (s i))))) by (apply Rmult_le_compat_r; lra). lra. }
  assert (A3 : total (fun i => Rabs (t3 i) + (k * e * Rabs (ln (Rabs (s i))) + e)) (seq 0 n) <= 2 * mvn_size).
  { rewrite EW, <- total_scale. apply total_le. intros i Hi. pose proof (pow2_ge_0 (z i)) as Z. unfold t3. rewrite Rabs_Ropp. pose proof (Rabs_pos (ln (Rabs (s i)))).
    assert (k * e * Rabs (ln (Rabs (s i))) <= 1 * Rabs (ln (Rabs (s i)))) by (apply Rmult_le_compat_r; lra). lra. }
  assert (C1 : close (fl_reduce dt o1 (fun i => fl_normal_log_prob dt L (Fin c) (inv i) (Fin 0) (Fin 1))) (total t1 (seq 0 n)) ((5 * k + 133 + 5 * d1) * e * mvn_size)).
  { eapply close_weaken; [apply (C101_sum dt o1 n _ H1 U2 t1 (fun i => (5 * k + 133) * e * g i))|].
    - intros i Hi. apply base_close; auto.
    - lra.
    - rewrite total_scale, <- EW. fold d1. assert (2 * d1 * e * total (fun i => Rabs (t1 i) + (5 * k + 133) * e * g i) (seq 0 n) <= 2 * d1 * e * (5 / 2 * mvn_size)) by (apply Rmult_le_compat_l; nra). lra. }
  assert (C3 : close (fl_reduce dt o3 (fun i => xopp (L (xabs (Fin (s i)))))) (total t3 (seq 0 n)) ((k + 1 + 4 * d3) * e * mvn_size)).
  { eapply close_weaken; [apply (C101_sum dt o3 n _ H3 U3 t3 (fun i => k * e * Rabs (ln (Rabs (s i))) + e))|].
    - intros i Hi. apply log_close; auto.
    - lra.
    - fold d3. assert (2 * d3 * e * total (fun i => Rabs (t3 i) + (k * e * Rabs (ln (Rabs (s i))) + e)) (seq 0 n) <= 2 * d3 * e * (2 * mvn_size)) by (apply Rmult_le_compat_l; nra).
      assert (total (fun i => k * e * Rabs (ln (Rabs (s i))) + e) (seq 0 n) <= (k + 1) * e * mvn_size); [|lra].
      rewrite EW, <- total_scale. apply total_le. intros i _. pose proof (Rabs_pos (ln (Rabs (s i)))). pose proof (pow2_ge_0 (z i)).
      assert (0 <= k * e) by nra. nra. }
  unfold fl_mvn_diag_log_prob. cbv zeta. change (fl_reduce dt o2 (fun _ => Fin 0)) with (sum_in dt o2 (fun _ => Fin 0)). rewrite zeros.
  rewrite fadd_0_l. 2: { apply sum_value; intros i Hi; apply log_close; apply (adds_all_in o3 n H3); auto. }
  assert (B1 : Rabs (total t1 (seq 0 n)) <= 3 / 2 * mvn_size).
  { rewrite EW, <- total_scale. clear - k_pos. induction (seq 0 n) as [|a l IH]; [rewrite !total_nil, Rabs_R0; lra|]. rewrite !total_cons. eapply Rle_trans; [apply Rabs_triang|]. apply Rplus_le_compat; auto.
    pose proof half_log_2pi_bounds. unfold t1. pose proof (pow2_ge_0 (z a)). pose proof (Rabs_pos (ln (Rabs (s a)))). replace (z a * z a) with (z a ^ 2) by ring. apply Rabs_le. lra. }
  assert (B3 : Rabs (total t3 (seq 0 n)) <= mvn_size).
  { rewrite EW. clear - k_pos. induction (seq 0 n) as [|a l IH]; [rewrite !total_nil, Rabs_R0; lra|]. rewrite !total_cons. eapply Rle_trans; [apply Rabs_triang|]. apply Rplus_le_compat; auto.
    unfold t3. rewrite Rabs_Ropp. pose proof (pow2_ge_0 (z a)). lra. }
  assert (ED : total (fun i => normal_log_density (y i) (loc i) (Rabs (s i))) (seq 0 n) = total t1 (seq 0 n) + total t3 (seq 0 n)).
  { rewrite <- total_plus. apply total_ext_in. intros i Hi. apply in_seq in Hi. pose proof (s_nz i ltac:(lia)) as Sn. rewrite normal_log_density_eq by (apply Rabs_pos_lt; auto). unfold t1, t3.
    assert (((y i - loc i) / Rabs (s i)) * ((y i - loc i) / Rabs (s i)) = z i * z i) as ->; [|ring].
    unfold Rdiv. unfold Rabs. destruct (Rcase_abs (s i)); [field; auto|field; auto]. }
  rewrite ED. assert (T1 : (5 * k + 133 + 5 * d1) * e * mvn_size <= 1 * mvn_size) by (apply Rmult_le_compat_r; [lra|unfold mvn_units in units_ok; fold d1 d3 in units_ok; nra]).
  assert (T3 : (k + 1 + 4 * d3) * e * mvn_size <= 1 * mvn_size) by (apply Rmult_le_compat_r; [lra|unfold mvn_units in units_ok; fold d1 d3 in units_ok; nra]).
  eapply close_weaken; [apply (close_add dt _ _ _ _ _ _ (5 * mvn_size) C1 C3)|].
  - lra.
  - lra.
  - unfold mvn_units. fold d1 d3. assert (e <= e * mvn_size) by nra. nra.
Qed.
End MVN.

(** the premises are met: 16 coordinates with scales 2 and -1/2 alternating, in float32 *)
Notation ex_scale i := (if Nat.even i then 2 else - / 2).
Example ex_mvn :
  close (fl_mvn_diag_log_prob float32 (fun a => fround float32 (xlog a)) (Fin (rnd float32 half_log_2pi)) (left_to_right 15) (left_to_right 15) (left_to_right 15)
      (fun _ => Fin 2) (fun i => Fin (ex_scale i)) (fun _ => Fin 4))
    (total (fun i => normal_log_density 4 2 (Rabs (ex_scale i))) (seq 0 16)) (mvn_units (left_to_right 15) (left_to_right 15) 1 * eps float32 * mvn_size 16 (fun _ => 4) (fun _ => 2) (fun i => ex_scale i)) /\
  mvn_size 16 (fun _ => 4) (fun _ => 2) (fun i => ex_scale i) <= 200.
Proof.
  pose proof ln2_bounds as L2.
  assert (A1 : Rabs (- / 2) = / 2) by (rewrite Rabs_Ropp; apply Rabs_pos_eq; lra).
  assert (A3 : ln (/ 2) = - ln 2) by (apply ln_Rinv; lra).
  assert (W : mvn_size 16 (fun _ => 4) (fun _ => 2) (fun i => ex_scale i) <= 200).
  { unfold mvn_size, total. cbn [seq map fold_right Nat.even]. rewrite A1, A3, Rabs_Ropp, (Rabs_pos_eq 2), (Rabs_pos_eq (ln 2)) by lra.
    replace ((4 - 2) / 2) with 1 by lra. replace ((4 - 2) / - / 2) with (-4) by (field; lra). lra. }
  split; [|exact W].
  assert (R4 : repr float32 4) by (change 4 with (bpow radix2 2); apply repr_pow; cbn; unfold emin; cbn; lia).
  assert (R2 : repr float32 2) by (change 2 with (bpow radix2 1); apply repr_pow; cbn; unfold emin; cbn; lia).
  assert (Rh : repr float32 (/ 2)) by (change (/ 2) with (bpow radix2 (-1)); apply repr_pow; cbn; unfold emin; cbn; lia).
  assert (M : bpow radix2 26 <= maxpow float32) by (apply bpow_le; cbn; lia). change (bpow radix2 26) with 67108864 in M.
  assert (T : tiny float32 <= / 4) by (pose proof (tiny_le_eps float32); pose proof (eps_le float32); lra).
  apply (C103_mvn_diag float32 (left_to_right 15) (left_to_right 15) (left_to_right 15) 16).
  - apply (left_to_right_all 15).
  - apply (left_to_right_all 15).
  - apply (left_to_right_all 15).
  - lra.
  - apply log_accurate.
  - apply rounded_const. pose proof half_log_2pi_bounds. rewrite Rabs_pos_eq by lra. lra.
  - intros i _. split; [auto|]. split; [auto|]. split; [destruct (Nat.even i); [auto|apply repr_opp; auto]|].
    split; [|rewrite Rabs_pos_eq; lra]. destruct (Nat.even i); [rewrite Rabs_pos_eq by lra; lra|]. rewrite Rinv_opp, Rinv_inv, Rabs_Ropp, Rabs_pos_eq by lra. lra.
  - unfold mvn_units. replace (eps float32) with (/ 2 ^ 24) by (cbn; lra).
    replace (depth (left_to_right 15)) with 15%nat by reflexivity. rewrite INR_IZR_INZ. cbn. lra.
  - lra.
Qed.
(** with a subnormal scale the inverse overflows and the log_prob at the mean itself is NaN, although the density is finite *)
Theorem C103_subnormal_scale_refuted L c o2 o3 :
  repr float32 (bpow radix2 (-130)) /\
  fl_mvn_diag_log_prob float32 L c (left_to_right 0) o2 o3 (fun _ => Fin 2) (fun _ => Fin (bpow radix2 (-130))) (fun _ => Fin 2) = NaN.
Proof.
  split; [apply repr_pow; cbn; unfold emin; cbn; lia|].
  unfold fl_mvn_diag_log_prob. cbv zeta. cbn [left_to_right fl_reduce sum_in].
  unfold fl_mvn_diag_inverse, fl_affine_inverse, fl_shift_inverse, fl_inv_scale, fsub, fdiv. rewrite xsub_fin.
  replace (2 - 2) with 0 by ring. rewrite fround_0, xsub_fin, Rminus_0_r, fround_0.
  rewrite xdiv_fin' by (apply Rgt_not_eq, bpow_gt_0). assert (1 / bpow radix2 (-130) = bpow radix2 130) as ->. { change (-130)%Z with (- (130))%Z. rewrite (bpow_opp radix2 130). unfold Rdiv. rewrite Rinv_inv. ring. }
  assert (O : fround float32 (Fin (bpow radix2 130)) = PInf).
  { cbn [fround]. assert (Fm : rnd float32 (bpow radix2 130) = bpow radix2 130) by (apply round_generic; [apply valid_rnd_N|apply F_bpow; cbn; unfold emin; cbn; lia]).
    rewrite Fm, Rabs_pos_eq by apply bpow_ge_0. destruct (Rlt_dec _ _) as [Q|_].
    - exfalso. revert Q. apply Rle_not_lt. apply bpow_le. cbn. lia.
    - destruct (Rlt_dec _ 0) as [Q|_]; [|reflexivity]. exfalso. pose proof (bpow_gt_0 radix2 130). lra. }
  rewrite O. assert (fmul float32 PInf (Fin 0) = NaN) as ->. { unfold fmul. cbn [xmul]. unfold inf_times. destruct (Rlt_dec 0 0); [exfalso; lra|reflexivity]. }
  reflexivity.
Qed.
Print Assumptions C103_mvn_diag.
Print Assumptions C103_subnormal_scale_refuted.
