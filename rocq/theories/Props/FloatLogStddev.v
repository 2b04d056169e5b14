(** C110: LogStddevNormal in floating point. *)
From Coq Require Import Reals Lra Lia List Bool Arith ZArith.
From Flocq Require Import Core.
From Verif Require Import Base.XR Base.Float Spec.Rounding Spec.Accuracy Spec.Near Proofs.FloatOrder Proofs.FloatLib
  Model.FloatDist Model.FloatMoments Model.FloatLogStddev Props.FloatBij Props.FloatAccuracy Props.FloatMoments.
From Verif Require Spec.Density Model.ScalarDist Props.Continuous.
Local Open Scope R_scope.

(** The soft threshold: with a softplus that is never negative and grows, in floats too the log scale is at most [log(max_scale)], and it
    grows with the parameter; the scale is then at most the library's exp of that bound. *)
Theorem C110_threshold dt S E m : softplus_fn dt S -> exp_fn dt E -> repr dt m ->
  (forall x, repr dt x ->
     let ls := fl_lsn_log_scale dt S (Some (Fin m)) (Fin x) in fle ls (Fin m) /\ fle (fl_lsn_scale E ls) (fl_lsn_scale E (Fin m))) /\
  (forall x y, repr dt x -> repr dt y -> x <= y -> Rabs (m - x) <= maxpow dt / 2 -> Rabs (m - y) <= maxpow dt / 2 ->
     fle (fl_lsn_log_scale dt S (Some (Fin m)) (Fin x)) (fl_lsn_log_scale dt S (Some (Fin m)) (Fin y))).
Proof.
  intros HS HE Rm. split.
  - intros x Rx ls. assert (H : value dt ls /\ fle ls (Fin m)).
    { unfold ls, fl_lsn_log_scale. destruct (fsub dt (Fin m) (Fin x)) as [d| | |] eqn:Ed.
      - assert (Rd : repr dt d) by (unfold fsub in Ed; apply fround_value in Ed; auto). destruct (softplus_fn_finite _ _ HS d Rd) as (r & -> & Rr & R0 & _).
        unfold fsub. rewrite xsub_fin. assert (Q : fle (fround dt (Fin (m - r))) (fround dt (Fin m))) by (apply fround_mono, fle_fin; lra). rewrite (fround_repr dt m Rm) in Q. split; [|exact Q]. destruct (fround dt (Fin (m - r))) eqn:Eq; try exact I. apply fround_value in Eq. exact Eq.
      - rewrite (softplus_fn_inf _ _ HS). split; [exact I|]. apply fle_NInf. discriminate.
      - rewrite (softplus_fn_ninf _ _ HS). unfold fsub. rewrite xsub_fin, Rminus_0_r, (fround_repr dt m Rm). split; [exact Rm|apply fle_fin; lra].
      - exfalso. unfold fsub in Ed. rewrite xsub_fin in Ed. apply (fround_nan dt (Fin (m - x))); [discriminate|auto]. }
    destruct H as (V & H). split; [auto|]. unfold fl_lsn_scale. apply (exp_fn_mono _ _ HE); auto.
  - intros x y Rx Ry H Hx Hy. unfold fl_lsn_log_scale. unfold fsub at 2 4. rewrite !xsub_fin. destruct (round_fin dt _ Hx) as (a & Ea & Ra & _ & Qa). destruct (round_fin dt _ Hy) as (b & Eb & Rb & _ & Qb). rewrite Ea, Eb.
    assert (Hba : b <= a) by (subst a b; apply rnd_le; lra). destruct (softplus_fn_finite _ _ HS a Ra) as (p & Ep & _). destruct (softplus_fn_finite _ _ HS b Rb) as (q & Eq & _).
    pose proof (softplus_fn_mono _ _ HS b a Rb Ra Hba) as Mo. rewrite Ep, Eq in *. apply fle_fin in Mo. unfold fsub. rewrite !xsub_fin. apply fround_mono, fle_fin. lra.
Qed.

Section KL.
Variables (dt : dtype) (k l1 l2 s1 s2 ls1 ls2 : R).
Notation e := (eps dt).
Hypothesis Hk : 0 <= k.
Hypothesis Hke : k * e <= / 16.
Hypothesis R1 : repr dt l1.
Hypothesis R2 : repr dt l2.
Notation S1 := (exp ls1).
Notation S2 := (exp ls2).
(** the scales are the library's exp of the log scales, accurate to [k] units *)
Hypothesis H1 : Rabs (s1 - S1) <= k * e * S1.
Hypothesis H2 : Rabs (s2 - S2) <= k * e * S2.
Notation q := ((S1 ^ 2 + (l1 - l2) ^ 2) / (2 * S2 ^ 2)).

Lemma kl_value : exists K, Density.is_kl (Density.gaussian l1 S1) (Density.gaussian l2 S2) K /\ K = q + ls2 - ls1 - 1 / 2.
Proof.
  pose proof (exp_pos ls1) as P1. pose proof (exp_pos ls2) as P2. destruct (Continuous.C48_normal_kl l1 S1 l2 S2 P1 P2) as (K & EK & IK & _). exists K. split; [exact IK|].
  unfold ScalarDist.normal_kl in EK. cbn [xlog] in EK. rewrite !rlog_pos in EK by auto. rewrite !xdiv_fin' in EK by lra. rewrite !xsub_fin in EK. cbn in EK. injection EK as <-.
  rewrite !ln_exp. assert (Er : exp (2 * (ls1 + - ls2)) = S1 ^ 2 / S2 ^ 2). { replace (2 * (ls1 + - ls2)) with ((ls1 + ls1) + - (ls2 + ls2)) by ring. rewrite exp_plus, exp_Ropp, !exp_plus. field. lra. }
  unfold Rminus in *. rewrite Er. field. lra.
Qed.

(** a square: relative error *)
Lemma square_rel r t j : 0 <= j -> j * e <= / 4 -> Rabs (r - t) <= j * e * Rabs t -> t ^ 2 <= maxpow dt / 4 ->
  exists v, fl_square dt (Fin r) = Fin v /\ repr dt v /\ Rabs (v - t ^ 2) <= (3 * j + 1) * e * t ^ 2 + tiny dt.
Proof.
  intros Hj Hje Hr Hm. unfold fl_square, fmul. rewrite xmul_fin. pose proof (eps_pos dt) as E0. pose proof (eps_le dt) as E4. pose proof (pow2_ge_0 t) as T2. pose proof (Rabs_pos t) as Pt. pose proof (sub_le_tiny dt). pose proof (tiny_pos dt).
  assert (je0 : 0 <= j * e) by (apply Rmult_le_pos; lra). assert (D : Rabs (r * r - t ^ 2) <= 9 / 4 * (j * e) * t ^ 2).
  { replace (r * r - t ^ 2) with ((r - t) * (r - t) + 2 * (t * (r - t))) by ring. eapply Rle_trans; [apply Rabs_triang|]. rewrite !Rabs_mult, (Rabs_pos_eq 2) by lra. rewrite <- (abs_sq t). set (a := Rabs t) in *. clearbody a. set (d := Rabs (r - t)) in *. assert (d0 : 0 <= d) by apply Rabs_pos. clearbody d.
    assert (d * d <= (j * e * a) * (/ 4 * a)). { apply Rmult_le_compat; auto. eapply Rle_trans; [exact Hr|]. apply Rmult_le_compat_r; auto. } assert (a * d <= a * (j * e * a)) by (apply Rmult_le_compat_l; auto). lra. }
  assert (Dj : j * e * t ^ 2 <= / 4 * t ^ 2) by (apply Rmult_le_compat_r; auto). assert (Bw : Rabs (r * r) <= t ^ 2 + 9 / 4 * (j * e) * t ^ 2). { replace (r * r) with ((r * r - t ^ 2) + t ^ 2) by ring. eapply Rle_trans; [apply Rabs_triang|]. rewrite (Rabs_pos_eq (t ^ 2)) by auto. lra. }
  destruct (round_fin dt (r * r)) as (v & Ev & Rv & _ & Qv); [lra|]. exists v. split; [auto|]. split; [auto|].
  assert (Hv : Rabs (v - r * r) <= e * Rabs (r * r) + tiny dt). { subst v. destruct (Rle_lt_dec (tiny dt) (Rabs (r * r))) as [W|W]; [pose proof (rnd_err dt _ W); lra|pose proof (rnd_err_sub dt _ W); pose proof (Rabs_pos (r * r)); nra]. }
  assert (e * Rabs (r * r) <= e * (t ^ 2 + 9 / 4 * (j * e) * t ^ 2)) by (apply Rmult_le_compat_l; lra). assert (X : 0 <= j * e * t ^ 2) by (apply Rmult_le_pos; auto). assert (e * (9 / 4 * (j * e * t ^ 2)) <= / 4 * (9 / 4 * (j * e * t ^ 2))) by (apply Rmult_le_compat_r; lra).
  replace (v - t ^ 2) with ((v - r * r) + (r * r - t ^ 2)) by ring. eapply Rle_trans; [apply Rabs_triang|]. lra.
Qed.

(** The KL divergence of two LogStddevNormals: the error is relative to the quotient [q] and to the log scales, as long as the variances are
    well inside the range. *)
Hypothesis Hke2 : (4 * k + 4) * e <= / 8.
Theorem C110_kl : repr dt ls1 -> repr dt ls2 -> tiny dt <= e * S1 ^ 2 -> tiny dt <= e * S2 ^ 2 -> S1 ^ 2 + (l1 - l2) ^ 2 <= maxpow dt / 64 -> S2 ^ 2 <= maxpow dt / 64 ->
  q + Rabs ls1 + Rabs ls2 + 1 <= maxpow dt / 64 ->
  exists K, Density.is_kl (Density.gaussian l1 S1) (Density.gaussian l2 S2) K /\
    close (fl_lsn_kl dt (Fin l1) (Fin s1) (Fin ls1) (Fin l2) (Fin s2) (Fin ls2)) K ((25 * k + 60) * e * (q + Rabs ls1 + Rabs ls2 + 1)).
Proof.
  intros RL1 RL2 T1 T2 M1 M2 Mq. destruct kl_value as (K & IK & EK). exists K. split; [exact IK|]. subst K.
  pose proof (exp_pos ls1) as P1. pose proof (exp_pos ls2) as P2. pose proof (eps_pos dt) as E0. pose proof (eps_le dt) as E4. pose proof (tiny_pos dt) as T0. pose proof (maxpow_ge_32 dt) as M32. pose proof (sub_le_tiny dt) as ST. pose proof (pow2_ge_0 (l1 - l2)) as D2.
  assert (V1 : 0 < S1 ^ 2) by (apply pow_lt; auto). assert (V2 : 0 < S2 ^ 2) by (apply pow_lt; auto). assert (ke0 : 0 <= k * e) by (apply Rmult_le_pos; lra).
  assert (e32 : e <= / 32) by lra.
  destruct (square_rel s1 S1 k) as (v1 & Ev1 & Rv1 & B1); [auto|lra|rewrite (Rabs_pos_eq S1) by lra; auto|lra|].
  destruct (square_rel s2 S2 k) as (v2 & Ev2 & Rv2 & B2); [auto|lra|rewrite (Rabs_pos_eq S2) by lra; auto|lra|].
  assert (Dm : Rabs (l1 - l2) <= maxpow dt / 2) by (pose proof (abs_half (l1 - l2)); lra). destruct (round_fin dt _ Dm) as (d & Ed & Rd & _ & Qd). pose proof (sub_rel dt l1 l2 R1 R2) as Hd. rewrite <- Qd in Hd.
  destruct (square_rel d (l1 - l2) 1) as (w & Ew & Rw & B3); [lra|lra|lra|lra|].
  unfold fl_lsn_kl. cbv zeta. rewrite Ev1, Ev2. unfold fsub at 3. rewrite xsub_fin, Ed, Ew. set (A := S1 ^ 2) in *. set (B := S2 ^ 2) in *. set (D := (l1 - l2) ^ 2) in *. clearbody A B D.
  assert (A1 : Rabs (v1 - A) <= (3 * k + 2) * e * A) by lra. assert (A2 : Rabs (v2 - B) <= (3 * k + 2) * e * B) by lra.
  assert (N0 : A <= A + D) by lra. set (N := A + D) in *. assert (eN : 0 <= e * N) by (apply Rmult_le_pos; unfold N; lra). assert (eA : e * A <= e * N) by (apply Rmult_le_compat_l; lra).
  assert (kN : k * (e * A) <= k * (e * N)) by (apply Rmult_le_compat_l; auto). assert (kN0 : 0 <= k * (e * N)) by (apply Rmult_le_pos; auto). assert (eD : 0 <= e * D <= e * N) by (split; [apply Rmult_le_pos; lra|apply Rmult_le_compat_l; unfold N; lra]).
  assert (kd : k * (e * D) + k * (e * A) = k * (e * N)) by (unfold N; ring). assert (edA : e * D + e * A = e * N) by (unfold N; ring). assert (kA0 : 0 <= k * (e * A)) by (apply Rmult_le_pos; [auto|apply Rmult_le_pos; lra]). assert (kD0 : 0 <= k * (e * D)) by (apply Rmult_le_pos; [auto|lra]).
  assert (C1 : Rabs (v1 + w - N) <= (3 * k + 4) * (e * N) + e * A).
  { replace (v1 + w - N) with ((v1 - A) + (w - D)) by (unfold N; ring). eapply Rle_trans; [apply Rabs_triang|]. lra. }
  assert (C1' : Rabs (v1 + w - N) <= (3 * k + 5) * (e * N)) by lra. 
  assert (keN : k * (e * N) <= / 16 * N) by (rewrite <- Rmult_assoc; apply Rmult_le_compat_r; unfold N in *; lra). assert (eN32 : e * N <= / 32 * N) by (apply Rmult_le_compat_r; unfold N in *; lra).
  assert (Bn : Rabs (v1 + w) <= 3 / 2 * N). { replace (v1 + w) with ((v1 + w - N) + N) by ring. eapply Rle_trans; [apply Rabs_triang|]. rewrite (Rabs_pos_eq N) by (unfold N; lra). lra. }
  unfold fadd at 2. rewrite xadd_fin. destruct (round_fin dt (v1 + w)) as (n & En & Rn & _ & Qn); [lra|]. rewrite En.
  assert (Hn : Rabs (n - (v1 + w)) <= e * Rabs (v1 + w)). { pose proof (sub_rel dt v1 (- w) Rv1 (repr_opp dt w Rw)) as Q. replace (v1 - - w) with (v1 + w) in Q by ring. rewrite <- Qn in Q. exact Q. }
  assert (Cn : Rabs (n - N) <= (3 * k + 7) * (e * N)). { replace (n - N) with ((n - (v1 + w)) + (v1 + w - N)) by ring. eapply Rle_trans; [apply Rabs_triang|]. assert (e * Rabs (v1 + w) <= e * (3 / 2 * N)) by (apply Rmult_le_compat_l; lra). lra. }
  assert (keB : k * (e * B) <= / 16 * B) by (rewrite <- Rmult_assoc; apply Rmult_le_compat_r; lra). assert (eB32 : e * B <= / 32 * B) by (apply Rmult_le_compat_r; lra). assert (B0 : 3 / 4 * B <= v2 <= 5 / 4 * B) by (apply Rabs_le_inv in A2; lra).
  destruct (double_exact dt v2 Rv2) as (R2v & E2v); [rewrite Rabs_pos_eq; lra|]. rewrite E2v. unfold fdiv. rewrite xdiv_fin' by lra.
  assert (Q0 : 0 <= N / (2 * B)). { apply Rmult_le_pos; [unfold N; lra|left; apply Rinv_0_lt_compat; lra]. }
  assert (Cq : Rabs (n / (2 * v2) - N / (2 * B)) <= (8 * k + 12) * e * (N / (2 * B))).
  { replace (n / (2 * v2) - N / (2 * B)) with (((n - N) + (N / B) * (B - v2)) / (2 * v2)) by (field; lra). unfold Rdiv at 1. rewrite Rabs_mult, (Rabs_pos_eq (/ (2 * v2))) by (left; apply Rinv_0_lt_compat; lra).
    assert (I2 : 0 < / (2 * v2) <= 4 / 3 * / (2 * B)). { split; [apply Rinv_0_lt_compat; lra|]. apply Rmult_le_reg_r with (2 * v2 * B); [nra|]. replace (/ (2 * v2) * (2 * v2 * B)) with B by (field; lra). replace (4 / 3 * / (2 * B) * (2 * v2 * B)) with (4 / 3 * v2) by (field; lra). lra. }
    assert (NB : 0 <= N / B) by (apply Rmult_le_pos; [unfold N; lra|left; apply Rinv_0_lt_compat; lra]). rewrite Rabs_minus_sym in A2.
    assert (X2 : Rabs ((N / B) * (B - v2)) <= (3 * k + 2) * (e * N)). { rewrite Rabs_mult, (Rabs_pos_eq (N / B)) by auto. eapply Rle_trans; [apply Rmult_le_compat_l; [auto|exact A2]|]. right. field. lra. }
    assert (X : Rabs ((n - N) + (N / B) * (B - v2)) <= (6 * k + 9) * (e * N)) by (eapply Rle_trans; [apply Rabs_triang|]; lra).
    eapply Rle_trans; [apply Rmult_le_compat; [apply Rabs_pos|lra|exact X|apply I2]|]. replace ((6 * k + 9) * (e * N) * (4 / 3 * / (2 * B))) with ((8 * k + 12) * e * (N / (2 * B))) by (field; lra). lra. }
  set (Q := N / (2 * B)) in *. clearbody Q. set (x := n / (2 * v2)) in *. clearbody x. pose proof (Rabs_pos ls1) as PL1. pose proof (Rabs_pos ls2) as PL2.
  assert (eQ : 0 <= e * Q <= / 32 * Q) by (split; [apply Rmult_le_pos; lra|apply Rmult_le_compat_r; lra]). assert (kQ : 0 <= k * (e * Q) <= / 16 * Q) by (split; [apply Rmult_le_pos; [auto|lra]|rewrite <- Rmult_assoc; apply Rmult_le_compat_r; lra]).
  assert (Bx : Rabs x <= 15 / 8 * Q). { replace x with ((x - Q) + Q) by ring. eapply Rle_trans; [apply Rabs_triang|]. rewrite (Rabs_pos_eq Q) by auto. lra. }
  assert (C2 : close (fround dt (Fin x)) Q ((8 * k + 14) * (e * Q) + e)).
  { destruct (round_close dt x) as (y & Ey & Hy); [lra|]. exists y. split; [auto|]. assert (e * (Rabs x + 1) <= e * (15 / 8 * Q + 1)) by (apply Rmult_le_compat_l; lra). replace (y - Q) with ((y - x) + (x - Q)) by ring. eapply Rle_trans; [apply Rabs_triang|]. lra. }
  set (W := Q + Rabs ls1 + Rabs ls2 + 1) in *. assert (eW : e * Q <= e * W) by (apply Rmult_le_compat_l; unfold W; lra). assert (eW1 : e * 1 <= e * W) by (apply Rmult_le_compat_l; unfold W; lra). assert (kW : k * (e * Q) <= k * (e * W)) by (apply Rmult_le_compat_l; auto).
  assert (C3 : close (fround dt (Fin x)) Q ((8 * k + 15) * (e * W))) by (eapply close_weaken; [exact C2|lra]).
  assert (eW32 : 0 <= e * W <= / 32 * W) by (split; [apply Rmult_le_pos; unfold W; lra|apply Rmult_le_compat_r; unfold W; lra]). assert (kW16 : 0 <= k * (e * W) <= / 16 * W) by (split; [apply Rmult_le_pos; [auto|lra]|rewrite <- Rmult_assoc; apply Rmult_le_compat_r; unfold W in *; lra]).
  assert (Step : forall a, 0 <= a <= 3 * W -> e * (a + 1) <= 4 * (e * W)). { intros a Ha. assert (e * (a + 1) <= e * (4 * W)) by (apply Rmult_le_compat_l; unfold W in *; lra). lra. }
  pose proof (close_add dt _ _ _ _ _ _ (2 * W) C3 (close_exact ls2)) as K1. rewrite (Rabs_pos_eq Q) in K1 by auto. specialize (K1 ltac:(unfold W in *; lra) ltac:(lra)). pose proof (Step (2 * W) ltac:(unfold W; lra)) as St1.
  assert (K1' : close (fadd dt (fround dt (Fin x)) (Fin ls2)) (Q + ls2) ((8 * k + 19) * (e * W))) by (eapply close_weaken; [exact K1|lra]).
  assert (T1' : Rabs (Q + ls2) <= Q + Rabs ls2) by (eapply Rle_trans; [apply Rabs_triang|]; rewrite (Rabs_pos_eq Q); lra).
  pose proof (close_sub dt _ _ _ _ _ _ (5 / 2 * W) K1' (close_exact ls1) ltac:(unfold W in *; lra) ltac:(lra)) as K2. pose proof (Step (5 / 2 * W) ltac:(unfold W; lra)) as St2.
  assert (K2' : close (fsub dt (fadd dt (fround dt (Fin x)) (Fin ls2)) (Fin ls1)) (Q + ls2 - ls1) ((8 * k + 23) * (e * W))) by (eapply close_weaken; [exact K2|lra]).
  assert (T2' : Rabs (Q + ls2 - ls1) <= Q + Rabs ls2 + Rabs ls1) by (unfold Rminus; eapply Rle_trans; [apply Rabs_triang|]; rewrite Rabs_Ropp; lra).
  pose proof (close_sub dt _ _ _ _ _ _ (3 * W) K2' (close_exact (1 / 2))) as K3. rewrite (Rabs_pos_eq (1 / 2)) in K3 by lra. specialize (K3 ltac:(unfold W in *; lra) ltac:(lra)). pose proof (Step (3 * W) ltac:(unfold W; lra)) as St3.
  eapply close_weaken; [exact K3|]. lra.
Qed.
End KL.

From Flocq Require Import IEEE754.BinarySingleNaN.
From Verif Require Import Proofs.FloatIEEE.
From Verif Require Props.FloatCatInfo Props.FloatViterbi.
(** In float32 the computed divergence of a distribution from itself can be negative. *)
Theorem C110_kl_self_refuted : exists l, repr float32 l /\ 0 < l /\
  let s := fl_lsn_scale (fun a => fround float32 (xexp a)) (Fin l) in s = Fin 1 /\
  exists v, fl_lsn_kl float32 (Fin 0) s (Fin l) (Fin 0) s (Fin l) = Fin v /\ v < 0.
Proof.
  set (xl := @B754_finite 24 128 false 12582912 (-49) eq_refl). set (xh := @B754_finite 24 128 false 8388608 (-24) eq_refl). set (x1 := @B754_finite 24 128 false 8388608 (-23) eq_refl). set (xs := @B754_finite 24 128 false 8388608 (-48) eq_refl). set (xp := @B754_finite 24 128 false 16777215 (-25) eq_refl). set (xn := @B754_finite 24 128 true 8388608 (-48) eq_refl).
  exists (B2R xl). assert (El : B2R xl = 3 * / 2 ^ 27) by (cbn; unfold F2R; cbn; lra). assert (P27 : 0 < / 2 ^ 27 <= / 1024) by (split; [apply Rinv_0_lt_compat, pow_lt; lra|apply Rinv_le_contravar; cbn; lra]).
  assert (V1 : Fin 1 = of_ieee float32 x1) by (cbn; f_equal; unfold F2R; cbn; lra). assert (Vh : Fin (1 / 2) = of_ieee float32 xh) by (cbn; f_equal; unfold F2R; cbn; lra).
  assert (Vs : Fin (4 * / 2 ^ 27) = of_ieee float32 xs) by (cbn; f_equal; unfold F2R; cbn; lra). assert (Vl : Fin (B2R xl) = of_ieee float32 xl) by reflexivity.
  split; [split; [apply generic_format_B2R|apply abs_B2R_lt_emax]|]. split; [lra|].
  assert (Es : fround float32 (Fin (1 + 4 * / 2 ^ 27)) = Fin 1).
  { change (fadd float32 (Fin 1) (Fin (4 * / 2 ^ 27)) = Fin 1). rewrite Vs. rewrite V1 at 1. rewrite fadd_ieee, V1. apply (f_equal (of_ieee float32)). apply B2SF_inj. vm_compute. reflexivity. }
  assert (Ex : fround float32 (Fin (exp (B2R xl))) = Fin 1).
  { assert (B : 1 <= exp (B2R xl) <= 1 + 4 * / 2 ^ 27).
    { rewrite El. set (t := / 2 ^ 27) in *. clearbody t. split; [pose proof (exp_ineq1_le (3 * t)); lra|]. pose proof (exp_ineq1_le (- (3 * t))) as Q. rewrite exp_Ropp in Q. pose proof (exp_pos (3 * t)) as P. set (u := exp (3 * t)) in *. clearbody u.
      assert (u * (1 + - (3 * t)) <= 1) by (apply Rle_trans with (u * / u); [apply Rmult_le_compat_l; lra|right; apply Rinv_r; lra]). nra. }
    apply fle_antisym.
    - rewrite <- Es. apply fround_mono, fle_fin. lra.
    - rewrite <- (fround_repr float32 1) by apply repr_1. apply fround_mono, fle_fin. lra. }
  intros s. unfold fl_lsn_scale in s. cbn [xexp] in s. subst s. rewrite Ex. split; [reflexivity|].
  exists (B2R xn). split; [|cbn; unfold F2R; cbn; lra].
  assert (R2 : repr float32 2) by (change 2 with (bpow radix2 1); apply repr_pow; cbn; unfold emin; cbn; lia).
  unfold fl_lsn_kl, fl_square. unfold fsub at 3 4, fmul. rewrite !xsub_fin, Rminus_diag_eq, fround_0, !xmul_fin, !Rmult_1_r, Rmult_0_r, fround_0 by auto. rewrite (fround_repr float32 1) by apply repr_1. unfold fadd at 2. rewrite xadd_fin, Rplus_0_r, (fround_repr float32 1) by apply repr_1.
  rewrite xmul_fin, Rmult_1_r, (fround_repr float32 2 R2). unfold fdiv. rewrite xdiv_fin' by lra. rewrite Vh. change (fround float32 (of_ieee float32 xh)) with (fround float32 (Fin (B2R xh))). rewrite (fround_repr float32 (B2R xh)) by (split; [apply generic_format_B2R|apply abs_B2R_lt_emax]).
  change (Fin (B2R xh)) with (of_ieee float32 xh). rewrite Vl, fadd_ieee. replace (Bplus mode_NE xh xl) with xh by (apply B2SF_inj; vm_compute; reflexivity). rewrite fsub_ieee. replace (Bminus mode_NE xh xl) with xp by (apply B2SF_inj; vm_compute; reflexivity).
  rewrite fsub_ieee. replace (Bminus mode_NE xp xh) with xn by (apply B2SF_inj; vm_compute; reflexivity). reflexivity.
Qed.

(** A concrete case in float32: locations 1 and 0, log scales 0 and 1, a correctly rounded exp and softplus. *)
Example C110_float32 :
  let E a := fround float32 (xexp a) in let S a := fround float32 (xsoftplus a) in
  (fle (fl_lsn_scale E (fl_lsn_log_scale float32 S (Some (Fin 4)) (Fin 100))) (E (Fin 4))) /\
  exists s1 s2 K, fl_lsn_scale E (Fin 0) = Fin s1 /\ fl_lsn_scale E (Fin 1) = Fin s2 /\
    Density.is_kl (Density.gaussian 1 (exp 0)) (Density.gaussian 0 (exp 1)) K /\
    close (fl_lsn_kl float32 (Fin 1) (Fin s1) (Fin 0) (Fin 0) (Fin s2) (Fin 1)) K (/ 2 ^ 15).
Proof.
  intros E S. assert (R4 : repr float32 4) by (change 4 with (bpow radix2 2); apply repr_pow; cbn; unfold emin; cbn; lia). pose proof Props.FloatViterbi.eps32 as E32. pose proof Props.FloatCatInfo.tiny32 as T. pose proof Props.FloatCatInfo.max32 as M. pose proof exp_le_3 as E3.
  assert (E1 : 2 <= exp 1) by (pose proof (exp_ineq1_le 1); lra). assert (T' : / 2 ^ 60 <= / 2 ^ 24) by (apply Rinv_le_contravar; [apply pow_lt; lra|apply Rle_pow; [lra|lia]]). assert (P24 : / 2 ^ 24 = / 1024 * / 16384) by (cbn; field). rewrite <- E32 in *.
  assert (M' : 1048576 <= maxpow float32) by (cbn [pow] in M; lra). clear M.
  split.
  - assert (R100 : repr float32 100). { set (x := @B754_finite 24 128 false 13107200 (-17) eq_refl). replace 100 with (B2R x) by (cbn; unfold F2R; cbn; lra). split; [apply generic_format_B2R|apply abs_B2R_lt_emax]. }
    apply (proj1 (C110_threshold float32 S E 4 (softplus_rounded float32) (exp_rounded float32) R4) 100 R100).
  - destruct (round_fin float32 (exp 1)) as (s2 & Es2 & Rs2 & _ & Qs2); [rewrite Rabs_pos_eq; lra|].
    assert (H2 : Rabs (s2 - exp 1) <= 1 * eps float32 * exp 1). { subst s2. pose proof (rnd_err float32 (exp 1)) as Q. rewrite (Rabs_pos_eq (exp 1)) in Q by lra. rewrite Rmult_1_l. apply Q. lra. }
    assert (P2 : 4 <= exp 1 ^ 2 <= 9) by (cbn [pow]; nra).
    assert (Q2 : 0 <= ((exp 0 ^ 2 + (1 - 0) ^ 2) / (2 * exp 1 ^ 2)) <= 1). { rewrite exp_0. split; [apply Rmult_le_pos; [lra|left; apply Rinv_0_lt_compat; lra]|]. apply Rmult_le_reg_r with (2 * exp 1 ^ 2); [lra|]. unfold Rdiv. rewrite Rmult_assoc, Rinv_l by lra. lra. }
    destruct (C110_kl float32 1 1 0 1 s2 0 1) as (K & IK & C); try apply repr_0; try apply repr_1; rewrite ?Rabs_R0, ?Rabs_R1; try exact H2; rewrite ?exp_0; try (rewrite exp_0 in Q2); try (rewrite Rminus_diag_eq, Rabs_R0 by auto); try lra.
    + apply Rle_trans with (eps float32 * 1); [lra|]. apply Rmult_le_compat_l; [|lra]. pose proof (eps_pos float32). lra.
    + exists 1, s2, K. unfold E, fl_lsn_scale. cbn [xexp]. rewrite exp_0 in *. rewrite (fround_repr float32 1) by apply repr_1.
      split; [auto|]. split; [auto|]. split; [auto|]. eapply close_weaken; [exact C|].
      set (q := (1 ^ 2 + (1 - 0) ^ 2) / (2 * exp 1 ^ 2)) in *. clearbody q. rewrite Rabs_R0, Rabs_R1, E32. assert (P15 : / 2 ^ 15 = 512 * / 2 ^ 24) by (cbn; field). rewrite P15. assert (0 < / 2 ^ 24) by (apply Rinv_0_lt_compat, pow_lt; lra). nra.
Qed.
Print Assumptions C110_threshold.
Print Assumptions C110_kl.
Print Assumptions C110_kl_self_refuted.
Print Assumptions C110_float32.
