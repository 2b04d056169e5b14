(** C84: log_prob of the location-scale families in floating point. *)
From Coq Require Import Reals List Bool Lra Lia ZArith.
From Flocq Require Import Core.
From Verif Require Import Base.XR Base.Float Model.FloatDist Spec.Rounding Proofs.FloatOrder Proofs.FloatLib.
Import ListNotations.
Local Open Scope R_scope.

Section C84.
Variable dt : dtype.
Variables L E S : XR -> XR.
Hypothesis HL : log_fn dt L.
Hypothesis HE : exp_fn dt E.
Hypothesis HS : softplus_fn dt S.

Lemma xopp_invol a : xopp (xopp a) = a.
Proof. destruct a; cbn; try reflexivity. f_equal; lra. Qed.
(** the standardised value depends on [|v - loc|] up to its sign *)
Lemma standardize_sign v loc s : 0 < s ->
  let z := fl_standardize dt (Fin v) (Fin loc) (Fin s) in
  let w := fdiv dt (fround dt (Fin (Rabs (v - loc)))) (Fin s) in
  fle (Fin 0) w /\ (z = w \/ z = xopp w).
Proof.
  intros P z w. assert (N : fle (Fin 0) w).
  { apply fround_nonneg, xdiv_nonneg, fround_nonneg; auto. apply fle_fin, Rabs_pos. }
  split; [auto|]. unfold z, w, fl_standardize, fsub, fdiv. rewrite xsub_fin. unfold Rabs. destruct (Rcase_abs (v - loc)).
  - right. change (Fin (- (v - loc))) with (xopp (Fin (v - loc))). rewrite fround_opp', xdiv_opp, fround_opp' by auto.
    symmetry. apply xopp_invol.
  - auto.
Qed.
Lemma w_mono d e s : 0 < s -> d <= e -> fle (fdiv dt (fround dt (Fin d)) (Fin s)) (fdiv dt (fround dt (Fin e)) (Fin s)).
Proof. intros P H. apply fround_mono, xdiv_mono; auto. apply fround_mono, fle_fin; auto. Qed.
Lemma const_add c s : Rabs c <= 2 -> 0 < s -> repr dt s -> exists n, fadd dt (Fin c) (L (Fin s)) = Fin n.
Proof.
  intros C P R. destruct (log_fn_finite _ _ HL s P R) as (r & -> & Rr & B). pose proof (mant_ok dt); pose proof (exp_ok dt).
  pose proof (bpow_gt_0 radix2 (emax dt - 2)) as B0.
  assert (E1 : bpow radix2 (emax dt - 1) = 2 * bpow radix2 (emax dt - 2)).
  { replace (emax dt - 1)%Z with (emax dt - 2 + 1)%Z by lia. rewrite bpow_plus. change (bpow radix2 1) with 2. ring. }
  assert (R3 : repr dt (3 * bpow radix2 (emax dt - 2))).
  { split.
    - apply generic_format_FLT. exists (Defs.Float radix2 3 (emax dt - 2)); cbn [Fnum Fexp]; [reflexivity| |unfold emin; lia].
      apply Z.lt_le_trans with (2 ^ 3)%Z; [reflexivity|]. change (radix_val radix2) with 2%Z. apply Z.pow_le_mono_r; lia.
    - rewrite Rabs_pos_eq by lra. unfold maxpow. replace (emax dt) with (emax dt - 2 + 2)%Z at 2 by lia. rewrite bpow_plus. change (bpow radix2 2) with 4. lra. }
  assert (2 <= bpow radix2 (emax dt - 2)) by (change 2 with (bpow radix2 1); apply bpow_le; lia).
  apply Rabs_le_inv in C, B. unfold fadd. rewrite xadd_fin.
  destruct (fround_between dt (c + r) _ _ (repr_opp dt _ R3) R3 ltac:(lra)) as (-> & _). eauto.
Qed.
Lemma fsub_mono a b n : fle a b -> fle (fsub dt a (Fin n)) (fsub dt b (Fin n)).
Proof. intros H. apply fround_mono. unfold xsub. apply xadd_mono; auto; discriminate. Qed.

(** Normal: never NaN, a decreasing function of the distance to loc (so symmetric, and largest at
    loc, where it is finite), whatever overflows or underflows on the way. *)
Theorem C84_normal c loc s :
  Rabs c <= 2 -> 0 < s -> repr dt s ->
  let lp v := fl_normal_log_prob dt L (Fin c) (Fin v) (Fin loc) (Fin s) in
  (exists r, lp loc = Fin r) /\
  forall v w, Rabs (v - loc) <= Rabs (w - loc) -> fle (lp w) (lp v).
Proof.
  intros C P R lp. destruct (const_add c s C P R) as (n & En).
  assert (V : forall v, lp v = fsub dt (fmul dt (Fin (- (1 / 2))) (let w := fdiv dt (fround dt (Fin (Rabs (v - loc)))) (Fin s) in fmul dt w w)) (Fin n)).
  { intros v. unfold lp, fl_normal_log_prob. rewrite En. f_equal. f_equal. destruct (standardize_sign v loc s P) as [_ [-> | ->]]; [auto|].
    unfold fmul. rewrite xmul_sq_opp. reflexivity. }
  assert (M : forall v w, Rabs (v - loc) <= Rabs (w - loc) -> fle (lp w) (lp v)).
  { intros v w H. rewrite !V. apply fsub_mono. apply fround_mono. apply xmul_neg_anti; [lra|]. cbv zeta. apply fround_mono, xmul_sq_mono.
    - apply (standardize_sign v loc s P).
    - apply w_mono; auto. }
  split; [|auto]. exists (rnd dt (- n)). rewrite V. replace (Rabs (loc - loc)) with 0 by (rewrite Rminus_diag_eq, Rabs_R0; auto).
  rewrite fround_0. unfold fdiv. rewrite xdiv_fin' by lra. replace (0 / s) with 0 by (field; lra). rewrite fround_0. cbv zeta.
  unfold fmul. rewrite xmul_fin, Rmult_0_l, fround_0, xmul_fin, Rmult_0_r, fround_0. unfold fsub. rewrite xsub_fin.
  replace (0 - n) with (- n) by lra. assert (Rn : repr dt n) by (apply (fround_value dt _ _ En)).
  rewrite rnd_id by (apply F_opp, Rn). apply fround_repr, repr_opp, Rn.
Qed.

Theorem C84_laplace c loc s :
  Rabs c <= 2 -> repr dt c -> 0 < s -> repr dt s ->
  let lp v := fl_laplace_log_prob dt L (Fin c) (Fin v) (Fin loc) (Fin s) in
  (exists r, lp loc = Fin r) /\
  forall v w, Rabs (v - loc) <= Rabs (w - loc) -> fle (lp w) (lp v).
Proof.
  intros C Rc P R lp. destruct (log_fn_finite _ _ HL s P R) as (l & El & Rl & Bl).
  assert (V : forall v, lp v = fsub dt (fsub dt (xopp (fdiv dt (fround dt (Fin (Rabs (v - loc)))) (Fin s))) (Fin c)) (Fin l)).
  { intros v. unfold lp, fl_laplace_log_prob. rewrite El. do 3 f_equal. destruct (standardize_sign v loc s P) as [N [-> | ->]];
      destruct (fdiv dt (fround dt (Fin (Rabs (v - loc)))) (Fin s)); try discriminate N; try reflexivity; apply fle_fin in N; cbn; f_equal.
    - apply Rabs_pos_eq; auto.
    - rewrite Rabs_Ropp. apply Rabs_pos_eq; auto. }
  assert (M : forall v w, Rabs (v - loc) <= Rabs (w - loc) -> fle (lp w) (lp v)).
  { intros v w H. rewrite !V. apply fsub_mono, fsub_mono, xopp_anti, w_mono; auto. }
  split; [|auto]. rewrite V. replace (Rabs (loc - loc)) with 0 by (rewrite Rminus_diag_eq, Rabs_R0; auto).
  rewrite fround_0. unfold fdiv. rewrite xdiv_fin' by lra. replace (0 / s) with 0 by (field; lra). rewrite fround_0. cbn [xopp].
  unfold fsub at 2. rewrite xsub_fin. replace (- 0 - c) with (- c) by lra. rewrite fround_repr by (apply repr_opp, Rc).
  destruct (const_add c s C P R) as (n & En). rewrite El in En. unfold fadd in En. rewrite xadd_fin in En.
  unfold fsub. rewrite xsub_fin. replace (- c - l) with (- (c + l)) by lra. change (Fin (- (c + l))) with (xopp (Fin (c + l))).
  rewrite fround_opp', En. cbn. eauto.
Qed.

(** Logistic and Gumbel: unless the standardised value itself overflows to minus infinity, the
    log-density is not NaN; Logistic's is at most that of the peak bound 1 / scale, and Gumbel's is
    not plus infinity. *)
Lemma mid_sub x l : x <> NaN -> fsub dt x (Fin l) <> NaN.
Proof. intros N. apply fround_nan. destruct x; cbn; congruence. Qed.
Theorem C84_logistic_partial v loc s :
  0 < s -> repr dt s -> fl_standardize dt (Fin v) (Fin loc) (Fin s) <> NInf ->
  fle (fl_logistic_log_prob dt L S (Fin v) (Fin loc) (Fin s)) (xopp (L (Fin s))).
Proof.
  intros P R NI. destruct (log_fn_finite _ _ HL s P R) as (l & El & Rl & _).
  unfold fl_logistic_log_prob. rewrite El.
  destruct (standardize_sign v loc s P) as [Nw Hw]. set (z := fl_standardize dt (Fin v) (Fin loc) (Fin s)) in *.
  assert (Vz : value dt z).
  { unfold value. destruct z eqn:Ez; auto. apply (fround_value dt _ _ Ez). }
  assert (Nz : z <> NaN).
  { destruct Hw as [-> | ->]; pose proof (fle_nan_r _ _ Nw) as Q; auto. destruct (fdiv dt _ _); cbn; congruence. }
  assert (T : fle (fsub dt (xopp z) (fmul dt (Fin 2) (S (xopp z)))) (Fin 0)).
  { destruct z as [z| | |]; try congruence; cbn [xopp].
    - destruct (softplus_fn_finite _ _ HS (- z) (repr_opp dt _ Vz)) as (r & -> & Rr & P0 & P1).
      unfold fmul. rewrite xmul_fin. unfold fsub. 
      assert (K : fle (Fin (- z)) (fround dt (Fin (2 * r)))).
      { rewrite <- (fround_repr dt (- z)) by (apply repr_opp, Vz). apply fround_mono, fle_fin. lra. }
      assert (K0 : fle (Fin 0) (fround dt (Fin (2 * r)))) by (apply fround_nonneg, fle_fin; lra).
      apply fround_nonpos. destruct (fround dt (Fin (2 * r))) as [q| | |]; try discriminate K; try reflexivity.
      apply fle_fin in K. apply fle_fin. lra.
    - rewrite (softplus_fn_ninf _ _ HS). unfold fmul. rewrite xmul_fin, Rmult_0_r, fround_0. reflexivity. }
  pose proof (fsub_mono _ _ l T) as Q. unfold fsub at 3 in Q. rewrite xsub_fin in Q. replace (0 - l) with (- l) in Q by lra.
  rewrite fround_repr in Q by (apply repr_opp, Rl). exact Q.
Qed.
Theorem C84_gumbel_partial v loc s :
  0 < s -> repr dt s -> fl_standardize dt (Fin v) (Fin loc) (Fin s) <> NInf ->
  let r := fl_gumbel_log_prob dt L E (Fin v) (Fin loc) (Fin s) in r <> NaN.
Proof.
  intros P R NI. destruct (log_fn_finite _ _ HL s P R) as (l & El & Rl & _).
  unfold fl_gumbel_log_prob. rewrite El. cbv zeta.
  destruct (standardize_sign v loc s P) as [Nw Hw]. set (z := fl_standardize dt (Fin v) (Fin loc) (Fin s)) in *.
  assert (Vz : value dt z).
  { unfold value. destruct z eqn:Ez; auto. apply (fround_value dt _ _ Ez). }
  assert (Nz : z <> NaN).
  { destruct Hw as [-> | ->]; pose proof (fle_nan_r _ _ Nw) as Q; auto. destruct (fdiv dt _ _); cbn; congruence. }
  apply mid_sub. assert (K : forall a, a <> NaN -> xopp a <> NaN) by (intros []; cbn; congruence). apply K, fround_nan.
  destruct z as [z| | |]; try congruence; cbn [xopp].
  - assert (M : fle (E NInf) (E (Fin (- z)))) by (apply (exp_fn_mono _ _ HE); [exact I|apply repr_opp, Vz|reflexivity]).
    rewrite (exp_fn_ninf _ _ HE) in M. destruct (E (Fin (- z))); try discriminate M; cbn; discriminate.
  - rewrite (exp_fn_ninf _ _ HE). cbn. discriminate.
Qed.

(** The premise is needed: at a finite float32 value whose distance to loc, in units of scale,
    overflows on the left, both return NaN (and minus infinity at the mirror image). *)
End C84.
Theorem C84_logistic_gumbel_overflow_refuted :
  forall L E S, log_fn float32 L -> exp_fn float32 E -> softplus_fn float32 S ->
  exists v s, repr float32 v /\ repr float32 s /\ 0 < s /\
    fl_logistic_log_prob float32 L S (Fin v) (Fin 0) (Fin s) = NaN /\
    fl_gumbel_log_prob float32 L E (Fin v) (Fin 0) (Fin s) = NaN /\
    fl_logistic_log_prob float32 L S (Fin (- v)) (Fin 0) (Fin s) = NInf /\
    fl_gumbel_log_prob float32 L E (Fin (- v)) (Fin 0) (Fin s) = NInf.
Proof.
  intros L E S HL HE HS. exists (- bpow radix2 127), (bpow radix2 (-2)).
  assert (R1 : repr float32 (bpow radix2 127)).
  { split; [apply F_bpow; unfold emin; cbn; lia|]. rewrite Rabs_pos_eq by apply bpow_ge_0. apply bpow_lt. reflexivity. }
  assert (R2 : repr float32 (bpow radix2 (-2))).
  { split; [apply F_bpow; unfold emin; cbn; lia|]. rewrite Rabs_pos_eq by apply bpow_ge_0. apply bpow_lt. reflexivity. }
  assert (P2 : 0 < bpow radix2 (-2)) by apply bpow_gt_0.
  destruct (log_fn_finite _ _ HL _ P2 R2) as (l & El & _).
  assert (Zp : fl_standardize float32 (Fin (bpow radix2 127)) (Fin 0) (Fin (bpow radix2 (-2))) = PInf).
  { unfold fl_standardize, fsub. rewrite xsub_fin, Rminus_0_r, fround_repr by auto. unfold fdiv. rewrite xdiv_fin' by lra.
    replace (bpow radix2 127 / bpow radix2 (-2)) with (bpow radix2 129).
    2:{ unfold Rdiv. rewrite <- bpow_opp, <- bpow_plus. reflexivity. }
    cbn [fround]. rewrite rnd_id by (apply F_bpow; unfold emin; cbn; lia). rewrite Rabs_pos_eq by apply bpow_ge_0.
    destruct (Rlt_dec _ _) as [B|_]. { exfalso. unfold maxpow in B. apply lt_bpow in B. discriminate B. }
    destruct (Rlt_dec _ 0) as [B|_]; [|reflexivity]. pose proof (bpow_gt_0 radix2 129). lra. }
  assert (Zn : fl_standardize float32 (Fin (- bpow radix2 127)) (Fin 0) (Fin (bpow radix2 (-2))) = NInf).
  { unfold fl_standardize, fsub. rewrite xsub_fin, Rminus_0_r. change (Fin (- bpow radix2 127)) with (xopp (Fin (bpow radix2 127))).
    rewrite fround_opp'. unfold fdiv. rewrite xdiv_opp, fround_opp' by auto.
    unfold fl_standardize, fsub in Zp. rewrite xsub_fin, Rminus_0_r in Zp. unfold fdiv in Zp. rewrite Zp. reflexivity. }
  split; [apply repr_opp; auto|]. split; [auto|]. split; [auto|]. rewrite Ropp_involutive.
  unfold fl_logistic_log_prob, fl_gumbel_log_prob. rewrite Zp, Zn, El. cbn [xopp].
  rewrite (softplus_fn_inf _ _ HS), (softplus_fn_ninf _ _ HS), (exp_fn_inf _ _ HE), (exp_fn_ninf _ _ HE).
  unfold fmul, fsub, fadd. rewrite xmul_fin, Rmult_0_r, fround_0. cbn [xmul]. unfold inf_times. destruct (Rlt_dec 0 2); [|lra].
  cbn. auto.
Qed.

(** Correctly rounded library functions satisfy the hypotheses. *)
Example C84_example : log_fn float32 (fun a => fround float32 (xlog a)) /\ exp_fn float32 (fun a => fround float32 (xexp a)) /\
  softplus_fn float32 (fun a => fround float32 (xsoftplus a)).
Proof. split; [apply log_rounded|split; [apply exp_rounded|apply softplus_rounded]]. Qed.
Print Assumptions C84_normal.
