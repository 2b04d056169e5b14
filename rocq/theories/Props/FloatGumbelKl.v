(** C111: Gumbel's KL divergence in floating point. *)
From Coq Require Import Reals Lra Lia Bool ZArith.
From Flocq Require Import Core.
From Verif Require Import Base.XR Base.Float Spec.Rounding Spec.Accuracy Proofs.FloatOrder Proofs.FloatLib
  Model.FloatGumbelKl Props.FloatBij Props.FloatAccuracy Props.FloatMixture Props.FloatKL.
From Verif Require Spec.Density Spec.Gumbel Spec.GammaFamily Model.ScalarDist Props.Gumbel.
Import Verif.Spec.Accuracy.
Local Open Scope R_scope.

(** Of a distribution from itself, the computed divergence is exactly 0, and with equal scales it is never negative; the library's
    lgamma is exact at 2, its expm1 is exact at 0 and at least its argument. *)
Section Equal.
Variables (dt : dtype) (L M lg : XR -> XR) (g s v : R).
Hypothesis Rs : repr dt s.
Hypothesis Ps : 0 < s.
Hypothesis EL : L (Fin s) = Fin v.
Hypothesis Elg : lg (Fin 2) = Fin 0.
Hypothesis R2 : repr dt 2.
Lemma equal_scales l1 l2 q : fdiv dt (fsub dt (Fin l1) (Fin l2)) (Fin s) = Fin q ->
  fl_gumbel_kl dt L M lg (Fin g) (Fin l1) (Fin s) (Fin l2) (Fin s) = fadd dt (fround dt (xadd (Fin 0) (M (Fin (- q))))) (Fin q).
Proof.
  intros Eq. assert (Z : forall x, fsub dt (Fin x) (Fin x) = Fin 0) by (intros x; unfold fsub; rewrite xsub_fin, Rminus_diag_eq by auto; apply fround_0).
  unfold fl_gumbel_kl. rewrite EL, Z. assert (fdiv dt (Fin s) (Fin s) = Fin 1) as ->. { unfold fdiv. rewrite xdiv_fin' by lra. replace (s / s) with 1 by (field; lra). apply fround_repr, repr_1. }
  rewrite Z. unfold fmul. rewrite xmul_fin, Rmult_0_r, fround_0. unfold fadd at 3. rewrite xadd_fin, Rplus_0_r, fround_0. unfold fadd at 4. rewrite xadd_fin. replace (1 + 1) with 2 by ring. rewrite (fround_repr dt 2 R2), Elg.
  assert (Em : fdiv dt (fsub dt (Fin l2) (Fin l1)) (Fin s) = Fin (- q)).
  { assert (A : fsub dt (Fin l2) (Fin l1) = xopp (fsub dt (Fin l1) (Fin l2))). { unfold fsub. rewrite !xsub_fin. replace (Fin (l2 - l1)) with (xopp (Fin (l1 - l2))) by (cbn [xopp]; f_equal; ring). apply fround_opp'. }
    rewrite A. unfold fdiv in *. rewrite xdiv_opp by auto. rewrite fround_opp', Eq. reflexivity. }
  rewrite Em, Eq. assert (Rq : repr dt (- q)) by (unfold fdiv in Em; apply fround_value in Em; auto). unfold fadd at 3. rewrite xadd_fin, Rplus_0_r, (fround_repr dt (- q) Rq). reflexivity.
Qed.
Theorem C111_self l : M (Fin 0) = Fin 0 -> fl_gumbel_kl dt L M lg (Fin g) (Fin l) (Fin s) (Fin l) (Fin s) = Fin 0.
Proof.
  intros EM. rewrite (equal_scales l l 0).
  - rewrite Ropp_0, EM. unfold fadd. rewrite !xadd_fin, Rplus_0_r, fround_0, xadd_fin, Rplus_0_r. apply fround_0.
  - unfold fsub. rewrite xsub_fin, Rminus_diag_eq, fround_0 by auto. unfold fdiv. rewrite xdiv_fin' by lra. unfold Rdiv. rewrite Rmult_0_l. apply fround_0.
Qed.
Theorem C111_equal_scales_nonnegative l1 l2 q : (forall x, repr dt x -> fle (Fin x) (M (Fin x))) -> fdiv dt (fsub dt (Fin l1) (Fin l2)) (Fin s) = Fin q ->
  fle (Fin 0) (fl_gumbel_kl dt L M lg (Fin g) (Fin l1) (Fin s) (Fin l2) (Fin s)).
Proof.
  intros HM Eq. rewrite (equal_scales l1 l2 q Eq). assert (Rq : repr dt q) by (unfold fdiv in Eq; apply fround_value in Eq; auto). pose proof (HM (- q) (repr_opp dt q Rq)) as H.
  assert (B : fle (Fin (- q)) (fround dt (xadd (Fin 0) (M (Fin (- q)))))).
  { rewrite <- (fround_repr dt (- q)) at 1 by (apply repr_opp; auto). apply fround_mono. destruct (M (Fin (- q))); try exact H; try reflexivity. rewrite xadd_fin, Rplus_0_l. exact H. }
  unfold fadd. destruct (fround dt (xadd (Fin 0) (M (Fin (- q))))) as [r| | |]; try discriminate B.
  - rewrite xadd_fin. apply fle_fin in B. apply fround_nonneg, fle_fin. lra.
  - apply (fround_nonneg dt PInf). reflexivity.
Qed.
End Equal.

(** When the difference of the locations overflows, the computed divergence is NaN (the two infinities cancel), in every dtype, although
    the divergence is a positive number: for every library, locations and a scale as below give NaN. *)
Theorem C111_overflow_refuted dt (L M lg : XR -> XR) g v w : L (Fin 1) = Fin v -> lg (Fin 2) = Fin w -> M PInf = PInf -> repr dt 2 ->
  exists l1 l2, repr dt l1 /\ repr dt l2 /\ fl_gumbel_kl dt L M lg (Fin g) (Fin l1) (Fin 1) (Fin l2) (Fin 1) = NaN /\
    exists K, Density.is_kl (Density.gumbel_density l1 1) (Density.gumbel_density l2 1) K /\ 0 < K.
Proof.
  intros EL Elg EM R2. pose proof (maxpow_ge_32 dt) as M32. assert (Rh : repr dt (maxpow dt / 2)) by apply repr_half. exists (- (maxpow dt / 2)), (maxpow dt / 2). split; [apply repr_opp; auto|]. split; [auto|]. split.
  - assert (O : fround dt (Fin (maxpow dt)) = PInf).
    { unfold fround. assert (Q : rnd dt (maxpow dt) = maxpow dt). { apply round_generic; [apply valid_rnd_N|]. replace (maxpow dt) with (2 * (maxpow dt / 2)) by field. apply F_double. auto. }
      rewrite Q, Rabs_pos_eq by lra. destruct (Rlt_dec _ _) as [C|C]; [lra|]. destruct (Rlt_dec _ _); [lra|reflexivity]. }
    assert (D1 : fsub dt (Fin (maxpow dt / 2)) (Fin (- (maxpow dt / 2))) = PInf) by (unfold fsub; rewrite xsub_fin; replace (maxpow dt / 2 - - (maxpow dt / 2)) with (maxpow dt) by field; exact O).
    assert (D2 : fsub dt (Fin (- (maxpow dt / 2))) (Fin (maxpow dt / 2)) = NInf).
    { unfold fsub. rewrite xsub_fin. replace (Fin (- (maxpow dt / 2) - maxpow dt / 2)) with (xopp (Fin (maxpow dt))) by (cbn [xopp]; f_equal; field). rewrite fround_opp', O. reflexivity. }
    assert (Z : forall x, fsub dt (Fin x) (Fin x) = Fin 0) by (intros x; unfold fsub; rewrite xsub_fin, Rminus_diag_eq by auto; apply fround_0).
    assert (One : fdiv dt (Fin 1) (Fin 1) = Fin 1) by (unfold fdiv; rewrite xdiv_fin' by lra; replace (1 / 1) with 1 by field; apply fround_repr, repr_1).
    assert (I1 : fdiv dt PInf (Fin 1) = PInf) by (unfold fdiv; cbn; unfold inf_times; repeat destruct (Rlt_dec _ _); repeat destruct (Req_EM_T _ _); try lra; reflexivity).
    assert (I2 : fdiv dt NInf (Fin 1) = NInf) by (unfold fdiv; cbn; unfold inf_times; repeat destruct (Rlt_dec _ _); repeat destruct (Req_EM_T _ _); try lra; reflexivity).
    unfold fl_gumbel_kl. rewrite D1, D2, EL, One, !Z, I1, I2. unfold fmul. rewrite xmul_fin, Rmult_0_r, fround_0. unfold fadd at 3. rewrite xadd_fin, Rplus_0_r, fround_0. unfold fadd at 4. rewrite xadd_fin. replace (1 + 1) with 2 by ring. rewrite (fround_repr dt 2 R2), Elg.
    unfold fadd. cbn [xadd fround]. rewrite EM. reflexivity.
  - destruct Props.Gumbel.C51_nonvacuous as (eg & lgam & Heu & _ & Hlg & _). destruct (Props.Gumbel.C51_gumbel_kl eg lgam (- (maxpow dt / 2)) 1 (maxpow dt / 2) 1 Rlt_0_1 Rlt_0_1 Heu Hlg) as (K & _ & IK & K0 & Kz). exists K. split; [exact IK|].
    destruct K0 as [K0|K0]; [exact K0|]. symmetry in K0. apply Kz in K0. lra.
Qed.

Section Close.
Variables (dt : dtype) (k : R) (L M lg : XR -> XR) (g eg G tau l1 s1 l2 s2 : R).
Notation e := (eps dt).
Notation z := ((l1 - l2) / s2).
Notation r := (s1 / s2).
Notation u := (Rabs z + Rabs G + 1).
Notation P := (exp (- z + G)).
Notation W := (logs s2 s1 + r + u + P).
Hypothesis k_pos : 0 <= k.
Hypothesis k_ok : k * e <= 1.
Hypothesis HL : accurate dt k L ln (fun s => 0 < s).
Hypothesis HM : accurate dt k M (fun x => exp x - 1) (fun x => exp x <= maxpow dt / 2).
Hypothesis Hg : Rabs (g - eg) <= e.
Hypothesis eg_ok : 0 <= eg <= 1.
(** the library's lgamma of the computed argument, within [tau] of the log gamma of the exact argument *)
Hypothesis HG : close (lg (fadd dt (fdiv dt (Fin s1) (Fin s2)) (Fin 1))) G tau.
Hypothesis R1 : repr dt s1.
Hypothesis R2 : repr dt s2.
Hypothesis Rl1 : repr dt l1.
Hypothesis Rl2 : repr dt l2.
Hypothesis P1 : 0 < s1.
Hypothesis P2 : 0 < s2.
Hypothesis small : 6 * e * u + tau <= / 4.
Hypothesis range : W <= maxpow dt / 64.
Hypothesis range_l : Rabs (l1 - l2) <= maxpow dt / 2.
Lemma signed_quotient a b : repr dt a -> repr dt b -> Rabs (a - b) <= maxpow dt / 2 -> Rabs ((a - b) / s2) <= maxpow dt / 64 ->
  close (fdiv dt (fsub dt (Fin a) (Fin b)) (Fin s2)) ((a - b) / s2) (e * (9 / 4 * Rabs ((a - b) / s2) + 1)).
Proof.
  intros Ra Rb Hm Hq. pose proof (eps_pos dt) as E0. pose proof (eps_le dt) as E4. unfold fsub. rewrite xsub_fin. destruct (round_fin dt (a - b) Hm) as (x & -> & Rx & _ & Ex). pose proof (sub_rel dt a b Ra Rb) as B. rewrite <- Ex in B.
  unfold fdiv. rewrite xdiv_fin' by lra. pose proof (Rabs_pos ((a - b) / s2)) as A0.
  assert (Bq : Rabs (x / s2 - (a - b) / s2) <= e * Rabs ((a - b) / s2)).
  { replace (x / s2 - (a - b) / s2) with ((x - (a - b)) / s2) by (field; lra). unfold Rdiv at 1 2. rewrite !Rabs_mult, (Rabs_pos_eq (/ s2)) by (left; apply Rinv_0_lt_compat; auto). rewrite <- Rmult_assoc. apply Rmult_le_compat_r; [left; apply Rinv_0_lt_compat; auto|auto]. }
  assert (C : close (Fin (x / s2)) ((a - b) / s2) (e * Rabs ((a - b) / s2))) by (eexists; split; [reflexivity|auto]).
  assert (e * Rabs ((a - b) / s2) <= / 4 * Rabs ((a - b) / s2)) by (apply Rmult_le_compat_r; auto).
  eapply close_weaken; [apply (round_from dt _ (Fin (x / s2)) _ _ (5 / 4 * Rabs ((a - b) / s2)) C)|]; auto; lra.
Qed.
Lemma gumbel_kl_close :
  close (fl_gumbel_kl dt L M lg (Fin g) (Fin l1) (Fin s1) (Fin l2) (Fin s2)) (ln s2 - ln s1 + eg * (r - 1) + (P - 1) + z)
    ((3 * k + 40) * e * W + 2 * (6 * e * u + tau) * P).
Proof.
  pose proof (eps_pos dt) as E0. pose proof (tiny_le_eps dt) as T. pose proof (Rabs_pos z) as Z0. pose proof (Rabs_pos G) as G0. assert (T0 : 0 <= tau) by (destruct HG as (x & _ & Hx); pose proof (Rabs_pos (x - G)); lra).
  assert (eu1 : e * 1 <= e * u) by (apply Rmult_le_compat_l; lra). assert (e24 : e <= / 24) by lra. assert (L1 : 1 <= logs s2 s1) by (unfold logs; pose proof (Rabs_pos (ln s1)); pose proof (Rabs_pos (ln s2)); lra).
  assert (r0 : 0 < r) by (apply Rdiv_lt_0_compat; auto). pose proof (exp_pos (- z + G)) as p0. assert (ke0 : 0 <= k * e) by (apply Rmult_le_pos; lra).
  assert (La : Rabs (ln s2 - ln s1) <= logs s2 s1 - 1). { unfold logs, Rminus. pose proof (Rabs_triang (ln s2) (- ln s1)) as Q. rewrite Rabs_Ropp in Q. lra. }
  unfold fl_gumbel_kl. destruct (log_diff dt k L s2 s1 k_pos k_ok HL R2 R1 P2 P1) as (d & -> & _ & Bd); [lra|].
  assert (C1 : close (Fin d) (ln s2 - ln s1) ((k + 5) * e * logs s2 s1)) by (exists d; auto).
  assert (C5 := signed_quotient l1 l2 Rl1 Rl2 range_l ltac:(lra)). assert (Ez : (l2 - l1) / s2 = - z) by (field; lra).
  assert (C5' : close (fdiv dt (fsub dt (Fin l2) (Fin l1)) (Fin s2)) (- z) (e * (9 / 4 * Rabs z + 1))).
  { pose proof (signed_quotient l2 l1 Rl2 Rl1) as Q. rewrite Ez, Rabs_Ropp, Rabs_minus_sym in Q. apply Q; lra. }
  assert (C2 : close (fdiv dt (Fin s1) (Fin s2)) r (e * (r + 1))).
  { unfold fdiv. rewrite xdiv_fin' by lra. pose proof (round_close dt r) as Q. rewrite (Rabs_pos_eq r) in Q by lra. apply Q. lra. }
  set (G' := lg (fadd dt (fdiv dt (Fin s1) (Fin s2)) (Fin 1))) in *. clearbody G'. set (a := ln s2 - ln s1) in *. clearbody a. set (lam := logs s2 s1) in *. clearbody lam. set (rr := r) in *. clearbody rr. set (zz := z) in *. clearbody zz.
  set (Q5 := fdiv dt (fsub dt (Fin l1) (Fin l2)) (Fin s2)) in *. clearbody Q5. set (Q5' := fdiv dt (fsub dt (Fin l2) (Fin l1)) (Fin s2)) in *. clearbody Q5'. set (Q2 := fdiv dt (Fin s1) (Fin s2)) in *. clearbody Q2.
  assert (er : 0 <= e * (rr + 1) <= / 24 * (rr + 1)) by (split; [apply Rmult_le_pos; lra|apply Rmult_le_compat_r; lra]).
  assert (er1 : e * 1 <= e * (rr + 1)) by (apply Rmult_le_compat_l; lra).
  (* the term with Euler's constant *)
  assert (C3 := close_sub dt _ _ _ _ _ _ (2 * (rr + 1)) C2 (close_exact 1) ltac:(rewrite Rabs_R1, (Rabs_pos_eq rr) by lra; lra) ltac:(lra)).
  apply (close_weaken _ _ _ (4 * (e * (rr + 1)))) in C3; [|lra].
  assert (Br : Rabs (rr - 1) <= rr + 1) by (apply Rabs_le; lra). pose proof (Rabs_pos (rr - 1)) as Br0.
  assert (Cg : close (Fin g) eg e) by (exists g; auto).
  assert (T4 : Rabs (eg * (rr - 1)) <= rr + 1). { rewrite Rabs_mult, (Rabs_pos_eq eg) by lra. apply Rle_trans with (1 * Rabs (rr - 1)); [apply Rmult_le_compat_r; lra|lra]. }
  assert (X1 : e * Rabs (rr - 1) <= e * (rr + 1)) by (apply Rmult_le_compat_l; lra). assert (X2 : 4 * (e * (rr + 1)) * Rabs eg <= 4 * (e * (rr + 1)) * 1) by (apply Rmult_le_compat_l; [lra|rewrite Rabs_pos_eq; lra]).
  assert (X3 : e * (4 * (e * (rr + 1))) <= / 24 * (4 * (e * (rr + 1)))) by (apply Rmult_le_compat_r; lra).
  assert (C4 := close_mul dt _ _ _ _ _ _ (2 * (rr + 1)) Cg C3 ltac:(lra) ltac:(lra)).
  apply (close_weaken _ _ _ (9 * (e * (rr + 1)))) in C4; [|lra].
  set (Q4 := fmul dt (Fin g) (fsub dt Q2 (Fin 1))) in *. clearbody Q4. set (t4 := eg * (rr - 1)) in *. clearbody t4.
  (* the exponential *)
  set (uu := Rabs zz + Rabs G + 1) in *. assert (eu : 0 <= e * uu <= / 24 * uu) by (split; [apply Rmult_le_pos; unfold uu; lra|apply Rmult_le_compat_r; unfold uu; lra]).
  assert (ez : 0 <= e * Rabs zz) by (apply Rmult_le_pos; lra). assert (eG : 0 <= e * Rabs G) by (apply Rmult_le_pos; lra). assert (euE : e * uu = e * Rabs zz + e * Rabs G + e) by (unfold uu; ring).
  assert (C6 := close_add dt _ _ _ _ _ _ (2 * uu) C5' HG ltac:(rewrite Rabs_Ropp; unfold uu in *; lra) ltac:(lra)).
  destruct C6 as (y & Ey & By). assert (Ry : repr dt y) by (apply fround_value in Ey; auto). rewrite Ey.
  assert (Dy : Rabs (y - (- zz + G)) <= 6 * e * uu + tau) by lra. clear By.
  set (X := - zz + G) in *. clearbody X. set (p := exp X) in *. set (dl := 6 * e * uu + tau) in *. assert (dl0 : 0 <= dl) by (pose proof (Rabs_pos (y - X)); lra).
  assert (Dp : Rabs (exp y - p) <= 2 * dl * p).
  { replace (exp y - p) with (p * (exp (y - X) - 1)). 2: { rewrite Rmult_minus_distr_l. unfold p at 1. rewrite <- exp_plus. replace (X + (y - X)) with y by ring. ring. }
    rewrite Rabs_mult, (Rabs_pos_eq p) by lra. assert (N : Rabs (exp (y - X) - 1) <= 2 * Rabs (y - X)) by (apply exp_near; lra). rewrite Rmult_comm. apply Rmult_le_compat_r; lra. }
  assert (dp : 0 <= dl * p <= / 4 * p) by (split; [apply Rmult_le_pos; lra|apply Rmult_le_compat_r; lra]). pose proof (exp_pos y) as y0. assert (Uy : exp y <= 3 / 2 * p) by (apply Rabs_le_inv in Dp; lra).
  assert (uz : Rabs zz + 1 <= uu) by (unfold uu; lra). clearbody p uu. destruct (HM y Ry) as (w & Ew & _ & Bw); [lra|]. set (WW := lam + rr + uu + p) in *.
  assert (eW : 0 <= e * WW) by (apply Rmult_le_pos; unfold WW; lra). assert (kW : 0 <= k * e * WW <= 1 * WW) by (split; [apply Rmult_le_pos; unfold WW; lra|apply Rmult_le_compat_r; unfold WW; lra]). assert (eW24 : e * WW <= / 24 * WW) by (apply Rmult_le_compat_r; unfold WW; lra).
  assert (u1 : 1 <= uu) by lra. assert (eW1 : e * 1 <= e * WW) by (apply Rmult_le_compat_l; unfold WW; lra).
  assert (C7 : close (M (Fin y)) (p - 1) (3 / 2 * (k * e * WW) + e * WW + 2 * dl * p)).
  { exists w. split; [auto|]. assert (Ay : Rabs (exp y - 1) <= 3 / 2 * WW) by (apply Rabs_le; unfold WW; lra). assert (k * e * Rabs (exp y - 1) <= k * e * (3 / 2 * WW)) by (apply Rmult_le_compat_l; auto).
    replace (w - (p - 1)) with ((w - (exp y - 1)) + (exp y - p)) by ring. eapply Rle_trans; [apply Rabs_triang|]. lra. }
  assert (kl : k * e * lam <= k * e * WW) by (apply Rmult_le_compat_l; unfold WW; lra). assert (el : e * lam <= e * WW) by (apply Rmult_le_compat_l; unfold WW; lra). assert (eru : e * (rr + 1) <= e * WW) by (apply Rmult_le_compat_l; unfold WW; lra). assert (eub : e * (9 / 4 * Rabs zz + 1) <= 9 / 4 * (e * WW)).
  { apply Rle_trans with (e * (9 / 4 * WW)); [apply Rmult_le_compat_l; unfold WW; lra|lra]. }
  assert (C8 := close_add dt _ _ _ _ _ _ (4 * WW) C1 C4 ltac:(unfold WW in *; lra) ltac:(unfold WW in *; lra)).
  apply (close_weaken _ _ _ (k * e * WW + 19 * (e * WW))) in C8; [|lra].
  assert (T8 : Rabs (a + t4) <= WW) by (eapply Rle_trans; [apply Rabs_triang|]; unfold WW; lra). assert (T7 : Rabs (p - 1) <= WW) by (apply Rabs_le; unfold WW; lra).
  assert (dpW : 2 * dl * p <= / 2 * WW) by (unfold WW; lra).
  assert (C9 := close_add dt _ _ _ _ _ _ (7 * WW) C8 C7 ltac:(lra) ltac:(unfold WW in *; lra)).
  apply (close_weaken _ _ _ (5 / 2 * (k * e * WW) + 28 * (e * WW) + 2 * dl * p)) in C9; [|lra].
  assert (T9 : Rabs (a + t4 + (p - 1)) <= 2 * WW) by (eapply Rle_trans; [apply Rabs_triang|]; lra). assert (Tz : Rabs zz <= WW) by (unfold WW; lra).
  assert (C10 := close_add dt _ _ _ _ _ _ (8 * WW) C9 C5 ltac:(lra) ltac:(unfold WW in *; lra)).
  eapply close_weaken; [exact C10|]. lra.
Qed.
(** The computed divergence is close to the KL divergence of the two densities. *)
Theorem C111_gumbel lgam : Spec.Gumbel.is_euler_mascheroni eg -> GammaFamily.is_lgamma lgam -> lgam (Fin (r + 1)) = Fin G ->
  exists K, Density.is_kl (Density.gumbel_density l1 s1) (Density.gumbel_density l2 s2) K /\
    close (fl_gumbel_kl dt L M lg (Fin g) (Fin l1) (Fin s1) (Fin l2) (Fin s2)) K ((3 * k + 40) * e * W + 2 * (6 * e * u + tau) * P).
Proof.
  intros Heu Hlg EG. destruct (Props.Gumbel.C51_gumbel_kl eg lgam l1 s1 l2 s2 P1 P2 Heu Hlg) as (K & EK & IK & _). exists K. split; [exact IK|].
  assert (K = ln s2 - ln s1 + eg * (r - 1) + (P - 1) + z) as ->; [|apply gumbel_kl_close].
  unfold ScalarDist.gumbel_kl in EK. cbn [xlog] in EK. rewrite !rlog_pos in EK by auto. rewrite !xdiv_fin' in EK by lra. rewrite !xsub_fin in EK. rewrite xdiv_fin' in EK by lra. rewrite xdiv_fin' in EK by lra. rewrite xadd_fin, EG in EK. cbn in EK. injection EK as <-.
  replace ((l2 - l1) / s2 + G) with (- z + G) by (field; lra). unfold Rminus, Rdiv. ring.
Qed.
End Close.
Print Assumptions C111_self.
Print Assumptions C111_equal_scales_nonnegative.
Print Assumptions C111_overflow_refuted.
Print Assumptions C111_gumbel.
From Verif Require Base.GammaFn.
From Verif Require Props.FloatViterbi Props.FloatCatInfo.
Lemma one_div x : x / 1 = x. Proof. field. Qed.
(** A concrete case in float32: locations 2 and 0, scale 1; correctly rounded log, expm1, lgamma and constant. *)
Example C111_float32 : exists eg lgam K, Spec.Gumbel.is_euler_mascheroni eg /\ GammaFamily.is_lgamma lgam /\
  Density.is_kl (Density.gumbel_density 2 1) (Density.gumbel_density 0 1) K /\
  let L a := fround float32 (xlog a) in let M a := fround float32 (xsub (xexp a) (Fin 1)) in let lg a := fround float32 (lgam a) in
  close (fl_gumbel_kl float32 L M lg (Fin (rnd float32 eg)) (Fin 2) (Fin 1) (Fin 0) (Fin 1)) K (/ 2 ^ 14) /\
  fle (Fin 0) (fl_gumbel_kl float32 L M lg (Fin (rnd float32 eg)) (Fin 2) (Fin 1) (Fin 0) (Fin 1)) /\
  fl_gumbel_kl float32 L M lg (Fin (rnd float32 eg)) (Fin 2) (Fin 1) (Fin 2) (Fin 1) = Fin 0.
Proof.
  destruct Props.Gumbel.C51_nonvacuous as (eg & _ & Heu & Beg & _).
  assert (Hlg : GammaFamily.is_lgamma (fun x => match x with Fin a => Fin (ln (GammaFamily.Gamma_fn a)) | _ => NaN end)) by (intros a _; reflexivity).
  set (lgam := fun x => match x with Fin a => Fin (ln (GammaFamily.Gamma_fn a)) | _ => NaN end) in *.
  assert (E2 : lgam (Fin 2) = Fin 0). { cbn [lgam]. replace 2 with (1 + 1) by ring. change (GammaFamily.Gamma_fn (1 + 1)) with (GammaFn.Gam (1 + 1)). rewrite (GammaFn.Gam_S 1), GammaFn.Gam_1, Rmult_1_r, ln_1 by lra. reflexivity. }
  pose proof Props.FloatViterbi.eps32 as E32. pose proof Props.FloatCatInfo.tiny32 as T. pose proof Props.FloatCatInfo.max32 as M0. assert (M' : 1048576 <= maxpow float32) by (cbn [pow] in M0; lra). clear M0.
  assert (T' : / 2 ^ 60 <= / 2 ^ 24) by (apply Rinv_le_contravar; [apply pow_lt; lra|apply Rle_pow; [lra|lia]]). assert (P24 : / 2 ^ 24 = / 1024 * / 16384) by (cbn; field).
  assert (R1 : repr float32 1) by apply repr_1. assert (R0 : repr float32 0) by apply repr_0. assert (R2 : repr float32 2) by (change 2 with (bpow radix2 1); apply repr_pow; cbn; unfold emin; cbn; lia).
  set (L := fun a => fround float32 (xlog a)). set (M := fun a => fround float32 (xsub (xexp a) (Fin 1))). set (lg := fun a => fround float32 (lgam a)). set (g := rnd float32 eg).
  assert (EL : L (Fin 1) = Fin 0) by (unfold L; cbn [xlog]; rewrite rlog_pos, ln_1 by lra; apply fround_0).
  assert (Elg : lg (Fin 2) = Fin 0) by (unfold lg; rewrite E2; apply fround_0).
  assert (HM : accurate float32 1 M (fun x => exp x - 1) (fun x => exp x <= maxpow float32 / 2)).
  { intros x Rx Hx. unfold M. cbn [xexp]. rewrite xsub_fin. pose proof (exp_pos x). destruct (round_fin float32 (exp x - 1)) as (w & -> & Rw & _ & Qw); [apply Rabs_le; lra|]. exists w. split; [auto|]. split; [auto|]. subst w. rewrite Rmult_1_l. apply Props.FloatCatInfo.rnd_rel. }
  assert (Q : fdiv float32 (fsub float32 (Fin 2) (Fin 0)) (Fin 1) = Fin 2) by (unfold fsub; rewrite xsub_fin, Rminus_0_r, (fround_repr float32 2 R2); unfold fdiv; rewrite xdiv_fin', one_div by lra; apply fround_repr; auto).
  exists eg, lgam.
  destruct (C111_gumbel float32 1 L M lg g eg 0 0 2 1 0 1) with (lgam := lgam) as (K & IK & C); auto; try lra.
  - apply (log_accurate float32).
  - pose proof (eps_pos float32). pose proof (eps_le float32). unfold g. destruct (Rle_lt_dec (tiny float32) (Rabs eg)) as [Ht|Ht].
    + pose proof (rnd_err float32 eg Ht) as B. rewrite (Rabs_pos_eq eg) in * by lra. assert (eps float32 * eg <= eps float32 * 1) by (apply Rmult_le_compat_l; lra). lra.
    + pose proof (rnd_err_sub float32 eg Ht) as B. pose proof (sub_le_tiny float32). pose proof (tiny_le_eps float32). lra.
  - assert (fdiv float32 (Fin 1) (Fin 1) = Fin 1) as -> by (unfold fdiv; rewrite xdiv_fin', one_div by lra; apply fround_repr; auto). unfold fadd. rewrite xadd_fin. replace (1 + 1) with 2 by ring. rewrite (fround_repr float32 2 R2), Elg. apply close_exact.
  - replace ((2 - 0) / 1) with 2 by field. rewrite Rabs_R0, (Rabs_pos_eq 2), E32 by lra. lra.
  - replace ((2 - 0) / 1) with 2 by field. rewrite Rabs_R0, (Rabs_pos_eq 2) by lra. unfold logs. rewrite ln_1, Rabs_R0. assert (exp (- (2) + 0) <= 1) by (rewrite <- exp_0; left; apply exp_increasing; lra). lra.
  - rewrite Rminus_0_r, Rabs_pos_eq; lra.
  - replace (1 / 1 + 1) with 2 by field. exact E2.
  - exists K. split; [auto|]. split; [auto|]. split; [auto|]. split; [|split].
    + eapply close_weaken; [exact C|]. replace ((2 - 0) / 1) with 2 by field. rewrite Rabs_R0, (Rabs_pos_eq 2) by lra. unfold logs. rewrite ln_1, Rabs_R0. replace (1 / 1) with 1 by field. assert (B : exp (- (2) + 0) <= 1) by (rewrite <- exp_0; left; apply exp_increasing; lra). pose proof (exp_pos (- (2) + 0)).
      rewrite E32. assert (P14 : / 2 ^ 14 = 1024 * / 2 ^ 24) by (cbn; field). rewrite P14. assert (0 < / 2 ^ 24) by (apply Rinv_0_lt_compat, pow_lt; lra). set (p := exp (- (2) + 0)) in *. clearbody p. nra.
    + apply (C111_equal_scales_nonnegative float32 L M lg g 1 0) with (q := 2); auto; try lra.
      intros x Rx. unfold M. cbn [xexp]. rewrite xsub_fin. rewrite <- (fround_repr float32 x Rx) at 1. apply fround_mono, fle_fin. pose proof (exp_ineq1_le x). lra.
    + apply (C111_self float32 L M lg g 1 0); auto; try lra. unfold M. cbn [xexp]. rewrite exp_0, xsub_fin, Rminus_diag_eq by auto. apply fround_0.
Qed.
Print Assumptions C111_float32.
