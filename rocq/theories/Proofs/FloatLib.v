(** Correctly rounded elementary functions satisfy the assumptions of Spec/Rounding.v. *)
From Coq Require Import Reals List Bool Lra Lia ZArith.
From Flocq Require Import Core.
From Verif Require Import Base.XR Base.Float Spec.Rounding Proofs.FloatOrder.
Import ListNotations.
Local Open Scope R_scope.

Section L.
Variable dt : dtype.
Lemma ln2_bounds : 0 < ln 2 < 1.
Proof.
  split; [rewrite <- ln_1; apply ln_increasing; lra|]. apply exp_lt_inv. rewrite exp_ln by lra.
  pose proof (exp_ineq1 1 ltac:(lra)). lra.
Qed.
Lemma pow2_ge n : (5 <= n)%nat -> 2 * INR n <= 2 ^ (n - 1).
Proof.
  intros H. replace n with (5 + (n - 5))%nat by lia. generalize (n - 5)%nat as k. clear n H. intros k.
  replace (5 + k - 1)%nat with (4 + k)%nat by lia. induction k as [|k IH]; [cbn; lra|].
  replace (4 + S k)%nat with (S (4 + k)) by lia. replace (5 + S k)%nat with (S (5 + k)) by lia. rewrite S_INR. cbn [pow] in *.
  assert (1 <= 2 ^ k) by (apply pow_R1_Rle; lra). cbn [pow plus] in *. lra.
Qed.
Lemma emax_small : 2 * IZR (emax dt) <= bpow radix2 (emax dt - 1).
Proof.
  pose proof (mant_ok dt); pose proof (exp_ok dt). pose proof (pow2_ge (Z.to_nat (emax dt)) ltac:(lia)) as P.
  rewrite INR_IZR_INZ, Z2Nat.id in P by lia. apply Rle_trans with (1 := P). right.
  replace (emax dt - 1)%Z with (Z.of_nat (Z.to_nat (emax dt) - 1)) by lia.
  rewrite bpow_powerRZ. rewrite <- pow_powerRZ. reflexivity.
Qed.
Lemma half_max_repr : repr dt (bpow radix2 (emax dt - 1)).
Proof.
  pose proof (mant_ok dt); pose proof (exp_ok dt).
  split; [apply F_bpow; unfold emin; lia|]. rewrite Rabs_pos_eq by apply bpow_ge_0. apply bpow_lt. lia.
Qed.
Lemma repr_opp x : repr dt x -> repr dt (- x).
Proof. intros [F B]. split; [apply F_opp; auto|rewrite Rabs_Ropp; auto]. Qed.
Lemma repr_min x : repr dt x -> 0 < x -> bpow radix2 (emin dt) <= x.
Proof.
  intros [F _] P. apply Rnot_lt_le. intros L.
  assert (C := generic_format_ge_bpow radix2 (fexp dt) (emin dt)). apply (Rlt_not_le _ _ L). apply C; auto.
  intros e. unfold fexp, FLT_exp. lia.
Qed.
Lemma ln_bpow e : ln (bpow radix2 e) = IZR e * ln 2.
Proof.
  rewrite bpow_powerRZ. destruct e as [|p|p]; cbn [powerRZ].
  - rewrite ln_1. lra.
  - rewrite ln_pow by (cbn; lra). rewrite INR_IZR_INZ, positive_nat_Z. reflexivity.
  - rewrite ln_Rinv by (apply pow_lt; cbn; lra). rewrite ln_pow by (cbn; lra). rewrite INR_IZR_INZ, positive_nat_Z. cbn [radix_val radix2].
    change (IZR (Z.neg p)) with (IZR (- Z.pos p)). rewrite opp_IZR. cbn; lra.
Qed.
Lemma ln_repr x : repr dt x -> 0 < x -> - bpow radix2 (emax dt - 1) <= ln x <= bpow radix2 (emax dt - 1).
Proof.
  intros R P. pose proof (repr_min x R P) as L. destruct R as [F B]. rewrite Rabs_pos_eq in B by lra.
  pose proof (mant_ok dt); pose proof (exp_ok dt). pose proof ln2_bounds as L2. pose proof emax_small as Em.
  assert (E5 : 5 <= IZR (emax dt)) by (apply IZR_le; lia).
  assert (U : ln x < ln (maxpow dt)) by (apply ln_increasing; auto).
  unfold maxpow in U. rewrite ln_bpow in U.
  assert (D : ln (bpow radix2 (emin dt)) <= ln x).
  { destruct L as [L|L]; [left; apply ln_increasing; auto; apply bpow_gt_0|rewrite L; lra]. }
  rewrite ln_bpow in D. unfold emin in D.
  assert (D' : - (2 * IZR (emax dt)) <= IZR (3 - emax dt - mant dt)) by (rewrite <- mult_IZR, <- opp_IZR; apply IZR_le; lia).
  split; nra.
Qed.
Lemma log_rounded : log_fn dt (fun a => fround dt (xlog a)).
Proof.
  assert (Fi : forall x, 0 < x -> repr dt x -> exists r, fround dt (xlog (Fin x)) = Fin r /\ repr dt r /\ Rabs r <= bpow radix2 (emax dt - 1)).
  { intros x P R. cbn [xlog]. rewrite rlog_pos by auto.
    destruct (fround_between dt (ln x) _ _ (repr_opp _ half_max_repr) half_max_repr (ln_repr x R P)) as (-> & B & Q).
    eexists. split; [reflexivity|]. split; [auto|]. apply Rabs_le. lra. }
  constructor; auto.
  - cbn [xlog]. rewrite rlog_pos, ln_1 by lra. apply fround_0.
  - intros x y P Rx Ry L. apply fround_mono. cbn [xlog]. rewrite !rlog_pos by lra. apply fle_fin.
    destruct L as [L|<-]; [left; apply ln_increasing; auto|lra].
  - cbn [xlog]. rewrite rlog_0. reflexivity.
Qed.
Lemma exp_rounded : exp_fn dt (fun a => fround dt (xexp a)).
Proof.
  constructor; try reflexivity.
  - intros x _. unfold value. destruct (fround dt (xexp x)) eqn:Q; auto. apply (fround_value dt _ _ Q).
  - cbn [xexp]. rewrite exp_0. apply fround_repr, repr_1.
  - intros x y _ _ L. apply fround_mono. destruct x, y; try discriminate L; try reflexivity.
    + apply fle_fin in L. apply fle_fin. destruct L as [L|<-]; [left; apply exp_increasing; auto|lra].
    + apply fle_fin. left; apply exp_pos.
    + apply fle_fin. lra.
  - apply fround_0.
Qed.
(** log(1 + exp x) *)
Definition xsoftplus (a : XR) : XR := xlog (xadd (Fin 1) (xexp a)).
Lemma softplus_le x : ln (1 + exp x) <= Rmax x 0 + ln 2.
Proof.
  pose proof (exp_pos x). unfold Rmax. destruct (Rle_dec x 0) as [L|L].
  - rewrite Rplus_0_l. assert (exp x <= 1) by (rewrite <- exp_0; destruct L as [L| ->]; [left; apply exp_increasing; auto|lra]).
    destruct (Req_dec (1 + exp x) 2) as [-> |]; [lra|]. left; apply ln_increasing; lra.
  - rewrite <- (ln_exp x) at 2. rewrite <- ln_mult by lra. left. assert (1 < exp x) by (rewrite <- exp_0; apply exp_increasing; lra).
    apply ln_increasing; lra.
Qed.
Lemma softplus_rounded : softplus_fn dt (fun a => fround dt (xsoftplus a)).
Proof.
  assert (V : forall x, xsoftplus (Fin x) = Fin (ln (1 + exp x))).
  { intros x. unfold xsoftplus. cbn [xexp xadd xlog]. apply rlog_pos. pose proof (exp_pos x). lra. }
  assert (Po : forall x, 0 <= ln (1 + exp x)).
  { intros x. rewrite <- ln_1. left. apply ln_increasing; [lra|]. pose proof (exp_pos x). lra. }
  constructor.
  - intros x [Fx Bx]. rewrite V. pose proof (softplus_le x) as U. pose proof ln2_bounds as L2.
    pose proof (mant_ok dt) as M1; pose proof (exp_ok dt) as M2.
    assert (K : exists b, repr dt b /\ rnd dt (ln (1 + exp x)) <= b).
    { destruct (Rle_lt_dec x (bpow radix2 (emax dt - 1))) as [L|L].
      - exists (3 * bpow radix2 (emax dt - 2)). pose proof (bpow_gt_0 radix2 (emax dt - 2)) as B0.
        assert (E1 : bpow radix2 (emax dt - 1) = 2 * bpow radix2 (emax dt - 2)).
        { replace (emax dt - 1)%Z with (emax dt - 2 + 1)%Z by lia. rewrite bpow_plus. change (bpow radix2 1) with 2. ring. }
        assert (R3 : repr dt (3 * bpow radix2 (emax dt - 2))).
        { split.
          - apply generic_format_FLT. exists (Defs.Float radix2 3 (emax dt - 2)); cbn [Fnum Fexp]; [reflexivity| |unfold emin; lia].
            apply Z.lt_le_trans with (2 ^ 3)%Z; [reflexivity|]. change (radix_val radix2) with 2%Z. apply Z.pow_le_mono_r; lia.
          - rewrite Rabs_pos_eq by lra. unfold maxpow. replace (emax dt) with (emax dt - 2 + 2)%Z at 2 by lia. rewrite bpow_plus. change (bpow radix2 2) with 4. lra. }
        split; [auto|]. apply rnd_le_F; [apply R3|].
        assert (1 <= bpow radix2 (emax dt - 2)) by (change 1 with (bpow radix2 0); apply bpow_le; lia).
        assert (Rmax x 0 <= 2 * bpow radix2 (emax dt - 2)) by (apply Rmax_lub; lra). lra.
      - exists x. split; [split; auto|]. pose proof (bpow_gt_0 radix2 (emax dt - 1)) as B0.
        apply (round_N_le_midp radix2 (fexp dt) (fun t => negb (Z.even t))); auto.
        rewrite succ_eq_pos by lra. pose proof (ulp_FLT_gt radix2 (emin dt) (mant dt) x) as G. fold (fexp dt) in G.
        rewrite Rabs_pos_eq in G by lra.
        assert (2 <= bpow radix2 (- mant dt) * bpow radix2 (emax dt - 1)).
        { rewrite <- bpow_plus. change 2 with (bpow radix2 1). apply bpow_le. lia. }
        assert (bpow radix2 (- mant dt) * bpow radix2 (emax dt - 1) < bpow radix2 (- mant dt) * x).
        { apply Rmult_lt_compat_l; [apply bpow_gt_0|auto]. }
        rewrite Rmax_left in U by lra. lra. }
    destruct K as (b & Rb & Lb). pose proof (rnd_nonneg dt _ (Po x)) as N0.
    pose proof (fround_ok dt _ _ _ (repr_0 dt) Rb (conj N0 Lb)) as Q. exists (rnd dt (ln (1 + exp x))). split; [auto|].
    split; [apply (fround_value dt _ _ Q)|]. split; [auto|]. apply rnd_ge_F; auto.
    rewrite <- (ln_exp x) at 1. left. apply ln_increasing; [apply exp_pos|lra].
  - intros x y _ _ L. apply fround_mono. rewrite !V. apply fle_fin. destruct L as [L|<-]; [|lra].
    left. apply ln_increasing; [pose proof (exp_pos x); lra|]. pose proof (exp_increasing _ _ L). lra.
  - unfold xsoftplus. cbn [xexp xadd xlog]. rewrite rlog_pos by lra. replace (1 + 0) with 1 by lra. rewrite ln_1. apply fround_0.
  - reflexivity.
Qed.
End L.
