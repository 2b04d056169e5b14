(** C87: Quantized in floating point. *)
From Coq Require Import Reals List Bool Lra Lia ZArith.
From Flocq Require Import Core.
From Verif Require Import Base.XR Base.Float Model.FloatQuantized Spec.Rounding Proofs.FloatOrder Proofs.FloatLib.
Import ListNotations.
Local Open Scope R_scope.

Section C87.
Variable dt : dtype.
Notation FF := (generic_format radix2 (fexp dt)).

Lemma F_int k : (Z.abs k <= 2 ^ mant dt)%Z -> repr dt (IZR k).
Proof.
  intros B. pose proof (mant_ok dt) as M1. pose proof (exp_ok dt) as M2. split.
  - destruct (Z.eq_dec (Z.abs k) (2 ^ mant dt)) as [Q|Q].
    + assert (A : Rabs (IZR k) = bpow radix2 (mant dt)).
      { rewrite <- abs_IZR, Q. rewrite <- IZR_Zpower by lia. reflexivity. }
      apply generic_format_abs_inv. rewrite A. apply F_bpow. unfold emin. lia.
    + apply generic_format_FLT. exists (Defs.Float radix2 k 0); cbn [Fnum Fexp].
      * unfold F2R. cbn [Fnum Fexp]. cbn [bpow]. lra.
      * change (radix_val radix2) with 2%Z. lia.
      * unfold emin. lia.
  - rewrite <- abs_IZR. apply Rle_lt_trans with (bpow radix2 (mant dt)); [|apply bpow_lt; lia].
    rewrite <- IZR_Zpower by lia. apply IZR_le. exact B.
Qed.
(** representable numbers of magnitude at least 2^mant are integers *)
Lemma large_int x : FF x -> bpow radix2 (mant dt) <= Rabs x -> exists k, x = IZR k.
Proof.
  intros Fx L. assert (C : (0 <= cexp radix2 (fexp dt) x)%Z).
  { unfold cexp, fexp, FLT_exp. pose proof (mag_ge_bpow radix2 x (mant dt + 1)) as M.
    replace (mant dt + 1 - 1)%Z with (mant dt) in M by lia. specialize (M L). lia. }
  rewrite Fx. unfold F2R. cbn [Fnum Fexp].
  exists (Ztrunc (scaled_mantissa radix2 (fexp dt) x) * radix2 ^ cexp radix2 (fexp dt) x)%Z.
  rewrite mult_IZR, IZR_Zpower by auto. reflexivity.
Qed.
Lemma ceil_repr x : repr dt x -> repr dt (IZR (Zceil x)).
Proof.
  intros [Fx Bx]. destruct (Rle_lt_dec (bpow radix2 (mant dt)) (Rabs x)) as [L|L].
  - destruct (large_int x Fx L) as (k & ->). rewrite Zceil_IZR. split; auto.
  - apply F_int. apply Rabs_def2 in L as [L1 L2]. pose proof (mant_ok dt).
    assert (E2 : bpow radix2 (mant dt) = IZR (2 ^ mant dt)) by (rewrite <- IZR_Zpower by lia; reflexivity). rewrite E2 in *.
    assert (Zceil x <= 2 ^ mant dt)%Z by (apply Zceil_glb; lra).
    assert (- 2 ^ mant dt <= Zceil x)%Z.
    { apply le_IZR. rewrite opp_IZR. apply Rle_trans with x; [lra|apply Zceil_ub]. }
    lia.
Qed.
Lemma sub_one_exact k : (- 2 ^ mant dt < k <= 2 ^ mant dt)%Z -> fsub dt (Fin (IZR k)) (Fin 1) = Fin (IZR (k - 1)).
Proof. intros H. unfold fsub. rewrite xsub_fin, <- minus_IZR. apply fround_repr, F_int. lia. Qed.
(** beyond 2^(mant+1), subtracting one changes nothing *)
Lemma ulp_big x : bpow radix2 (mant dt + 1) <= x -> 4 <= ulp radix2 (fexp dt) x.
Proof.
  intros L. pose proof (bpow_gt_0 radix2 (mant dt + 1)). rewrite ulp_neq_0 by lra. change 4 with (bpow radix2 2). apply bpow_le.
  unfold cexp, fexp, FLT_exp. pose proof (mag_ge_bpow radix2 x (mant dt + 2)) as M.
  replace (mant dt + 2 - 1)%Z with (mant dt + 1)%Z in M by lia. rewrite Rabs_pos_eq in M by lra. specialize (M L). lia.
Qed.
Lemma sub_one_lost y : repr dt y -> bpow radix2 (mant dt + 1) < Rabs y -> fsub dt (Fin y) (Fin 1) = Fin y.
Proof.
  intros [Fy By] L. unfold fsub. rewrite xsub_fin. pose proof (bpow_gt_0 radix2 (mant dt + 1)) as B0.
  pose proof (mant_ok dt) as M1. pose proof (exp_ok dt) as M2.
  assert (E1 : rnd dt (y - 1) = y).
  { unfold Rabs in L. destruct (Rcase_abs y) as [N|P].
    - assert (K : rnd dt (- y + 1) = - y); [|replace (y - 1) with (- (- y + 1)) by lra; rewrite rnd_opp, K; lra].
      apply Rle_antisym; [|apply rnd_ge_F; [apply F_opp; auto|lra]].
      apply (round_N_le_midp radix2 (fexp dt) (fun t => negb (Z.even t))); [apply F_opp; auto|].
      rewrite succ_eq_pos by lra. pose proof (ulp_big (- y) ltac:(lra)). lra.
    - apply Rle_antisym; [apply rnd_le_F; auto; lra|].
      apply (round_N_ge_midp radix2 (fexp dt) (fun t => negb (Z.even t))); auto.
      set (b := bpow radix2 (mant dt + 1)) in *. assert (Fb : FF b) by (apply F_bpow; unfold emin; lia).
      assert (Pb : b <= pred radix2 (fexp dt) y) by (apply pred_ge_gt; auto; typeclasses eauto).
      assert (Sp : succ radix2 (fexp dt) (pred radix2 (fexp dt) y) = y) by (apply succ_pred; auto; typeclasses eauto).
      rewrite succ_eq_pos in Sp by lra. pose proof (ulp_big _ Pb). lra. }
  cbn [fround]. rewrite E1. destruct (Rlt_dec _ _); [reflexivity|contradiction].
Qed.

(** A sample is an integer of the dtype; without bounds the least one above the base sample; with
    integer bounds it lies between them, and is the same integer unless that is outside. *)
Definition int_bound (b : option XR) : Prop := match b with Some l => exists k, l = Fin (IZR k) /\ repr dt (IZR k) | None => True end.
Theorem C87_sample x low high :
  repr dt x -> int_bound low -> int_bound high ->
  (forall l h, low = Some l -> high = Some h -> fle l h) ->
  exists k, fl_q_sample low high (Fin x) = Fin (IZR k) /\ repr dt (IZR k) /\
    (forall l, low = Some l -> fle l (Fin (IZR k))) /\ (forall h, high = Some h -> fle (Fin (IZR k)) h) /\
    (IZR k - 1 < x <= IZR k \/ low = Some (Fin (IZR k)) /\ x <= IZR k \/ high = Some (Fin (IZR k)) /\ IZR k < x).
Proof.
  intros Rx Hl Hh Hlh. set (c := Zceil x). assert (Rc : repr dt (IZR c)) by (apply ceil_repr, Rx).
  assert (C1 : x <= IZR c) by apply Zceil_ub.
  assert (C2 : IZR c - 1 < x). { unfold c. pose proof (Zceil_lb x). lra. }
  assert (S1 : exists k, match low with Some l => if xltb (Fin (IZR c)) l then l else Fin (IZR c) | None => Fin (IZR c) end = Fin (IZR k) /\ repr dt (IZR k) /\
     (forall l, low = Some l -> fle l (Fin (IZR k))) /\ (k = c \/ low = Some (Fin (IZR k)) /\ (c < k)%Z)).
  { destruct low as [l|]; [|exists c; repeat split; auto; try apply Rc; discriminate]. destruct Hl as (kl & -> & Rl).
    destruct (xltb (Fin (IZR c)) (Fin (IZR kl))) eqn:Q.
    - apply xltb_fin in Q. exists kl. repeat split; try apply Rl; [intros l [= <-]; apply fle_fin; lra|]. right. split; auto. apply lt_IZR; auto.
    - apply xltb_fin_f in Q. exists c. repeat split; try apply Rc; auto. intros l [= <-]. apply fle_fin; auto. }
  destruct S1 as (k1 & E1 & R1 & B1 & D1). unfold fl_q_sample. cbn [fl_ceil]. fold c. rewrite E1.
  assert (Base : IZR k1 - 1 < x <= IZR k1 \/ low = Some (Fin (IZR k1)) /\ x <= IZR k1).
  { destruct D1 as [-> |[-> Lt]]; [auto|]. right. split; auto. apply IZR_lt in Lt. lra. }
  destruct high as [h|].
  - destruct Hh as (kh & -> & Rh). destruct (xltb (Fin (IZR kh)) (Fin (IZR k1))) eqn:Q.
    + apply xltb_fin in Q. exists kh. split; auto. split; auto. split; [|split].
      * intros l El. apply (Hlh l _ El eq_refl).
      * intros h [= <-]. apply fle_fin; lra.
      * right; right. split; auto. destruct D1 as [-> |[El _]].
        -- apply lt_IZR in Q. assert (IZR (kh + 1) <= IZR c) by (apply IZR_le; lia). rewrite plus_IZR in H. lra.
        -- exfalso. pose proof (Hlh _ _ El eq_refl) as K. apply fle_fin in K. lra.
    + apply xltb_fin_f in Q. exists k1. split; auto. split; auto. split; auto. split; [intros h [= <-]; apply fle_fin; auto|]. tauto.
  - exists k1. split; auto. split; auto. split; auto. split; [discriminate|]. tauto.
Qed.

(** [G] takes values in [0, 1] that are floats *)
Definition tail_fn (G : XR -> XR) : Prop := forall k, exists r, G (Fin (IZR k)) = Fin r /\ repr dt r /\ 0 <= r <= 1.
Section Prob.
Variables F S : XR -> XR.
Hypothesis HF : tail_fn F.
Hypothesis HS : tail_fn S.
Variables low high : option XR.
Hypothesis Hlow : int_bound low.
Hypothesis Hhigh : int_bound high.

Lemma q_cdf_int k : exists r, fl_q_cdf F low high (Fin (IZR k)) = Fin r /\ repr dt r /\ 0 <= r <= 1.
Proof.
  unfold fl_q_cdf. cbn [fl_floor]. rewrite Zfloor_IZR. destruct (HF k) as (r & Er & Rr & B). rewrite Er.
  destruct low, high; repeat destruct (xltb _ _); eauto using repr_0, repr_1; (exists 0 + exists 1 + exists r); (split; [reflexivity|split; [(apply repr_0 + apply repr_1 + exact Rr)|lra]]).
Qed.
Lemma q_sf_int k : exists r, fl_q_sf S low high (Fin (IZR k)) = Fin r /\ repr dt r /\ 0 <= r <= 1.
Proof.
  unfold fl_q_sf. cbn [fl_floor]. rewrite Zfloor_IZR. destruct (HS k) as (r & Er & Rr & B). rewrite Er.
  destruct low, high; repeat destruct (xltb _ _); eauto using repr_0, repr_1; (exists 0 + exists 1 + exists r); (split; [reflexivity|split; [(apply repr_0 + apply repr_1 + exact Rr)|lra]]).
Qed.
(** Below the lower bound the cdf is 0 and the survival function 1, from the upper bound on it is the
    other way round, in between both are the base's at the integer below. *)
Theorem C87_cdf y : (forall l h, low = Some l -> high = Some h -> fle l h) ->
  (forall l, low = Some (Fin l) -> y < l -> fl_q_cdf F low high (Fin y) = Fin 0 /\ fl_q_sf S low high (Fin y) = Fin 1) /\
  (forall h, high = Some (Fin h) -> h <= y -> fl_q_cdf F low high (Fin y) = Fin 1 /\ fl_q_sf S low high (Fin y) = Fin 0) /\
  ((forall l, low = Some (Fin l) -> l <= y) -> (forall h, high = Some (Fin h) -> y < h) ->
   fl_q_cdf F low high (Fin y) = F (Fin (IZR (Zfloor y))) /\ fl_q_sf S low high (Fin y) = S (Fin (IZR (Zfloor y)))).
Proof.
  intros Hlh. pose proof (Zfloor_lb y) as Lb. unfold fl_q_cdf, fl_q_sf. cbn [fl_floor].
  assert (Fl : forall z, IZR z <= y -> xltb (Fin (IZR (Zfloor y))) (Fin (IZR z)) = false).
  { intros z Hz. apply xltb_fin_f, IZR_le, Zfloor_lub, Hz. }
  assert (Ft : forall l, y < l -> xltb (Fin (IZR (Zfloor y))) (Fin l) = true) by (intros l Hl; apply xltb_fin; lra).
  split; [|split].
  - intros l El Hl. rewrite El, (Ft l Hl). destruct high as [h|] eqn:Eh; [|auto].
    destruct Hhigh as (z & -> & _). pose proof (Hlh _ _ El eq_refl) as K. apply fle_fin in K. rewrite Ft by lra. auto.
  - intros h Eh Hh. rewrite Eh in Hhigh |- *. destruct Hhigh as (z & [= ->] & _). rewrite Fl by exact Hh. auto.
  - intros Hl Hh. destruct low as [l|]; [destruct Hlow as (z & -> & _); rewrite Fl by (apply Hl; reflexivity)|];
      (destruct high as [h|]; [destruct Hhigh as (z' & -> & _); rewrite Ft by (apply Hh; reflexivity)|]); auto.
Qed.
(** Up to 2^mant, the probability of an integer is the difference of the cdf at that integer and at
    the one before, or of the survival functions, with a single rounding: nothing is lost in
    [value - 1].  It is nonnegative if these functions are monotone. *)
Theorem C87_prob k :
  (- 2 ^ mant dt < k <= 2 ^ mant dt)%Z ->
  exists c c' s s', fl_q_cdf F low high (Fin (IZR k)) = Fin c /\ fl_q_cdf F low high (Fin (IZR (k - 1))) = Fin c' /\
    fl_q_sf S low high (Fin (IZR k)) = Fin s /\ fl_q_sf S low high (Fin (IZR (k - 1))) = Fin s' /\
    exists q, fl_q_prob dt F S low high (Fin (IZR k)) = Fin q /\
      (q = rnd dt (c - c') /\ c <= s \/ q = rnd dt (s' - s) /\ s < c) /\
      (c' <= c -> s <= s' -> 0 <= q <= 1).
Proof.
  intros Hk. destruct (q_cdf_int k) as (c & Ec & Rc & Bc). destruct (q_cdf_int (k - 1)) as (c' & Ec' & Rc' & Bc').
  destruct (q_sf_int k) as (s & Es & Rs & Bs). destruct (q_sf_int (k - 1)) as (s' & Es' & Rs' & Bs').
  exists c, c', s, s'. do 4 (split; [auto|]). unfold fl_q_prob. rewrite sub_one_exact by auto. cbv zeta. rewrite Ec, Ec', Es, Es'.
  cbn [fl_floor]. rewrite Zfloor_IZR. destruct (xltb (Fin (IZR k)) (Fin (IZR k))) eqn:Q; [apply xltb_fin in Q; lra|clear Q].
  assert (Z : forall a b, 0 <= a <= 1 -> 0 <= b <= 1 -> fsub dt (Fin a) (Fin b) = Fin (rnd dt (a - b)) /\ (b <= a -> 0 <= rnd dt (a - b) <= 1)).
  { intros a b A B. unfold fsub. rewrite xsub_fin.
    destruct (fround_between dt (a - b) (- (1)) 1 (repr_opp dt _ (repr_1 dt)) (repr_1 dt) ltac:(lra)) as (-> & [_ U] & _).
    split; [reflexivity|]. intros L. split; [apply rnd_nonneg; lra|auto]. }
  destruct (xltb (Fin s) (Fin c)) eqn:Q.
  - apply xltb_fin in Q. destruct (Z s' s Bs' Bs) as (-> & N). exists (rnd dt (s' - s)). split; auto.
  - apply xltb_fin_f in Q. destruct (Z c c' Bc Bc') as (-> & N). exists (rnd dt (c - c')). split; auto.
Qed.
(** Above 2^(mant + 1) the probability of every value is 0, although it can be drawn: a base sample
    of that size is its own quantisation. *)
Theorem C87_large_values_refuted y :
  repr dt y -> bpow radix2 (mant dt + 1) < Rabs y ->
  fl_q_prob dt F S low high (Fin y) = Fin 0 /\ fl_q_sample None None (Fin y) = Fin y.
Proof.
  intros Ry L. assert (I : exists k, y = IZR k).
  { apply large_int; [apply Ry|]. apply Rle_trans with (bpow radix2 (mant dt + 1)); [apply bpow_le; lia|lra]. }
  destruct I as (k & ->). split.
  - unfold fl_q_prob. rewrite sub_one_lost by auto. cbv zeta. destruct (q_cdf_int k) as (c & -> & _). destruct (q_sf_int k) as (s & -> & _).
    assert (Z : forall a, fsub dt (Fin a) (Fin a) = Fin 0) by (intros a; unfold fsub; rewrite xsub_fin, Rminus_diag_eq by auto; apply fround_0).
    rewrite !Z. destruct (xltb (Fin s) (Fin c)); destruct (xltb _ _); reflexivity.
  - unfold fl_q_sample. cbn [fl_ceil]. rewrite Zceil_IZR. reflexivity.
Qed.
End Prob.
End C87.

(** Concrete: float32, bounds 0 and 255, and the value 2^26. *)
Example C87_example :
  tail_fn float32 (fun a => if xltb a (Fin 7) then Fin 0 else Fin 1) /\ int_bound float32 (Some (Fin 0)) /\ int_bound float32 (Some (Fin 255)) /\
  (- 2 ^ mant float32 < 7 <= 2 ^ mant float32)%Z /\ repr float32 (bpow radix2 26) /\ bpow radix2 (mant float32 + 1) < Rabs (bpow radix2 26).
Proof.
  split. { intros k. destruct (xltb (Fin (IZR k)) (Fin 7)); [exists 0|exists 1]; (split; [reflexivity|split; [(apply repr_0 || apply repr_1)|lra]]). }
  split. { exists 0%Z. split; [reflexivity|]. apply F_int. cbn; lia. }
  split. { exists 255%Z. split; [reflexivity|]. apply F_int. cbn; lia. }
  split. { cbn. lia. }
  split.
  - split; [apply F_bpow; unfold emin; cbn; lia|]. rewrite Rabs_pos_eq by apply bpow_ge_0. apply bpow_lt. reflexivity.
  - rewrite Rabs_pos_eq by apply bpow_ge_0. apply bpow_lt. reflexivity.
Qed.
Print Assumptions C87_prob.
Print Assumptions C87_large_values_refuted.
