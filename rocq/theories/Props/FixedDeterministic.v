(** C91: Deterministic in the arithmetic of its arrays. *)
From Coq Require Import Reals Lra Lia Bool ZArith.
From Flocq Require Import Core.
From Verif Require Import Base.XR Base.Float Spec.Rounding Proofs.FloatOrder Model.FixedDeterministic.
Local Open Scope R_scope.

(** [z] is a value of the integer dtype. *)
Definition in_range (it : itype) (z : Z) : Prop :=
  if signed it then (- 2 ^ (bits it - 1) <= z < 2 ^ (bits it - 1))%Z else (0 <= z < 2 ^ bits it)%Z.

Lemma pow_split it : (2 ^ bits it = 2 * 2 ^ (bits it - 1))%Z /\ (0 < 2 ^ (bits it - 1))%Z.
Proof.
  pose proof (bits_ok it). split; [|apply Z.pow_pos_nonneg; lia].
  replace (bits it) with (Z.succ (bits it - 1)) at 1 by lia. rewrite Z.pow_succ_r by lia. reflexivity.
Qed.
Lemma wrap_id it z : in_range it z -> wrap it z = z.
Proof.
  unfold in_range, wrap. pose proof (pow_split it) as [E P]. destruct (signed it); intros H.
  - rewrite Z.mod_small by lia. lia.
  - apply Z.mod_small. lia.
Qed.
Lemma wrap_range it z : in_range it (wrap it z).
Proof.
  unfold in_range, wrap. pose proof (pow_split it) as [E P]. destruct (signed it).
  - pose proof (Z.mod_pos_bound (z + 2 ^ (bits it - 1)) (2 ^ bits it)). lia.
  - apply Z.mod_pos_bound. lia.
Qed.
Lemma wrap_eq it z : exists k, wrap it z = (z - k * 2 ^ bits it)%Z.
Proof.
  unfold wrap. pose proof (pow_split it) as [E P]. destruct (signed it).
  - exists ((z + 2 ^ (bits it - 1)) / 2 ^ bits it)%Z.
    pose proof (Z.div_mod (z + 2 ^ (bits it - 1)) (2 ^ bits it)). lia.
  - exists (z / 2 ^ bits it)%Z. pose proof (Z.div_mod z (2 ^ bits it)). lia.
Qed.

(** integers up to [2 ^ mant] are representable *)
Lemma repr_IZR dt z : (Z.abs z <= 2 ^ mant dt)%Z -> repr dt (IZR z).
Proof.
  intros H. pose proof (mant_ok dt) as M. pose proof (exp_ok dt) as X.
  assert (Hb : Rabs (IZR z) <= bpow radix2 (mant dt)).
  { rewrite <- abs_IZR, <- IZR_Zpower by lia. apply IZR_le. exact H. }
  split.
  - assert (Hc : (Z.abs z < 2 ^ mant dt)%Z \/ Z.abs z = (2 ^ mant dt)%Z) by lia. destruct Hc as [Hc|Hc].
    + apply generic_format_FLT. apply FLT_spec with (Float radix2 z 0); cbn [Fnum Fexp].
      * unfold F2R. cbn. lra.
      * exact Hc.
      * unfold emin. lia.
    + assert (E : IZR z = bpow radix2 (mant dt) \/ IZR z = - bpow radix2 (mant dt)).
      { rewrite <- !IZR_Zpower by lia. cbn [radix_val radix2]. destruct (Z_le_dec 0 z).
        - left. rewrite <- Hc, Z.abs_eq by lia. reflexivity.
        - right. rewrite <- Hc, Z.abs_neq, opp_IZR by lia. lra. }
      destruct E as [-> | ->]; [|apply F_opp]; apply F_bpow; unfold emin; lia.
  - apply Rle_lt_trans with (1 := Hb). unfold maxpow. apply bpow_lt. lia.
Qed.
Lemma to_float_small dt z : (Z.abs z <= 2 ^ mant dt)%Z -> to_float dt z = Fin (IZR z).
Proof. intros. apply fround_repr, repr_IZR. assumption. Qed.

Lemma to_float_zero dt z : xleb (to_float dt z) (Fin 0) = true <-> (z <= 0)%Z.
Proof.
  split.
  - intros H. destruct (Z_le_dec z 0) as [|N]; [assumption|exfalso].
    assert (L : fle (Fin 1) (to_float dt z)).
    { rewrite <- (fround_repr dt 1 (repr_1 dt)). apply fround_mono. apply fle_fin. apply IZR_le. lia. }
    pose proof (fle_trans _ _ _ L H) as C. apply fle_fin in C. lra.
  - intros H. apply fround_nonpos. apply fle_fin. now apply IZR_le.
Qed.

(** Without tolerances (the default): an unsigned Deterministic puts its mass on [loc] exactly; a signed one
    also on the value half the range away, because the difference wraps to the smallest integer, which is its
    own absolute value. *)
Theorem C91_prob_without_tolerance dt it value loc :
  in_range it value -> in_range it loc ->
  (int_prob dt it value loc (Fin 0) (Fin 0) = Fin 1 <->
     value = loc \/ (signed it = true /\ Z.abs (value - loc) = 2 ^ (bits it - 1))%Z) /\
  (int_prob dt it value loc (Fin 0) (Fin 0) = Fin 1 \/ int_prob dt it value loc (Fin 0) (Fin 0) = Fin 0).
Proof.
  intros Rv Rl. unfold int_prob, int_slack. replace (xeqb (Fin 0) (Fin 0)) with true by (symmetry; apply xeqb_fin; reflexivity).
  split; [|destruct (xleb _ _); auto].
  assert (E : xleb (to_float dt (iabs it (isub it value loc))) (Fin 0) = true <->
              value = loc \/ (signed it = true /\ Z.abs (value - loc) = 2 ^ (bits it - 1))%Z).
  { rewrite to_float_zero. unfold iabs, isub.
    pose proof (pow_split it) as [Ep P]. pose proof (wrap_range it (value - loc)) as Wr.
    destruct (wrap_eq it (value - loc)) as [k Hk]. set (w := wrap it (value - loc)) in *. clearbody w.
    unfold in_range in *. destruct (signed it) eqn:Sg.
    - assert (Hw : w = (- 2 ^ (bits it - 1))%Z \/ (Z.abs w < 2 ^ (bits it - 1))%Z) by lia.
      assert (Hk' : (k = 0 \/ k = 1 \/ k = -1)%Z) by nia.
      destruct Hw as [Hw|Hw].
      + assert (wrap it (Z.abs w) = (- 2 ^ (bits it - 1))%Z) as ->.
        { rewrite Hw. unfold wrap. rewrite Sg. rewrite Z.abs_opp, Z.abs_eq by lia.
          replace (2 ^ (bits it - 1) + 2 ^ (bits it - 1))%Z with (2 ^ bits it)%Z by lia.
          rewrite Z.mod_same by lia. lia. }
        split; [|intros _; lia]. intros _. right. split; [reflexivity|]. nia.
      + rewrite wrap_id by (unfold in_range; rewrite Sg; lia). split; [intros Hz; left; nia|].
        intros [->|[_ Ha]]; [|exfalso; nia]. replace (loc - loc)%Z with 0%Z in Hk by lia. nia.
    - rewrite wrap_id by (unfold in_range; rewrite Sg; lia).
      assert (Hk' : (k = 0 \/ k = -1)%Z) by nia.
      split; [intros Hz; left; nia|]. intros [->|[C _]]; [|discriminate].
      replace (loc - loc)%Z with 0%Z in Hk by lia. nia. }
  destruct (xleb _ _); split; intros H.
  - now apply E. - reflexivity.
  - exfalso. assert (R : (1 = 0)%R) by congruence. lra.
  - apply E in H. discriminate.
Qed.

(** The documented tolerance, [atol + rtol * |loc|], when the float type computes it exactly. *)
Definition exact_slack (dt : dtype) (loc atol rtol : R) : Prop :=
  repr dt (rtol * Rabs loc) /\ repr dt (atol + rtol * Rabs loc).
Lemma slack_exact dt loc atol rtol : exact_slack dt loc atol rtol ->
  (if xeqb (Fin rtol) (Fin 0) then Fin atol else fadd dt (Fin atol) (fmul dt (Fin rtol) (Fin (Rabs loc))))
  = Fin (atol + rtol * Rabs loc).
Proof.
  intros [R1 R2]. destruct (xeqb (Fin rtol) (Fin 0)) eqn:E.
  - apply xeqb_fin in E. subst rtol. f_equal. lra.
  - unfold fmul. rewrite xmul_fin, (fround_repr _ _ R1). unfold fadd. rewrite xadd_fin. apply fround_repr, R2.
Qed.
Lemma int_slack_exact dt it loc atol rtol : in_range it (Z.abs loc) -> (Z.abs loc <= 2 ^ mant dt)%Z ->
  exact_slack dt (IZR loc) atol rtol -> int_slack dt it loc (Fin atol) (Fin rtol) = Fin (atol + rtol * Rabs (IZR loc)).
Proof.
  intros Hr Hm Hs. unfold int_slack, iabs. rewrite (wrap_id _ _ Hr), to_float_small by (rewrite Z.abs_involutive; exact Hm).
  rewrite abs_IZR. now apply slack_exact.
Qed.

(** The intended value, [1] when [|value - loc| <= atol + rtol * |loc|] and [0] otherwise, whenever the
    difference and [|loc|] are (non-overflowing) values of the dtype small enough for the float type. *)
Theorem C91_prob_with_tolerance dt it value loc atol rtol :
  in_range it (value - loc) -> in_range it (Z.abs (value - loc)) -> in_range it (Z.abs loc) ->
  (Z.abs (value - loc) <= 2 ^ mant dt)%Z -> (Z.abs loc <= 2 ^ mant dt)%Z -> exact_slack dt (IZR loc) atol rtol ->
  int_prob dt it value loc (Fin atol) (Fin rtol)
  = (if Rle_dec (Rabs (IZR value - IZR loc)) (atol + rtol * Rabs (IZR loc)) then Fin 1 else Fin 0).
Proof.
  intros R1 R2 R3 Hm Hl Hs. unfold int_prob. rewrite (int_slack_exact dt it loc atol rtol R3 Hl Hs). unfold iabs, isub.
  rewrite (wrap_id it (value - loc) R1), (wrap_id it _ R2).
  rewrite to_float_small by (rewrite Z.abs_involutive; exact Hm). rewrite abs_IZR, minus_IZR.
  destruct (Rle_dec _ _) as [L|L].
  - replace (xleb _ _) with true; [reflexivity|]. symmetry. now apply xleb_fin.
  - replace (xleb _ _) with false; [reflexivity|]. symmetry. apply not_true_iff_false. intros C. apply xleb_fin in C. contradiction.
Qed.
Example C91_int8 :
  int_prob float32 int8 100 97 (Fin 3) (Fin 0) = Fin 1 /\ int_prob float32 int8 (-100) (-96) (Fin 3) (Fin 0) = Fin 0
  /\ int_prob float32 int8 96 64 (Fin 0) (Fin (/ 2)) = Fin 1.
Proof.
  assert (S3 : forall l, exact_slack float32 l 3 0).
  { intros l. unfold exact_slack. rewrite Rmult_0_l, Rplus_0_r. split; [apply repr_0 | apply (repr_IZR float32 3); cbn; lia]. }
  assert (S4 : exact_slack float32 (IZR 64) 0 (/ 2)).
  { unfold exact_slack. rewrite Rplus_0_l, Rabs_right by lra. replace (/ 2 * IZR 64) with (IZR 32) by lra.
    split; apply repr_IZR; cbn; lia. }
  repeat split; rewrite C91_prob_with_tolerance by (try (unfold in_range; cbn; lia); auto);
    destruct (Rle_dec _ _) as [L|L]; try reflexivity; exfalso.
  - apply L. rewrite Rabs_right; lra.
  - rewrite (Rabs_left (IZR (-100) - IZR (-96))) in L; lra.
  - apply L. rewrite !Rabs_right; lra.
Qed.

(** The claim as documented, for every value of the dtype, is false: int8, [loc = -128], [value = 0]. *)
Theorem C91_prob_refuted :
  ~ forall dt it value loc, in_range it value -> in_range it loc -> value <> loc ->
      int_prob dt it value loc (Fin 0) (Fin 0) = Fin 0.
Proof.
  intros H. specialize (H float32 int8 0%Z (-128)%Z ltac:(cbn; lia) ltac:(cbn; lia) ltac:(lia)).
  destruct (C91_prob_without_tolerance float32 int8 0 (-128) ltac:(cbn; lia) ltac:(cbn; lia)) as [[_ K] _].
  rewrite K in H by (right; split; reflexivity). injection H. lra.
Qed.
(** With a tolerance an unsigned Deterministic rejects values just below [loc]: uint8, 3 against 5 +- 2. *)
Theorem C91_unsigned_tolerance_refuted :
  ~ forall dt it value loc slack, in_range it value -> in_range it loc -> signed it = false ->
      Rabs (IZR value - IZR loc) <= slack -> int_prob dt it value loc (Fin slack) (Fin 0) = Fin 1.
Proof.
  intros H. specialize (H float32 uint8 3%Z 5%Z 2 ltac:(cbn; lia) ltac:(cbn; lia) eq_refl).
  assert (L : Rabs (IZR 3 - IZR 5) <= 2) by (rewrite Rabs_left; lra). specialize (H L).
  unfold int_prob, int_slack in H.
  replace (xeqb (Fin 0) (Fin 0)) with true in H by (symmetry; apply xeqb_fin; reflexivity).
  replace (iabs uint8 (isub uint8 3 5)) with 254%Z in H by reflexivity.
  rewrite to_float_small in H by (cbn; lia).
  replace (xleb (Fin (IZR 254)) (Fin 2)) with false in H.
  - injection H. lra.
  - symmetry. apply not_true_iff_false. intros C. apply xleb_fin in C. lra.
Qed.

(** [cdf] compares in the float type: exact for integers up to [2 ^ mant], wrong above. *)
Theorem C91_cdf dt it value loc atol rtol :
  (Z.abs value <= 2 ^ mant dt)%Z -> (Z.abs loc <= 2 ^ mant dt)%Z -> in_range it (Z.abs loc) ->
  exact_slack dt (IZR loc) atol rtol -> repr dt (IZR loc - (atol + rtol * Rabs (IZR loc))) ->
  int_cdf dt it value loc (Fin atol) (Fin rtol)
  = if Rle_dec (IZR loc - (atol + rtol * Rabs (IZR loc))) (IZR value) then Fin 1 else Fin 0.
Proof.
  intros Hv Hl R3 Hs Hd. unfold int_cdf. rewrite (int_slack_exact dt it loc atol rtol R3 Hl Hs).
  rewrite !to_float_small by assumption. unfold fsub. rewrite xsub_fin, (fround_repr _ _ Hd).
  destruct (Rle_dec _ _) as [L|L].
  - replace (xleb _ _) with true; [reflexivity|]. symmetry. now apply xleb_fin.
  - replace (xleb _ _) with false; [reflexivity|]. symmetry. apply not_true_iff_false. intros C. apply xleb_fin in C. contradiction.
Qed.
Theorem C91_cdf_without_tolerance dt it value loc :
  (Z.abs value <= 2 ^ mant dt)%Z -> (Z.abs loc <= 2 ^ mant dt)%Z ->
  int_cdf dt it value loc (Fin 0) (Fin 0) = if (loc <=? value)%Z then Fin 1 else Fin 0.
Proof.
  intros Hv Hl. unfold int_cdf, int_slack.
  replace (xeqb (Fin 0) (Fin 0)) with true by (symmetry; apply xeqb_fin; reflexivity).
  rewrite !to_float_small by assumption. unfold fsub. rewrite xsub_fin, Rminus_0_r, fround_repr by (apply repr_IZR; assumption).
  destruct (Z.leb_spec loc value).
  - replace (xleb _ _) with true; [reflexivity|]. symmetry. apply xleb_fin. now apply IZR_le.
  - replace (xleb _ _) with false; [reflexivity|]. symmetry. apply not_true_iff_false. intros C.
    apply xleb_fin in C. apply le_IZR in C. lia.
Qed.
Theorem C91_cdf_refuted :
  ~ forall dt it value loc, in_range it value -> in_range it loc -> (value < loc)%Z ->
      int_cdf dt it value loc (Fin 0) (Fin 0) = Fin 0.
Proof.
  intros H. specialize (H float32 int32 16777216%Z 16777217%Z ltac:(cbn; lia) ltac:(cbn; lia) ltac:(lia)).
  unfold int_cdf, int_slack in H.
  replace (xeqb (Fin 0) (Fin 0)) with true in H by (symmetry; apply xeqb_fin; reflexivity).
  assert (A : repr float32 (IZR 16777216)) by (apply repr_IZR; cbn; lia).
  assert (B : rnd float32 (IZR 16777217) = IZR 16777216).
  { unfold rnd, round, scaled_mantissa, cexp.
    assert (M : (mag radix2 (IZR 16777217) = 25 :> Z)%Z).
    { apply mag_unique_pos. cbn. lra. }
    rewrite M. unfold fexp, FLT_exp, emin, F2R. cbn [mant emax float32 Fnum Fexp].
    replace (Z.max (25 - 24) (3 - 128 - 24)) with 1%Z by reflexivity.
    replace (IZR 16777217 * bpow radix2 (- (1))) with (8388608 + / 2) by (cbn; lra).
    assert (N : ZnearestE (8388608 + / 2) = 8388608%Z).
    { unfold Znearest. replace (Zfloor (8388608 + / 2)) with 8388608%Z by (symmetry; apply Zfloor_imp; cbn; lra).
      replace (8388608 + / 2 - IZR 8388608) with (/ 2) by lra. rewrite Rcompare_Eq by lra. reflexivity. }
    rewrite N. cbn. lra. }
  assert (T : to_float float32 16777217 = Fin (IZR 16777216)).
  { unfold to_float. rewrite <- B. apply (fround_ok float32 _ 0 (IZR 16777216)); [apply repr_0|exact A|]. rewrite B. lra. }
  rewrite T, (to_float_small float32 16777216) in H by (cbn; lia).
  unfold fsub in H. rewrite xsub_fin, Rminus_0_r, (fround_repr _ _ A) in H.
  replace (xleb _ _) with true in H; [injection H; lra|]. symmetry. apply xleb_fin. lra.
Qed.

(** ** Floating-point [loc] *)
(** Without tolerances the mass is on [loc] exactly: the rounded difference vanishes only when the values
    are equal (gradual underflow), and overflows are infinite. *)
Theorem C91_float_prob dt value loc :
  repr dt value -> repr dt loc ->
  fl_det_prob dt (Fin value) (Fin loc) (Fin 0) (Fin 0) = (if Req_EM_T value loc then Fin 1 else Fin 0).
Proof.
  intros [Fv Hv] [Fl Hl]. unfold fl_det_prob, fl_slack.
  replace (xeqb (Fin 0) (Fin 0)) with true by (symmetry; apply xeqb_fin; reflexivity).
  unfold fsub. rewrite xsub_fin. destruct (Req_EM_T value loc) as [->|N].
  - rewrite Rminus_diag_eq by reflexivity. rewrite fround_0. cbn. rewrite Rabs_R0.
    replace (xleb _ _) with true; [reflexivity|]. symmetry. apply xleb_fin. lra.
  - replace (xleb _ _) with false; [reflexivity|]. symmetry. apply not_true_iff_false. intros C.
    assert (Hne : rnd dt (value - loc) <> 0).
    { destruct (Rtotal_order value loc) as [L|[L|L]]; [|contradiction|].
      - pose proof (rnd_sub_pos dt value loc Fv Fl L) as P. intros E.
        replace (value - loc) with (- (loc - value)) in E by lra. rewrite rnd_opp in E. lra.
      - pose proof (rnd_sub_pos dt loc value Fl Fv L). lra. }
    cbn [fround] in C. destruct (Rlt_dec _ _) as [_|_].
    + cbn [xabs] in C. apply xleb_fin in C. pose proof (Rabs_pos_lt _ Hne). lra.
    + destruct (Rlt_dec _ _); discriminate.
Qed.
(** With a tolerance every value within it is accepted, and none beyond it by more than one rounding error
    of the difference. *)
Theorem C91_float_prob_tolerance dt value loc atol rtol :
  repr dt value -> repr dt loc -> exact_slack dt loc atol rtol ->
  let slack := atol + rtol * Rabs loc in
  (Rabs (value - loc) <= slack -> fl_det_prob dt (Fin value) (Fin loc) (Fin atol) (Fin rtol) = Fin 1) /\
  (slack < Rabs (rnd dt (value - loc)) -> fl_det_prob dt (Fin value) (Fin loc) (Fin atol) (Fin rtol) = Fin 0).
Proof.
  intros [Fv Hv] [Fl Hl] Hsl slack. unfold fl_det_prob, fl_slack. cbn [xabs]. rewrite (slack_exact _ _ _ _ Hsl).
  destruct Hsl as [_ [Fs Hs]]. fold slack in Fs, Hs |- *. clearbody slack.
  unfold fsub. rewrite xsub_fin.
  assert (Ab : Rabs (rnd dt (value - loc)) = rnd dt (Rabs (value - loc))).
  { unfold Rabs at 2. destruct (Rcase_abs (value - loc)) as [L|L].
    - rewrite rnd_opp. apply Rabs_left1. rewrite <- (Ropp_involutive (value - loc)), rnd_opp.
      pose proof (rnd_nonneg dt (- (value - loc))). lra.
    - apply Rabs_right. apply Rle_ge, rnd_nonneg. lra. }
  split; intros H.
  - assert (R : Rabs (rnd dt (value - loc)) <= slack) by (rewrite Ab; apply rnd_le_F; assumption).
    cbn [fround]. destruct (Rlt_dec _ _) as [_|N].
    + cbn [xabs]. replace (xleb _ _) with true; [reflexivity|]. symmetry. now apply xleb_fin.
    + exfalso. apply N. apply Rle_lt_trans with (1 := R). apply Rle_lt_trans with (2 := Hs). apply Rle_abs.
  - replace (xleb _ _) with false; [reflexivity|]. symmetry. apply not_true_iff_false. intros C.
    cbn [fround] in C. destruct (Rlt_dec _ _) as [_|N].
    + cbn [xabs] in C. apply xleb_fin in C. lra.
    + destruct (Rlt_dec _ _); discriminate.
Qed.
Theorem C91_float_cdf dt value loc atol rtol :
  repr dt value -> repr dt loc -> exact_slack dt loc atol rtol -> repr dt (loc - (atol + rtol * Rabs loc)) ->
  fl_det_cdf dt (Fin value) (Fin loc) (Fin atol) (Fin rtol)
  = (if Rle_dec (loc - (atol + rtol * Rabs loc)) value then Fin 1 else Fin 0).
Proof.
  intros Rv Rl Hs Rd. unfold fl_det_cdf, fl_slack. cbn [xabs]. rewrite (slack_exact _ _ _ _ Hs).
  unfold fsub. rewrite xsub_fin, (fround_repr _ _ Rd).
  destruct (Rle_dec _ value) as [L|L].
  - replace (xleb _ _) with true; [reflexivity|]. symmetry. now apply xleb_fin.
  - replace (xleb _ _) with false; [reflexivity|]. symmetry. apply not_true_iff_false. intros C. apply xleb_fin in C. contradiction.
Qed.

Print Assumptions C91_prob_without_tolerance.
Print Assumptions C91_float_prob.
