(** C92: discrete samples in the requested dtype. *)
From Coq Require Import Reals Lra Lia Bool ZArith List.
From Flocq Require Import Core.
From Verif Require Import Base.XR Base.Float Spec.Rounding Proofs.FloatOrder Model.FixedDeterministic Model.FixedDiscrete
  Props.FixedDeterministic.
Local Open Scope R_scope.

(** A requested dtype; the integers it can hold without rounding or wrapping; [shows v z]: [v] is the
    integer [z]. *)
Inductive requested := IntType (it : itype) | FloatType (dt : dtype).
Definition arithmetic (q : requested) : machine :=
  match q with IntType it => int_machine it | FloatType dt => float_machine dt end.
Definition capacity (q : requested) : Z :=
  match q with
  | IntType it => if signed it then (2 ^ (bits it - 1) - 1)%Z else (2 ^ bits it - 1)%Z
  | FloatType dt => (2 ^ mant dt)%Z
  end.
Definition shows (q : requested) : V (arithmetic q) -> Z -> Prop :=
  match q with IntType it => fun v z => v = z | FloatType dt => fun v z => v = Fin (IZR z) end.
(** how often [k] is among the first [n] draws *)
Fixpoint occurrences (draw : nat -> nat) (n k : nat) : Z :=
  match n with
  | O => 0
  | S n' => occurrences draw n' k + (if Nat.eqb (draw n') k then 1 else 0)
  end.

Lemma occurrences_bounds draw n k : (0 <= occurrences draw n k <= Z.of_nat n)%Z.
Proof. induction n; cbn [occurrences]; [lia|]. destruct (Nat.eqb _ _); lia. Qed.

Section Exact.
Variable q : requested.
Notation m := (arithmetic q).
Lemma shows_of z : (0 <= z <= capacity q)%Z -> shows q (of_Z m z) z.
Proof.
  destruct q as [it|dt]; cbn; intros H.
  - apply wrap_id. unfold in_range. pose proof (pow_split it). destruct (signed it); lia.
  - apply to_float_small. lia.
Qed.
Lemma shows_plus u v a b : shows q u a -> shows q v b -> (0 <= a)%Z -> (0 <= b)%Z -> (a + b <= capacity q)%Z ->
  shows q (plus m u v) (a + b).
Proof.
  destruct q as [it|dt]; cbn; intros -> -> Ha Hb H.
  - apply wrap_id. unfold in_range. pose proof (pow_split it). destruct (signed it); lia.
  - unfold fadd. rewrite xadd_fin, <- plus_IZR. apply to_float_small. lia.
Qed.
Lemma shows_lt u v a b : shows q u a -> shows q v b -> lt m u v = (a <? b)%Z.
Proof.
  destruct q as [it|dt]; cbn; intros -> ->; [reflexivity|].
  destruct (Z.ltb_spec a b).
  - apply xltb_fin. now apply IZR_lt.
  - apply xltb_fin_f. now apply IZR_le.
Qed.
Lemma shows_fun u a b : shows q u a -> shows q u b -> a = b.
Proof. destruct q; cbn; [congruence|]. intros -> [= E]. now apply eq_IZR. Qed.
Lemma capacity_pos : (1 <= capacity q)%Z.
Proof.
  destruct q as [it|dt]; cbn.
  - pose proof (pow_split it). pose proof (bits_ok it).
    assert (2 <= 2 ^ (bits it - 1))%Z.
    { replace 2%Z with (2 ^ 1)%Z at 1 by reflexivity. apply Z.pow_le_mono_r; lia. }
    destruct (signed it); lia.
  - pose proof (mant_ok dt). assert (0 < 2 ^ mant dt)%Z by (apply Z.pow_pos_nonneg; lia). lia.
Qed.
End Exact.

(** Categorical: up to the capacity of the dtype the sample is the drawn category. *)
Theorem C92_categorical q index :
  (Z.of_nat index <= capacity q)%Z -> shows q (cast_index (arithmetic q) index) (Z.of_nat index).
Proof. intros H. apply shows_of. lia. Qed.

(** Multinomial: up to the capacity the loop ends and every entry of the sample is the number of times its
    category was drawn in [total_count] draws. *)
Theorem C92_multinomial q N draw :
  (0 <= N <= capacity q)%Z ->
  (exists r, multinomial_sample (arithmetic q) N draw r) /\
  forall r, multinomial_sample (arithmetic q) N draw r -> forall k, shows q (r k) (occurrences draw (Z.to_nat N) k).
Proof.
  intros HN. set (m := arithmetic q).
  assert (HT : shows q (of_Z m N) N) by (apply shows_of; lia).
  assert (HC : forall i, (Z.of_nat i <= N)%Z -> cond m (of_Z m N) i = (Z.of_nat i <? N)%Z).
  { intros i Hi. unfold cond. apply shows_lt; [apply shows_of; lia | exact HT]. }
  assert (Hstep : forall i (agg : nat -> V m), (Z.of_nat i < N)%Z ->
      (forall k, shows q (agg k) (occurrences draw i k)) ->
      forall k, shows q (plus m (agg k) (one_hot m (draw i) k)) (occurrences draw (S i) k)).
  { intros i agg Hi Ha k. cbn [occurrences]. unfold one_hot. pose proof (occurrences_bounds draw i k).
    pose proof (capacity_pos q). apply shows_plus; [apply Ha | | lia | |]; destruct (Nat.eqb _ _); try lia; apply shows_of; lia. }
  assert (H0 : forall k, shows q (of_Z m 0) (occurrences draw 0 k)).
  { intros k. cbn. apply shows_of. pose proof (capacity_pos q). lia. }
  split.
  - unfold multinomial_sample. assert (G : forall d i (agg : nat -> V m), (Z.of_nat i + Z.of_nat d = N)%Z -> exists r, loop m (of_Z m N) draw i agg r).
    { induction d as [|d IH]; intros i agg E.
      - exists agg. apply loop_stop. rewrite HC by lia. apply Z.ltb_ge. lia.
      - destruct (IH (S i) (fun k => plus m (agg k) (one_hot m (draw i) k)) ltac:(lia)) as [r Hr]. exists r.
        apply loop_step; [|exact Hr]. rewrite HC by lia. apply Z.ltb_lt. lia. }
    apply (G (Z.to_nat N)). lia.
  - intros r Hr. unfold multinomial_sample in Hr.
    assert (G : forall i agg r, loop m (of_Z m N) draw i agg r -> (Z.of_nat i <= N)%Z ->
        (forall k, shows q (agg k) (occurrences draw i k)) -> forall k, shows q (r k) (occurrences draw (Z.to_nat N) k)).
    { induction 1 as [i agg Hc|i agg r' Hc Hl IH]; intros Hi Ha.
      - rewrite HC in Hc by lia. apply Z.ltb_ge in Hc. replace (Z.to_nat N) with i by lia. exact Ha.
      - rewrite HC in Hc by lia. apply Z.ltb_lt in Hc. apply IH; [lia|]. now apply Hstep. }
    apply (G _ _ _ Hr); [lia|]. exact H0.
Qed.
(** ... so the entries over [K] categories sum to [total_count]. *)
Fixpoint zsum (n : nat) (f : nat -> Z) : Z := match n with O => 0 | S n' => zsum n' f + f n' end.
Theorem C92_multinomial_total q N draw K r :
  (0 <= N <= capacity q)%Z -> (forall i, (draw i < K)%nat) -> multinomial_sample (arithmetic q) N draw r ->
  exists c : nat -> Z, (forall k, shows q (r k) (c k)) /\ (forall k, (0 <= c k)%Z) /\ zsum K c = N.
Proof.
  intros HN HK Hr. exists (occurrences draw (Z.to_nat N)). destruct (C92_multinomial q N draw HN) as [_ H].
  split; [exact (H r Hr)|]. split; [intros k; apply occurrences_bounds|].
  assert (Ez : forall n, zsum n (fun _ => 0%Z) = 0%Z) by (induction n; cbn; lia).
  assert (Ed : forall n d, zsum n (fun k => if Nat.eqb d k then 1 else 0)%Z = (if Nat.ltb d n then 1 else 0)%Z).
  { induction n; intros d; cbn [zsum]; [reflexivity|]. rewrite IHn.
    destruct (Nat.ltb_spec d n), (Nat.ltb_spec d (S n)), (Nat.eqb_spec d n); lia. }
  assert (Ea : forall n f g, zsum n (fun k => f k + g k)%Z = (zsum n f + zsum n g)%Z) by (induction n; intros; cbn; [lia|rewrite IHn; lia]).
  assert (G : forall n, zsum K (occurrences draw n) = Z.of_nat n).
  { induction n as [|n IH]; cbn [occurrences].
    - apply Ez.
    - change (zsum K (fun k => (occurrences draw n k + (if Nat.eqb (draw n) k then 1 else 0))%Z) = Z.of_nat (S n)).
      rewrite Ea, IH, Ed. specialize (HK n). destruct (Nat.ltb_spec (draw n) K); lia. }
  rewrite G. lia.
Qed.
Example C92_int8 : exists r, multinomial_sample (arithmetic (IntType int8)) 127 (fun i => Nat.modulo i 2) r /\
  shows (IntType int8) (r 0%nat) 64 /\ shows (IntType int8) (r 1%nat) 63.
Proof.
  destruct (C92_multinomial (IntType int8) 127 (fun i => Nat.modulo i 2) ltac:(cbn; lia)) as [[r Hr] H].
  exists r. split; [exact Hr|]. split; [apply (H r Hr 0%nat)|apply (H r Hr 1%nat)].
Qed.

(** Beyond the capacity a floating-point sample saturates: no entry ever exceeds [2 ^ mant]. *)
Lemma absorb dt v : fle (Fin 0) v -> fle v (Fin (IZR (2 ^ mant dt))) -> forall h, h = Fin 0 \/ h = Fin 1 ->
  (exists z, v = Fin (IZR z)) ->
  fle (Fin 0) (fadd dt v h) /\ fle (fadd dt v h) (Fin (IZR (2 ^ mant dt))) /\ exists z, fadd dt v h = Fin (IZR z).
Proof.
  intros H0 H1 h Hh [z ->]. apply fle_fin in H0, H1. apply le_IZR in H0, H1.
  pose proof (mant_ok dt) as M.
  destruct (Z_lt_dec z (2 ^ mant dt)) as [L|L].
  - destruct Hh as [-> | ->]; unfold fadd; rewrite xadd_fin.
    + rewrite Rplus_0_r. change (fround dt (Fin (IZR z))) with (to_float dt z). rewrite to_float_small by lia.
      repeat split; [apply fle_fin, IZR_le; lia .. | eauto].
    + rewrite <- plus_IZR. change (fround dt (Fin (IZR (z + 1)))) with (to_float dt (z + 1)). rewrite to_float_small by lia.
      repeat split; [apply fle_fin, IZR_le; lia .. | eauto].
  - assert (Ez : z = (2 ^ mant dt)%Z) by lia. subst z.
    assert (E : fadd dt (Fin (IZR (2 ^ mant dt))) h = Fin (IZR (2 ^ mant dt))).
    { unfold fadd. destruct Hh as [-> | ->]; rewrite xadd_fin.
      - rewrite Rplus_0_r. apply to_float_small. lia.
      - assert (B : rnd dt (IZR (2 ^ mant dt) + 1) = IZR (2 ^ mant dt)).
        { assert (Ep : (2 ^ mant dt = 2 * 2 ^ (mant dt - 1))%Z).
          { replace (mant dt) with (Z.succ (mant dt - 1)) at 1 by lia. rewrite Z.pow_succ_r by lia. reflexivity. }
          assert (Pp : (2 <= 2 ^ (mant dt - 1))%Z).
          { replace 2%Z with (2 ^ 1)%Z at 1 by reflexivity. apply Z.pow_le_mono_r; lia. }
          unfold rnd, round, scaled_mantissa, cexp.
          assert (Mg : (mag radix2 (IZR (2 ^ mant dt) + 1) = mant dt + 1 :> Z)%Z).
          { apply mag_unique_pos. replace (mant dt + 1 - 1)%Z with (mant dt) by lia.
            rewrite <- !IZR_Zpower by lia. cbn [radix_val radix2]. rewrite <- plus_IZR.
            split; [apply IZR_le; lia|]. apply IZR_lt. rewrite Z.pow_add_r by lia. cbn. lia. }
          rewrite Mg. unfold fexp, FLT_exp, F2R. cbn [Fnum Fexp].
          replace (Z.max (mant dt + 1 - mant dt) (emin dt)) with 1%Z by (unfold emin; pose proof (exp_ok dt); lia).
          replace ((IZR (2 ^ mant dt) + 1) * bpow radix2 (- (1))) with (IZR (2 ^ (mant dt - 1)) + / 2)
            by (rewrite Ep, mult_IZR; cbn; lra).
          assert (N : ZnearestE (IZR (2 ^ (mant dt - 1)) + / 2) = (2 ^ (mant dt - 1))%Z).
          { unfold Znearest. replace (Zfloor (IZR (2 ^ (mant dt - 1)) + / 2)) with (2 ^ (mant dt - 1))%Z
              by (symmetry; apply Zfloor_imp; rewrite plus_IZR; lra).
            replace (IZR (2 ^ (mant dt - 1)) + / 2 - IZR (2 ^ (mant dt - 1))) with (/ 2) by lra.
            rewrite Rcompare_Eq by lra.
            replace (Z.even (2 ^ (mant dt - 1))) with true; [reflexivity|]. symmetry.
            apply Z.even_pow; lia. }
          rewrite N, Ep, mult_IZR. cbn. lra. }
        transitivity (Fin (rnd dt (IZR (2 ^ mant dt) + 1))); [|now rewrite B].
        apply (fround_ok dt _ 0 (IZR (2 ^ mant dt))); [apply repr_0 | apply repr_IZR; lia | rewrite B].
        split; [apply IZR_le; lia | lra]. }
    rewrite E. repeat split; [apply fle_fin, IZR_le; lia | apply fle_fin; lra | eauto].
Qed.
Theorem C92_float_saturates dt N draw r k :
  multinomial_sample (float_machine dt) N draw r -> exists z, r k = Fin (IZR z) /\ (0 <= z <= 2 ^ mant dt)%Z.
Proof.
  intros Hr. unfold multinomial_sample in Hr. pose proof (mant_ok dt) as M.
  assert (P : (0 < 2 ^ mant dt)%Z) by (apply Z.pow_pos_nonneg; lia).
  assert (T0 : to_float dt 0 = Fin 0) by (apply to_float_small; cbn; lia).
  assert (T1 : to_float dt 1 = Fin 1) by (apply to_float_small; cbn; lia).
  assert (G : forall T i agg r, loop (float_machine dt) T draw i agg r ->
      (fle (Fin 0) (agg k) /\ fle (agg k) (Fin (IZR (2 ^ mant dt))) /\ exists z, agg k = Fin (IZR z)) ->
      fle (Fin 0) (r k) /\ fle (r k) (Fin (IZR (2 ^ mant dt))) /\ exists z, r k = Fin (IZR z)).
  { intros T. induction 1 as [i agg Hc|i agg r' Hc Hl IH]; intros (A & B & C); [auto|]. apply IH. cbn [plus float_machine].
    apply absorb; auto. cbn [one_hot]. unfold one_hot. cbn [of_Z float_machine]. destruct (Nat.eqb _ _); rewrite ?T0, ?T1; auto. }
  destruct (G _ _ _ _ Hr) as (A & B & z & Ez).
  - cbn [of_Z float_machine]. rewrite T0. repeat split; [apply fle_fin; lra | apply fle_fin, IZR_le; lia | exists 0%Z; reflexivity].
  - exists z. split; [exact Ez|]. rewrite Ez in A, B. apply fle_fin in A, B. apply le_IZR in A, B. lia.
Qed.
(** So the support is missed: with dtype float16, 5000 draws over two categories never give counts that
    sum to 5000, whatever is drawn. *)
Theorem C92_multinomial_refuted :
  ~ forall dt N draw r, (forall i, (draw i < 2)%nat) -> repr dt (IZR N) -> (0 <= N)%Z ->
      multinomial_sample (float_machine dt) N draw r ->
      exists c0 c1, r 0%nat = Fin (IZR c0) /\ r 1%nat = Fin (IZR c1) /\ (c0 + c1 = N)%Z.
Proof.
  intros H.
  assert (R : repr float16 (IZR 5000)).
  { split.
    - apply generic_format_FLT. apply FLT_spec with (Float radix2 1250 2); cbn; [unfold F2R; cbn; lra | lia | unfold emin; cbn; lia].
    - rewrite Rabs_right by lra. unfold maxpow. cbn. lra. }
  (* the loop ends: the counter reaches 5000 *)
  assert (L : forall d i agg, (i + d = 5000)%nat -> exists r, loop (float_machine float16) (to_float float16 5000) (fun _ => 0%nat) i agg r).
  { assert (T : to_float float16 5000 = Fin (IZR 5000)) by (apply fround_repr, R).
    induction d as [|d IH]; intros i agg E.
    - exists agg. apply loop_stop. unfold cond. cbn [of_Z lt float_machine]. replace i with 5000%nat by lia.
      replace (Z.of_nat 5000) with 5000%Z by reflexivity. rewrite T. apply xltb_fin_f. lra.
    - destruct (IH (S i) (fun k => plus (float_machine float16) (agg k) (one_hot (float_machine float16) 0 k)) ltac:(lia)) as [r Hr].
      destruct (cond (float_machine float16) (to_float float16 5000) i) eqn:Ec.
      + exists r. apply loop_step; [exact Ec | exact Hr].
      + exists agg. apply loop_stop. exact Ec. }
  destruct (L 5000%nat 0%nat (fun _ => of_Z (float_machine float16) 0) ltac:(lia)) as [r Hr].
  destruct (H float16 5000%Z (fun _ => 0%nat) r (fun _ => Nat.lt_0_succ 1) R ltac:(lia) Hr) as (c0 & c1 & E0 & E1 & Es).
  destruct (C92_float_saturates float16 5000 _ r 0%nat Hr) as (z0 & F0 & B0).
  destruct (C92_float_saturates float16 5000 _ r 1%nat Hr) as (z1 & F1 & B1).
  rewrite E0 in F0. rewrite E1 in F1. injection F0 as F0. injection F1 as F1. apply eq_IZR in F0, F1. cbn in B0, B1. lia.
Qed.
(** Categorical indices beyond the capacity are changed: int8 turns category 200 into -56. *)
Theorem C92_categorical_refuted :
  ~ forall q index, shows q (cast_index (arithmetic q) index) (Z.of_nat index).
Proof. intros H. specialize (H (IntType int8) 200%nat). discriminate H. Qed.

Print Assumptions C92_multinomial.
Print Assumptions C92_multinomial_refuted.
