(** C80: normalising probabilities in floating point. *)
From Coq Require Import Reals List Bool Lra Lia ZArith.
From Flocq Require Import Core Plus_error.
From Verif Require Import Base.XR Base.Float Model.FloatDist Spec.Rounding.
Import ListNotations.
Local Open Scope R_scope.

Definition total (f : nat -> R) (l : list nat) : R := fold_right (fun i s => f i + s) 0 l.
Lemma total_cons f a l : total f (a :: l) = f a + total f l. Proof. reflexivity. Qed.
Lemma total_nil f : total f [] = 0. Proof. reflexivity. Qed.
Lemma total_app f l l' : total f (l ++ l') = total f l + total f l'.
Proof. induction l as [|a l IH]; cbn [app]; rewrite ?total_cons, ?total_nil; [lra|]. rewrite IH; lra. Qed.
Lemma total_le f g l : (forall i, In i l -> f i <= g i) -> total f l <= total g l.
Proof.
  induction l as [|a l IH]; intros H; rewrite ?total_cons, ?total_nil; [lra|]. pose proof (H a (or_introl eq_refl)).
  assert (total f l <= total g l) by (apply IH; intros; apply H; right; auto). lra.
Qed.
Lemma total_lin f a b l : total (fun i => a * f i + b) l = a * total f l + INR (length l) * b.
Proof. induction l as [|i l IH]; cbn [length]; rewrite ?total_cons, ?total_nil, ?S_INR; [cbn; lra|]. rewrite IH. lra. Qed.
Lemma total_nonneg f l : (forall i, In i l -> 0 <= f i) -> 0 <= total f l.
Proof.
  induction l as [|a l IH]; intros H; rewrite ?total_cons, ?total_nil; [lra|]. pose proof (H a (or_introl eq_refl)).
  assert (0 <= total f l) by (apply IH; intros; apply H; right; auto). lra.
Qed.
Lemma bernoulli_le e n : 0 <= e <= 1 -> 1 - INR n * e <= (1 - e) ^ n.
Proof.
  intros E. induction n as [|n IH]; [cbn; lra|]. rewrite S_INR. cbn [pow]. pose proof (pos_INR n).
  assert (0 <= (1 - e) ^ n) by (apply pow_le; lra). nra.
Qed.

Section N.
Variable dt : dtype.
Notation F := (generic_format radix2 (fexp dt)).
Notation RN := (rnd dt).

(** one addition has relative error [eps], underflow or not *)
Lemma add_err x y : F x -> F y -> Rabs (RN (x + y) - (x + y)) <= eps dt * Rabs (x + y).
Proof.
  intros Fx Fy. destruct (Rle_lt_dec (tiny dt) (Rabs (x + y))) as [L|L]; [apply rnd_err; auto|].
  rewrite rnd_id.
  - rewrite Rminus_diag_eq, Rabs_R0 by auto. apply Rmult_le_pos; [left; apply eps_pos|apply Rabs_pos].
  - apply FLT_format_plus_small; auto; try typeclasses eauto. left. apply Rlt_le_trans with (1 := L). apply bpow_le. lia.
Qed.

Section Tree.
Variable p : nat -> R.
Hypothesis p_repr : forall i, repr dt (p i).
Hypothesis p_nonneg : forall i, 0 <= p i.
Notation xp := (fun i => Fin (p i)).

Lemma sum_in_cases o : sum_in dt o xp = PInf \/
  exists S, sum_in dt o xp = Fin S /\ repr dt S /\ 0 <= S /\ (forall i, In i (visits o) -> p i <= S) /\
    (1 - eps dt) ^ depth o * total p (visits o) <= S <= (1 + eps dt) ^ depth o * total p (visits o).
Proof.
  pose proof (eps_pos dt) as E0. pose proof (eps_le dt) as E1.
  induction o as [i|l [IHl|(Sl & El & Rl & Pl & Ml & Bl)] r [IHr|(Sr & Er & Rr & Pr & Mr & Br)]]; cbn [sum_in visits].
  - right. exists (p i). split; auto. split; auto. split; auto. split; [intros j [<-|[]]; lra|]. cbn. lra.
  - left. rewrite IHl, IHr. reflexivity.
  - left. rewrite IHl, Er. reflexivity.
  - left. rewrite IHr, El. reflexivity.
  - rewrite El, Er. unfold fadd. rewrite xadd_fin.
    assert (NR : 0 <= RN (Sl + Sr)) by (apply rnd_nonneg; lra).
    destruct (fround dt (Fin (Sl + Sr))) as [S| | |] eqn:ES.
    + right. destruct (fround_fin_inv dt _ _ ES) as [-> RR]. exists (RN (Sl + Sr)).
      split; [auto|]. split; auto. split; auto.
      assert (Ll : Sl <= RN (Sl + Sr)) by (apply rnd_ge_F; [apply Rl|lra]).
      assert (Lr : Sr <= RN (Sl + Sr)) by (apply rnd_ge_F; [apply Rr|lra]).
      split. { intros i Hi. apply in_app_or in Hi as [Hi|Hi]; [specialize (Ml i Hi)|specialize (Mr i Hi)]; lra. }
      pose proof (add_err Sl Sr (proj1 Rl) (proj1 Rr)) as A. rewrite (Rabs_pos_eq (Sl + Sr)) in A by lra.
      apply Rabs_le_inv in A. rewrite total_app. cbn [depth].
      assert (Tl : 0 <= total p (visits l)) by (apply total_nonneg; auto).
      assert (Tr : 0 <= total p (visits r)) by (apply total_nonneg; auto).
      set (m := Nat.max (depth l) (depth r)).
      assert (U : forall d T, (d <= m)%nat -> 0 <= T -> (1 + eps dt) ^ d * T <= (1 + eps dt) ^ m * T).
      { intros d T Hd HT. apply Rmult_le_compat_r; auto. apply Rle_pow; [lra|auto]. }
      assert (D : forall d T, (d <= m)%nat -> 0 <= T -> (1 - eps dt) ^ m * T <= (1 - eps dt) ^ d * T).
      { intros d T Hd HT. apply Rmult_le_compat_r; auto. replace m with (d + (m - d))%nat by lia. rewrite pow_add.
        assert (0 <= (1 - eps dt) ^ d) by (apply pow_le; lra).
        assert (K : (1 - eps dt) ^ (m - d) <= 1 ^ (m - d)) by (apply pow_incr; lra). rewrite pow1 in K. nra. }
      pose proof (U _ _ (Nat.le_max_l (depth l) (depth r)) Tl). pose proof (U _ _ (Nat.le_max_r (depth l) (depth r)) Tr).
      pose proof (D _ _ (Nat.le_max_l (depth l) (depth r)) Tl). pose proof (D _ _ (Nat.le_max_r (depth l) (depth r)) Tr).
      cbn [pow]. split.
      * apply Rle_trans with ((1 - eps dt) * (Sl + Sr)); [|lra].
        rewrite Rmult_assoc. apply Rmult_le_compat_l; [lra|]. lra.
      * apply Rle_trans with ((1 + eps dt) * (Sl + Sr)); [lra|].
        rewrite Rmult_assoc. apply Rmult_le_compat_l; [lra|]. lra.
    + left; auto.
    + exfalso. cbn in ES. destruct (Rlt_dec (Rabs _) _); [discriminate|]. destruct (Rlt_dec _ 0); [lra|discriminate].
    + exfalso. cbn in ES. destruct (Rlt_dec (Rabs _) _); [discriminate|]. destruct (Rlt_dec _ 0); discriminate.
Qed.

Lemma quotient S i : 0 < S -> repr dt S -> p i <= S ->
  fl_normalize dt (Fin S) (Fin (p i)) = Fin (RN (p i / S)) /\ 0 <= RN (p i / S) <= 1 /\ repr dt (RN (p i / S)).
Proof.
  intros P RS L. unfold fl_normalize, fdiv. rewrite xdiv_fin' by lra.
  assert (B : 0 <= p i / S <= 1).
  { split; [apply Rle_mult_inv_pos; auto|]. apply (Rmult_le_reg_r S); auto. unfold Rdiv. rewrite Rmult_assoc, Rinv_l; lra. }
  destruct (fround_between dt _ 0 1 (repr_0 dt) (repr_1 dt) B) as (Q1 & Q2 & Q3). auto.
Qed.

(** C80: whatever the order of summation, each normalised probability is a number between 0 and 1,
    zero where the input is zero ... *)
Theorem C80_entries_are_probabilities o S :
  sum_in dt o xp = Fin S -> 0 < S ->
  forall i, In i (visits o) ->
  exists q, fl_normalize dt (Fin S) (Fin (p i)) = Fin q /\ repr dt q /\ 0 <= q <= 1 /\ (p i = 0 -> q = 0) /\
            (p i = S -> q = 1).
Proof.
  intros ES PS i Hi. destruct (sum_in_cases o) as [E|(S' & E & RS & _ & M & _)]; [congruence|].
  assert (S' = S) as -> by congruence. destruct (quotient S i PS RS (M i Hi)) as (Q1 & Q2 & Q3).
  exists (RN (p i / S)). split; auto. split; auto. split; auto. split; intros H; rewrite H.
  - unfold Rdiv. rewrite Rmult_0_l. apply rnd_0.
  - unfold Rdiv. rewrite Rinv_r by lra. apply rnd_1.
Qed.

(** ... in the same order as the inputs ... *)
Theorem C80_order_preserved o S :
  sum_in dt o xp = Fin S -> 0 < S ->
  forall i j, In i (visits o) -> In j (visits o) -> p i <= p j ->
  xleb (fl_normalize dt (Fin S) (Fin (p i))) (fl_normalize dt (Fin S) (Fin (p j))) = true.
Proof.
  intros ES PS i j Hi Hj L. destruct (sum_in_cases o) as [E|(S' & E & RS & _ & M & _)]; [congruence|].
  assert (S' = S) as -> by congruence.
  destruct (quotient S i PS RS (M i Hi)) as (-> & _). destruct (quotient S j PS RS (M j Hj)) as (-> & _).
  apply xleb_fin, rnd_le. apply Rmult_le_compat_r; auto. left; apply Rinv_0_lt_compat; auto.
Qed.

(** ... and they add up to 1 within [2 (depth + 1) eps], plus the underflow threshold per entry. *)
Theorem C80_total_is_one o S :
  sum_in dt o xp = Fin S -> 0 < S -> (INR (depth o) + 1) * eps dt <= / 2 ->
  Rabs (total (fun i => toR (fl_normalize dt (Fin S) (Fin (p i)))) (visits o) - 1)
    <= 2 * (INR (depth o) + 1) * eps dt + INR (length (visits o)) * (bpow radix2 (emin dt) / 2).
Proof.
  intros ES PS HE. pose proof (eps_pos dt) as E0. pose proof (eps_le dt) as E1.
  destruct (sum_in_cases o) as [E|(S' & E & RS & _ & M & [B1 B2])]; [congruence|].
  assert (S' = S) as -> by congruence. clear E.
  set (h := depth o) in *. set (T := total p (visits o)) in *. set (n := length (visits o)).
  assert (PT : 0 < T).
  { assert (0 <= T) by (apply total_nonneg; auto). destruct H as [|<-]; auto. lra. }
  set (eta := bpow radix2 (emin dt) / 2).
  assert (Ee : 0 <= eta) by (unfold eta; pose proof (bpow_gt_0 radix2 (emin dt)); lra).
  assert (Q : forall i, In i (visits o) ->
    (1 - eps dt) / S * p i - eta <= toR (fl_normalize dt (Fin S) (Fin (p i))) <= (1 + eps dt) / S * p i + eta).
  { intros i Hi. destruct (quotient S i PS RS (M i Hi)) as (-> & _). cbn [toR].
    assert (N : 0 <= p i / S) by (apply Rle_mult_inv_pos; auto).
    assert (R1 : (1 - eps dt) / S * p i = (1 - eps dt) * (p i / S)) by (unfold Rdiv; ring).
    assert (R2 : (1 + eps dt) / S * p i = (1 + eps dt) * (p i / S)) by (unfold Rdiv; ring).
    rewrite R1, R2. destruct (Rle_lt_dec (tiny dt) (Rabs (p i / S))) as [L|L].
    - pose proof (rnd_err dt _ L) as A. apply Rabs_le_inv in A. rewrite Rabs_pos_eq in A by auto. lra.
    - pose proof (rnd_err_sub dt _ L) as A. apply Rabs_le_inv in A. unfold eta. assert (0 <= eps dt * (p i / S)) by nra. lra. }
  assert (U : total (fun i => toR (fl_normalize dt (Fin S) (Fin (p i)))) (visits o) <= (1 + eps dt) / S * T + INR n * eta).
  { unfold T, n. rewrite <- total_lin. apply total_le. intros i Hi. apply Q; auto. }
  assert (L : (1 - eps dt) / S * T - INR n * eta <= total (fun i => toR (fl_normalize dt (Fin S) (Fin (p i)))) (visits o)).
  { replace ((1 - eps dt) / S * T - INR n * eta) with ((1 - eps dt) / S * T + INR n * - eta) by ring.
    unfold T, n. rewrite <- total_lin. apply total_le. intros i Hi. pose proof (Q i Hi). lra. }
  assert (D1 : 1 - (INR h + 1) * eps dt <= (1 - eps dt) * (T / S)).
  { pose proof (bernoulli_le (eps dt) (Datatypes.S h)) as Be. rewrite S_INR in Be. cbn [pow] in Be.
    assert (K : (1 - eps dt) ^ h <= T / S).
    { apply (Rmult_le_reg_r S); auto. replace (T / S * S) with T by (field; lra).
      apply Rle_trans with ((1 - eps dt) ^ h * ((1 + eps dt) ^ h * T)).
      - apply Rmult_le_compat_l; auto. apply pow_le; lra.
      - rewrite <- Rmult_assoc, <- Rpow_mult_distr. replace ((1 - eps dt) * (1 + eps dt)) with (1 - eps dt * eps dt) by ring.
        assert (K : (1 - eps dt * eps dt) ^ h <= 1 ^ h) by (apply pow_incr; nra). rewrite pow1 in K. nra. }
    apply Rle_trans with ((1 - eps dt) * (1 - eps dt) ^ h); [apply Be; lra|]. apply Rmult_le_compat_l; lra. }
  assert (D2 : (1 + eps dt) * (T / S) <= 1 + 2 * ((INR h + 1) * eps dt)).
  { pose proof (bernoulli_le (eps dt) (Datatypes.S h)) as Be. rewrite S_INR in Be. cbn [pow] in Be. specialize (Be ltac:(lra)).
    set (w := (1 - eps dt) * (1 - eps dt) ^ h) in *.
    assert (K : w * ((1 + eps dt) * (T / S)) <= 1).
    { unfold w. assert (KS : (1 - eps dt) ^ h * (T / S) <= 1).
      { apply (Rmult_le_reg_r S); auto. replace ((1 - eps dt) ^ h * (T / S) * S) with ((1 - eps dt) ^ h * T) by (field; lra). lra. }
      assert (P0 : 0 <= (1 - eps dt) ^ h * (T / S)).
      { apply Rmult_le_pos; [apply pow_le; lra|]. apply Rle_mult_inv_pos; lra. }
      replace ((1 - eps dt) * (1 - eps dt) ^ h * ((1 + eps dt) * (T / S))) with ((1 - eps dt * eps dt) * ((1 - eps dt) ^ h * (T / S))) by ring.
      nra. }
    assert (P1 : 0 <= (1 + eps dt) * (T / S)) by (apply Rmult_le_pos; [lra|apply Rle_mult_inv_pos; lra]).
    set (v := (1 + eps dt) * (T / S)) in *. set (a := (INR h + 1) * eps dt) in *. 
    assert (A0 : 0 <= a) by (unfold a; pose proof (pos_INR h); nra).
    clearbody w v a. apply Rnot_lt_le. intros C. assert ((1 - a) * v <= 1) by nra. assert ((1 - a) * (1 + 2 * a) < (1 - a) * v) by nra. nra. }
  replace ((1 - eps dt) / S * T) with ((1 - eps dt) * (T / S)) in L by (unfold Rdiv; ring).
  replace ((1 + eps dt) / S * T) with ((1 + eps dt) * (T / S)) in U by (unfold Rdiv; ring).
  assert (0 < (INR h + 1) * eps dt) by (pose proof (pos_INR h); nra).
  apply Rabs_le. fold n eta. split; lra.
Qed.
End Tree.
End N.

(** A concrete case: three float32 values summed left to right. *)
Example C80_example :
  let p := fun i : nat => match i with O => 1 | S O => 2 | _ => 1 end in
  let o := Plus (Plus (At 0) (At 1)) (At 2) in
  (forall i, repr float32 (p i)) /\ (forall i, 0 <= p i) /\ sum_in float32 o (fun i => Fin (p i)) = Fin 4 /\
  (INR (depth o) + 1) * eps float32 <= / 2 /\ fl_normalize float32 (Fin 4) (Fin (p 1%nat)) = Fin (/ 2).
Proof.
  assert (R : forall k, (0 <= k < 10)%Z -> repr float32 (IZR k)).
  { intros k K. split.
    - apply generic_format_FLT. exists (Defs.Float radix2 k 0); cbn [Fnum Fexp]; [unfold F2R; cbn [Fnum Fexp bpow]; rewrite Rmult_1_r; reflexivity| |unfold emin; cbn; lia].
      rewrite Z.abs_eq by lia. change (mant float32) with 24%Z. change (radix2 ^ 24)%Z with 16777216%Z. lia.
    - rewrite Rabs_pos_eq by (apply IZR_le; lia). apply Rlt_le_trans with 16; [apply IZR_lt; lia|].
      change 16 with (bpow radix2 4). apply bpow_le. cbn; lia. }
  pose proof (R 1%Z ltac:(lia)) as R1. pose proof (R 2%Z ltac:(lia)) as R2. pose proof (R 3%Z ltac:(lia)) as R3. pose proof (R 4%Z ltac:(lia)) as R4.
  intros p o. split; [|split; [|split; [|split]]].
  - intros [|[|i]]; auto.
  - intros [|[|i]]; cbn; lra.
  - cbn [sum_in o]. change (p 0%nat) with 1. change (p 1%nat) with 2. change (p 2%nat) with 1. unfold fadd. rewrite xadd_fin. replace (1 + 2) with 3 by lra. rewrite (fround_repr _ _ R3), xadd_fin.
    replace (3 + 1) with 4 by lra. apply fround_repr; auto.
  - cbn [depth o Nat.max INR]. unfold eps. cbn. lra.
  - cbn [p]. unfold fl_normalize, fdiv. rewrite xdiv_fin' by lra. replace (2 / 4) with (/ 2) by lra.
    apply fround_repr. split; [change (/ 2) with (bpow radix2 (-1)); apply F_bpow; cbn; lia|].
    rewrite Rabs_pos_eq by lra. pose proof (maxpow_ge_2 float32). lra.
Qed.
Print Assumptions C80_total_is_one.
