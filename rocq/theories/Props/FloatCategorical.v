(** C96: Categorical.prob, log_prob and cdf in floating point. *)
From Coq Require Import Reals Lra Lia List Bool ZArith Permutation.
From Flocq Require Import Core IEEE754.BinarySingleNaN.
From Verif Require Import Base.XR Base.Float Spec.Rounding Proofs.FloatIEEE Proofs.FloatOrder Proofs.FloatLib
  Model.FloatDist Model.FloatCategorical Props.FloatNormalize Props.FloatBij.
Import ListNotations.
Local Open Scope R_scope.

(** [o] adds each of the entries [0 .. m-1] once *)
Definition adds_all (o : order) (m : nat) : Prop := Permutation (visits o) (seq 0 m).

Section Pick.
Variable dt : dtype.
Lemma fadd_0_l v : value dt v -> fadd dt (Fin 0) v = v.
Proof. destruct v; cbn [value]; intros V; auto. unfold fadd. rewrite xadd_fin, Rplus_0_l. apply fround_repr; auto. Qed.
Lemma fadd_0_r v : value dt v -> fadd dt v (Fin 0) = v.
Proof. destruct v; cbn [value]; intros V; auto. unfold fadd. rewrite xadd_fin, Rplus_0_r. apply fround_repr; auto. Qed.
Lemma fmul_1_r v : value dt v -> fmul dt v (Fin 1) = v.
Proof.
  destruct v; cbn [value]; intros V; auto.
  - unfold fmul. rewrite xmul_fin, Rmult_1_r. apply fround_repr; auto.
  - unfold fmul, xmul, inf_times. repeat destruct (Rlt_dec _ _); try lra; reflexivity.
  - unfold fmul, xmul, inf_times. repeat destruct (Rlt_dec _ _); try lra; reflexivity.
Qed.
Lemma term_on v x j : value dt (v j) -> x = Z.of_nat j -> fl_multiply_no_nan dt (v j) (fl_one_hot x j) = v j.
Proof.
  intros V ->. unfold fl_one_hot. rewrite Z.eqb_refl. unfold fl_multiply_no_nan.
  destruct (xeqb (Fin 1) (Fin 0)) eqn:Q; [apply xeqb_fin in Q; lra|]. apply fmul_1_r; auto.
Qed.
Lemma term_off v x j : x <> Z.of_nat j -> fl_multiply_no_nan dt (v j) (fl_one_hot x j) = Fin 0.
Proof.
  intros N. unfold fl_one_hot. rewrite (proj2 (Z.eqb_neq _ _) N). unfold fl_multiply_no_nan.
  rewrite (proj2 (xeqb_fin 0 0)); auto.
Qed.
Lemma pick_out o v x : (forall j, In j (visits o) -> x <> Z.of_nat j) -> fl_pick dt o v x = Fin 0.
Proof.
  unfold fl_pick. induction o as [i|l IHl r IHr]; cbn [sum_in visits]; intros H.
  - apply term_off, H. left; auto.
  - rewrite IHl, IHr by (intros; apply H, in_or_app; auto). apply fadd_0_l. apply repr_0.
Qed.
Lemma nodup_app (a b : list nat) : NoDup (a ++ b) -> NoDup a /\ NoDup b /\ forall j, In j a -> In j b -> False.
Proof.
  induction a as [|x a IH]; cbn; intros H; [split; [constructor|]; split; [auto|]; intros j []|].
  inversion H as [|? ? N D]; subst. destruct (IH D) as (A & B & C). split; [|split; [auto|]].
  - constructor; auto. intros I. apply N, in_or_app; auto.
  - intros j [->|I] J; [apply N, in_or_app; auto|eauto].
Qed.
Lemma pick_in o v k : (forall j, value dt (v j)) -> NoDup (visits o) -> In k (visits o) -> fl_pick dt o v (Z.of_nat k) = v k.
Proof.
  intros V. unfold fl_pick. induction o as [i|l IHl r IHr]; cbn [sum_in visits]; intros ND H.
  - destruct H as [->|[]]. apply term_on; auto.
  - destruct (nodup_app _ _ ND) as (NL & NR & D).
    apply in_app_or in H as [H|H].
    + rewrite IHl by auto. fold (fl_pick dt r v (Z.of_nat k)). rewrite (pick_out r) by (intros j Hj E; apply Nat2Z.inj in E; subst; eauto). apply fadd_0_r; auto.
    + rewrite IHr by auto. fold (fl_pick dt l v (Z.of_nat k)). rewrite (pick_out l) by (intros j Hj E; apply Nat2Z.inj in E; subst; eauto). apply fadd_0_l; auto.
Qed.
Lemma adds_all_in o m : adds_all o m -> NoDup (visits o) /\ forall k, In k (visits o) <-> (k < m)%nat.
Proof.
  intros P. split; [eapply Permutation_NoDup; [apply Permutation_sym, P|apply seq_NoDup]|].
  intros k. split; intros H.
  - apply (Permutation_in _ P), in_seq in H. lia.
  - apply (Permutation_in _ (Permutation_sym P)), in_seq. lia.
Qed.

Variables (n : nat) (os : order) (oc : nat -> order).
Hypothesis Hos : adds_all os n.
(** prob and log_prob return the stored entry exactly, whatever the other entries are (infinite or NaN), in
    whatever order the reduction adds; outside 0 .. n-1 they return 0 and -inf. *)
Theorem C96_prob p : (forall j, value dt (p j)) ->
  (forall k, (k < n)%nat -> fl_cat_prob dt os p (Z.of_nat k) = p k) /\
  (forall v, (v < 0 \/ Z.of_nat n <= v)%Z -> fl_cat_prob dt os p v = Fin 0).
Proof.
  intros V. destruct (adds_all_in os n Hos) as (ND & I). split; intros.
  - apply pick_in; auto. apply I; auto.
  - apply pick_out. intros j Hj. apply I in Hj. lia.
Qed.
Theorem C96_log_prob logits : (forall j, value dt (logits j)) ->
  (forall k, (k < n)%nat -> fl_cat_log_prob dt n os logits (Z.of_nat k) = logits k) /\
  (forall v, (v < 0 \/ Z.of_nat n <= v)%Z -> fl_cat_log_prob dt n os logits v = NInf).
Proof.
  intros V. destruct (adds_all_in os n Hos) as (ND & I). unfold fl_cat_log_prob. split; intros.
  - destruct (Z.ltb_spec (Z.of_nat k) 0); [lia|]. destruct (Z.ltb_spec (Z.of_nat n - 1) (Z.of_nat k)); [lia|].
    apply pick_in; auto. apply I; auto.
  - destruct (Z.ltb_spec v 0); [reflexivity|]. destruct (Z.ltb_spec (Z.of_nat n - 1) v); [reflexivity|lia].
Qed.
(** cdf is 0 below the support and 1 from its last point on, for any stored entries (the number of categories is positive). *)
Theorem C96_cdf_ends p v : (0 < n)%nat ->
  ((v < 0)%Z -> fl_cat_cdf dt n os oc p v = Fin 0) /\ ((Z.of_nat n - 1 <= v)%Z -> fl_cat_cdf dt n os oc p v = Fin 1).
Proof.
  intros N. unfold fl_cat_cdf. cbv zeta. split; intros H.
  - destruct (Z.ltb_spec v 0); [reflexivity|lia].
  - destruct (Z.ltb_spec v 0); [lia|]. destruct (Z.leb_spec (Z.of_nat n - 1) v); [reflexivity|lia].
Qed.
Lemma sum_value o q : (forall j, value dt (q j)) -> value dt (sum_in dt o q).
Proof. intros V. destruct o; cbn [sum_in]; [apply V|]. unfold fadd. destruct (fround dt _) eqn:Q; cbn; auto. eapply fround_value; eauto. Qed.
Lemma cdf_inner p k : (forall j, value dt (p j)) -> (S k < n)%nat -> fl_cat_cdf dt n os oc p (Z.of_nat k) = sum_in dt (oc k) p.
Proof.
  intros V K. destruct (adds_all_in os n Hos) as (ND & I). unfold fl_cat_cdf. cbv zeta.
  destruct (Z.ltb_spec (Z.of_nat k) 0); [lia|]. destruct (Z.leb_spec (Z.of_nat n - 1) (Z.of_nat k)); [lia|].
  replace (Z.min (Z.max (Z.of_nat k) 0) (Z.of_nat n - 1)) with (Z.of_nat k) by lia.
  rewrite pick_in; [reflexivity| |auto|apply I; lia]. intros j. apply sum_value; auto.
Qed.

Variable p : nat -> R.
Hypothesis p_repr : forall i, repr dt (p i).
Hypothesis p_nonneg : forall i, 0 <= p i.
Notation xp := (fun i => Fin (p i)).
Lemma total_perm l l' : Permutation l l' -> total p l = total p l'.
Proof. induction 1; rewrite ?total_cons; lra. Qed.
Lemma no_overflow o : (1 + eps dt) ^ depth o * total p (visits o) <= maxpow dt / 2 -> sum_in dt o xp <> PInf.
Proof.
  pose proof (eps_pos dt) as E0. pose proof (maxpow_pos dt) as M0.
  induction o as [i|l IHl r IHr]; cbn [sum_in visits depth]; intros H; [discriminate|].
  rewrite total_app in H. set (m := Nat.max (depth l) (depth r)) in *.
  assert (Tl : 0 <= total p (visits l)) by (apply total_nonneg; auto).
  assert (Tr : 0 <= total p (visits r)) by (apply total_nonneg; auto).
  assert (P1 : 1 <= (1 + eps dt) ^ m) by (apply pow_R1_Rle; lra).
  cbn [pow] in H. assert (H' : (1 + eps dt) ^ m * (total p (visits l) + total p (visits r)) <= maxpow dt / 2) by nra.
  assert (U : forall d T, (d <= m)%nat -> 0 <= T -> (1 + eps dt) ^ d * T <= (1 + eps dt) ^ m * T).
  { intros d T Hd HT. apply Rmult_le_compat_r; auto. apply Rle_pow; [lra|auto]. }
  pose proof (U _ _ (Nat.le_max_l (depth l) (depth r)) Tl) as Ul. pose proof (U _ _ (Nat.le_max_r (depth l) (depth r)) Tr) as Ur.
  assert (Nl : 0 <= (1 + eps dt) ^ m * total p (visits l)) by (apply Rmult_le_pos; lra).
  assert (Nr : 0 <= (1 + eps dt) ^ m * total p (visits r)) by (apply Rmult_le_pos; lra).
  destruct (sum_in_cases dt p p_repr p_nonneg l) as [Q|(Sl & El & Rl & Pl & _ & Bl)]; [exfalso; apply IHl; auto; lra|].
  destruct (sum_in_cases dt p p_repr p_nonneg r) as [Q|(Sr & Er & Rr & Pr & _ & Br)]; [exfalso; apply IHr; auto; lra|].
  rewrite El, Er. unfold fadd. rewrite xadd_fin.
  destruct (fround_between dt (Sl + Sr) 0 _ (repr_0 dt) (repr_half dt)) as (-> & _); [|discriminate]. lra.
Qed.
(** In between, cdf(k) is finite, at least as large as each entry up to [k], and its relative error is that of the summation. *)
Theorem C96_cdf_accuracy k : adds_all (oc k) (S k) -> (S k < n)%nat ->
  (1 + eps dt) ^ depth (oc k) * total p (seq 0 (S k)) <= maxpow dt / 2 ->
  exists c, fl_cat_cdf dt n os oc xp (Z.of_nat k) = Fin c /\ repr dt c /\ 0 <= c /\ (forall i, (i <= k)%nat -> p i <= c) /\
    (1 - eps dt) ^ depth (oc k) * total p (seq 0 (S k)) <= c <= (1 + eps dt) ^ depth (oc k) * total p (seq 0 (S k)).
Proof.
  intros A K B. rewrite cdf_inner by (auto; intros; apply p_repr). destruct (adds_all_in _ _ A) as (_ & I).
  pose proof (total_perm _ _ A) as T. rewrite <- T in B.
  destruct (sum_in_cases dt p p_repr p_nonneg (oc k)) as [Q|(c & Ec & Rc & Pc & Mc & Bc)]; [exfalso; revert Q; apply no_overflow; auto|].
  exists c. rewrite <- T. split; [auto|]. split; [auto|]. split; [auto|]. split; [|auto]. intros i Hi. apply Mc, I. lia.
Qed.
(** With a left-to-right cumsum it is nondecreasing up to the last but one category ... *)
Theorem C96_cdf_monotone : (forall k, oc (S k) = Plus (oc k) (At (S k))) ->
  forall j k, (j <= k)%nat -> (S k < n)%nat -> fle (fl_cat_cdf dt n os oc xp (Z.of_nat j)) (fl_cat_cdf dt n os oc xp (Z.of_nat k)).
Proof.
  intros Seq j k JK K. rewrite !cdf_inner by (try lia; intros; apply p_repr). clear K.
  assert (St : forall k, fle (sum_in dt (oc k) xp) (sum_in dt (oc (S k)) xp)).
  { clear j k JK. intros k. rewrite Seq. cbn [sum_in].
    destruct (sum_in_cases dt p p_repr p_nonneg (oc k)) as [-> |(c & -> & Rc & Pc & _)]; [reflexivity|].
    unfold fadd. rewrite xadd_fin. rewrite <- (fround_repr dt c Rc) at 1. apply fround_mono. apply xleb_fin.
    pose proof (p_nonneg (S k)). lra. }
  assert (Pk : forall k, sum_in dt (oc k) xp = PInf \/ exists c, sum_in dt (oc k) xp = Fin c).
  { intros i. destruct (sum_in_cases dt p p_repr p_nonneg (oc i)) as [|(c & ? & _)]; eauto. }
  induction JK as [|k JK IH].
  - unfold fle. destruct (Pk j) as [-> |(c & ->)]; [reflexivity|]. apply xleb_fin. lra.
  - specialize (St k). unfold fle in *. destruct (Pk j) as [Q|(a & Q)], (Pk k) as [Q1|(b & Q1)], (Pk (S k)) as [Q2|(c & Q2)];
      rewrite Q, ?Q1, ?Q2 in *; auto; try reflexivity; try discriminate. apply xleb_fin in IH, St. apply xleb_fin. lra.
Qed.
End Pick.

(** ** Concrete cases *)
(** left-to-right summation of the entries 0 .. k *)
Fixpoint left_to_right (k : nat) : order := match k with O => At 0 | S k => Plus (left_to_right k) (At (S k)) end.
Lemma left_to_right_all k : adds_all (left_to_right k) (S k).
Proof.
  unfold adds_all. induction k as [|k IH]; [cbn; constructor; constructor|].
  cbn [left_to_right visits]. replace (S (S k)) with (S k + 1)%nat by lia. rewrite seq_app. apply Permutation_app; auto.
Qed.
Local Instance gt32 : Prec_gt_0 24 := mant_gt_0 float32.
Local Instance lt32 : Prec_lt_emax 24 128 := mant_lt_emax float32.

(** The cdf is not a cdf: in float32, Categorical(probs=[2, 4, 1, 2^-30]) has cdf(2) = 1 + 2^-23 > 1 = cdf(3), so
    survival_function(2) = P[X > 2] is negative and log_survival_function(2) is NaN, although category 3 has a
    positive probability. *)
Theorem C96_cdf_exceeds_one_refuted :
  let w (i : nat) := match i with O => 2 | 1%nat => 4 | 2%nat => 1 | _ => bpow radix2 (-30) end in
  let o := left_to_right 3 in
  let p i := fl_normalize float32 (sum_in float32 o (fun i => Fin (w i))) (Fin (w i)) in
  let cdf := fl_cat_cdf float32 4 o left_to_right p in
  (forall i, repr float32 (w i) /\ 0 < w i) /\ (exists q, p 3%nat = Fin q /\ 0 < q) /\
  cdf 2%Z = Fin (1 + bpow radix2 (-23)) /\ cdf 3%Z = Fin 1 /\
  fl_cat_survival_function float32 4 o left_to_right p 2 = Fin (- bpow radix2 (-23)) /\
  fl_cat_log_survival_function float32 4 o left_to_right p (fun a => fround float32 (xlog1p a)) 2 = NaN.
Proof.
  intros w o p cdf.
  assert (W : forall i, Fin (w i) = of_ieee float32 (match i with
      | O => @B754_finite 24 128 false 8388608 (-22) eq_refl | 1%nat => @B754_finite 24 128 false 8388608 (-21) eq_refl
      | 2%nat => @B754_finite 24 128 false 8388608 (-23) eq_refl | _ => @B754_finite 24 128 false 8388608 (-53) eq_refl end)).
  { intros [|[|[|i]]]; cbn; f_equal; unfold F2R; cbn; lra. }
  assert (ES : sum_in float32 o (fun i => Fin (w i)) = of_ieee float32 (@B754_finite 24 128 false 14680064 (-21) eq_refl)).
  { unfold o. cbn [left_to_right sum_in]. rewrite !W, !fadd_ieee. apply (f_equal (of_ieee float32)). apply B2SF_inj. vm_compute. reflexivity. }
  assert (V0 : p 0%nat = of_ieee float32 (@B754_finite 24 128 false 9586981 (-25) eq_refl)).
  { unfold p, fl_normalize. rewrite ES, W, fdiv_ieee by discriminate. apply (f_equal (of_ieee float32)). apply B2SF_inj. vm_compute. reflexivity. }
  assert (V1 : p 1%nat = of_ieee float32 (@B754_finite 24 128 false 9586981 (-24) eq_refl)).
  { unfold p, fl_normalize. rewrite ES, W, fdiv_ieee by discriminate. apply (f_equal (of_ieee float32)). apply B2SF_inj. vm_compute. reflexivity. }
  assert (V2 : p 2%nat = of_ieee float32 (@B754_finite 24 128 false 9586981 (-26) eq_refl)).
  { unfold p, fl_normalize. rewrite ES, W, fdiv_ieee by discriminate. apply (f_equal (of_ieee float32)). apply B2SF_inj. vm_compute. reflexivity. }
  assert (V3 : p 3%nat = of_ieee float32 (@B754_finite 24 128 false 9586981 (-56) eq_refl)).
  { unfold p, fl_normalize. rewrite ES, W, fdiv_ieee by discriminate. apply (f_equal (of_ieee float32)). apply B2SF_inj. vm_compute. reflexivity. }
  assert (Wr : forall i, repr float32 (w i) /\ 0 < w i).
  { intros i. split.
    - destruct i as [|[|[|i]]]; unfold w; [change 2 with (bpow radix2 1)|change 4 with (bpow radix2 2)|change 1 with (bpow radix2 0)|]; apply repr_pow; cbn; unfold emin; cbn; lia.
    - destruct i as [|[|[|i]]]; unfold w; try lra. apply bpow_gt_0. }
  assert (Vp : forall j, value float32 (p j)).
  { intros j. unfold p, fl_normalize, fdiv. destruct (fround float32 _) eqn:Q; cbn; auto. eapply fround_value; eauto. }
  assert (C2 : cdf 2%Z = Fin (1 + bpow radix2 (-23))).
  { unfold cdf. change 2%Z with (Z.of_nat 2). rewrite (cdf_inner float32 4 o left_to_right (left_to_right_all 3) p 2 Vp ltac:(lia)).
    cbn [left_to_right sum_in]. rewrite V0, V1, V2, !fadd_ieee.
    transitivity (of_ieee float32 (@B754_finite 24 128 false 8388609 (-23) eq_refl)).
    - apply (f_equal (of_ieee float32)). apply B2SF_inj. vm_compute. reflexivity.
    - cbn. f_equal. unfold F2R; cbn. lra. }
  assert (C3 : cdf 3%Z = Fin 1) by reflexivity.
  split; [exact Wr|]. split.
  { rewrite V3. exists (B2R (@B754_finite 24 128 false 9586981 (-56) eq_refl)). split; [reflexivity|]. apply (fin_sign float32 false). }
  split; [exact C2|]. split; [exact C3|].
  unfold fl_cat_survival_function, fl_cat_log_survival_function. fold cdf. rewrite C2. pose proof (bpow_gt_0 radix2 (-23)). split.
  - unfold fsub. rewrite xsub_fin. replace (1 - (1 + bpow radix2 (-23))) with (- bpow radix2 (-23)) by ring.
    apply fround_repr, repr_opp, repr_pow; cbn; unfold emin; cbn; lia.
  - cbn [xopp]. unfold xlog1p. rewrite xadd_fin. cbn [xlog]. unfold rlog. repeat destruct (Rlt_dec _ _); try lra; repeat destruct (Req_EM_T _ _); try lra; reflexivity.
Qed.
(** and the accuracy theorem does apply to these probabilities: relative error within 3 roundings *)
Example C96_accuracy_example :
  exists c, fl_cat_cdf float32 4 (left_to_right 3) left_to_right (fun _ => Fin (/ 4)) 2 = Fin c /\
    (1 - eps float32) ^ 2 * (3 / 4) <= c <= (1 + eps float32) ^ 2 * (3 / 4).
Proof.
  assert (Rq : repr float32 (/ 4)) by (change (/ 4) with (bpow radix2 (-2)); apply repr_pow; cbn; unfold emin; cbn; lia).
  pose proof (eps_pos float32). pose proof (eps_le float32). pose proof (maxpow_ge_32 float32).
  destruct (C96_cdf_accuracy float32 4 (left_to_right 3) left_to_right (left_to_right_all 3) (fun _ => / 4) ltac:(auto) ltac:(intros; lra) 2 (left_to_right_all 2) ltac:(lia)) as (c & A & _ & _ & _ & B).
  - cbn. nra.
  - exists c. split; [exact A|]. change (depth (left_to_right 2)) with 2%nat in B. replace (total (fun _ => / 4) (seq 0 3)) with (3 / 4) in B by (cbn; lra). exact B.
Qed.
Print Assumptions C96_prob.
Print Assumptions C96_cdf_accuracy.
Print Assumptions C96_cdf_monotone.
Print Assumptions C96_cdf_exceeds_one_refuted.
