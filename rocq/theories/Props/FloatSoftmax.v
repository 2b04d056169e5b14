(** C85: normalising logits in floating point. *)
From Coq Require Import Reals List Bool Lra Lia ZArith Permutation.
From Flocq Require Import Core.
From Verif Require Import Base.XR Base.Float Model.FloatDist Spec.Rounding Proofs.FloatOrder Proofs.FloatLib Props.FloatNormalize.
Import ListNotations.
Local Open Scope R_scope.

Lemma sum_in_ext dt o p q : (forall i, In i (visits o) -> p i = q i) -> sum_in dt o p = sum_in dt o q.
Proof.
  induction o as [i|l IHl r IHr]; cbn [sum_in visits]; intros H; [apply H; left; auto|].
  rewrite IHl, IHr; auto; intros i Hi; apply H, in_or_app; auto.
Qed.
Lemma sum_in_nan dt o p i : In i (visits o) -> p i = NaN -> sum_in dt o p = NaN.
Proof.
  induction o as [j|l IHl r IHr]; cbn [sum_in visits]; intros Hi E; [destruct Hi as [-> |[]]; auto|].
  apply in_app_or in Hi as [Hi|Hi]; unfold fadd; [rewrite IHl by auto; destruct (sum_in dt r p); reflexivity|].
  rewrite IHr by auto. destruct (sum_in dt l p); reflexivity.
Qed.
Lemma amax_spec n x : (forall i, (i < n)%nat -> x i <> NaN) ->
  fl_amax n x <> NaN /\ (forall i, (i < n)%nat -> fle (x i) (fl_amax n x)) /\
  (fl_amax n x = NInf \/ exists k, (k < n)%nat /\ fl_amax n x = x k).
Proof.
  intros H. unfold fl_amax.
  assert (G : forall l, (forall i, In i l -> x i <> NaN) ->
    fold_right xmax NInf (map x l) <> NaN /\ (forall i, In i l -> fle (x i) (fold_right xmax NInf (map x l))) /\
    (fold_right xmax NInf (map x l) = NInf \/ exists k, In k l /\ fold_right xmax NInf (map x l) = x k)).
  { induction l as [|a l IH]; intros Hl; cbn [map fold_right].
    - split; [discriminate|]. split; [intros i []|auto].
    - destruct IH as (N & B & A); [intros; apply Hl; right; auto|].
      destruct (xmax_fle (x a) (fold_right xmax NInf (map x l))) as (M1 & M2 & M3); auto; [apply Hl; left; auto|].
      split; [apply (fle_nan_r _ _ M1)|]. split.
      + intros i [<-|Hi]; auto. apply fle_trans with (2 := M2). auto.
      + destruct M3 as [-> | ->]; [right; exists a; split; [left|]; auto|]. destruct A as [->|(k & Hk & ->)]; auto. right. exists k. split; [right|]; auto. }
  destruct (G (seq 0 n)) as (N & B & A). { intros i Hi. apply in_seq in Hi. apply H; lia. }
  split; [auto|]. split; [intros i Hi; apply B, in_seq; lia|]. destruct A as [A|(k & Hk & Ek)]; auto. apply in_seq in Hk. right. exists k. split; [lia|auto].
Qed.

Section C85.
Variable dt : dtype.
Variables L E : XR -> XR.
Hypothesis HL : log_fn dt L.
Hypothesis HE : exp_fn dt E.
Variables (n : nat) (x : nat -> XR) (o : order).
Hypothesis Ho : Permutation (visits o) (seq 0 n).

Lemma visits_in i : (i < n)%nat <-> In i (visits o).
Proof.
  split; intros H.
  - apply (Permutation_in i (Permutation_sym Ho)), in_seq. lia.
  - apply (Permutation_in i Ho), in_seq in H. lia.
Qed.
Section Valid.
(** finite or -inf logits, at least one finite *)
Hypothesis x_value : forall i, (i < n)%nat -> value dt (x i) /\ x i <> NaN /\ x i <> PInf.
Variable k0 : nat.
Hypothesis k0_ok : (k0 < n)%nat /\ x k0 <> NInf.

Lemma amax_fin : exists m, fl_amax n x = Fin m /\ repr dt m /\ (exists k, (k < n)%nat /\ x k = Fin m) /\ forall i, (i < n)%nat -> fle (x i) (Fin m).
Proof.
  destruct (amax_spec n x) as (N & B & A). { intros i Hi. apply (x_value i Hi). }
  destruct k0_ok as [K1 K2]. destruct A as [A|(k & Hk & Ek)].
  - exfalso. specialize (B k0 K1). rewrite A in B. destruct (x_value k0 K1) as (_ & V1 & V2). destruct (x k0); try discriminate B; congruence.
  - destruct (x_value k Hk) as (V & V1 & V2). rewrite Ek in *. destruct (x k) as [m| | |] eqn:Exk; try congruence.
    + exists m. split; auto. split; auto. split; [eauto|auto].
    + exfalso. specialize (B k0 K1). destruct (x_value k0 K1) as (_ & W1 & W2). destruct (x k0); try discriminate B; congruence.
Qed.
Lemma shifted_spec i : (i < n)%nat ->
  fle (fl_shifted dt n x i) (Fin 0) /\ value dt (fl_shifted dt n x i) /\
  (x i = NInf -> fl_shifted dt n x i = NInf) /\ (x i = fl_amax n x -> fl_shifted dt n x i = Fin 0) /\
  forall j, (j < n)%nat -> fle (x i) (x j) -> fle (fl_shifted dt n x i) (fl_shifted dt n x j).
Proof.
  destruct amax_fin as (m & Em & Rm & _ & B). intros Hi. unfold fl_shifted. rewrite Em.
  assert (Mo : forall a b, fle a b -> fle (fsub dt a (Fin m)) (fsub dt b (Fin m))).
  { intros a b H. apply fround_mono. unfold xsub. apply xadd_mono; auto; discriminate. }
  assert (Z : fsub dt (Fin m) (Fin m) = Fin 0). { unfold fsub. rewrite xsub_fin, Rminus_diag_eq by auto. apply fround_0. }
  split; [rewrite <- Z; apply Mo, B, Hi|]. split.
  { unfold value. destruct (fsub dt (x i) (Fin m)) eqn:Q; auto. apply (fround_value dt _ _ Q). }
  split; [intros ->; reflexivity|]. split; [intros ->; auto|]. intros j Hj H. apply Mo, H.
Qed.
Lemma exp_shifted i : (i < n)%nat -> exists p, E (fl_shifted dt n x i) = Fin p /\ repr dt p /\ 0 <= p <= 1 /\ (x i = fl_amax n x -> p = 1) /\ (x i = NInf -> p = 0).
Proof.
  intros Hi. destruct (shifted_spec i Hi) as (S1 & S2 & S3 & S4 & _).
  assert (U : fle (E (fl_shifted dt n x i)) (Fin 1)).
  { rewrite <- (exp_fn_zero _ _ HE). apply (exp_fn_mono _ _ HE); auto. apply repr_0. }
  assert (D : fle (Fin 0) (E (fl_shifted dt n x i))).
  { rewrite <- (exp_fn_ninf _ _ HE). apply (exp_fn_mono _ _ HE); auto; [exact I|]. apply fle_NInf, (fle_nan_l _ _ S1). }
  pose proof (exp_fn_value _ _ HE _ S2) as V.
  destruct (E (fl_shifted dt n x i)) as [p| | |] eqn:Ep; try discriminate U; try discriminate D.
  exists p. apply fle_fin in U, D. split; auto. split; auto. split; auto. split.
  - intros H. rewrite (S4 H), (exp_fn_zero _ _ HE) in Ep. injection Ep; auto.
  - intros H. rewrite (S3 H), (exp_fn_ninf _ _ HE) in Ep. injection Ep; auto.
Qed.
Definition pr (i : nat) : R := if lt_dec i n then toR (E (fl_shifted dt n x i)) else 0.
Lemma pr_spec i : (i < n)%nat -> E (fl_shifted dt n x i) = Fin (pr i).
Proof. intros Hi. unfold pr. destruct (lt_dec i n); [|contradiction]. destruct (exp_shifted i Hi) as (p & -> & _). reflexivity. Qed.
Lemma pr_repr i : repr dt (pr i).
Proof. unfold pr. destruct (lt_dec i n) as [H|]; [|apply repr_0]. destruct (exp_shifted i H) as (p & -> & R & _). exact R. Qed.
Lemma pr_nonneg i : 0 <= pr i.
Proof. unfold pr. destruct (lt_dec i n) as [H|]; [|lra]. destruct (exp_shifted i H) as (p & -> & _ & B & _). cbn; lra. Qed.
Lemma exp_sum_spec : fl_exp_sum dt E o n x = PInf \/
  exists S, fl_exp_sum dt E o n x = Fin S /\ repr dt S /\ 1 <= S /\ forall i, (i < n)%nat -> pr i <= S.
Proof.
  unfold fl_exp_sum. rewrite (sum_in_ext dt o _ (fun i => Fin (pr i))) by (intros i Hi; apply pr_spec, visits_in, Hi).
  destruct (sum_in_cases dt pr pr_repr pr_nonneg o) as [H|(S & ES & RS & _ & M & _)]; [auto|]. right. exists S. split; auto. split; auto.
  assert (M' : forall i, (i < n)%nat -> pr i <= S) by (intros i Hi; apply M, visits_in, Hi). split; [|auto].
  destruct amax_fin as (m & Em & _ & (k & Hk & Ek) & _). destruct (exp_shifted k Hk) as (p & Ep & _ & _ & P1 & _).
  rewrite Em in P1. rewrite (pr_spec k Hk) in Ep. injection Ep as Ep. rewrite <- (P1 Ek), <- Ep. apply M'; auto.
Qed.

(** Every normalised logit is at most 0 (in particular not NaN), -inf where the logit is; the order
    of the logits is kept; and the largest stays finite unless the sum itself overflows. *)
Theorem C85_log_softmax :
  (forall i, (i < n)%nat -> fle (fl_log_softmax dt L E o n x i) (Fin 0) /\
     (x i = NInf -> fl_log_softmax dt L E o n x i = NInf)) /\
  (forall i j, (i < n)%nat -> (j < n)%nat -> fle (x i) (x j) ->
     fle (fl_log_softmax dt L E o n x i) (fl_log_softmax dt L E o n x j)) /\
  (fl_exp_sum dt E o n x <> PInf -> forall i, (i < n)%nat -> (forall j, (j < n)%nat -> fle (x j) (x i)) ->
     exists r, fl_log_softmax dt L E o n x i = Fin r).
Proof.
  unfold fl_log_softmax. destruct exp_sum_spec as [-> |(S & -> & RS & S1 & _)].
  - rewrite (log_fn_inf _ _ HL).
    assert (Z : forall i, (i < n)%nat -> fsub dt (fl_shifted dt n x i) PInf = NInf).
    { intros i Hi. destruct (shifted_spec i Hi) as (S1 & _). destruct (fl_shifted dt n x i); try discriminate S1; reflexivity. }
    split; [intros i Hi; rewrite (Z i Hi); split; [reflexivity|auto]|]. split; [intros i j Hi Hj _; rewrite (Z i Hi), (Z j Hj); reflexivity|].
    intros H; congruence.
  - destruct (log_fn_finite _ _ HL S ltac:(lra) RS) as (l & El & Rl & _). rewrite El.
    assert (l0 : 0 <= l).
    { pose proof (log_fn_mono _ _ HL 1 S ltac:(lra) (repr_1 dt) RS S1) as M. rewrite (log_fn_one _ _ HL), El in M. apply fle_fin in M; auto. }
    assert (Mo : forall a b, fle a b -> fle (fsub dt a (Fin l)) (fsub dt b (Fin l))).
    { intros a b H. apply fround_mono. unfold xsub. apply xadd_mono; auto; discriminate. }
    split; [|split].
    + intros i Hi. destruct (shifted_spec i Hi) as (Q1 & _ & Q3 & _). split; [|intros H; rewrite (Q3 H); reflexivity].
      apply fle_trans with (fsub dt (Fin 0) (Fin l)); [apply Mo, Q1|]. apply fround_nonpos. apply fle_fin. lra.
    + intros i j Hi Hj H. apply Mo. apply (shifted_spec i Hi); auto.
    + intros _ i Hi Hm. destruct (shifted_spec i Hi) as (_ & _ & _ & Q4 & _).
      rewrite Q4.
      * exists (- l). unfold fsub. rewrite xsub_fin. replace (0 - l) with (- l) by lra. apply fround_repr, repr_opp, Rl.
      * destruct amax_fin as (m & Em & _ & (k & Hk & Ek) & B). rewrite Em. apply fle_antisym; [apply B, Hi|]. rewrite <- Ek. apply Hm, Hk.
Qed.
(** The probabilities are numbers in [0, 1], 0 where the logit is -inf, in the order of the logits. *)
Theorem C85_softmax :
  (forall i, (i < n)%nat -> exists q, fl_softmax dt E o n x i = Fin q /\ repr dt q /\ 0 <= q <= 1 /\ (x i = NInf -> q = 0)) /\
  (forall i j, (i < n)%nat -> (j < n)%nat -> fle (x i) (x j) -> fle (fl_softmax dt E o n x i) (fl_softmax dt E o n x j)).
Proof.
  unfold fl_softmax. destruct exp_sum_spec as [-> |(S & -> & RS & S1 & M)].
  - assert (Z : forall i, (i < n)%nat -> fdiv dt (E (fl_shifted dt n x i)) PInf = Fin 0).
    { intros i Hi. rewrite (pr_spec i Hi). apply fround_0. }
    split; [intros i Hi; exists 0; rewrite (Z i Hi); split; auto; split; [apply repr_0|split; [lra|auto]]|].
    intros i j Hi Hj _. rewrite (Z i Hi), (Z j Hj). apply fle_fin; lra.
  - assert (Q : forall i, (i < n)%nat -> fdiv dt (E (fl_shifted dt n x i)) (Fin S) = fround dt (Fin (pr i / S))).
    { intros i Hi. rewrite (pr_spec i Hi). unfold fdiv. rewrite xdiv_fin' by lra. reflexivity. }
    split.
    + intros i Hi. rewrite (Q i Hi). pose proof (pr_nonneg i) as P0. pose proof (M i Hi) as P1.
      assert (B : 0 <= pr i / S <= 1).
      { split; [apply Rle_mult_inv_pos; lra|]. apply (Rmult_le_reg_r S); [lra|]. unfold Rdiv. rewrite Rmult_assoc, Rinv_l; lra. }
      destruct (fround_between dt _ 0 1 (repr_0 dt) (repr_1 dt) B) as (-> & B' & R'). exists (rnd dt (pr i / S)).
      split; auto. split; auto. split; auto. intros H. destruct (exp_shifted i Hi) as (p & Ep & _ & _ & _ & Z).
      rewrite (pr_spec i Hi) in Ep. injection Ep as ->. rewrite (Z H). unfold Rdiv. rewrite Rmult_0_l. apply rnd_0.
    + intros i j Hi Hj H. rewrite (Q i Hi), (Q j Hj). apply fround_mono, fle_fin. apply Rmult_le_compat_r; [left; apply Rinv_0_lt_compat; lra|].
      destruct (shifted_spec i Hi) as (_ & V & _ & _ & Mo). destruct (shifted_spec j Hj) as (_ & V' & _).
      pose proof (exp_fn_mono _ _ HE _ _ V V' (Mo j Hj H)) as K. rewrite (pr_spec i Hi), (pr_spec j Hj) in K. apply fle_fin in K; auto.
Qed.
End Valid.

(** With no finite logit, or with +inf or NaN among them, every normalised logit is NaN. *)
Theorem C85_undefined :
  (0 < n)%nat -> (forall i, (i < n)%nat -> x i = NInf) \/ (exists i, (i < n)%nat /\ x i = PInf /\ forall j, (j < n)%nat -> x j <> NaN) ->
  E NaN = NaN -> L NaN = NaN ->
  forall i, (i < n)%nat -> fl_log_softmax dt L E o n x i = NaN.
Proof.
  intros Hn H EN LN. assert (A : exists i, (i < n)%nat /\ fl_shifted dt n x i = NaN).
  { destruct H as [H|(i & Hi & Ei & Nn)].
    - exists 0%nat. split; auto. unfold fl_shifted. destruct (amax_spec n x) as (_ & _ & [-> |(k & Hk & ->)]).
      { intros i Hi. rewrite (H i Hi). discriminate. } { rewrite (H 0%nat Hn). reflexivity. } { rewrite (H 0%nat Hn), (H k Hk). reflexivity. }
    - exists i. split; auto. destruct (amax_spec n x Nn) as (N & B & _). specialize (B i Hi). rewrite Ei in B.
      unfold fl_shifted. rewrite Ei. destruct (fl_amax n x); try discriminate B; reflexivity. }
  destruct A as (a & Ha & Sa). intros i Hi. unfold fl_log_softmax, fl_exp_sum.
  rewrite (sum_in_nan dt o _ a), LN; [destruct (fl_shifted dt n x i); reflexivity|apply visits_in, Ha|]. rewrite Sa; auto.
Qed.
End C85.

(** A concrete case: float32 logits (0, -inf, 2^100) with correctly rounded functions. *)
Example C85_example :
  let x := fun i : nat => match i with O => Fin 0 | S O => NInf | _ => Fin (bpow radix2 100) end in
  let o := Plus (Plus (At 0) (At 1)) (At 2) in
  log_fn float32 (fun a => fround float32 (xlog a)) /\ exp_fn float32 (fun a => fround float32 (xexp a)) /\
  Permutation (visits o) (seq 0 3) /\ (forall i, (i < 3)%nat -> value float32 (x i) /\ x i <> NaN /\ x i <> PInf) /\
  ((0 < 3)%nat /\ x 0%nat <> NInf).
Proof.
  intros x o. split; [apply log_rounded|]. split; [apply exp_rounded|]. split; [apply Permutation_refl|]. split; [|split; [lia|discriminate]].
  intros i _. destruct i as [|[|i]]; (split; [|split; discriminate]); cbn [x value]; auto; [apply repr_0|].
  split; [apply F_bpow; unfold emin; cbn; lia|]. rewrite Rabs_pos_eq by apply bpow_ge_0. apply bpow_lt. reflexivity.
Qed.
Print Assumptions C85_log_softmax.
