(** C86: selection by a one-hot mask, and straight-through samples, are exact in floating point. *)
From Coq Require Import Reals List Bool Lra Lia ZArith.
From Flocq Require Import Core.
From Verif Require Import Base.XR Base.Float Model.FloatDist Spec.Rounding Proofs.FloatOrder Proofs.FloatLib Props.FloatSoftmax.
Import ListNotations.
Local Open Scope R_scope.

Lemma NoDup_split (l r : list nat) : NoDup (l ++ r) -> NoDup l /\ NoDup r.
Proof.
  induction l as [|a l IH]; cbn; intros H; [split; [constructor|auto]|]. inversion H as [|? ? N1 N2]; subst.
  destruct (IH N2). split; auto. constructor; auto. intros Hi. apply N1, in_or_app; auto.
Qed.

Section C86.
Variable dt : dtype.
Lemma fadd_0_l a : value dt a -> fadd dt (Fin 0) a = a.
Proof. intros V. unfold fadd. rewrite xadd_0_l. destruct a; try reflexivity. apply fround_repr, V. Qed.
Lemma fadd_0_r a : value dt a -> fadd dt a (Fin 0) = a.
Proof. intros V. unfold fadd. rewrite xadd_0_r. destruct a; try reflexivity. apply fround_repr, V. Qed.
(** a sum whose terms are all zero, except possibly one, is that term *)
Lemma sum_zero o p : (forall i, In i (visits o) -> p i = Fin 0) -> sum_in dt o p = Fin 0.
Proof.
  induction o as [i|l IHl r IHr]; cbn [sum_in visits]; intros H; [apply H; left; auto|].
  rewrite IHl, IHr by (intros; apply H, in_or_app; auto). apply fadd_0_l, repr_0.
Qed.
Lemma sum_one o p k : NoDup (visits o) -> In k (visits o) -> value dt (p k) ->
  (forall i, In i (visits o) -> i <> k -> p i = Fin 0) -> sum_in dt o p = p k.
Proof.
  induction o as [i|l IHl r IHr]; cbn [sum_in visits]; intros ND Hk V Z.
  - destruct Hk as [-> |[]]; auto.
  - assert (Dis : forall a, In a (visits l) -> In a (visits r) -> False).
    { clear - ND. induction (visits l) as [|b l' IH]; [intros a []|]. cbn in ND. inversion ND as [|? ? N1 N2]; subst.
      intros a [<-|Ha] Hr; [apply N1, in_or_app; auto|apply (IH N2 a); auto]. }
    assert (N1 : NoDup (visits l)) by apply (NoDup_split _ _ ND).
    assert (N2 : NoDup (visits r)) by apply (NoDup_split _ _ ND).
    apply in_app_or in Hk as [Hk|Hk].
    + rewrite IHl, (sum_zero r); auto; [apply fadd_0_r; auto| |].
      * intros i Hi. apply Z; [apply in_or_app; auto|]. intros ->. apply (Dis k); auto.
      * intros i Hi. apply Z. apply in_or_app; auto.
    + rewrite IHr, (sum_zero l); auto; [apply fadd_0_l; auto| |].
      * intros i Hi. apply Z; [apply in_or_app; auto|]. intros ->. apply (Dis k); auto.
      * intros i Hi. apply Z. apply in_or_app; auto.
Qed.

(** The sample of a mixture (and the knot selected by a spline) is exactly the selected entry, bit
    for bit, in whatever order the sum is taken, provided the entries are finite. *)
Theorem C86_mixture_sample o k x :
  NoDup (visits o) -> In k (visits o) -> (forall i, In i (visits o) -> exists r, x i = Fin r /\ repr dt r) ->
  fl_select dt o k x = x k.
Proof.
  intros ND Hk F. unfold fl_select.
  assert (One : fmul dt (x k) (fl_mask k k) = x k).
  { destruct (F k Hk) as (r & -> & R). unfold fl_mask. rewrite Nat.eqb_refl. unfold fmul. rewrite xmul_fin, Rmult_1_r. apply fround_repr, R. }
  rewrite (sum_one o _ k); auto.
  - rewrite One. destruct (F k Hk) as (r & -> & R). exact R.
  - intros i Hi Ne. unfold fl_mask. apply Nat.eqb_neq in Ne. rewrite Ne. destruct (F i Hi) as (r & -> & _).
    unfold fmul. rewrite xmul_fin, Rmult_0_r. apply fround_0.
Qed.
(** Categorical's prob and log_prob return exactly the selected parameter even when others, or the
    selected one itself, are infinite or NaN; and zero for an index that is not among the categories. *)
Theorem C86_categorical o k x :
  NoDup (visits o) -> (forall i, In i (visits o) -> value dt (x i)) ->
  (In k (visits o) -> fl_select_no_nan dt o k x = x k) /\ (~ In k (visits o) -> fl_select_no_nan dt o k x = Fin 0).
Proof.
  intros ND V. unfold fl_select_no_nan.
  assert (Off : forall i, i <> k -> fl_multiply_no_nan dt (x i) (fl_mask k i) = Fin 0).
  { intros i Ne. unfold fl_mask. apply Nat.eqb_neq in Ne. rewrite Ne. unfold fl_multiply_no_nan.
    assert (xeqb (Fin 0) (Fin 0) = true) as -> by (apply xeqb_fin; auto). reflexivity. }
  split; intros Hk.
  - assert (One : fl_multiply_no_nan dt (x k) (fl_mask k k) = x k).
    { unfold fl_mask. rewrite Nat.eqb_refl. unfold fl_multiply_no_nan. destruct (xeqb (Fin 1) (Fin 0)) eqn:Q; [apply xeqb_fin in Q; lra|].
      unfold fmul. rewrite xmul_comm, xmul_1_l. specialize (V k Hk). destruct (x k); try reflexivity. apply fround_repr, V. }
    rewrite (sum_one o _ k); auto. rewrite One. apply V, Hk.
  - apply sum_zero. intros i Hi. apply Off. intros ->. contradiction.
Qed.
(** A straight-through sample has exactly the value of the sample, for finite probabilities, as long as
    the sample is an integer the dtype holds exactly. *)
Theorem C86_straight_through sample p :
  repr dt p -> (Z.abs sample <= 2 ^ mant dt)%Z ->
  fl_straight_through dt sample (Fin p) = Fin (IZR sample).
Proof.
  intros Rp B. unfold fl_straight_through. assert (R : repr dt (IZR sample)).
  { pose proof (mant_ok dt) as M1. pose proof (exp_ok dt) as M2. split.
    - destruct (Z.eq_dec (Z.abs sample) (2 ^ mant dt)) as [Q|Q].
      + assert (A : Rabs (IZR sample) = bpow radix2 (mant dt)).
        { rewrite <- abs_IZR, Q. rewrite <- IZR_Zpower by lia. reflexivity. }
        apply generic_format_abs_inv. rewrite A. apply F_bpow. unfold emin. lia.
      + apply generic_format_FLT. exists (Defs.Float radix2 sample 0); cbn [Fnum Fexp].
        * unfold F2R. cbn [Fnum Fexp]. cbn [bpow]. lra.
        * change (radix_val radix2) with 2%Z. lia.
        * unfold emin. lia.
    - rewrite <- abs_IZR. apply Rle_lt_trans with (bpow radix2 (mant dt)); [|apply bpow_lt; lia].
      rewrite <- IZR_Zpower by lia. apply IZR_le. exact B. }
  rewrite fround_repr by auto. unfold fsub. rewrite xsub_fin, Rminus_diag_eq, fround_0 by auto. apply fadd_0_r. exact R.
Qed.
End C86.

(** Concrete cases *)
Example C86_example :
  let o := Plus (At 2) (Plus (At 0) (At 1)) in
  let x := fun i : nat => match i with O => Fin 1 | S O => Fin 0 | _ => NInf end in
  NoDup (visits o) /\ (forall i, In i (visits o) -> value float32 (x i)) /\ In 2%nat (visits o) /\ ~ In 3%nat (visits o) /\
  (Z.abs 1 <= 2 ^ mant float32)%Z.
Proof.
  cbn [visits app]. split; [repeat constructor; cbn; intuition discriminate|]. split.
  - intros [|[|i]] _; cbn; auto; [apply repr_1|apply repr_0].
  - split; [left; auto|]. split; [cbn; intuition discriminate|]. cbn. lia.
Qed.
Print Assumptions C86_mixture_sample.
