(** Infrastructure: finite sums of reals over lists. *)
From Coq Require Import List Reals Lra Lia Arith Permutation.
Import ListNotations.
Local Open Scope R_scope.

Definition rsum (l : list R) : R := fold_right Rplus 0 l.
Definition sumf {A} (f : A -> R) (l : list A) : R := rsum (map f l).
Definition rprod (l : list R) : R := fold_right Rmult 1 l.
Definition prodf {A} (f : A -> R) (l : list A) : R := rprod (map f l).

Lemma rsum_app l1 l2 : rsum (l1 ++ l2) = rsum l1 + rsum l2.
Proof. induction l1 as [|a l IH]; simpl; [lra | rewrite IH; lra]. Qed.
Lemma sumf_nil {A} (f : A -> R) : sumf f [] = 0. Proof. reflexivity. Qed.
Lemma sumf_cons {A} (f : A -> R) a l : sumf f (a :: l) = f a + sumf f l. Proof. reflexivity. Qed.
Lemma sumf_app {A} (f : A -> R) l1 l2 : sumf f (l1 ++ l2) = sumf f l1 + sumf f l2.
Proof. unfold sumf; rewrite map_app; apply rsum_app. Qed.
Lemma sumf_ext {A} (f g : A -> R) l : (forall a, In a l -> f a = g a) -> sumf f l = sumf g l.
Proof.
  induction l as [|a l IH]; intros H; [reflexivity|].
  rewrite !sumf_cons, (H a), IH; auto; [intros; apply H|]; simpl; auto.
Qed.
Lemma sumf_plus {A} (f g : A -> R) l : sumf (fun a => f a + g a) l = sumf f l + sumf g l.
Proof. induction l as [|a l IH]; [unfold sumf; simpl; lra|]. rewrite !sumf_cons, IH; lra. Qed.
Lemma sumf_minus {A} (f g : A -> R) l : sumf (fun a => f a - g a) l = sumf f l - sumf g l.
Proof. induction l as [|a l IH]; [unfold sumf; simpl; lra|]. rewrite !sumf_cons, IH; lra. Qed.
Lemma sumf_opp {A} (f : A -> R) l : sumf (fun a => - f a) l = - sumf f l.
Proof. induction l as [|a l IH]; [unfold sumf; simpl; lra|]. rewrite !sumf_cons, IH; lra. Qed.
Lemma sumf_scal {A} c (f : A -> R) l : sumf (fun a => c * f a) l = c * sumf f l.
Proof. induction l as [|a l IH]; [unfold sumf; simpl; lra|]. rewrite !sumf_cons, IH; lra. Qed.
Lemma sumf_scal_r {A} c (f : A -> R) l : sumf (fun a => f a * c) l = sumf f l * c.
Proof. induction l as [|a l IH]; [unfold sumf; simpl; lra|]. rewrite !sumf_cons, IH; lra. Qed.
Lemma sumf_const {A} c (l : list A) : sumf (fun _ => c) l = INR (length l) * c.
Proof.
  induction l as [|a l IH]; [unfold sumf; simpl; lra|].
  rewrite sumf_cons, IH; cbn [length]; rewrite S_INR; lra.
Qed.
Lemma sumf_zero {A} (f : A -> R) l : (forall a, In a l -> f a = 0) -> sumf f l = 0.
Proof.
  intros H; rewrite (sumf_ext f (fun _ => 0) l H), sumf_const; lra.
Qed.
Lemma sumf_map {A B} (f : B -> R) (g : A -> B) l : sumf f (map g l) = sumf (fun a => f (g a)) l.
Proof. unfold sumf; rewrite map_map; reflexivity. Qed.
Lemma rsum_sumf l : rsum l = sumf (fun x => x) l.
Proof. unfold sumf; rewrite map_id; reflexivity. Qed.
Lemma sumf_le {A} (f g : A -> R) l : (forall a, In a l -> f a <= g a) -> sumf f l <= sumf g l.
Proof.
  induction l as [|a l IH]; intros H; [unfold sumf; simpl; lra|].
  rewrite !sumf_cons. apply Rplus_le_compat; [apply H; simpl; auto|].
  apply IH; intros; apply H; simpl; auto.
Qed.
Lemma sumf_nonneg {A} (f : A -> R) l : (forall a, In a l -> 0 <= f a) -> 0 <= sumf f l.
Proof.
  intros H. rewrite <- (sumf_zero (fun _ => 0) l) by auto. apply sumf_le; auto.
Qed.
Lemma sumf_pos {A} (f : A -> R) l :
  l <> [] -> (forall a, In a l -> 0 < f a) -> 0 < sumf f l.
Proof.
  destruct l as [|a l]; [congruence|]; intros _ H. rewrite sumf_cons.
  assert (0 < f a) by (apply H; simpl; auto).
  assert (0 <= sumf f l) by (apply sumf_nonneg; intros; left; apply H; simpl; auto). lra.
Qed.
Lemma sumf_pos_ex {A} (f : A -> R) l a :
  (forall a, In a l -> 0 <= f a) -> In a l -> 0 < f a -> 0 < sumf f l.
Proof.
  induction l as [|b l IH]; intros Hn Hi Hp; [inversion Hi|]. rewrite sumf_cons.
  assert (0 <= f b) by (apply Hn; simpl; auto).
  assert (0 <= sumf f l) by (apply sumf_nonneg; intros; apply Hn; simpl; auto).
  destruct Hi as [->|Hi]; [lra|].
  assert (0 < sumf f l) by (apply IH; auto; intros; apply Hn; simpl; auto). lra.
Qed.
Lemma sumf_nonneg_zero {A} (f : A -> R) l a :
  (forall a, In a l -> 0 <= f a) -> sumf f l = 0 -> In a l -> f a = 0.
Proof.
  intros Hn Hs Hi. destruct (Hn a Hi) as [Hp|Hz]; [|auto].
  exfalso. assert (0 < sumf f l) by (eapply sumf_pos_ex; eauto). lra.
Qed.
Lemma sumf_ge_elem {A} (f : A -> R) l a :
  (forall a, In a l -> 0 <= f a) -> In a l -> f a <= sumf f l.
Proof.
  induction l as [|b l IH]; intros Hn Hi; [inversion Hi|]. rewrite sumf_cons.
  assert (0 <= f b) by (apply Hn; simpl; auto).
  assert (0 <= sumf f l) by (apply sumf_nonneg; intros; apply Hn; simpl; auto).
  destruct Hi as [->|Hi]; [lra|].
  assert (f a <= sumf f l) by (apply IH; auto; intros; apply Hn; simpl; auto). lra.
Qed.
Lemma sumf_flat_map {A B} (f : B -> R) (g : A -> list B) l :
  sumf f (flat_map g l) = sumf (fun a => sumf f (g a)) l.
Proof.
  induction l as [|a l IH]; [reflexivity|].
  cbn [flat_map]; rewrite sumf_app, sumf_cons, IH; reflexivity.
Qed.
Lemma sumf_swap {A B} (f : A -> B -> R) la lb :
  sumf (fun a => sumf (fun b => f a b) lb) la = sumf (fun b => sumf (fun a => f a b) la) lb.
Proof.
  induction la as [|a la IH].
  - symmetry; apply sumf_zero; intros; reflexivity.
  - rewrite sumf_cons, IH, <- sumf_plus. apply sumf_ext; intros; rewrite sumf_cons; reflexivity.
Qed.
Lemma sumf_perm {A} (f : A -> R) l1 l2 : Permutation l1 l2 -> sumf f l1 = sumf f l2.
Proof.
  induction 1; rewrite ?sumf_cons; try reflexivity; try lra; congruence.
Qed.
Lemma sumf_filter_split {A} (f : A -> R) (P : A -> bool) l :
  sumf f l = sumf f (filter P l) + sumf f (filter (fun a => negb (P a)) l).
Proof.
  induction l as [|a l IH]; [unfold sumf; simpl; lra|].
  rewrite sumf_cons, IH; cbn [filter]; destruct (P a); cbn [negb]; rewrite sumf_cons; lra.
Qed.
Lemma sumf_seq_shift (f : nat -> R) s n : sumf f (seq (S s) n) = sumf (fun i => f (S i)) (seq s n).
Proof. rewrite <- seq_shift, sumf_map; reflexivity. Qed.
Lemma sumf_seq_add (f : nat -> R) s n k : sumf f (seq (k + s) n) = sumf (fun i => f (k + i)%nat) (seq s n).
Proof.
  revert s; induction n as [|n IH]; intros s; [reflexivity|].
  cbn [seq]; rewrite !sumf_cons; f_equal. rewrite <- IH. rewrite plus_n_Sm. reflexivity.
Qed.
Lemma sumf_nth (l : list R) d : sumf (fun i => nth i l d) (seq 0 (length l)) = rsum l.
Proof.
  induction l as [|a l IH]; [reflexivity|].
  cbn [length seq]; rewrite sumf_cons, sumf_seq_shift; cbn [nth]; rewrite IH; reflexivity.
Qed.
Lemma sumf_single {A} (eqd : forall a b : A, {a = b} + {a <> b}) (f : A -> R) l a :
  NoDup l -> In a l -> (forall b, In b l -> b <> a -> f b = 0) -> sumf f l = f a.
Proof.
  induction l as [|b l IH]; intros Hnd Hi Hz; [inversion Hi|]. rewrite sumf_cons.
  inversion Hnd as [|? ? Hnb Hnd']; subst.
  destruct (eqd b a) as [->|Hne].
  - rewrite sumf_zero; [lra|]. intros c Hc; apply Hz; simpl; auto. intros ->; contradiction.
  - rewrite Hz by (simpl; auto). rewrite IH; auto; [lra| |].
    + destruct Hi as [->|]; [congruence|auto].
    + intros; apply Hz; simpl; auto.
Qed.
Lemma sumf_seq_single (f : nat -> R) n k :
  (k < n)%nat -> (forall i, (i < n)%nat -> i <> k -> f i = 0) -> sumf f (seq 0 n) = f k.
Proof.
  intros Hk Hz. apply (sumf_single Nat.eq_dec); [apply seq_NoDup| |].
  - apply in_seq; lia.
  - intros b Hb; apply Hz; apply in_seq in Hb; lia.
Qed.
Lemma rprod_app l1 l2 : rprod (l1 ++ l2) = rprod l1 * rprod l2.
Proof. induction l1 as [|a l IH]; simpl; [lra | rewrite IH; lra]. Qed.
Lemma rprod_pos l : (forall a, In a l -> 0 < a) -> 0 < rprod l.
Proof.
  induction l as [|a l IH]; intros H; simpl; [lra|].
  apply Rmult_lt_0_compat; [apply H; simpl; auto | apply IH; intros; apply H; simpl; auto].
Qed.
Lemma rprod_neq0 l : (forall a, In a l -> a <> 0) -> rprod l <> 0.
Proof.
  induction l as [|a l IH]; intros H; simpl; [lra|].
  apply Rmult_integral_contrapositive_currified; [apply H; simpl; auto | apply IH; intros; apply H; simpl; auto].
Qed.
Lemma ln_rprod l : (forall a, In a l -> 0 < a) -> ln (rprod l) = rsum (map ln l).
Proof.
  induction l as [|a l IH]; intros H; simpl; [apply ln_1|].
  rewrite ln_mult, IH; auto.
  - intros; apply H; simpl; auto.
  - apply H; simpl; auto.
  - apply rprod_pos; intros; apply H; simpl; auto.
Qed.
Lemma rsum_nth_le (l : list R) i d : (forall a, In a l -> 0 <= a) -> (i < length l)%nat -> nth i l d <= rsum l.
Proof.
  intros Hn Hi. rewrite rsum_sumf. apply (sumf_ge_elem (fun x => x)); auto. apply nth_In; auto.
Qed.
