(** Infrastructure: n-dimensional arrays as shape + row-major data, with the NumPy
    operations used by distrax (indexing, broadcasting, elementwise maps, axis sums,
    reshape).  Modelled after NumPy's documented semantics, not after code in /repo. *)
From Coq Require Import List Reals Lra Lia Arith.
From Verif Require Import Base.Result Base.Sums.
Import ListNotations.

Definition shape := list nat.
Record tensor (A : Type) := mkT { shp : shape; dat : list A }.
Arguments mkT {A} shp dat.
Arguments shp {A} t.
Arguments dat {A} t.

Definition prodl (s : shape) : nat := fold_right Nat.mul 1 s.
Definition wf {A} (t : tensor A) : Prop := length (dat t) = prodl (shp t).
Definition rank {A} (t : tensor A) : nat := length (shp t).

(** Row-major flat position of a multi-index, and back. *)
Fixpoint ravel (s : shape) (idx : list nat) : nat :=
  match s, idx with
  | _ :: s', i :: idx' => i * prodl s' + ravel s' idx'
  | _, _ => 0
  end.
Fixpoint unravel (s : shape) (n : nat) : list nat :=
  match s with
  | [] => []
  | _ :: s' => (n / prodl s') :: unravel s' (n mod prodl s')
  end.
(** [idx] is a valid multi-index of shape [s]. *)
Definition inb (s : shape) (idx : list nat) : Prop := Forall2 lt idx s.
Definition indices (s : shape) : list (list nat) := map (unravel s) (seq 0 (prodl s)).

Definition tget {A} (d : A) (t : tensor A) (idx : list nat) : A := nth (ravel (shp t) idx) (dat t) d.
Definition tgen {A} (s : shape) (f : list nat -> A) : tensor A := mkT s (map f (indices s)).
Definition tmap {A B} (f : A -> B) (t : tensor A) : tensor B := mkT (shp t) (map f (dat t)).
Definition tscalar {A} (a : A) : tensor A := mkT [] [a].
Definition tvec {A} (l : list A) : tensor A := mkT [length l] l.

(** NumPy reshape (row-major data is kept); fails on a size mismatch. *)
Definition treshape {A} (s : shape) (t : tensor A) : result (tensor A) :=
  if Nat.eqb (prodl s) (prodl (shp t)) then Ok (mkT s (dat t)) else Err ValueError.

(** NumPy broadcasting. [bshape_rev] works on reversed shapes. *)
Definition bdim (a b : nat) : option nat :=
  if Nat.eqb a b then Some a else if Nat.eqb a 1 then Some b else if Nat.eqb b 1 then Some a else None.
Fixpoint bshape_rev (s1 s2 : shape) : option shape :=
  match s1, s2 with
  | [], s => Some s
  | s, [] => Some s
  | a :: s1', b :: s2' =>
      match bdim a b, bshape_rev s1' s2' with
      | Some d, Some r => Some (d :: r)
      | _, _ => None
      end
  end.
Definition bshape (s1 s2 : shape) : option shape := option_map (@rev nat) (bshape_rev (rev s1) (rev s2)).
(** index into an operand of shape [s] given an index of the broadcast result *)
Fixpoint bz (s idx : list nat) : list nat :=
  match s, idx with
  | d :: s', i :: idx' => (if Nat.eqb d 1 then 0 else i) :: bz s' idx'
  | _, _ => []
  end.
Definition bindex (s : shape) (idx : list nat) : list nat := rev (bz (rev s) (rev idx)).
Definition tmap2 {A B C} (da : A) (db : B) (f : A -> B -> C) (ta : tensor A) (tb : tensor B)
  : result (tensor C) :=
  match bshape (shp ta) (shp tb) with
  | None => Err ValueError
  | Some s => Ok (tgen s (fun idx => f (tget da ta (bindex (shp ta) idx)) (tget db tb (bindex (shp tb) idx))))
  end.
Definition tadd (a b : tensor R) : result (tensor R) := tmap2 0%R 0%R Rplus a b.

(** ** Lemmas *)
Lemma prodl_app s1 s2 : prodl (s1 ++ s2) = prodl s1 * prodl s2.
Proof. induction s1 as [|a s IH]; simpl; [lia | rewrite IH; lia]. Qed.

Lemma inb_length s idx : inb s idx -> length idx = length s.
Proof. induction 1; simpl; auto. Qed.
Lemma inb_cons d s i idx : inb (d :: s) (i :: idx) <-> i < d /\ inb s idx.
Proof. split; [intros H; inversion H; auto | intros [H1 H2]; constructor; auto]. Qed.
Lemma inb_nil_inv idx : inb [] idx -> idx = [].
Proof. intros H; inversion H; auto. Qed.
Lemma inb_app s1 s2 i1 i2 : inb s1 i1 -> inb s2 i2 -> inb (s1 ++ s2) (i1 ++ i2).
Proof. unfold inb; intros; apply Forall2_app; auto. Qed.
Lemma inb_app_inv s1 s2 idx :
  inb (s1 ++ s2) idx -> exists i1 i2, idx = i1 ++ i2 /\ inb s1 i1 /\ inb s2 i2.
Proof.
  revert idx; induction s1 as [|d s1 IH]; intros idx H.
  - exists [], idx; repeat split; auto; constructor.
  - destruct idx as [|i idx]; [inversion H|]. apply inb_cons in H as [H1 H2].
    destruct (IH _ H2) as (i1 & i2 & -> & Ha & Hb).
    exists (i :: i1), i2; repeat split; auto. apply inb_cons; auto.
Qed.
Lemma inb_pos s idx : inb s idx -> 0 < prodl s.
Proof. induction 1; simpl; [lia|]. apply Nat.mul_pos_pos; lia. Qed.

Lemma ravel_lt s idx : inb s idx -> ravel s idx < prodl s.
Proof.
  induction 1 as [|i d idx s Hlt Hf IH]; simpl; [lia|].
  apply (Nat.lt_le_trans _ (i * prodl s + prodl s)); [lia|].
  change (prodl (d :: s)) with (d * prodl s). nia.
Qed.
Lemma unravel_inb s n : n < prodl s -> inb s (unravel s n).
Proof.
  revert n; induction s as [|d s IH]; intros n H; simpl; [constructor|].
  change (prodl (d :: s)) with (d * prodl s) in H.
  assert (prodl s <> 0) by nia.
  apply inb_cons; split.
  - apply Nat.div_lt_upper_bound; lia.
  - apply IH, Nat.mod_upper_bound; auto.
Qed.
Lemma ravel_unravel s n : n < prodl s -> ravel s (unravel s n) = n.
Proof.
  revert n; induction s as [|d s IH]; intros n H; simpl.
  - simpl in H; lia.
  - change (prodl (d :: s)) with (d * prodl s) in H. assert (prodl s <> 0) by nia.
    rewrite IH by (apply Nat.mod_upper_bound; auto).
    rewrite (Nat.div_mod n (prodl s)) at 3 by auto. lia.
Qed.
Lemma unravel_ravel s idx : inb s idx -> unravel s (ravel s idx) = idx.
Proof.
  induction 1 as [|i d idx s Hlt Hf IH]; simpl; [reflexivity|].
  pose proof (ravel_lt _ _ Hf). assert (prodl s <> 0) by lia.
  rewrite Nat.div_add_l, Nat.div_small by auto.
  rewrite Nat.add_comm with (n := i * prodl s), Nat.mod_add, Nat.mod_small, IH by auto. f_equal; lia.
Qed.
Lemma ravel_app s1 s2 i1 i2 :
  length i1 = length s1 -> ravel (s1 ++ s2) (i1 ++ i2) = ravel s1 i1 * prodl s2 + ravel s2 i2.
Proof.
  revert i1; induction s1 as [|d s1 IH]; intros [|i i1] H; try discriminate H; simpl; [reflexivity|].
  rewrite IH by (injection H; auto). rewrite prodl_app. lia.
Qed.
Lemma ravel_inj s i j : inb s i -> inb s j -> ravel s i = ravel s j -> i = j.
Proof. intros Hi Hj H. rewrite <- (unravel_ravel s i), <- (unravel_ravel s j), H by auto; auto. Qed.

Lemma indices_length s : length (indices s) = prodl s.
Proof. unfold indices; rewrite map_length, seq_length; reflexivity. Qed.
Lemma indices_nth s n d : n < prodl s -> nth n (indices s) d = unravel s n.
Proof.
  intros H. unfold indices.
  rewrite (nth_indep _ d (unravel s 0)) by (rewrite map_length, seq_length; auto).
  rewrite map_nth, seq_nth by auto. reflexivity.
Qed.
Lemma in_indices s idx : In idx (indices s) <-> inb s idx.
Proof.
  unfold indices; rewrite in_map_iff; split.
  - intros (n & <- & Hn). apply in_seq in Hn. apply unravel_inb; lia.
  - intros H. exists (ravel s idx); split; [apply unravel_ravel; auto|].
    apply in_seq; pose proof (ravel_lt _ _ H); lia.
Qed.
Lemma indices_NoDup s : NoDup (indices s).
Proof.
  apply NoDup_nth with (d := []). intros i j Hi Hj. rewrite indices_length in Hi, Hj.
  rewrite !indices_nth by auto. intros E.
  rewrite <- (ravel_unravel s i), <- (ravel_unravel s j), E by auto; reflexivity.
Qed.

Lemma tgen_wf {A} s (f : list nat -> A) : wf (tgen s f).
Proof. unfold wf, tgen; cbn; rewrite map_length; apply indices_length. Qed.
Lemma tmap_wf {A B} (f : A -> B) t : wf t -> wf (tmap f t).
Proof. unfold wf, tmap; cbn; rewrite map_length; auto. Qed.
Lemma tget_tgen {A} (d : A) s f idx : inb s idx -> tget d (tgen s f) idx = f idx.
Proof.
  intros H. unfold tget, tgen; cbn. pose proof (ravel_lt _ _ H).
  rewrite (nth_indep _ d (f [])) by (rewrite map_length, indices_length; auto).
  rewrite map_nth, indices_nth, unravel_ravel by auto. reflexivity.
Qed.
Lemma tget_tmap {A B} (da : A) (db : B) (f : A -> B) t idx :
  wf t -> inb (shp t) idx -> tget db (tmap f t) idx = f (tget da t idx).
Proof.
  intros Hw H. unfold tget, tmap; cbn. pose proof (ravel_lt _ _ H).
  rewrite (nth_indep _ db (f da)) by (rewrite map_length, Hw; auto).
  rewrite map_nth. reflexivity.
Qed.
Lemma tensor_ext {A} (d : A) (t1 t2 : tensor A) :
  wf t1 -> wf t2 -> shp t1 = shp t2 ->
  (forall idx, inb (shp t1) idx -> tget d t1 idx = tget d t2 idx) -> t1 = t2.
Proof.
  destruct t1 as [s1 l1], t2 as [s2 l2]; unfold wf; cbn. intros H1 H2 <- H. f_equal.
  apply (nth_ext l1 l2 d d); [congruence|]. intros n Hn. rewrite H1 in Hn.
  specialize (H (unravel s1 n) (unravel_inb _ _ Hn)). unfold tget in H; cbn in H.
  rewrite ravel_unravel in H by auto. exact H.
Qed.
Lemma tgen_tget {A} (d : A) t : wf t -> tgen (shp t) (tget d t) = t.
Proof.
  intros H; apply (tensor_ext d); auto; [apply tgen_wf|]. intros; apply tget_tgen; auto.
Qed.
Lemma tgen_ext {A} s (f g : list nat -> A) : (forall idx, inb s idx -> f idx = g idx) -> tgen s f = tgen s g.
Proof.
  intros H; unfold tgen; f_equal; apply map_ext_in; intros a Ha; apply H, in_indices; auto.
Qed.
Lemma sumf_indices_app (f : list nat -> R) s1 s2 :
  sumf f (indices (s1 ++ s2)) = sumf (fun i => sumf (fun j => f (i ++ j)) (indices s2)) (indices s1).
Proof.
  transitivity (sumf (fun i => sumf f (map (fun j => i ++ j) (indices s2))) (indices s1)).
  2: { apply sumf_ext; intros; apply sumf_map. }
  rewrite <- sumf_flat_map with (g := fun i => map (fun j => i ++ j) (indices s2)).
  apply sumf_perm. apply Permutation.NoDup_Permutation.
  - apply indices_NoDup.
  - generalize (indices_NoDup s1). assert (Hin : forall i, In i (indices s1) -> length i = length s1)
      by (intros; apply inb_length, in_indices; auto).
    revert Hin; generalize (indices s1) as l. induction l as [|i l IH]; intros Hin Hnd; cbn; [constructor|].
    inversion Hnd; subst.
    assert (Hd : forall x, In x (map (fun j => i ++ j) (indices s2)) ->
                 ~ In x (flat_map (fun i => map (fun j => i ++ j) (indices s2)) l)).
    { intros x Hx Hx'. apply in_map_iff in Hx as (j & <- & Hj).
      apply in_flat_map in Hx' as (i' & Hi' & Hx'). apply in_map_iff in Hx' as (j' & E & Hj').
      assert (i' = i /\ j' = j) as [-> ->]; [|contradiction].
      assert (HL : length i' = length i) by (rewrite (Hin i'), (Hin i); simpl; auto).
      clear -E HL. rename HL into H. revert i H E; induction i' as [|a i' IH]; intros [|b i] H E; try discriminate H; cbn in E; auto.
      injection E as -> E. injection H as H. destruct (IH _ H E); subst; auto. }
    revert Hd. generalize (indices_NoDup s2). generalize (indices s2) at 1 2 4 as l2.
    induction l2 as [|j l2 IH2]; intros Hnd2 Hd; cbn.
    + apply IH; auto. intros; apply Hin; simpl; auto.
    + inversion Hnd2; subst. constructor.
      * rewrite in_app_iff. intros [Hx|Hx].
        -- apply in_map_iff in Hx as (j' & E & Hj'). apply app_inv_head in E; subst; contradiction.
        -- eapply Hd; [|exact Hx]. simpl; auto.
      * apply IH2; auto. intros x Hx. apply Hd; simpl; auto.
  - intros x. rewrite in_indices, in_flat_map. split.
    + intros H. apply inb_app_inv in H as (i1 & i2 & -> & H1 & H2).
      exists i1; rewrite in_indices; split; auto. apply in_map_iff; exists i2; rewrite in_indices; auto.
    + intros (i & Hi & Hx). apply in_map_iff in Hx as (j & <- & Hj).
      apply in_indices in Hi, Hj. apply inb_app; auto.
Qed.
Lemma indices_vec n : indices [n] = map (fun i => [i]) (seq 0 n).
Proof.
  unfold indices. cbn [prodl fold_right]. rewrite Nat.mul_1_r. apply map_ext.
  intros a; change (unravel [n] a) with [a / 1]. rewrite Nat.div_1_r; reflexivity.
Qed.
Lemma indices_nil : indices [] = [[]]. Proof. reflexivity. Qed.

(** Broadcasting of equal shapes is the identity. *)
Lemma bshape_rev_refl s : bshape_rev s s = Some s.
Proof. induction s as [|a s IH]; simpl; [reflexivity|]. unfold bdim; rewrite Nat.eqb_refl, IH; reflexivity. Qed.
Lemma bshape_refl s : bshape s s = Some s.
Proof. unfold bshape; rewrite bshape_rev_refl; cbn; rewrite rev_involutive; reflexivity. Qed.
Lemma bshape_rev_comm s1 s2 : bshape_rev s1 s2 = bshape_rev s2 s1.
Proof.
  revert s2; induction s1 as [|a s1 IH]; intros [|b s2]; simpl; auto.
  rewrite IH. replace (bdim b a) with (bdim a b); [reflexivity|]. unfold bdim.
  destruct (Nat.eqb_spec a b), (Nat.eqb_spec b a), (Nat.eqb_spec a 1), (Nat.eqb_spec b 1); subst; try congruence; auto.
Qed.
Lemma bshape_comm s1 s2 : bshape s1 s2 = bshape s2 s1.
Proof. unfold bshape; rewrite bshape_rev_comm; reflexivity. Qed.
Lemma bshape_nil_l s : bshape [] s = Some s.
Proof. unfold bshape; cbn. rewrite rev_involutive; reflexivity. Qed.
Lemma bz_refl s idx : Forall2 lt idx s -> bz s idx = idx.
Proof.
  induction 1 as [|i d idx s Hlt Hf IH]; cbn; [reflexivity|].
  rewrite IH. f_equal. destruct (Nat.eqb_spec d 1); lia.
Qed.
Lemma Forall2_rev {A B} (P : A -> B -> Prop) l1 l2 : Forall2 P l1 l2 -> Forall2 P (rev l1) (rev l2).
Proof. induction 1; cbn; [constructor|]. apply Forall2_app; auto. Qed.
Lemma inb_rev s idx : inb s idx <-> Forall2 lt (rev idx) (rev s).
Proof.
  split; [apply Forall2_rev|]. intros H. apply Forall2_rev in H. rewrite !rev_involutive in H; exact H.
Qed.
Lemma bindex_refl s idx : inb s idx -> bindex s idx = idx.
Proof.
  intros H. unfold bindex. rewrite bz_refl; [apply rev_involutive|]. apply (proj1 (inb_rev s idx)); auto.
Qed.
Lemma bz_bz s1 s2 s idx : bshape_rev s1 s2 = Some s -> bz s1 (bz s idx) = bz s1 idx.
Proof.
  revert s2 s idx; induction s1 as [|a s1 IH]; intros s2 s idx H.
  - destruct s, idx; reflexivity.
  - destruct s2 as [|b s2].
    + injection H as <-. clear IH. revert a idx; induction s1 as [|c s1 IH]; intros a [|i idx]; cbn; auto.
      * destruct (Nat.eqb_spec a 1); reflexivity.
      * f_equal; [destruct (Nat.eqb_spec a 1); reflexivity|]. apply IH.
    + cbn in H. destruct (bshape_rev s1 s2) as [r|] eqn:E; [|destruct (bdim a b); discriminate].
      destruct idx as [|i idx]; [destruct s; reflexivity|]. unfold bdim in H.
      destruct (Nat.eqb_spec a b), (Nat.eqb_spec a 1), (Nat.eqb_spec b 1); try discriminate H;
        injection H as <-; subst; cbn; rewrite (IH _ _ _ E);
        try reflexivity; repeat match goal with |- context[Nat.eqb ?x ?y] => destruct (Nat.eqb_spec x y) end;
        try reflexivity; try congruence; try lia.
Qed.
Lemma bz_lt s1 s2 s idx : bshape_rev s1 s2 = Some s -> Forall2 lt idx s -> Forall2 lt (bz s1 idx) s1.
Proof.
  revert s2 s idx; induction s1 as [|a s1 IH]; intros s2 s idx H Hf.
  - cbn; constructor.
  - destruct s2 as [|b s2].
    + injection H as <-. rewrite bz_refl; auto.
    + cbn in H. destruct (bshape_rev s1 s2) as [r|] eqn:E; [|destruct (bdim a b); discriminate].
      unfold bdim in H. destruct (Nat.eqb_spec a b), (Nat.eqb_spec a 1), (Nat.eqb_spec b 1); try discriminate H;
        injection H as <-; subst; inversion Hf; subst; cbn; constructor;
        try (eapply IH; eauto; fail);
        repeat match goal with |- context[Nat.eqb ?x ?y] => destruct (Nat.eqb_spec x y) end; lia.
Qed.
Lemma bshape_inv s1 s2 s : bshape s1 s2 = Some s -> bshape_rev (rev s1) (rev s2) = Some (rev s).
Proof.
  unfold bshape. destruct (bshape_rev (rev s1) (rev s2)) as [r|]; cbn; [|discriminate].
  intros H; injection H as <-. rewrite rev_involutive; reflexivity.
Qed.
Lemma bindex_bindex s1 s2 s idx : bshape s1 s2 = Some s -> bindex s1 (bindex s idx) = bindex s1 idx.
Proof.
  intros H; unfold bindex. rewrite rev_involutive. f_equal. eapply bz_bz, bshape_inv, H.
Qed.
Lemma bindex_inb s1 s2 s idx : bshape s1 s2 = Some s -> inb s idx -> inb s1 (bindex s1 idx).
Proof.
  intros H Hi. apply inb_rev. unfold bindex; rewrite rev_involutive.
  eapply bz_lt; [apply bshape_inv, H|]. apply (proj1 (inb_rev s idx)); auto.
Qed.
Definition obind {A B} (m : option A) (f : A -> option B) := match m with Some a => f a | None => None end.
Lemma bdim_assoc a b c : obind (bdim a b) (fun d => bdim d c) = obind (bdim b c) (fun d => bdim a d).
Proof.
  unfold bdim.
  destruct (Nat.eqb_spec a b), (Nat.eqb_spec a 1), (Nat.eqb_spec b 1), (Nat.eqb_spec b c), (Nat.eqb_spec c 1);
    subst; cbn; try congruence; rewrite ?Nat.eqb_refl;
    repeat match goal with |- context[Nat.eqb ?x ?y] => destruct (Nat.eqb_spec x y); subst; cbn end;
    try congruence; try lia; try (exfalso; congruence).
- destruct c as [|[|c]]; congruence.
  - destruct b as [|[|b]]; congruence.
Qed.
Lemma bshape_rev_assoc s1 s2 s3 :
  obind (bshape_rev s1 s2) (fun s => bshape_rev s s3) = obind (bshape_rev s2 s3) (fun s => bshape_rev s1 s).
Proof.
  revert s2 s3; induction s1 as [|a s1 IH]; intros s2 s3.
  - cbn. destruct (bshape_rev s2 s3); reflexivity.
  - destruct s2 as [|b s2]; [reflexivity|]. destruct s3 as [|c s3].
    + cbn. destruct (bdim a b), (bshape_rev s1 s2); reflexivity.
    + specialize (IH s2 s3). pose proof (bdim_assoc a b c) as Hd. cbn.
      destruct (bdim a b) as [d1|], (bdim b c) as [d2|];
        destruct (bshape_rev s1 s2) as [r12|], (bshape_rev s2 s3) as [r23|]; cbn in IH, Hd |- *;
        rewrite ?IH, ?Hd, <- ?IH, <- ?Hd; try reflexivity;
        repeat match goal with |- context[bdim ?x ?y] => destruct (bdim x y) end; try reflexivity.
Qed.
Lemma bshape_assoc s1 s2 s3 :
  obind (bshape s1 s2) (fun s => bshape s s3) = obind (bshape s2 s3) (fun s => bshape s1 s).
Proof.
  pose proof (bshape_rev_assoc (rev s1) (rev s2) (rev s3)) as H. unfold bshape.
  destruct (bshape_rev (rev s1) (rev s2)) as [r|], (bshape_rev (rev s2) (rev s3)) as [r'|];
    cbn in H |- *; rewrite ?rev_involutive.
  - rewrite H; reflexivity.
  - rewrite H; reflexivity.
  - rewrite <- H; reflexivity.
  - reflexivity.
Qed.
Lemma tmap2_same {A B C} (da : A) (db : B) (f : A -> B -> C) ta tb :
  shp ta = shp tb ->
  tmap2 da db f ta tb = Ok (tgen (shp ta) (fun idx => f (tget da ta idx) (tget db tb idx))).
Proof.
  intros H. unfold tmap2. rewrite <- H, bshape_refl. f_equal. apply tgen_ext.
  intros idx Hi. rewrite bindex_refl by auto. reflexivity.
Qed.
Lemma tmap2_same_get {A B C} (da : A) (db : B) (dc : C) (f : A -> B -> C) ta tb tc idx :
  shp ta = shp tb -> tmap2 da db f ta tb = Ok tc -> inb (shp ta) idx ->
  shp tc = shp ta /\ tget dc tc idx = f (tget da ta idx) (tget db tb idx).
Proof.
  intros H E Hi. rewrite tmap2_same in E by auto. injection E as <-. split; auto. rewrite tget_tgen; auto.
Qed.
Lemma tadd_scalar a b : tadd (tscalar a) (tscalar b) = Ok (tscalar (a + b)%R).
Proof. reflexivity. Qed.

(** Broadcasting addition is commutative, associative (as a partial operation) and commutes
    with negation. *)
Definition tneg (t : tensor R) : tensor R := tmap Ropp t.
Lemma tadd_comm a b : tadd a b = tadd b a.
Proof.
  unfold tadd, tmap2. rewrite bshape_comm. destruct (bshape (shp b) (shp a)); [|reflexivity].
  f_equal. apply tgen_ext; intros; apply Rplus_comm.
Qed.
Lemma tadd_assoc a b c : (do ab <- tadd a b; tadd ab c) = (do bc <- tadd b c; tadd a bc).
Proof.
  pose proof (bshape_assoc (shp a) (shp b) (shp c)) as H. unfold tadd, tmap2.
  destruct (bshape (shp a) (shp b)) as [s1|] eqn:E1, (bshape (shp b) (shp c)) as [s2|] eqn:E2;
    cbn [rbind obind shp tgen] in H |- *.
  - rewrite <- H. destruct (bshape s1 (shp c)) as [s|] eqn:E; [|reflexivity]. f_equal.
    symmetry in H. apply tgen_ext; intros idx Hi.
    rewrite !tget_tgen.
    + rewrite (bindex_bindex _ _ _ _ E1). rewrite bshape_comm in E1.
      rewrite (bindex_bindex _ _ _ _ E1), (bindex_bindex _ _ _ _ E2). rewrite bshape_comm in E2.
      rewrite (bindex_bindex _ _ _ _ E2). apply Rplus_assoc.
    + rewrite bshape_comm in H. eapply bindex_inb; eauto.
    + eapply bindex_inb; eauto.
  - rewrite H; reflexivity.
  - rewrite <- H; reflexivity.
  - reflexivity.
Qed.
Lemma tget_tneg a idx : wf a -> inb (shp a) idx -> tget 0%R (tneg a) idx = (- tget 0%R a idx)%R.
Proof. intros; unfold tneg; apply (tget_tmap 0%R 0%R); auto. Qed.
Lemma tadd_neg a b : wf a -> wf b -> tadd (tneg a) (tneg b) = rmap tneg (tadd a b).
Proof.
  intros Ha Hb. unfold tadd, tmap2.
  change (shp (tneg a)) with (shp a). change (shp (tneg b)) with (shp b).
  destruct (bshape (shp a) (shp b)) as [s|] eqn:E; [|reflexivity].
  cbn [rmap]. f_equal. unfold tgen.
  match goal with |- _ = tneg (mkT s ?l) => change (tneg (mkT s l)) with (mkT s (map Ropp l)) end.
  f_equal. rewrite map_map. apply map_ext_in.
  intros idx Hi. apply in_indices in Hi.
  rewrite !tget_tneg; auto; [lra| |].
  - rewrite bshape_comm in E. eapply bindex_inb; eauto.
  - eapply bindex_inb; eauto.
Qed.
Lemma tadd_wf a b c : tadd a b = Ok c -> wf c.
Proof. unfold tadd, tmap2. destruct (bshape _ _); [|discriminate]. intros H; injection H as <-. apply tgen_wf. Qed.

(** Reading an operand through broadcasting, and absorption. *)
Definition bget (t : tensor R) (idx : list nat) : R := tget 0%R t (bindex (shp t) idx).
Lemma bshape_absorb_l s1 s2 s : bshape s1 s2 = Some s -> bshape s1 s = Some s.
Proof.
  intros H. pose proof (bshape_assoc s1 s1 s2) as HA. rewrite bshape_refl in HA. cbn in HA.
  rewrite H in HA. cbn in HA. symmetry; exact HA.
Qed.
Lemma bshape_absorb_r s1 s2 s : bshape s1 s2 = Some s -> bshape s2 s = Some s.
Proof. rewrite bshape_comm. apply bshape_absorb_l. Qed.
Lemma bshape_trans s1 s2 s : bshape s1 s2 = Some s2 -> bshape s2 s = Some s -> bshape s1 s = Some s.
Proof.
  intros H1 H2. pose proof (bshape_assoc s1 s2 s) as HA. rewrite H1 in HA; cbn in HA. rewrite H2 in HA; cbn in HA.
  symmetry; exact HA.
Qed.
Lemma bget_inb t idx : inb (shp t) idx -> bget t idx = tget 0%R t idx.
Proof. intros H; unfold bget; rewrite bindex_refl; auto. Qed.
Lemma tmap2_bget (f : R -> R -> R) ta tb s :
  bshape (shp ta) (shp tb) = Some s -> tmap2 0%R 0%R f ta tb = Ok (tgen s (fun idx => f (bget ta idx) (bget tb idx))).
Proof. intros H; unfold tmap2; rewrite H; reflexivity. Qed.
Lemma bget_tmap (f : R -> R) t s idx : wf t -> bshape (shp t) s = Some s -> inb s idx -> bget (tmap f t) idx = f (bget t idx).
Proof.
  intros Hw Hb Hi. unfold bget. change (shp (tmap f t)) with (shp t).
  apply (tget_tmap 0%R 0%R); auto. eapply bindex_inb; eauto.
Qed.
