(** Facts about JAX's promotion, by computation over the finitely many types. *)
From Coq Require Import List Bool.
From Verif Require Import Base.JaxDtype Spec.Dtypes.
Import ListNotations.

Lemma node_eqb_eq a b : node_eqb a b = true <-> a = b.
Proof. split; [destruct a as [[]| |], b as [[]| |]; cbn; congruence | intros ->; destruct b as [[]| |]; reflexivity]. Qed.
Lemma jdtype_eqb_eq a b : jdtype_eqb a b = true <-> a = b.
Proof. split; [destruct a, b; cbn; congruence | intros ->; destruct b; reflexivity]. Qed.
Lemma memb_In n l : memb n l = true <-> In n l.
Proof.
  unfold memb. rewrite existsb_exists. split.
  - intros (x & H & E). apply node_eqb_eq in E. subst. exact H.
  - intros H. exists n. split; [exact H | now apply node_eqb_eq].
Qed.
Lemma nodes_all n : In n nodes.
Proof. destruct n as [[]| |]; cbn; tauto. Qed.

Lemma upper_sound fuel n m : In m (upper fuel n) -> promotes n m.
Proof.
  revert n. induction fuel as [|f IH]; intros n; cbn.
  - intros [->|[]]. constructor.
  - intros [->|H]; [constructor|]. apply in_flat_map in H as (b & Hb & H).
    econstructor; [exact Hb | apply IH, H].
Qed.
Lemma above_closed : forallb (fun n => forallb (fun b => forallb (fun m => memb m (above n)) (above b)) (succs n)) nodes = true.
Proof. vm_compute. reflexivity. Qed.
Lemma above_complete n m : promotes n m -> In m (above n).
Proof.
  induction 1 as [n|a b c Hb Hp IH].
  - unfold above. cbn. left. reflexivity.
  - pose proof above_closed as H. rewrite forallb_forall in H. specialize (H a (nodes_all a)).
    rewrite forallb_forall in H. specialize (H b Hb). rewrite forallb_forall in H.
    apply memb_In, H, IH.
Qed.
Lemma promotes_iff n m : promotes n m <-> memb m (above n) = true.
Proof.
  rewrite memb_In. split; [apply above_complete | apply upper_sound].
Qed.

Lemma join_lub_b : forallb (fun a => forallb (fun b =>
    let c := join a b in
    memb c (above a) && memb c (above b) &&
    forallb (fun d => implb (memb d (above a) && memb d (above b)) (memb d (above c))) nodes) nodes) nodes = true.
Proof. vm_compute. reflexivity. Qed.
Lemma join_lub a b : least_upper_bound a b (join a b).
Proof.
  pose proof join_lub_b as H. rewrite forallb_forall in H. specialize (H a (nodes_all a)).
  rewrite forallb_forall in H. specialize (H b (nodes_all b)). cbn zeta in H.
  apply andb_true_iff in H as [H1 H2]. apply andb_true_iff in H1 as [Ha Hb].
  unfold least_upper_bound. rewrite !promotes_iff. repeat split; auto.
  intros d. rewrite !promotes_iff. intros H1 H3. rewrite forallb_forall in H2.
  specialize (H2 d (nodes_all d)). rewrite H1, H3 in H2. exact H2.
Qed.
Lemma promotes_antisym a b : promotes a b -> promotes b a -> a = b.
Proof.
  rewrite !promotes_iff. destruct a as [[]| |], b as [[]| |]; vm_compute; congruence.
Qed.
Lemma promotes_trans a b c : promotes a b -> promotes b c -> promotes a c.
Proof. induction 1; intros; auto. econstructor; eauto. Qed.
