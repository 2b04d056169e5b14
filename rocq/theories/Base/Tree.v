(** Infrastructure: JAX pytrees as finitely branching trees with values at the leaves. *)
From Coq Require Import List.
From Verif Require Import Base.Result.
Import ListNotations.

Inductive tree (A : Type) : Type := Leaf (a : A) | Node (l : list (tree A)).
Arguments Leaf {A} a.
Arguments Node {A} l.

Fixpoint leaves {A} (t : tree A) : list A :=
  match t with
  | Leaf a => [a]
  | Node l => (fix go (l : list (tree A)) : list A := match l with [] => [] | t :: l' => leaves t ++ go l' end) l
  end.
(** jax.tree_util.tree_map with a function that may raise *)
Fixpoint tree_mapM {A B} (f : A -> result B) (t : tree A) : result (tree B) :=
  match t with
  | Leaf a => do b <- f a; Ok (Leaf b)
  | Node l =>
      do l' <- (fix go (l : list (tree A)) : result (list (tree B)) :=
                  match l with [] => Ok [] | t :: l' => do b <- tree_mapM f t; do bs <- go l'; Ok (b :: bs) end) l;
      Ok (Node l')
  end.
(** a relation holding leaf by leaf between two trees of the same structure *)
Inductive tree_rel {A B} (P : A -> B -> Prop) : tree A -> tree B -> Prop :=
| TR_leaf a b : P a b -> tree_rel P (Leaf a) (Leaf b)
| TR_node l l' : Forall2 (tree_rel P) l l' -> tree_rel P (Node l) (Node l').

Section Ind.
Context {A : Type} (P : tree A -> Prop).
Hypothesis HL : forall a, P (Leaf a).
Hypothesis HN : forall l, Forall P l -> P (Node l).
Fixpoint tree_ind' (t : tree A) : P t :=
  match t with
  | Leaf a => HL a
  | Node l => HN l ((fix go (l : list (tree A)) : Forall P l :=
                       match l with [] => Forall_nil _ | t :: l' => Forall_cons _ (tree_ind' t) (go l') end) l)
  end.
End Ind.

Lemma tree_mapM_node {A B} (f : A -> result B) l :
  tree_mapM f (Node l) = (do l' <- rmapM (tree_mapM f) l; Ok (Node l')).
Proof.
  cbn. match goal with |- rbind ?a _ = rbind ?b _ => assert (a = b) as E end; [|rewrite E; auto].
  induction l as [|t l IH]; cbn; [auto|]. rewrite IH. auto.
Qed.
Lemma leaves_node {A} (l : list (tree A)) : leaves (Node l) = flat_map leaves l.
Proof. cbn. induction l as [|t l IH]; cbn; [auto|]. rewrite IH; auto. Qed.

(** if [f] succeeds on every leaf, so does the map, and the results correspond leaf by leaf *)
Lemma tree_mapM_ok {A B} (f : A -> result B) (P : A -> B -> Prop) t :
  (forall a, In a (leaves t) -> exists b, f a = Ok b /\ P a b) ->
  exists t', tree_mapM f t = Ok t' /\ tree_rel P t t'.
Proof.
  induction t as [a|l IH] using tree_ind'; intros H.
  - destruct (H a) as (b & E & HP); [left; auto|]. exists (Leaf b). cbn. rewrite E. split; [auto|constructor; auto].
  - rewrite tree_mapM_node. rewrite leaves_node in H.
    assert (exists l', rmapM (tree_mapM f) l = Ok l' /\ Forall2 (tree_rel P) l l') as (l' & E & F).
    { induction IH as [|t l Ht _ IHl]; [exists []; split; [auto|constructor]|].
      destruct Ht as (b & E & R). { intros; apply H; cbn; apply in_or_app; auto. }
      destruct IHl as (bs & Es & Rs). { intros; apply H; cbn; apply in_or_app; auto. }
      exists (b :: bs). cbn. rewrite E. cbn. rewrite Es. split; [auto|constructor; auto]. }
    exists (Node l'). rewrite E. split; [auto|constructor; auto].
Qed.
Lemma tree_rel_leaves {A B} (P : A -> B -> Prop) t t' : tree_rel P t t' -> Forall2 P (leaves t) (leaves t').
Proof.
  revert t'. induction t as [a|l IH] using tree_ind'; intros t' H; inversion H; subst.
  - cbn; auto.
  - rewrite !leaves_node. clear H. revert l' H1. induction IH as [|t l Ht _ IHl]; intros l' F; inversion F; subst; cbn; [constructor|].
    apply Forall2_app; auto.
Qed.
