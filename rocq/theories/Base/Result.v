(** Infrastructure: Python exceptions as values.  A model function returns [Ok v] when the
    Python code returns [v] and [Err e] when it raises an exception of class [e]. *)
From Coq Require Import List.
Import ListNotations.

Inductive exn : Set :=
| ValueError | TypeError | NotImplementedError | AttributeError | KeyError | IndexError
| RuntimeError | AssertionError | ZeroDivisionError.

Inductive result (A : Type) : Type :=
| Ok (a : A)
| Err (e : exn).
Arguments Ok {A} a.
Arguments Err {A} e.

Definition rbind {A B} (m : result A) (f : A -> result B) : result B :=
  match m with Ok a => f a | Err e => Err e end.
Definition rmap {A B} (f : A -> B) (m : result A) : result B :=
  match m with Ok a => Ok (f a) | Err e => Err e end.
Notation "'do' x <- m ; f" := (rbind m (fun x => f))
  (at level 200, x pattern, m at level 100, f at level 200).

Definition is_ok {A} (m : result A) : bool := match m with Ok _ => true | Err _ => false end.

Fixpoint rmapM {A B} (f : A -> result B) (l : list A) : result (list B) :=
  match l with
  | [] => Ok []
  | a :: l' => do b <- f a; do bs <- rmapM f l'; Ok (b :: bs)
  end.

Lemma rbind_ok_inv {A B} (m : result A) (f : A -> result B) b :
  rbind m f = Ok b -> exists a, m = Ok a /\ f a = Ok b.
Proof. destruct m; cbn; intros H; [eauto | discriminate]. Qed.
Lemma rbind_assoc {A B C} (m : result A) (f : A -> result B) (g : B -> result C) :
  rbind (rbind m f) g = rbind m (fun a => rbind (f a) g).
Proof. destruct m; reflexivity. Qed.
Lemma rbind_ok_r {A} (m : result A) : rbind m Ok = m.
Proof. destruct m; reflexivity. Qed.
Lemma rbind_ext {A B} (m : result A) (f g : A -> result B) :
  (forall a, f a = g a) -> rbind m f = rbind m g.
Proof. intros H; destruct m; cbn; auto. Qed.
