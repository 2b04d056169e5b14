(** Specification vocabulary: maps on flattened arrays of shape s ++ q described position by
    position of s (each position holds an event of shape q). *)
From mathcomp Require Import all_ssreflect all_algebra.
From Coq Require Import Reals List.
From Verif Require Import Base.Tensor Model.Bijector Base.Rmx Spec.Jacobian.
Set Implicit Arguments.
Unset Strict Implicit.
Unset Printing Implicit Defensive.
Local Open Scope R_scope.

(** Apply [G i] to the event at every position [i]. *)
Definition blockwise (s q : shape) (G : list nat -> 'cV[R]_(prodl q) -> 'cV[R]_(prodl q))
    (v : 'cV[R]_(prodl (s ++ q)%list)) : 'cV[R]_(prodl (s ++ q)%list) :=
  event (s ++ q)%list (tgen (s ++ q)%list (fun idx =>
    let i := firstn (length s) idx in let j := skipn (length s) idx in
    tget 0 (unflat (G i (event q (unflat v) i))) j)) nil.

(** The vector with the events at the unmasked positions replaced by zero. *)
Definition kept (s q : shape) (mk : list nat -> bool) (v : 'cV[R]_(prodl (s ++ q)%list)) : 'cV[R]_(prodl (s ++ q)%list) :=
  event (s ++ q)%list (tgen (s ++ q)%list (fun idx => if mk (firstn (length s) idx) then tget 0 (unflat v) idx else 0)) nil.

(** Keep the events at the masked positions; apply to the event at any other position [i] the
    map [G i] parametrised by the kept part. *)
Definition coupling_map (s q : shape) (mk : list nat -> bool)
    (G : list nat -> 'cV[R]_(prodl (s ++ q)%list) -> 'cV[R]_(prodl q) -> 'cV[R]_(prodl q))
    (v : 'cV[R]_(prodl (s ++ q)%list)) : 'cV[R]_(prodl (s ++ q)%list) :=
  event (s ++ q)%list (tgen (s ++ q)%list (fun idx =>
    let i := firstn (length s) idx in let j := skipn (length s) idx in
    if mk i then tget 0 (unflat v) idx
    else tget 0 (unflat (G i (kept mk v) (event q (unflat v) i))) j)) nil.

(** ** Splitting along one axis: arrays of shape e1 ++ d :: e2 *)
(** add [lo] to the coordinate along the split axis *)
Definition shift_axis (e1 : shape) (lo : nat) (idx : list nat) : list nat :=
  (firstn (length e1) idx ++ Nat.add lo (nth (length e1) idx 0%nat) :: skipn (S (length e1)) idx)%list.
(** subtract [lo] from the coordinate along the split axis *)
Definition unshift_axis (e1 : shape) (lo : nat) (idx : list nat) : list nat :=
  (firstn (length e1) idx ++ Nat.sub (nth (length e1) idx 0%nat) lo :: skipn (S (length e1)) idx)%list.
(** The part lo <= coordinate < lo + n. *)
Definition part (e1 e2 : shape) (d lo n : nat) (v : 'cV[R]_(prodl (e1 ++ d :: e2)%list)) : 'cV[R]_(prodl (e1 ++ n :: e2)%list) :=
  event (e1 ++ n :: e2)%list (tgen (e1 ++ n :: e2)%list (fun idx => tget 0 (unflat v) (shift_axis e1 lo idx))) nil.
(** Keep everything except the part lo2 <= coordinate < lo2 + n2, to which [G u] is applied,
    [u] being the part lo1 <= coordinate < lo1 + n1. *)
Definition split_map (e1 e2 : shape) (d lo1 n1 lo2 n2 : nat)
    (G : 'cV[R]_(prodl (e1 ++ n1 :: e2)%list) -> 'cV[R]_(prodl (e1 ++ n2 :: e2)%list) -> 'cV[R]_(prodl (e1 ++ n2 :: e2)%list))
    (v : 'cV[R]_(prodl (e1 ++ d :: e2)%list)) : 'cV[R]_(prodl (e1 ++ d :: e2)%list) :=
  event (e1 ++ d :: e2)%list (tgen (e1 ++ d :: e2)%list (fun idx =>
    let a := nth (length e1) idx 0%nat in
    if (Nat.leb lo2 a && Nat.ltb a (Nat.add lo2 n2))%bool
    then tget 0 (unflat (G (part lo1 n1 v) (part lo2 n2 v))) (unshift_axis e1 lo2 idx)
    else tget 0 (unflat v) idx)) nil.
