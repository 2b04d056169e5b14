(** Specification: the array leaves of a value, and their replacement. *)
From Coq Require Import List Bool Arith.
From Verif Require Import Model.Jittable.
Import ListNotations.

Section Spec.
Context {A S : Type}.
Notation value := (value A S).
(** what is kept as metadata: Python primitives and objects JAX cannot trace *)
Definition static (l : leaf A S) : bool := match l with Primitive _ | Opaque _ => true | Tracer _ | PlainObject | Array _ => false end.
(** [inside]: are we inside a Jittable object?  There only JAX data counts as a leaf; elsewhere every leaf does. *)
Fixpoint data_leaves (inside : bool) (v : value) : list (leaf A S) :=
  match v with
  | VNone => []
  | VLeaf l => if inside && static l then [] else [l]
  | VNode _ cs => flat_map (data_leaves inside) cs
  | VObject _ _ cs => flat_map (data_leaves true) cs
  end.
(** the value with its leaves replaced, in order, and the unused replacements *)
Fixpoint replace (inside : bool) (v : value) (ls : list value) : value * list value :=
  let replace_all := fix go inside (cs : list value) (ls : list value) : list value * list value :=
    match cs with
    | [] => ([], ls)
    | c :: cs' => let '(c1, rest) := replace inside c ls in let '(cs1, rest') := go inside cs' rest in (c1 :: cs1, rest')
    end in
  match v with
  | VNone => (VNone, ls)
  | VLeaf l => if inside && static l then (v, ls) else match ls with r :: rest => (r, rest) | [] => (v, []) end
  | VNode tag cs => let '(cs', rest) := replace_all inside cs ls in (VNode tag cs', rest)
  | VObject cls attrs cs => let '(cs', rest) := replace_all true cs ls in (VObject cls attrs cs', rest)
  end.
End Spec.
