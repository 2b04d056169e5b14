(** Model of utils/jittable.py, over the pytrees of jax.tree_util: None, leaves, containers, and Jittable objects (a class
    and a __dict__).  A dictionary is represented by its entries in the order of the sorted keys, which is the order in
    which JAX flattens and rebuilds it. *)
From Coq Require Import List Bool Arith.
From Verif Require Import Base.Result.
Import ListNotations.

(** Leaves: what is not a pytree node.  [A] are arrays, [S] other values. *)
Section Jittable.
Context {A S : Type}.
Inductive leaf :=
| Tracer (a : A)       (* jax.core.Tracer *)
| PlainObject          (* object(), which jax.vmap puts in place of leaves *)
| Primitive (s : S)    (* bool, int, float *)
| Array (a : A)        (* anything xla.abstractify accepts *)
| Opaque (s : S).      (* anything it rejects: strings, functions, dtypes, ... *)
(** _is_jax_data, jittable.py:50-69 *)
Definition is_jax_data (l : leaf) : bool :=
  match l with Tracer _ => true | PlainObject => true | Primitive _ => false | Array _ => true | Opaque _ => false end.

(** [tag] identifies a container type and, for a dictionary, its keys. *)
Inductive value :=
| VNone | VLeaf (l : leaf) | VNode (tag : list nat) (cs : list value) | VObject (cls : nat) (attrs : list nat) (cs : list value).
Inductive treedef :=
| TNone | TLeaf | TNode (tag : list nat) (cs : list treedef)
| TObject (cls : nat) (metadata : list (option leaf)) (switch : list bool) (def : treedef) (children : list treedef).

(** jax.tree_util.tree_flatten; on an object it calls tree_flatten, jittable.py:34-39, and flattens the children, each of
    which is a leaf or None *)
Fixpoint flatten (v : value) : list leaf * treedef :=
  let flatten_all := fix go (cs : list value) : list leaf * list treedef :=
    match cs with
    | [] => ([], [])
    | c :: cs' => let '(ls, d) := flatten c in let '(ls', ds) := go cs' in (ls ++ ls', d :: ds)
    end in
  match v with
  | VNone => ([], TNone)
  | VLeaf l => ([l], TLeaf)
  | VNode tag cs => let '(ls, ds) := flatten_all cs in (ls, TNode tag ds)
  | VObject cls attrs cs =>
      let '(leaves, ds) := flatten_all cs in
      let def := TNode attrs ds in                                                            (* 35 *)
      let switch := map is_jax_data leaves in                                                 (* 36 *)
      let children := map (fun l => if is_jax_data l then Some l else None) leaves in         (* 37 *)
      let metadata := map (fun l => if is_jax_data l then None else Some l) leaves in         (* 38 *)
      (flat_map (fun c => match c with Some l => [l] | None => [] end) children,
       TObject cls metadata switch def (map (fun c => match c with Some _ => TLeaf | None => TNone end) children))
  end.

(** zip and select, 44: [j if s else p] *)
Fixpoint select (children : list value) (metadata : list (option leaf)) (switch : list bool) : list value :=
  match children, metadata, switch with
  | j :: js, p :: ps, s :: ss =>
      (if s then j else match p with Some l => VLeaf l | None => VNone end) :: select js ps ss
  | _, _, _ => []
  end.
(** jax.tree_util.tree_unflatten: the leaves are consumed from the left; a leaf given back may be any value.  On an object
    it rebuilds the children and calls tree_unflatten, jittable.py:41-47. *)
Fixpoint unflatten (d : treedef) (ls : list value) : result (value * list value) :=
  let unflatten_all := fix go (ds : list treedef) (ls : list value) : result (list value * list value) :=
    match ds with
    | [] => Ok ([], ls)
    | d :: ds' => do (v, rest) <- unflatten d ls; do (vs, rest') <- go ds' rest; Ok (v :: vs, rest')
    end in
  match d with
  | TNone => Ok (VNone, ls)
  | TLeaf => match ls with [] => Err ValueError | l :: ls' => Ok (l, ls') end
  | TNode tag ds => do (vs, rest) <- unflatten_all ds ls; Ok (VNode tag vs, rest)
  | TObject cls metadata switch def children =>
      do (js, rest) <- unflatten_all children ls;
      let leaves := select js metadata switch in
      do (dict, extra) <- unflatten def leaves;
      match extra, dict with
      | [], VNode attrs cs => Ok (VObject cls attrs cs, rest)
      | _, _ => Err ValueError
      end
  end.
Definition tree_unflatten (d : treedef) (ls : list value) : result value :=
  do (v, rest) <- unflatten d ls; match rest with [] => Ok v | _ => Err ValueError end.
End Jittable.
Arguments leaf : clear implicits.
Arguments value : clear implicits.
Arguments treedef : clear implicits.
