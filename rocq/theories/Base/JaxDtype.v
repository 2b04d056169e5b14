(** Infrastructure: JAX array types (dtype and weak-type flag) and JAX's type promotion.

    This is the documented behaviour of the external library ("Type promotion semantics" of the JAX
    manual), not code of distrax: the promotion lattice is given by its documented edges, the join is
    computed from them as JAX computes it, and Proofs/JaxDtype.v proves that it is the least upper
    bound.  Complex, 4-bit and 8-bit float types are left out. *)
From Coq Require Import List Bool.
Import ListNotations.

Inductive jdtype : Set :=
| Bool | U8 | U16 | U32 | U64 | I8 | I16 | I32 | I64 | BF16 | F16 | F32 | F64.

Definition jdtype_eqb (a b : jdtype) : bool :=
  match a, b with
  | Bool, Bool | U8, U8 | U16, U16 | U32, U32 | U64, U64 | I8, I8 | I16, I16 | I32, I32 | I64, I64
  | BF16, BF16 | F16, F16 | F32, F32 | F64, F64 => true
  | _, _ => false
  end.

(** [jnp.issubdtype(d, jnp.integer)] and [jnp.issubdtype(d, jnp.floating)] *)
Definition is_integer (d : jdtype) : bool :=
  match d with U8 | U16 | U32 | U64 | I8 | I16 | I32 | I64 => true | _ => false end.
Definition is_floating (d : jdtype) : bool :=
  match d with BF16 | F16 | F32 | F64 => true | _ => false end.

(** Nodes of the promotion lattice: the dtypes and Python's [int] and [float] (weak types). *)
Inductive node : Set := D (d : jdtype) | PyInt | PyFloat.
Definition node_eqb (a b : node) : bool :=
  match a, b with D x, D y => jdtype_eqb x y | PyInt, PyInt | PyFloat, PyFloat => true | _, _ => false end.

(** the documented edges *)
Definition succs (n : node) : list node :=
  match n with
  | D Bool => [PyInt]
  | PyInt => [D U8; D I8]
  | D U8 => [D I16; D U16]
  | D I8 => [D I16]
  | D U16 => [D I32; D U32]
  | D I16 => [D I32]
  | D U32 => [D I64; D U64]
  | D I32 => [D I64]
  | D U64 => [PyFloat]
  | D I64 => [PyFloat]
  | PyFloat => [D BF16; D F16]
  | D BF16 => [D F32]
  | D F16 => [D F32]
  | D F32 => [D F64]
  | D F64 => []
  end.
Definition nodes : list node :=
  [D Bool; PyInt; D U8; D I8; D U16; D I16; D U32; D I32; D U64; D I64; PyFloat; D BF16; D F16; D F32; D F64].
Definition memb (n : node) (l : list node) : bool := existsb (node_eqb n) l.

(** everything above a node (15 rounds reach a fixed point on 15 nodes) *)
Fixpoint upper (fuel : nat) (n : node) : list node :=
  match fuel with
  | O => [n]
  | S f => n :: flat_map (upper f) (succs n)
  end.
Definition above (n : node) : list node := upper 15 n.

(** the least upper bound, as JAX finds it: the common upper bound below all common upper bounds *)
Definition join (a b : node) : node :=
  let common := filter (fun c => memb c (above a) && memb c (above b)) nodes in
  match filter (fun c => forallb (fun d => memb d (above c)) common) common with
  | c :: _ => c
  | [] => D F64
  end.

(** The global [jax_enable_x64] flag truncates 64-bit types. *)
Definition canon (x64 : bool) (d : jdtype) : jdtype :=
  if x64 then d else match d with U64 => U32 | I64 => I32 | F64 => F32 | _ => d end.
(** Python's [int] and [float] name 64-bit dtypes *)
Definition node_dtype (n : node) : jdtype :=
  match n with D d => d | PyInt => I64 | PyFloat => F64 end.

(** The abstract value of an array: a Python [float] (or an array made from one without naming a
    dtype) is weak, [True] and arrays with an explicit dtype are not. *)
Record aval := Aval { ty : jdtype; weak : bool }.
Definition strong (d : jdtype) : aval := Aval d false.
Definition py_bool : aval := strong Bool.
Definition py_int (x64 : bool) : aval := Aval (canon x64 I64) true.
Definition py_float (x64 : bool) : aval := Aval (canon x64 F64) true.

Definition aval_node (a : aval) : node :=
  if weak a then
    if is_integer (ty a) then PyInt else if is_floating (ty a) then PyFloat else D (ty a)
  else D (ty a).

(** [promote_types] of two arrays: the type of [a + b], [a * b], [jnp.where(c, a, b)], ... *)
Definition promote (x64 : bool) (a b : aval) : aval :=
  if jdtype_eqb (ty a) (ty b) && negb (weak a && weak b) then strong (canon x64 (ty a))
  else if weak a && weak b then
    Aval (canon x64 (node_dtype (join (D (ty a)) (D (ty b))))) true
  else
    let n := join (aval_node a) (aval_node b) in
    Aval (canon x64 (node_dtype n)) (match n with D _ => false | _ => true end).
(** [jnp.result_type(a, b)] *)
Definition result_type (x64 : bool) (a b : aval) : jdtype := ty (promote x64 a b).

(** [jnp.log], [jnp.exp], [jnp.tanh], ... and true division promote integers to a float first. *)
Definition inexact (x64 : bool) (a : aval) : aval :=
  Aval (canon x64 (match ty a with
                   | Bool | U8 | I8 | U16 | I16 | U32 | I32 => F32
                   | U64 | I64 => F64
                   | d => d
                   end)) (weak a).
Definition divide (x64 : bool) (a b : aval) : aval := inexact x64 (promote x64 a b).
(** [x.astype(d)], [jnp.asarray(x, dtype=d)], [jnp.zeros(shape, d)], ... *)
Definition astype (x64 : bool) (d : jdtype) : aval := strong (canon x64 d).
