(** Specification vocabulary for the dtype properties C89 and C90: nothing here refers to the model
    of distrax. *)
From Coq Require Import List Bool.
From Verif Require Import Base.JaxDtype.
Import ListNotations.

(** [promotes a b]: there is a path from [a] up to [b] in the documented promotion lattice. *)
Inductive promotes : node -> node -> Prop :=
| promotes_refl n : promotes n n
| promotes_step a b c : In b (succs a) -> promotes b c -> promotes a c.

Definition least_upper_bound (a b c : node) : Prop :=
  promotes a c /\ promotes b c /\ forall d, promotes a d -> promotes b d -> promotes c d.

(** A dtype that exists under the given [jax_enable_x64] flag. *)
Definition available (x64 : bool) (d : jdtype) : Prop :=
  x64 = true \/ (d <> U64 /\ d <> I64 /\ d <> F64).
(** A well-formed array type: available, and only the default [int] and [float] types are weak. *)
Definition default_int (x64 : bool) : jdtype := if x64 then I64 else I32.
Definition default_float (x64 : bool) : jdtype := if x64 then F64 else F32.
Definition valid (x64 : bool) (a : aval) : Prop :=
  available x64 (ty a) /\ (weak a = true -> ty a = default_int x64 \/ ty a = default_float x64).
Definition numeric (d : jdtype) : Prop := d <> Bool.
Definition floating (d : jdtype) : Prop := In d [BF16; F16; F32; F64].
Definition integral (d : jdtype) : Prop := In d [U8; U16; U32; U64; I8; I16; I32; I64].

(** What one numeric parameter asks for: a floating array asks for its own dtype, a Python float for
    nothing in particular, integers (arrays or Python) for the default float. *)
Definition asks (x64 : bool) (p : aval) : option jdtype :=
  if is_floating (ty p) then if weak p then None else Some (ty p)
  else Some (default_float x64).
(** [wider x y]: every value of [x] is a value of [y]. *)
Definition wider (x y : jdtype) : Prop :=
  x = y \/ (x = BF16 /\ (y = F32 \/ y = F64)) \/ (x = F16 /\ (y = F32 \/ y = F64)) \/ (x = F32 /\ y = F64).
(** The narrowest floating dtype that holds everything that was asked for; the default if nothing was. *)
Definition narrowest (x64 : bool) (ps : list aval) (d : jdtype) : Prop :=
  floating d /\
  (forall p x, In p ps -> asks x64 p = Some x -> wider x d) /\
  (forall e, floating e -> (forall p x, In p ps -> asks x64 p = Some x -> wider x e) ->
     (exists p x, In p ps /\ asks x64 p = Some x) -> wider d e) /\
  ((forall p, In p ps -> asks x64 p = None) -> d = default_float x64).
