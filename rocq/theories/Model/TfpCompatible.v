(** Model of distributions/tfp_compatible_distribution.py: the wrapper object, an instance of a subclass of the class of the
    wrapped distribution whose [__dict__] is empty.  A method of the class is code that reads the object it is called on
    ([self]); what such code can read is collected in the record [self_view]. *)
From Coq Require Import List Reals ZArith Bool.
From Verif Require Import Base.Result Base.Sums Base.Tensor Base.Tree Base.XR Model.Distribution Model.Jittable.
Import ListNotations.

(** A shape as Python sees it: a tuple, or a tfp.tf2jax.TensorShape. *)
Inductive pyshape := PyTuple (s : shape) | TensorShape (s : shape).
Definition dims (p : pyshape) : shape := match p with PyTuple s => s | TensorShape s => s end.
(** [bool(p)]: a tuple is false if empty; [truth] is TensorShape.__bool__. *)
Definition py_bool (truth : shape -> bool) (p : pyshape) : bool :=
  match p with PyTuple s => match s with [] => false | _ => true end | TensorShape s => truth s end.

(** The [sample_shape] arguments the two [sample] methods distinguish: a Python or NumPy scalar, a tuple or list, an array of
    rank 0 that is not a scalar (a JAX array), and an array of rank 1 (neither a scalar nor a Sequence). *)
Inductive size_arg := SizeScalar (n : nat) | SizeSeq (s : list nat) | SizeArray0 (n : nat) | SizeArray1 (s : list nat).
(** convert_seed_and_sample_shape, distribution.py:312-327: what is not a Sequence is put in a tuple, and [int] is applied
    to the elements ([int] of an array of rank 1 works only if it has one element). *)
Definition base_sample_shape (a : size_arg) : result shape_arg :=
  match a with
  | SizeScalar n => Ok (ShapeInt n)
  | SizeSeq s => Ok (ShapeSeq s)
  | SizeArray0 n => Ok (ShapeInt n)
  | SizeArray1 [n] => Ok (ShapeInt n)
  | SizeArray1 _ => Err TypeError
  end.
(** [if not np.isscalar(sample_shape): sample_shape = tuple(sample_shape)], tfp_compatible_distribution.py:138-139; the
    tuple of an array of rank 0 is a TypeError. *)
Definition wrapper_sample_shape (a : size_arg) : result size_arg :=
  match a with
  | SizeScalar n => Ok (SizeScalar n)
  | SizeSeq s => Ok (SizeSeq s)
  | SizeArray0 _ => Err TypeError
  | SizeArray1 s => Ok (SizeSeq s)
  end.

Section Wrapper.
Context {K A At N : Type}.       (* keys, array elements, instance attributes, names *)
Variable prng : Z -> K.

(** What the code of a method can read from [self]: the instance attributes (for the wrapper they are found by
    [__getattr__] on the wrapped object, tfp_compatible_distribution.py:72-73) and the methods and properties the wrapper overrides. *)
Record self_view := mkSelf {
  sv_attrs : At;
  sv_batch : pyshape;
  sv_event : pyshape;
  sv_name : N;
  sv_sample_n : K -> nat -> result (tree (tensor A));
  sv_log_prob : tree (tensor A) -> result (tensor XR);
  sv_sample : seed_arg K -> size_arg -> result (tree (tensor A))
}.
(** A distribution that does not override Distribution.sample, distribution.py:144-162. *)
Definition base_self (at_ : At) (batch event : shape) (name : N) (sample_n : K -> nat -> result (tree (tensor A)))
    (log_prob : tree (tensor A) -> result (tensor XR)) : self_view :=
  mkSelf at_ (PyTuple batch) (PyTuple event) name sample_n log_prob
    (fun seed a => do ss <- base_sample_shape a; sample prng sample_n seed ss).

(** TFPCompatibleDistribution, tfp_compatible_distribution.py:62-170: attributes (72-73), batch_shape (86-89), event_shape
    (95-98), name (108-111; [default_name] is the f-string), _sample_n (121-122), log_prob (124-126), sample (133-140). *)
Variable default_name : N -> N.
Variable empty_name : N -> bool.
Definition compatible_name (name_ : option N) (base : N) : N :=
  match name_ with Some n => if empty_name n then default_name base else n | None => default_name base end.
Definition tfp_compatible (name_ : option N) (base : self_view) : self_view :=
  mkSelf (sv_attrs base) (TensorShape (dims (sv_batch base))) (TensorShape (dims (sv_event base)))
    (compatible_name name_ (sv_name base))
    (fun key n => sv_sample base (SeedKey key) (SizeSeq [n]))
    (sv_log_prob base)
    (fun seed a => do a' <- wrapper_sample_shape a; sv_sample base seed a').
(** __getitem__, tfp_compatible_distribution.py:75-76; [index] is the indexing of the wrapped distribution. *)
Definition compatible_getitem (name_ : option N) (index : result self_view) : result self_view :=
  do b <- index; Ok (tfp_compatible name_ b).
(** experimental_local_measure, tfp_compatible_distribution.py:142-168: the log density, and the full tangent space. *)
Definition local_measure (s : self_view) (value : tree (tensor A)) : result (tensor XR) := sv_log_prob s value.

(** ** Methods inherited from the class of the wrapped distribution *)
(** Distribution._sample_n_and_log_prob, distribution.py:57-79 *)
Definition inherited_sample_n_and_log_prob (s : self_view) : K -> nat -> result (tree (tensor A) * tensor XR) :=
  default_sample_n_and_log_prob (sv_sample_n s) (sv_log_prob s).
(** Distribution.sample_and_log_prob, 164-177, over the class's own _sample_n_and_log_prob, [code] *)
Definition inherited_sample_and_log_prob (code : self_view -> K -> nat -> result (tree (tensor A) * tensor XR)) (s : self_view)
    (seed : seed_arg K) (a : size_arg) : result (tree (tensor A) * tensor XR) :=
  do ss <- base_sample_shape a; sample_and_log_prob prng (code s) seed ss.
(** Distribution.survival_function, 220-238, over the class's own cdf *)
Variable truth : shape -> bool.
Definition inherited_survival (cdf : self_view -> tree (tensor A) -> result (tensor XR)) (s : self_view) (value : tree (tensor A)) : result (tensor XR) :=
  if py_bool truth (sv_event s) then Err NotImplementedError
  else do c <- cdf s value; Ok (tmap (fun x => xsub (Fin 1) x) c).
(** Distribution.log_survival_function, 240-260 *)
Definition inherited_log_survival (cdf : self_view -> tree (tensor A) -> result (tensor XR)) (s : self_view) (value : tree (tensor A)) : result (tensor XR) :=
  if py_bool truth (sv_event s) then Err NotImplementedError
  else do c <- cdf s value; Ok (tmap (fun x => xlog1p (xopp x)) c).
End Wrapper.
Arguments self_view : clear implicits.

(** The wrapper as a pytree: its __dict__ is empty ([__init__] does nothing, tfp_compatible_distribution.py:69-70). *)
Definition wrapper_value {X Y} (cls : nat) : value X Y := VObject cls [] [].
