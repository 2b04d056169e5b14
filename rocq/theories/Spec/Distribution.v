(** Specification vocabulary for the distribution base class: array shapes of samples and basic
    indexing, stated independently of the code. *)
From Coq Require Import List Reals ZArith.
From Verif Require Import Base.Result Base.Sums Base.Tensor Base.Tree Base.XR.
From Verif Require Import Model.Distribution.
Import ListNotations.

(** The arrays in a sample of [n] draws: one per event component, each with the draw axis first,
    then the batch axes, then the axes of its event component. *)
Definition draws_of_shape {A} (n : nat) (batch : shape) (events : list shape) (t : tree (tensor A)) : Prop :=
  Forall2 (fun x e => wf x /\ shp x = n :: batch ++ e) (leaves t) events.

(** [y] holds at the leading multi-index [idx] of shape [ss] the row of [x] with number
    [ravel ss idx]. *)
Definition rows_arranged {A} (d : A) (ss : shape) (x y : tensor A) : Prop :=
  wf y /\ shp y = ss ++ tl (shp x) /\
  forall idx j, inb ss idx -> inb (tl (shp x)) j ->
    tget d y (idx ++ j) = tget d x (ravel ss idx :: j).

(** [addresses s ix rs r p]: indexing an array of shape [s] with [ix] gives an array of shape [rs]
    whose element at [r] is the element of the original at [p]. *)
Inductive addresses : shape -> list ielem -> shape -> list nat -> list nat -> Prop :=
| A_done s r : inb s r -> addresses s [] s r r
| A_new s ix rs r p : addresses s ix rs r p -> addresses s (INewAxis :: ix) (1 :: rs) (0 :: r) p
| A_int d s ix rs r p z i :
    (Z.of_nat i = z \/ Z.of_nat i = z + Z.of_nat d)%Z -> i < d ->
    addresses s ix rs r p -> addresses (d :: s) (IInt z :: ix) rs r (i :: p)
| A_slice d s ix rs r p a b c start step count k q :
    slice_spec d a b c = Ok (start, step, count) -> k < count ->
    (Z.of_nat q = start + Z.of_nat k * step)%Z -> q < d ->
    addresses s ix rs r p -> addresses (d :: s) (ISlice a b c :: ix) (count :: rs) (k :: r) (q :: p)
| A_ellipsis s1 s2 ix rs r1 r p :
    length s2 = length (filter consumes ix) -> inb s1 r1 ->
    addresses s2 ix rs r p -> addresses (s1 ++ s2) (IEllipsis :: ix) (s1 ++ rs) (r1 ++ r) (r1 ++ p).

(** [indexed_shape s ix rs]: indexing an array of shape [s] with [ix] gives an array of shape [rs]. *)
Inductive indexed_shape : shape -> list ielem -> shape -> Prop :=
| S_done s : indexed_shape s [] s
| S_new s ix rs : indexed_shape s ix rs -> indexed_shape s (INewAxis :: ix) (1 :: rs)
| S_int d s ix rs z : indexed_shape s ix rs -> indexed_shape (d :: s) (IInt z :: ix) rs
| S_slice d s ix rs a b c start step count :
    slice_spec d a b c = Ok (start, step, count) -> indexed_shape s ix rs -> indexed_shape (d :: s) (ISlice a b c :: ix) (count :: rs)
| S_ellipsis s1 s2 ix rs :
    length s2 = length (filter consumes ix) -> indexed_shape s2 ix rs -> indexed_shape (s1 ++ s2) (IEllipsis :: ix) (s1 ++ rs).

(** The positions a Python slice start:stop:step selects on an axis of length [n]: negative bounds count from the end. *)
Definition from_end (n : nat) (z : Z) : Z := if (z <? 0)%Z then (z + Z.of_nat n)%Z else z.
Definition sliced (n : nat) (start stop : option Z) (step : Z) (q : Z) : Prop :=
  (0 <= q < Z.of_nat n)%Z /\
  if (0 <? step)%Z then
    let first := match start with None => 0%Z | Some a => Z.max 0 (from_end n a) end in
    (first <= q)%Z /\ (forall b, stop = Some b -> (q < from_end n b)%Z) /\ (step | q - first)%Z
  else
    let first := match start with None => (Z.of_nat n - 1)%Z | Some a => Z.min (Z.of_nat n - 1) (from_end n a) end in
    (q <= first)%Z /\ (forall b, stop = Some b -> (from_end n b < q)%Z) /\ (step | q - first)%Z.

(** [ix] is a legal index for an array of shape [s]: every integer is in range for its axis, no
    more axes are indexed than exist, and at most one Ellipsis occurs. *)
Inductive fits : shape -> list ielem -> Prop :=
| F_done s : fits s []
| F_new s ix : fits s ix -> fits s (INewAxis :: ix)
| F_int d s ix z : (- Z.of_nat d <= z < Z.of_nat d)%Z -> fits s ix -> fits (d :: s) (IInt z :: ix)
| F_slice d s ix a b c : fits s ix -> fits (d :: s) (ISlice a b c :: ix)
| F_ellipsis s1 s2 ix : length s2 = length (filter consumes ix) -> ~ In IEllipsis ix -> fits s2 ix -> fits (s1 ++ s2) (IEllipsis :: ix).
Definition nonzero_steps (ix : list ielem) : Prop := forall a b, ~ In (ISlice a b (Some 0%Z)) ix.

(** ** Expectations over a finite outcome space *)
Local Open Scope R_scope.
Definition is_pmf {A} (outcomes : list A) (p : A -> R) : Prop :=
  (forall a, In a outcomes -> 0 <= p a) /\ Sums.sumf p outcomes = 1.
Definition entropy_of {A} (outcomes : list A) (p : A -> R) : R := - Sums.sumf (fun a => p a * ln (p a)) outcomes.
Definition kl_of {A} (outcomes : list A) (p q : A -> R) : R := Sums.sumf (fun a => p a * (ln (p a) - ln (q a))) outcomes.
Definition cross_entropy_of {A} (outcomes : list A) (p q : A -> R) : R := - Sums.sumf (fun a => p a * ln (q a)) outcomes.
