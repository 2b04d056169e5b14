(** Specification vocabulary for transformed random variables on the real line. *)
From Coq Require Import Reals List.
From Coquelicot Require Import Coquelicot.
From Verif Require Import Base.Result Base.Tensor Base.Rows Base.Integral Spec.Scalar.
Local Open Scope R_scope.

(** [y] lies in the open interval (a, b), whose ends may be infinite *)
Definition inside (a b : Rbar) (y : R) : Prop := Rbar_lt a y /\ Rbar_lt y b.
(** approaching the left (right) end of an open interval from inside *)
Definition from_left_end (a : Rbar) : (R -> Prop) -> Prop :=
  match a with Finite x => at_right x | e => Rbar_locally e end.
Definition from_right_end (b : Rbar) : (R -> Prop) -> Prop :=
  match b with Finite x => at_left x | e => Rbar_locally e end.
(** the (improper) integral of [f] over the open interval (a, b) is [v] *)
Definition integral_on (a b : Rbar) (f : R -> R) (v : R) : Prop :=
  is_RInt_gen f (from_left_end a) (from_right_end b) v.

(** [f] is a bijection of R onto the open interval (a, b), with inverse [g], and has the continuous, never
    vanishing derivative [f']. *)
Definition smooth_bijection (f f' g : R -> R) (a b : Rbar) : Prop :=
  (forall x, is_derive f x (f' x) /\ continuous f' x /\ f' x <> 0) /\ bijection_onto f g (inside a b).

(** the density of f(X) at [y] when X has density [p] and [g] is the inverse of [f] *)
Definition pushed (p g : R -> R) (y : R) : R := p (g y) * Rabs (Derive g y).

(** every entry of an array lies in the interval *)
Definition entries_inside (a b : Rbar) (y : tensor R) : Prop := wf y /\ List.Forall (inside a b) (dat y).

(** relative entropy of densities on (a, b) *)
Definition is_kl_on (a b : Rbar) (p q : R -> R) (v : R) : Prop :=
  integral_on a b (fun y => p y * (ln (p y) - ln (q y))) v.
Definition is_entropy_on (a b : Rbar) (p : R -> R) (v : R) : Prop :=
  integral_on a b (fun y => p y * - ln (p y)) v.

(** a function on arrays acts on each slice along the first axis separately *)
Definition rowwise {A B} (f : tensor A -> result (tensor B)) : Prop :=
  forall x n s, wf x -> shp x = (n :: s)%list -> (0 < n)%nat -> f x = vmap f x.
Definition rowwise_pair {A B C} (f : tensor A -> result (tensor B * tensor C)) : Prop :=
  forall x n s, wf x -> shp x = (n :: s)%list -> (0 < n)%nat -> f x = vmap_pair f x.
