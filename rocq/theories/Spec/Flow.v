(** Specification vocabulary for probability densities of many real coordinates.  A point gives every coordinate, named by its multi-index, a value. *)
From Coq Require Import Reals List Bool.
From Coquelicot Require Import Coquelicot.
From Verif Require Import Base.Sums Base.Tensor Base.Integral Spec.Transformed.
Import ListNotations.
Local Open Scope R_scope.

Definition coord := list nat.
Definition point := coord -> R.
Definition coord_dec : forall i j : coord, {i = j} + {i <> j} := list_eq_dec PeanoNat.Nat.eq_dec.
Definition upd (x : point) (i : coord) (t : R) : point := fun j => if coord_dec j i then t else x j.

(** a box: an open interval, possibly unbounded, for every coordinate *)
Definition box := coord -> Rbar * Rbar.
Definition in_box (D : box) (x : point) : Prop := forall i, inside (fst (D i)) (snd (D i)) (x i).
(** the interval (lo, hi) for the coordinates in [l], the whole line for the others *)
Definition box_of (D : box) (l : list coord) : box := fun i => if in_dec coord_dec i l then D i else (m_infty, p_infty).

(** [v] is the iterated integral of [q] over the coordinates in [l] (the first one outermost), as a function of the other coordinates *)
Fixpoint iterated_on (D : box) (l : list coord) (q v : point -> R) : Prop :=
  match l with
  | [] => forall x, in_box D x -> v x = q x
  | i :: l' => exists h, iterated_on D l' q h /\
      forall x, in_box D x -> integral_on (fst (D i)) (snd (D i)) (fun t => h (upd x i t)) (v x)
  end.
(** the same over all of R in every coordinate, each integrand being continuous in the variable of integration *)
Fixpoint iterated_smooth (l : list coord) (q v : point -> R) : Prop :=
  match l with
  | [] => forall x, v x = q x
  | i :: l' => exists h, iterated_smooth l' q h /\
      forall x, (forall t, continuous (fun t => h (upd x i t)) t) /\ integral (fun t => h (upd x i t)) (v x)
  end.

(** Coordinates in [U] are moved one by one, each by a function that may depend on the coordinates outside [U] *)
Definition moved (U : list coord) (f : coord -> point -> R -> R) (x : point) : point :=
  fun i => if in_dec coord_dec i U then f i x (x i) else x i.
(** the density of [moved U f X] when X has density [q] and [g i y] inverts [f i y] *)
Definition moved_density (U : list coord) (g : coord -> point -> R -> R) (q : point -> R) (y : point) : R :=
  q (moved U g y) * prodf (fun i => Rabs (Derive (g i y) (y i))) U.
Definition depends_only_outside {A} (U : list coord) (f : point -> A) : Prop :=
  forall x y, (forall i, ~ In i U -> x i = y i) -> f x = f y.

(** SplitCoupling cuts the axis that follows [pre] into parts.  [up]: where, in the whole array, the entry [j] of the part that starts at [lo] is; [down]: back;
    [part_shape], [part_coords]: the shape of the part [lo, hi) and its coordinates in the whole array. *)
Definition up (pre : shape) (lo : nat) (j : coord) : coord := firstn (length pre) j ++ (lo + nth (length pre) j 0)%nat :: skipn (S (length pre)) j.
Definition down (pre : shape) (lo : nat) (i : coord) : coord := firstn (length pre) i ++ (nth (length pre) i 0 - lo)%nat :: skipn (S (length pre)) i.
Definition part_shape (pre post : shape) (lo hi : nat) : shape := pre ++ (hi - lo)%nat :: post.
Definition part_coords (pre post : shape) (lo hi : nat) : list coord := map (up pre lo) (indices (part_shape pre post lo hi)).
