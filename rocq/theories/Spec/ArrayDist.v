(** Specification vocabulary for batched univariate distributions. *)
From Coq Require Import Reals List.
From Verif Require Import Base.Tensor Base.XR Base.Lift.
Import ListNotations.

(** Every element of the array [t] is finite / a positive finite number. *)
Definition all_finite (t : tensor XR) : Prop := wf t /\ Forall (fun a => exists r, a = Fin r) (dat t).
Definition all_positive (t : tensor XR) : Prop := wf t /\ Forall (fun a => exists r, a = Fin r /\ (0 < r)%R) (dat t).

(** [t] has shape [s] and its element at [idx] is [f] of the operands' elements at [idx] ([xget] reads an
    operand at an index of the broadcast shape, NumPy rules). *)
Definition elementwise1 (s : shape) (f : XR -> XR) (a t : tensor XR) : Prop :=
  wf t /\ shp t = s /\ forall idx, inb s idx -> tget (Fin 0) t idx = f (xget a idx).
Definition elementwise2 (s : shape) (f : XR -> XR -> XR) (a b t : tensor XR) : Prop :=
  wf t /\ shp t = s /\ forall idx, inb s idx -> tget (Fin 0) t idx = f (xget a idx) (xget b idx).
Definition elementwise3 (s : shape) (f : XR -> XR -> XR -> XR) (a b c t : tensor XR) : Prop :=
  wf t /\ shp t = s /\ forall idx, inb s idx -> tget (Fin 0) t idx = f (xget a idx) (xget b idx) (xget c idx).
