(** Vocabulary of C109: a relative error, in units of roundoff, and an absolute one, in units of the
    smallest normal number (underflow). *)
From Coq Require Import Reals.
From Verif Require Import Base.XR Base.Float.
Local Open Scope R_scope.
Definition near (dt : dtype) (j l : R) (v : XR) (t : R) : Prop := exists r, v = Fin r /\ Rabs (r - t) <= j * eps dt * Rabs t + l * tiny dt.
(** [c] is the dtype's value of the positive constant [C], correctly rounded or nearly so. *)
Definition constant (dt : dtype) (c C : R) : Prop := Rabs (c - C) <= eps dt * C.
