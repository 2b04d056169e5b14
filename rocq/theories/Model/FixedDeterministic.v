(** Deterministic, deterministic.py, in the arithmetic of its arrays: fixed-width integers (two's
    complement, wrapping) or floating point.  Any dtype is accepted for [loc] (55: no conversion).  One
    element at a time, [value] in the dtype of [loc]; the tolerances are floats (56-57). *)
From Coq Require Import Reals Bool ZArith.
From Verif Require Import Base.XR Base.Float.
Local Open Scope R_scope.

(** An integer dtype: [w] bits, signed or not. *)
Record itype := Itype { bits : Z; signed : bool; bits_ok : (1 < bits)%Z }.
Definition int8 : itype := Itype 8 true eq_refl.
Definition int32 : itype := Itype 32 true eq_refl.
Definition uint8 : itype := Itype 8 false eq_refl.
Definition wrap (it : itype) (z : Z) : Z :=
  if signed it then ((z + 2 ^ (bits it - 1)) mod 2 ^ bits it - 2 ^ (bits it - 1))%Z
  else (z mod 2 ^ bits it)%Z.
Definition isub (it : itype) (a b : Z) : Z := wrap it (a - b).
Definition iabs (it : itype) (a : Z) : Z := wrap it (Z.abs a).
(** conversion of an integer array to the float dtype of the tolerances, by promotion *)
Definition to_float (dt : dtype) (z : Z) : XR := fround dt (Fin (IZR z)).

Definition int_slack (dt : dtype) (it : itype) (loc : Z) (atol rtol : XR) : XR :=      (* 91-96 *)
  if xeqb rtol (Fin 0) then atol else fadd dt atol (fmul dt rtol (to_float dt (iabs it loc))).
Definition int_prob (dt : dtype) (it : itype) (value loc : Z) (atol rtol : XR) : XR := (* 114-117 *)
  if xleb (to_float dt (iabs it (isub it value loc))) (int_slack dt it loc atol rtol) then Fin 1 else Fin 0.
Definition int_cdf (dt : dtype) (it : itype) (value loc : Z) (atol rtol : XR) : XR :=  (* 147-149 *)
  if xleb (fsub dt (to_float dt loc) (int_slack dt it loc atol rtol)) (to_float dt value) then Fin 1 else Fin 0.

(** The same lines for a floating-point [loc]. *)
Definition fl_slack (dt : dtype) (loc atol rtol : XR) : XR :=                          (* 91-96 *)
  if xeqb rtol (Fin 0) then atol else fadd dt atol (fmul dt rtol (xabs loc)).
Definition fl_det_prob (dt : dtype) (value loc atol rtol : XR) : XR :=                 (* 114-117 *)
  if xleb (xabs (fsub dt value loc)) (fl_slack dt loc atol rtol) then Fin 1 else Fin 0.
Definition fl_det_cdf (dt : dtype) (value loc atol rtol : XR) : XR :=                  (* 147-149 *)
  if xleb (fsub dt loc (fl_slack dt loc atol rtol)) value then Fin 1 else Fin 0.
