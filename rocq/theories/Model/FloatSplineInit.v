(** The knots of RationalQuadraticSpline in floating point, rational_quadratic_spline.py:26-38 and
    346-357, one spline.  Python numbers (range_min, range_max, min_bin_size and what is computed
    from them alone) are values of the type [host]; they are converted to the dtype [dt] of the
    parameters when combined with an array (JAX weak typing).  [p] is the softmax of the unnormalised
    bin sizes; [o j] the order in which cumsum adds the first [j] bins. *)
From Coq Require Import Reals List Bool ZArith.
From Verif Require Import Base.XR Base.Float Spec.Rounding.
Import ListNotations.
Local Open Scope R_scope.

Section Init.
Variables (dt host : dtype) (range_min range_max min_bin_size : XR) (n : nat).
Definition fl_range_size : XR := fsub host range_max range_min.                        (* 346 *)
(** 32: the constructor raises when this is true *)
Definition fl_bins_too_large : bool := xltb fl_range_size (fmul host (Fin (INR n)) min_bin_size).
(** 37-38 *)
Definition fl_bin_size (p : XR) : XR :=
  fadd dt (fmul dt p (fround dt (fsub host fl_range_size (fmul host (Fin (INR n)) min_bin_size))))
    (fround dt min_bin_size).
(** 351-357 *)
Definition fl_knot (p : nat -> XR) (o : nat -> order) (j : nat) : XR :=
  if Nat.eqb j 0 then fround dt range_min
  else if Nat.eqb j n then fround dt range_max
  else fadd dt (fround dt range_min) (sum_in dt (o j) (fun i => fl_bin_size (p i))).
End Init.
