(** Model of the rest of distrax/_src/utils/math.py: the power, the derivative rules and the beta functions. *)
From Coq Require Import Reals List ZArith Bool.
From Verif Require Import Base.XR Model.MathUtils.
Import ListNotations.
Local Open Scope R_scope.

(** jnp.power on floats (C's pow; the sign of zero is not modelled): integers are the floats equal to their
    integer part. *)
Definition is_integer (y : R) : bool := if Req_EM_T y (IZR (Int_part y)) then true else false.
Definition is_odd (y : R) : bool := is_integer y && Z.odd (Int_part y).
Definition xpow (x y : XR) : XR :=
  match x, y with
  | Fin x, Fin y =>
      if Req_EM_T y 0 then Fin 1
      else if Rlt_dec 0 x then Fin (exp (y * ln x))
      else if Req_EM_T x 0 then (if Rlt_dec 0 y then Fin 0 else PInf)
      else if is_integer y then Fin (if Z.odd (Int_part y) then - exp (y * ln (- x)) else exp (y * ln (- x)))
      else NaN
  | NaN, Fin y => if Req_EM_T y 0 then Fin 1 else NaN
  | Fin x, NaN => if Req_EM_T x 1 then Fin 1 else NaN
  | PInf, Fin y => if Req_EM_T y 0 then Fin 1 else if Rlt_dec 0 y then PInf else Fin 0
  | NInf, Fin y => if Req_EM_T y 0 then Fin 1 else if Rlt_dec 0 y then (if is_odd y then NInf else PInf) else Fin 0
  | Fin x, PInf => if Rlt_dec (Rabs x) 1 then Fin 0 else if Req_EM_T (Rabs x) 1 then Fin 1 else PInf
  | Fin x, NInf => if Rlt_dec (Rabs x) 1 then PInf else if Req_EM_T (Rabs x) 1 then Fin 1 else Fin 0
  | NaN, _ | _, NaN => NaN
  | _, PInf => PInf
  | _, NInf => Fin 0
  end.
(** math.power_no_nan, math.py:82-98 *)
Definition power_no_nan (x y : XR) : XR := if xeqb y (Fin 0) then Fin 1 else xpow x y.

(** A tangent: SymbolicZero, which JAX passes for an argument that is not differentiated, or an array. *)
Inductive tangent := SymZero | Dot (d : XR).
(** add_maybe_symbolic, math.py:51-57 *)
Definition add_maybe_symbolic (x y : tangent) : tangent :=
  match x, y with SymZero, _ => y | _, SymZero => x | Dot x, Dot y => Dot (xadd x y) end.
(** scale_maybe_symbolic, math.py:60-64 *)
Definition scale_maybe_symbolic (t : tangent) (scale : XR) : tangent :=
  match t with SymZero => SymZero | Dot t => Dot (xmul t scale) end.
(** multiply_no_nan_jvp, math.py:67-79 *)
Definition multiply_no_nan_jvp (x y : XR) (x_dot y_dot : tangent) : XR * tangent :=
  (multiply_no_nan x y, add_maybe_symbolic (scale_maybe_symbolic x_dot y) (scale_maybe_symbolic y_dot x)).
(** power_no_nan_jvp, math.py:101-111; a tangent that is not there is passed as an array of zeros *)
Definition power_no_nan_jvp (x y x_dot y_dot : XR) : XR * XR :=
  let primal_out := power_no_nan x y in
  (primal_out, xadd (xmul (xmul y (power_no_nan x (xsub y (Fin 1)))) x_dot) (xmul (xmul primal_out (xlog x)) y_dot)).
(** what JAX derives from the body of mul_exp, math.py:125-129: exp' = exp, the tangent of a selection is the
    selection of the tangents, and the product rule *)
Definition mul_exp_jvp (x logp x_dot logp_dot : XR) : XR * XR :=
  let p := xexp logp in
  let p_dot := xmul logp_dot p in
  let x' := if xeqb p (Fin 0) then Fin 0 else x in
  let x'_dot := if xeqb p (Fin 0) then Fin 0 else x_dot in
  (xmul x' p, xadd (xmul x'_dot p) (xmul x' p_dot)).
