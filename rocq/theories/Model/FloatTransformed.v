(** Chain and Transformed in floating point, one scalar event: chain.py:95-109; Transformed itself is in
    Model/FloatBij.v.  A bijector is given by what its forward_and_log_det and inverse_and_log_det return;
    an empty chain is rejected by the constructor (chain.py:56-57). *)
From Coq Require Import Reals List.
From Verif Require Import Base.XR Base.Float Model.FloatDist Model.FloatBij.
Import ListNotations.
Local Open Scope R_scope.

Record fl_bijector := { fl_fwd : XR -> XR * XR; fl_inv : XR -> XR * XR }.
Definition fl_step := XR -> XR * XR.
(** one iteration of the loops of 98-100 and 106-108: [x, ld = ...; log_det += ld] *)
Definition fl_chain_loop (dt : dtype) (state : XR * XR) (f : fl_step) : XR * XR :=
  let '(x, log_det) := state in let '(y, ld) := f x in (y, fadd dt log_det ld).
Definition fl_chain_steps (dt : dtype) (steps : list fl_step) (x : XR) : XR * XR :=
  match steps with
  | [] => (x, Fin 0)
  | f :: rest => fold_left (fl_chain_loop dt) rest (f x)
  end.
Definition fl_chain_forward (dt : dtype) (bijectors : list fl_bijector) : fl_step := fl_chain_steps dt (map fl_fwd (rev bijectors)).  (* 95-101 *)
Definition fl_chain_inverse (dt : dtype) (bijectors : list fl_bijector) : fl_step := fl_chain_steps dt (map fl_inv bijectors).        (* 103-109 *)
Definition fl_chain (dt : dtype) (bijectors : list fl_bijector) : fl_bijector := {| fl_fwd := fl_chain_forward dt bijectors; fl_inv := fl_chain_inverse dt bijectors |}.

(** ScalarAffine(shift, scale) as a bijector, scalar_affine.py:68-71, 98-128 *)
Definition fl_affine_log_scale (L : XR -> XR) (scale : XR) : XR := L (xabs scale).               (* 71 *)
Definition fl_affine_bijector (dt : dtype) (L : XR -> XR) (shift scale : XR) : fl_bijector := {|
  fl_fwd x := (fl_affine_forward dt shift scale x, fl_affine_log_scale L scale);                   (* 110-112 *)
  fl_inv y := (fl_affine_inverse dt shift scale y, xopp (fl_affine_log_scale L scale)) |}.          (* 126-128 *)

(** Tanh and Sigmoid as bijectors: tanh.py:57-64, sigmoid.py:63-70 (Model/FloatBij.v) *)
Definition fl_tanh_bijector (dt : dtype) (T A S : XR -> XR) (c : XR) : fl_bijector :=
  {| fl_fwd := fl_tanh_forward_and_log_det dt T S c; fl_inv := fl_tanh_inverse_and_log_det dt A S c |}.
Definition fl_sigmoid_bijector (dt : dtype) (E G L LP S : XR -> XR) : fl_bijector :=
  {| fl_fwd := fl_sigmoid_forward_and_log_det dt E G LP S; fl_inv := fl_sigmoid_inverse_and_log_det dt E L LP S |}.
