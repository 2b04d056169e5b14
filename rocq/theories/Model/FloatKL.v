(** KL divergences between distributions of one family in floating point: one batch element.  [L], [E], [M] are the library's log,
    exp and expm1. *)
From Coq Require Import Reals Bool.
From Verif Require Import Base.XR Base.Float.
Local Open Scope R_scope.

(** _kl_divergence_normal_normal, normal.py:163-167 *)
Definition fl_normal_kl (dt : dtype) (L M : XR -> XR) (loc1 scale1 loc2 scale2 : XR) : XR :=
  let diff_log_scale := fsub dt (L scale1) (L scale2) in
  let dz := fsub dt (fdiv dt loc1 scale2) (fdiv dt loc2 scale2) in
  fsub dt (fadd dt (fmul dt (Fin (1 / 2)) (fmul dt dz dz))
                   (fmul dt (Fin (1 / 2)) (M (fmul dt (Fin 2) diff_log_scale))))
       diff_log_scale.
(** _kl_divergence_laplace_laplace, laplace.py:165-169 *)
Definition fl_laplace_kl (dt : dtype) (L E : XR -> XR) (loc1 scale1 loc2 scale2 : XR) : XR :=
  let distance := xabs (fsub dt loc1 loc2) in
  let diff_log_scale := fsub dt (L scale1) (L scale2) in
  fadd dt (fsub dt (fadd dt (xopp diff_log_scale) (fdiv dt distance scale2)) (Fin 1))
       (E (fadd dt (fdiv dt (xopp distance) scale1) diff_log_scale)).
(** _kl_divergence_uniform_uniform, uniform.py:158-161 *)
Definition fl_uniform_kl (dt : dtype) (L : XR -> XR) (low1 high1 low2 high2 : XR) : XR :=
  if xleb low2 low1 && xleb high1 high2
  then fsub dt (L (fsub dt high2 low2)) (L (fsub dt high1 low1))
  else PInf.
