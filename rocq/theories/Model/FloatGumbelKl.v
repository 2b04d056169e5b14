(** Gumbel's KL divergence in floating point, one batch element: _kl_divergence_gumbel_gumbel, gumbel.py 148-152.  [L], [M] and
    [lgamma] are the library's log, expm1 and lgamma; [euler_gamma] is the dtype's value of the constant. *)
From Coq Require Import Reals.
From Verif Require Import Base.XR Base.Float.
Local Open Scope R_scope.
Definition fl_gumbel_kl (dt : dtype) (L M lgamma : XR -> XR) (euler_gamma loc1 scale1 loc2 scale2 : XR) : XR :=
  fadd dt (fadd dt (fadd dt (fsub dt (L scale2) (L scale1))
                            (fmul dt euler_gamma (fsub dt (fdiv dt scale1 scale2) (Fin 1))))
                   (M (fadd dt (fdiv dt (fsub dt loc2 loc1) scale2) (lgamma (fadd dt (fdiv dt scale1 scale2) (Fin 1))))))
          (fdiv dt (fsub dt loc1 loc2) scale2).
