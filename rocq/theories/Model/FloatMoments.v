(** Moments, medians and entropies of Uniform, Normal, Laplace, Logistic and Gumbel in floating point, one
    element.  [L] is the library's log; [pi], [g] (euler_gamma), [c...] are the dtype's values of the
    constants, which Python computes in double precision and JAX converts. *)
From Coq Require Import Reals.
From Verif Require Import Base.XR Base.Float Model.FloatDist.
Local Open Scope R_scope.
Definition fl_square (dt : dtype) (a : XR) : XR := fmul dt a a.                                                   (* jnp.square *)

(** uniform.py *)
Definition fl_uniform_entropy (dt : dtype) (L : XR -> XR) (low high : XR) : XR := L (fl_range dt low high).       (* 103-105 *)
Definition fl_uniform_mean (dt : dtype) (low high : XR) : XR := fdiv dt (fadd dt low high) (Fin 2).               (* 107-109, and median 119-121 *)
Definition fl_uniform_variance (dt : dtype) (low high : XR) : XR := fdiv dt (fl_square dt (fl_range dt low high)) (Fin 12).   (* 111-113 *)
Definition fl_uniform_stddev (dt : dtype) (c_sqrt12 low high : XR) : XR := fdiv dt (fl_range dt low high) c_sqrt12.           (* 115-117 *)
(** normal.py *)
Definition fl_normal_entropy (dt : dtype) (L : XR -> XR) (c scale : XR) : XR :=                                   (* 117-121 *)
  let log_normalization := fadd dt c (L scale) in fadd dt (Fin (1 / 2)) log_normalization.
Definition fl_normal_variance (dt : dtype) (scale : XR) : XR := fl_square dt scale.                               (* 127-129 *)
(** laplace.py; [math.log(2.) + 1.] is one Python constant *)
Definition fl_laplace_entropy (dt : dtype) (L : XR -> XR) (c scale : XR) : XR := fadd dt c (L scale).             (* 103-105 *)
Definition fl_laplace_stddev (dt : dtype) (c_sqrt2 scale : XR) : XR := fmul dt c_sqrt2 scale.                     (* 129-131 *)
Definition fl_laplace_variance (dt : dtype) (scale : XR) : XR := fmul dt (Fin 2) (fl_square dt scale).            (* 133-135 *)
(** logistic.py *)
Definition fl_logistic_entropy (dt : dtype) (L : XR -> XR) (scale : XR) : XR := fadd dt (Fin 2) (L scale).        (* 93-95 *)
Definition fl_logistic_variance (dt : dtype) (pi scale : XR) : XR := fdiv dt (fl_square dt (fmul dt scale pi)) (Fin 3).       (* 117-119 *)
Definition fl_logistic_stddev (dt : dtype) (pi c_sqrt3 scale : XR) : XR := fdiv dt (fmul dt scale pi) c_sqrt3.    (* 121-123 *)
(** gumbel.py; the factor [jnp.ones_like(self._loc)] is kept *)
Definition fl_gumbel_entropy (dt : dtype) (L : XR -> XR) (g scale : XR) : XR := fadd dt (fadd dt (L scale) (Fin 1)) g.        (* 99-101 *)
Definition fl_gumbel_mean (dt : dtype) (g loc scale : XR) : XR := fadd dt loc (fmul dt scale g).                  (* 108-110 *)
Definition fl_gumbel_stddev (dt : dtype) (pi c_sqrt6 scale : XR) : XR := fdiv dt (fmul dt (fmul dt scale (Fin 1)) pi) c_sqrt6.  (* 112-114 *)
Definition fl_gumbel_variance (dt : dtype) (pi scale : XR) : XR := fdiv dt (fl_square dt (fmul dt (fmul dt scale (Fin 1)) pi)) (Fin 6).   (* 116-118 *)
Definition fl_gumbel_median (dt : dtype) (c_loglog2 loc scale : XR) : XR := fsub dt loc (fmul dt scale c_loglog2).            (* 124-126 *)
