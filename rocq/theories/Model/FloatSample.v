(** [_sample_n_and_log_prob] of Normal and Laplace in floating point, one element at a time: [u] is the
    standard draw, [L] the library's log, [c] the dtype's value of the constant. *)
From Coq Require Import Reals.
From Verif Require Import Base.XR Base.Float.
Local Open Scope R_scope.

(** normal.py:83 and 88, [scale * rnd + loc]; laplace.py:89 and 94, [loc + scale * rnd] *)
Definition fl_normal_sample dt (u loc scale : XR) : XR := fadd dt (fmul dt scale u) loc.
Definition fl_laplace_sample dt (u loc scale : XR) : XR := fadd dt loc (fmul dt scale u).
(** normal.py:89 *)
Definition fl_normal_sample_log_prob dt (L : XR -> XR) (c u scale : XR) : XR :=
  fsub dt (fsub dt (fmul dt (Fin (- (1 / 2))) (fmul dt u u)) c) (L scale).
(** laplace.py:95 *)
Definition fl_laplace_sample_log_prob dt (L : XR -> XR) (c u scale : XR) : XR :=
  fsub dt (fsub dt (xopp (xabs u)) c) (L scale).
