(** Tanh, Sigmoid and Transformed in floating point: the lines of Model/ScalarBij.v and Model/Transformed.v
    with every arithmetic operation rounded to the dtype of the arrays (Base/Float.v).  One element at a
    time.  The library functions are parameters: [T] tanh, [A] arctanh, [S] softplus, [G] jax.nn.sigmoid,
    [E] exp, [L] log, [LP] log1p; [c] is the dtype's value of [jnp.log(2)]. *)
From Coq Require Import Reals.
From Verif Require Import Base.XR Base.Float.
Local Open Scope R_scope.

(** ** tanh.py *)
Definition fl_tanh_fldj dt (S : XR -> XR) (c x : XR) : XR :=                           (* 53-55 *)
  fmul dt (Fin 2) (fsub dt (fsub dt c x) (S (fmul dt (Fin (- 2)) x))).
Definition fl_tanh_forward_and_log_det dt (T S : XR -> XR) (c x : XR) : XR * XR :=     (* 57-59 *)
  (T x, fl_tanh_fldj dt S c x).
Definition fl_tanh_inverse_and_log_det dt (A S : XR -> XR) (c y : XR) : XR * XR :=     (* 61-64 *)
  let x := A y in (x, xopp (fl_tanh_fldj dt S c x)).

(** ** sigmoid.py *)
Definition fl_more_stable_sigmoid (E G : XR -> XR) (x : XR) : XR :=                    (* 77-79 *)
  if xltb x (Fin (- 9)) then E x else G x.
Definition fl_more_stable_softplus (E LP S : XR -> XR) (x : XR) : XR :=                (* 82-84 *)
  if xltb x (Fin (- 9)) then LP (E x) else S x.
Definition fl_sigmoid_fldj dt (E LP S : XR -> XR) (x : XR) : XR :=                     (* 58-61 *)
  fsub dt (xopp (fl_more_stable_softplus E LP S (xopp x))) (fl_more_stable_softplus E LP S x).
Definition fl_sigmoid_forward_and_log_det dt (E G LP S : XR -> XR) (x : XR) : XR * XR :=   (* 63-65 *)
  (fl_more_stable_sigmoid E G x, fl_sigmoid_fldj dt E LP S x).
Definition fl_sigmoid_inverse_and_log_det dt (E L LP S : XR -> XR) (y : XR) : XR * XR :=   (* 67-70 *)
  let x := fsub dt (L y) (LP (xopp y)) in (x, xopp (fl_sigmoid_fldj dt E LP S x)).

(** ** transformed.py: [lp] is the base's log_prob, [inv] and [fwd] the bijector's methods, [x] and [lp_x]
    the base's sample and its log-probability *)
Definition fl_transformed_log_prob dt (lp : XR -> XR) (inv : XR -> XR * XR) (value : XR) : XR :=   (* 161-166 *)
  let (x, ildj_y) := inv value in fadd dt (lp x) ildj_y.
Definition fl_transformed_sample_and_log_prob dt (fwd : XR -> XR * XR) (x lp_x : XR) : XR * XR :=   (* 188-191 *)
  let (y, fldj) := fwd x in (y, fsub dt lp_x fldj).
