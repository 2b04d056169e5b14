(** Models of the elementwise bijectors ScalarAffine, Shift, Tanh, Sigmoid, GumbelCDF. *)
From Coq Require Import List Reals ZArith Bool.
From Verif Require Import Base.Result Base.Sums Base.Tensor Model.Bijector.
Import ListNotations.
Local Open Scope R_scope.

(** jax.nn.softplus(x) = logaddexp(x, 0); jax.nn.sigmoid; jnp.arctanh (exact-real meaning). *)
Definition softplus (x : R) : R := ln (1 + exp x).
Definition sigmoid (x : R) : R := / (1 + exp (- x)).
Definition arctanh (y : R) : R := / 2 * ln ((1 + y) / (1 - y)).

(** A bijector applied elementwise: forward_and_log_det = (f, lf), inverse_and_log_det =
    (g, lg) on every entry, event_ndims 0; the remaining methods are the base class's. *)
Definition elementwise (m : meta) (f lf g lg : R -> R) : bij :=
  base_methods m (fun x => Ok (tmap f x, tmap lf x)) (fun y => Ok (tmap g y, tmap lg y)).

(** ** Tanh, tanh.py:49-64 *)
Definition tanh_forward (x : R) : R := tanh x.                                  (* tanh.py:59 *)
Definition tanh_fldj (x : R) : R := 2 * (ln 2 - x - softplus (- (2) * x)).       (* tanh.py:55 *)
Definition tanh_inverse (y : R) : R := arctanh y.                               (* tanh.py:63 *)
Definition tanh_ildj (y : R) : R := - tanh_fldj (tanh_inverse y).               (* tanh.py:64 *)
Definition tanh_bij : result bij :=
  do m <- base_init 0 None false None; Ok (elementwise m tanh_forward tanh_fldj tanh_inverse tanh_ildj).

(** ** Sigmoid, sigmoid.py:54-84 *)
(** _more_stable_sigmoid, sigmoid.py:77-79. *)
Definition more_stable_sigmoid (x : R) : R := if Rlt_dec x (-9) then exp x else sigmoid x.
(** _more_stable_softplus, sigmoid.py:82-84 (log1p(z) = ln(1+z)). *)
Definition more_stable_softplus (x : R) : R := if Rlt_dec x (-9) then ln (1 + exp x) else softplus x.
Definition sigmoid_forward (x : R) : R := more_stable_sigmoid x.                 (* sigmoid.py:65 *)
Definition sigmoid_fldj (x : R) : R := - more_stable_softplus (- x) - more_stable_softplus x. (* :61 *)
Definition sigmoid_inverse (y : R) : R := ln y - ln (1 + - y).                   (* sigmoid.py:69 *)
Definition sigmoid_ildj (y : R) : R := - sigmoid_fldj (sigmoid_inverse y).       (* sigmoid.py:70 *)
Definition sigmoid_bij : result bij :=
  do m <- base_init 0 None false None; Ok (elementwise m sigmoid_forward sigmoid_fldj sigmoid_inverse sigmoid_ildj).

(** ** GumbelCDF, gumbel_cdf.py:33-48 *)
Definition gumbel_forward (x : R) : R := exp (- exp (- x)).                      (* :39-40 *)
Definition gumbel_fldj (x : R) : R := - x - exp (- x).                           (* :41 *)
Definition gumbel_inverse (y : R) : R := - ln (- ln y).                          (* :46-47 *)
Definition gumbel_ildj (y : R) : R := gumbel_inverse y - ln y.                   (* :48 *)
Definition gumbel_bij : result bij :=
  do m <- base_init 0 None false None; Ok (elementwise m gumbel_forward gumbel_fldj gumbel_inverse gumbel_ildj).

(** ** ScalarAffine, scalar_affine.py:41-128 *)
(** The three stored parameters (scale, inv_scale, log_scale), scalar_affine.py:64-78.
    [1. / scale] with a zero scale is documented as the user's error (49-52). *)
Definition sa_params (scale log_scale : option arr) : result (arr * arr * arr) :=
  match scale, log_scale with
  | None, None => Ok (tscalar 1, tscalar 1, tscalar 0)
  | Some s, None => Ok (s, tmap (fun a => 1 / a) s, tmap (fun a => ln (Rabs a)) s)
  | None, Some l => Ok (tmap exp l, tmap (fun a => exp (- a)) l, l)
  | Some _, Some _ => Err ValueError
  end.
(** jax.lax.broadcast_shapes and jnp.broadcast_to. *)
Definition bcast_shapes (s1 s2 : shape) : result shape :=
  match bshape s1 s2 with Some s => Ok s | None => Err ValueError end.
Definition bcast_to (t : arr) (s : shape) : result arr :=
  match bshape (shp t) s with
  | Some s' => if list_eq_dec Nat.eq_dec s' s then Ok (tgen s (fun idx => tget 0 t (bindex (shp t) idx)))
               else Err ValueError
  | None => Err ValueError
  end.
Definition tmul (a b : arr) : result arr := tmap2 0 0 Rmult a b.
Definition tsub (a b : arr) : result arr := tmap2 0 0 Rminus a b.

Definition scalar_affine_init (shift : arr) (scale log_scale : option arr) : result bij :=
  do m <- base_init 0 None true None;                                            (* :62 *)
  do (sc, inv_scale, log_sc) <- sa_params scale log_scale;                       (* :64-78 *)
  do batch_shape <- bcast_shapes (shp shift) (shp sc);                           (* :79-80 *)
  let forward x :=                                                               (* :98-103 *)
    do bs <- bcast_shapes batch_shape (shp x);
    do bsc <- bcast_to sc bs; do bsh <- bcast_to shift bs;
    do p <- tmul bsc x; tadd p bsh in
  let fldj x := do bs <- bcast_shapes batch_shape (shp x); bcast_to log_sc bs in (* :105-108 *)
  let inverse y :=                                                               (* :114-119 *)
    do bs <- bcast_shapes batch_shape (shp y);
    do bis <- bcast_to inv_scale bs; do bsh <- bcast_to shift bs;
    do d <- tsub y bsh; tmul bis d in
  let ildj y := do bs <- bcast_shapes batch_shape (shp y); bcast_to (tneg log_sc) bs in (* :121-124 *)
  Ok (mkBij (m_in m) (m_out m) (m_cj m) (m_cl m) forward inverse fldj ildj
        (fun x => do y <- forward x; do l <- fldj x; Ok (y, l))                  (* :110-112 *)
        (fun y => do x <- inverse y; do l <- ildj y; Ok (x, l))).                (* :126-128 *)

(** ** Shift, shift.py:40-78 *)
Definition shift_init (shift : arr) : result bij :=
  do m <- base_init 0 None true None;
  let batch_shape := shp shift in
  let forward x := tadd x shift in                                               (* :55-57 *)
  let ldj x := do bs <- bcast_shapes batch_shape (shp x); Ok (tgen bs (fun _ => 0)) in (* :59-62, 72-74 *)
  let inverse y := tsub y shift in                                               (* :68-70 *)
  Ok (mkBij (m_in m) (m_out m) (m_cj m) (m_cl m) forward inverse ldj ldj
        (fun x => do y <- forward x; do l <- ldj x; Ok (y, l))
        (fun y => do x <- inverse y; do l <- ldj y; Ok (x, l))).
