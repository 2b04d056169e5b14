(** cdf, log_cdf, survival_function and log_survival_function of the location-scale families in
    floating point: one element; broadcasting is in Model/ScalarDist.v.  The library's functions
    ([ndtr], [log_ndtr], [exp], [expm1], [log1p], [sigmoid], [softplus]) are parameters.  Python float
    literals are representable except [math.log(2.)], whose value in the dtype is [c]. *)
From Coq Require Import Reals.
From Verif Require Import Base.XR Base.Float Model.FloatDist.
Local Open Scope R_scope.

(** the four methods of one distribution, as functions of the value *)
Record tails := Tails { t_cdf : XR -> XR; t_log_cdf : XR -> XR; t_sf : XR -> XR; t_log_sf : XR -> XR }.

(** distribution.py:208-217, 219-238, 240-259: the defaults of the base class (scalar event) *)
Definition fl_default_cdf (E : XR -> XR) (log_cdf : XR) : XR := E log_cdf.                         (* 217 *)
Definition fl_default_sf dt (cdf : XR) : XR := fsub dt (Fin 1) cdf.                                (* 235 *)
Definition fl_default_log_sf (L1 : XR -> XR) (cdf : XR) : XR := L1 (xopp cdf).                     (* 256 *)

(** Normal, normal.py:98-112 *)
Definition fl_normal_tails dt (N LN : XR -> XR) (loc scale : XR) : tails := {|
  t_cdf v := N (fl_standardize dt v loc scale);                                                    (* 100 *)
  t_log_cdf v := LN (fl_standardize dt v loc scale);                                               (* 104 *)
  t_sf v := N (xopp (fl_standardize dt v loc scale));                                              (* 108 *)
  t_log_sf v := LN (xopp (fl_standardize dt v loc scale)) |}.                                      (* 112 *)

(** Laplace, laplace.py:35-40, 107-110, 115-123; survival_function is the default *)
Definition fl_sign (z : XR) : XR :=                                                                (* jnp.sign *)
  match z with NaN => NaN | _ => if xltb (Fin 0) z then Fin 1 else if xltb z (Fin 0) then Fin (-1) else Fin 0 end.
Definition fl_log_cdf_laplace dt (E L1 : XR -> XR) (c : XR) (z : XR) : XR :=                        (* 35-40 *)
  let lower_value := fsub dt z c in
  let exp_neg_norm_value := E (xopp (xabs z)) in
  let upper_value := L1 (fmul dt (Fin (- (1 / 2))) exp_neg_norm_value) in
  if xleb z (Fin 0) then lower_value else upper_value.
Definition fl_laplace_cdf dt (X : XR -> XR) (z : XR) : XR :=                                       (* 110 *)
  fsub dt (Fin (1 / 2)) (fmul dt (fmul dt (Fin (1 / 2)) (fl_sign z)) (X (xopp (xabs z)))).
Definition fl_laplace_tails dt (E X L1 : XR -> XR) (c loc scale : XR) : tails := {|
  t_cdf v := fl_laplace_cdf dt X (fl_standardize dt v loc scale);
  t_log_cdf v := fl_log_cdf_laplace dt E L1 c (fl_standardize dt v loc scale);                      (* 117-118 *)
  t_sf v := fl_default_sf dt (fl_laplace_cdf dt X (fl_standardize dt v loc scale));
  t_log_sf v := fl_log_cdf_laplace dt E L1 c (xopp (fl_standardize dt v loc scale)) |}.             (* 122-123 *)

(** Logistic, logistic.py:97-111 *)
Definition fl_logistic_tails dt (G S : XR -> XR) (loc scale : XR) : tails := {|
  t_cdf v := G (fl_standardize dt v loc scale);                                                    (* 99 *)
  t_log_cdf v := xopp (S (xopp (fl_standardize dt v loc scale)));                                  (* 103 *)
  t_sf v := G (xopp (fl_standardize dt v loc scale));                                              (* 107 *)
  t_log_sf v := xopp (S (fl_standardize dt v loc scale)) |}.                                       (* 111 *)

(** Gumbel, gumbel.py:103-106; the other three are the defaults *)
Definition fl_gumbel_log_cdf dt (E : XR -> XR) (v loc scale : XR) : XR :=
  xopp (E (xopp (fl_standardize dt v loc scale))).
Definition fl_gumbel_tails dt (E L1 : XR -> XR) (loc scale : XR) : tails := {|
  t_cdf v := fl_default_cdf E (fl_gumbel_log_cdf dt E v loc scale);
  t_log_cdf v := fl_gumbel_log_cdf dt E v loc scale;
  t_sf v := fl_default_sf dt (fl_default_cdf E (fl_gumbel_log_cdf dt E v loc scale));
  t_log_sf v := fl_default_log_sf L1 (fl_default_cdf E (fl_gumbel_log_cdf dt E v loc scale)) |}.
