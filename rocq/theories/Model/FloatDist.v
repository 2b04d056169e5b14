(** Floating-point models: the same lines of distrax as the exact models of Model/ScalarDist.v,
    Model/MathUtils.v, Model/ScalarBij.v and Model/RQS.v, with every arithmetic operation rounded to
    the dtype of the arrays (Base/Float.v).  One element at a time: broadcasting is in the exact
    models.  A Python float literal is converted to the dtype of the array first (JAX weak typing);
    all literals used here are representable. *)
From Coq Require Import Reals List Bool ZArith.
From Flocq Require Import Core.
From Verif Require Import Base.XR Base.Float Spec.Rounding.
Import ListNotations.
Local Open Scope R_scope.

(** ** Uniform, uniform.py *)
Definition fl_range dt (low high : XR) : XR := fsub dt high low.                     (* 70 *)
(** 83, [low + range_ * uniform]: two roundings, or one if the compiler contracts it *)
Definition fl_uniform_sample dt (u low high : XR) : XR := fadd dt low (fmul dt (fl_range dt low high) u).
Definition fl_uniform_sample_fused dt (u low high : XR) : XR := ffma dt (fl_range dt low high) u low.
Definition fl_uniform_prob dt (value low high : XR) : XR :=                          (* 96-101 *)
  if xltb value low || xltb high value then Fin 0 else fdiv dt (Fin 1) (fl_range dt low high).
Definition fl_uniform_cdf dt (value low high : XR) : XR :=                           (* 123-129 *)
  let result_if_not_big :=
    if xltb value low then Fin 0 else fdiv dt (fsub dt value low) (fl_range dt low high) in
  if xltb high value then Fin 1 else result_if_not_big.

(** ** Bernoulli, bernoulli.py:109-114 *)
Definition fl_bernoulli_sample (u probs : XR) : bool := xltb u probs.                (* 114 *)

(** ** The draw of logistic.py:79-84, [jax.random.uniform(minval=tiny, maxval=1.)]: jax scales a draw
    of [0, 1) by [maxval - minval], adds [minval] and takes the maximum with [minval]. *)
Definition fl_logistic_uniform dt (u : XR) : XR :=
  xmax (Fin (tiny dt)) (fadd dt (fmul dt u (fsub dt (Fin 1) (Fin (tiny dt)))) (Fin (tiny dt))).

(** ** math.normalize(probs=...), math.py:135-137: [probs / probs.sum(-1)], given the computed sum *)
Definition fl_normalize dt (sum p : XR) : XR := fdiv dt p sum.

(** ** ScalarAffine(shift, scale), scalar_affine.py *)
Definition fl_inv_scale dt (scale : XR) : XR := fdiv dt (Fin 1) scale.               (* 70 *)
Definition fl_affine_forward dt (shift scale x : XR) : XR := fadd dt (fmul dt scale x) shift.   (* 103 *)
Definition fl_affine_inverse dt (shift scale y : XR) : XR :=                         (* 119 *)
  fmul dt (fl_inv_scale dt scale) (fsub dt y shift).

(** ** Shift(shift), shift.py *)
Definition fl_shift_forward dt (shift x : XR) : XR := fadd dt x shift.                (* 57 *)
Definition fl_shift_inverse dt (shift y : XR) : XR := fsub dt y shift.                (* 70 *)

(** ** One bin of the rational-quadratic spline, rational_quadratic_spline.py:91-128: the clipped
    position in the bin, the denominator and the second logarithm's argument *)
Definition fl_clip01 (z : XR) : XR := xmin (Fin 1) (xmax (Fin 0) z).                 (* 102 *)
Definition fl_rqs_z dt (x xl width : XR) : XR := fl_clip01 (fdiv dt (fsub dt x xl) width).      (* 98-102 *)
Definition fl_rqs_z1mz dt (z : XR) : XR := fsub dt z (fmul dt z z).                   (* 103-104 *)
Definition fl_rqs_sq_1mz dt (z : XR) : XR := fmul dt (fsub dt (Fin 1) z) (fsub dt (Fin 1) z).   (* 105 *)
Definition fl_rqs_slopes_term dt (s0 s1 bs : XR) : XR :=                              (* 106 *)
  fsub dt (fadd dt s1 s0) (fmul dt (Fin 2) bs).
Definition fl_rqs_denominator dt (s0 s1 bs z : XR) : XR :=                            (* 108 *)
  fadd dt bs (fmul dt (fl_rqs_slopes_term dt s0 s1 bs) (fl_rqs_z1mz dt z)).
Definition fl_rqs_logarg dt (s0 s1 bs z : XR) : XR :=                                 (* 121-123 *)
  fadd dt (fadd dt (fmul dt s1 (fmul dt z z)) (fmul dt (fmul dt (Fin 2) bs) (fl_rqs_z1mz dt z)))
    (fmul dt s0 (fl_rqs_sq_1mz dt z)).
Definition fl_rqs_numerator dt (s0 bs h z : XR) : XR :=                               (* 107 *)
  fmul dt h (fadd dt (fmul dt bs (fmul dt z z)) (fmul dt s0 (fl_rqs_z1mz dt z))).
Definition fl_rqs_y dt (s0 s1 bs h yl z : XR) : XR :=                                 (* 109 *)
  fadd dt yl (fdiv dt (fl_rqs_numerator dt s0 bs h z) (fl_rqs_denominator dt s0 s1 bs z)).

(** ** log_prob of the location-scale families.  [L], [E], [S] are the library's log, exp and
    softplus; [c] the dtype's value of the normalising constant. *)
Definition fl_standardize dt (v loc scale : XR) : XR := fdiv dt (fsub dt v loc) scale. (* normal.py:115, laplace.py:113, logistic.py:73, gumbel.py:75 *)
Definition fl_normal_log_prob dt (L : XR -> XR) (c v loc scale : XR) : XR :=           (* normal.py:92-96 *)
  let z := fl_standardize dt v loc scale in
  let log_unnormalized := fmul dt (Fin (- (1 / 2))) (fmul dt z z) in
  let log_normalization := fadd dt c (L scale) in
  fsub dt log_unnormalized log_normalization.
Definition fl_laplace_log_prob dt (L : XR -> XR) (c v loc scale : XR) : XR :=          (* laplace.py:98-101 *)
  let z := fl_standardize dt v loc scale in
  fsub dt (fsub dt (xopp (xabs z)) c) (L scale).
Definition fl_logistic_log_prob dt (L S : XR -> XR) (v loc scale : XR) : XR :=         (* logistic.py:88-91 *)
  let z := fl_standardize dt v loc scale in
  fsub dt (fsub dt (xopp z) (fmul dt (Fin 2) (S (xopp z)))) (L scale).
Definition fl_gumbel_log_prob dt (L E : XR -> XR) (v loc scale : XR) : XR :=           (* gumbel.py:77-80 *)
  let z := fl_standardize dt v loc scale in
  fsub dt (xopp (fadd dt z (E (xopp z)))) (L scale).

(** ** math.normalize(logits=...), math.py:138-140, and Categorical.probs, categorical.py:83:
    jax.nn.log_softmax and jax.nn.softmax over a vector [x] of [n] entries, summed in the order [o] *)
Definition fl_amax (n : nat) (x : nat -> XR) : XR := fold_right xmax NInf (map x (seq 0 n)).
Definition fl_shifted dt n (x : nat -> XR) (i : nat) : XR := fsub dt (x i) (fl_amax n x).
Definition fl_exp_sum dt (E : XR -> XR) (o : order) n x : XR := sum_in dt o (fun j => E (fl_shifted dt n x j)).
Definition fl_log_softmax dt (L E : XR -> XR) (o : order) n x (i : nat) : XR :=
  fsub dt (fl_shifted dt n x i) (L (fl_exp_sum dt E o n x)).
Definition fl_softmax dt (E : XR -> XR) (o : order) n x (i : nat) : XR :=
  fdiv dt (E (fl_shifted dt n x i)) (fl_exp_sum dt E o n x).

(** ** Selection by a one-hot mask: MixtureSameFamily._sample_n (mixture_same_family.py:104-113),
    the bin parameters of the spline (rational_quadratic_spline.py:86-88, 191-193): entry [k] of [x] as
    [sum(x * mask)]; Categorical.prob and log_prob (categorical.py:101-115) use multiply_no_nan
    (math.py:46-47) *)
Definition fl_mask (k i : nat) : XR := if Nat.eqb i k then Fin 1 else Fin 0.
Definition fl_select dt (o : order) (k : nat) (x : nat -> XR) : XR :=
  sum_in dt o (fun i => fmul dt (x i) (fl_mask k i)).
Definition fl_multiply_no_nan dt (x y : XR) : XR := if xeqb y (Fin 0) then Fin 0 else fmul dt x y.
Definition fl_select_no_nan dt (o : order) (k : nat) (x : nat -> XR) : XR :=
  sum_in dt o (fun i => fl_multiply_no_nan dt (x i) (fl_mask k i)).

(** ** straight_through_wrapper, straight_through.py:45-53: [sample + (probs - stop_gradient(probs))],
    the integer sample converted to the dtype of [probs] *)
Definition fl_straight_through dt (sample : Z) (p : XR) : XR :=
  fadd dt (fround dt (Fin (IZR sample))) (fsub dt p p).

(** ** The inverse of one bin of the spline, rational_quadratic_spline.py:132-162 and 200-215: the
    stable quadratic root and the clipped position.  [b ** 2] is [b * b]; the square root is correctly
    rounded. *)
Definition fl_safe_quadratic_root dt (a b c : XR) : XR :=
  let sqrt_diff := fsub dt (fmul dt b b) (fmul dt (fmul dt (Fin 4) a) c) in            (* 141 *)
  let safe_sqrt := fround dt (xsqrt (xmax (Fin (tiny dt)) sqrt_diff)) in               (* 142 *)
  let safe_sqrt := if xltb (Fin 0) sqrt_diff then safe_sqrt else Fin 0 in              (* 144 *)
  let numerator_1 := fmul dt (Fin 2) c in                                              (* 149-150 *)
  let denominator_1 := fsub dt (xopp b) safe_sqrt in
  let numerator_2 := fadd dt (xopp b) safe_sqrt in                                     (* 152-153 *)
  let denominator_2 := fmul dt (Fin 2) a in
  let numerator := if xleb (Fin 0) b then numerator_1 else numerator_2 in              (* 155-157 *)
  let denominator := if xleb (Fin 0) b then denominator_1 else denominator_2 in
  fdiv dt numerator denominator.
Definition fl_rqs_w dt (y yl height : XR) : XR := fl_clip01 (fdiv dt (fsub dt y yl) height).    (* 203-204 *)
Definition fl_rqs_inv_z dt (s0 s1 bs w : XR) : XR :=                                   (* 206-213 *)
  let slopes_term := fl_rqs_slopes_term dt s0 s1 bs in
  let c := fmul dt (xopp bs) w in
  let b := fsub dt s0 (fmul dt slopes_term w) in
  let a := fsub dt bs b in
  fl_clip01 (fl_safe_quadratic_root dt a b c).
Definition fl_rqs_inv_x dt (width xl z : XR) : XR := fadd dt (fmul dt width z) xl.     (* 214 *)
