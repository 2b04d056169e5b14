(** Models of the univariate continuous distributions of distrax/_src/distributions.  Each method is
    given as the formula it applies to one element (values and parameters are floats, XR); the
    array-level methods broadcast these formulas. *)
From Coq Require Import Reals List.
From Verif Require Import Base.Result Base.Tensor Base.XR Base.Lift Base.Gauss.
Import ListNotations.
Local Open Scope R_scope.

(** ** jnp functions (exact-real meaning) *)
Definition xsquare (a : XR) : XR := xmul a a.
Definition xexpm1 (a : XR) : XR := xsub (xexp a) (Fin 1).
Definition xsign (a : XR) : XR :=
  match a with
  | Fin x => Fin (if Rlt_dec 0 x then 1 else if Rlt_dec x 0 then -1 else 0)
  | PInf => Fin 1 | NInf => Fin (-1) | NaN => NaN
  end.
Definition xsoftplus (a : XR) : XR := xlogaddexp a (Fin 0).
Definition xsigmoid (a : XR) : XR := xdiv (Fin 1) (xadd (Fin 1) (xexp (xopp a))).
(** jax.scipy.special.ndtr and log_ndtr: the standard normal cdf and its log *)
Definition xndtr (a : XR) : XR := match a with Fin z => Fin (ncdf z) | PInf => Fin 1 | NInf => Fin 0 | NaN => NaN end.
Definition xlog_ndtr (a : XR) : XR := xlog (xndtr a).
Definition xwhere (c : bool) (a b : XR) : XR := if c then a else b.

(** ** Normal, normal.py *)
Definition half_log2pi : XR := xmul (Fin (1 / 2)) (Fin (ln (2 * PI))).             (* 34 *)
Definition standardize (value loc scale : XR) : XR := xdiv (xsub value loc) scale.  (* 114-115 *)
Definition normal_sample (rnd loc scale : XR) : XR := xadd (xmul scale rnd) loc.    (* 83, 88 *)
Definition normal_salp_log_prob (rnd scale : XR) : XR :=                            (* 89 *)
  xsub (xsub (xmul (Fin (- (1 / 2))) (xsquare rnd)) half_log2pi) (xlog scale).
Definition normal_log_prob (value loc scale : XR) : XR :=                           (* 92-96 *)
  let log_unnormalized := xmul (Fin (- (1 / 2))) (xsquare (standardize value loc scale)) in
  let log_normalization := xadd half_log2pi (xlog scale) in
  xsub log_unnormalized log_normalization.
Definition normal_cdf (value loc scale : XR) : XR := xndtr (standardize value loc scale).         (* 100 *)
Definition normal_log_cdf (value loc scale : XR) : XR := xlog_ndtr (standardize value loc scale). (* 104 *)
Definition normal_survival (value loc scale : XR) : XR := xndtr (xopp (standardize value loc scale)). (* 108 *)
Definition normal_log_survival (value loc scale : XR) : XR := xlog_ndtr (xopp (standardize value loc scale)). (* 112 *)
Definition normal_entropy (scale : XR) : XR := xadd (Fin (1 / 2)) (xadd half_log2pi (xlog scale)). (* 117-121 *)
Definition normal_mean (loc : XR) : XR := loc.                                      (* 125 *)
Definition normal_variance (scale : XR) : XR := xsquare scale.                      (* 129 *)
Definition normal_stddev (scale : XR) : XR := scale.                                (* 133 *)
Definition normal_mode (loc : XR) : XR := normal_mean loc.                          (* 137 *)
Definition normal_median (loc : XR) : XR := normal_mean loc.                        (* 141 *)
(** _kl_divergence_normal_normal, normal.py:149-167. *)
Definition normal_kl (loc1 scale1 loc2 scale2 : XR) : XR :=
  let diff_log_scale := xsub (xlog scale1) (xlog scale2) in
  xsub (xadd (xmul (Fin (1 / 2)) (xsquare (xsub (xdiv loc1 scale2) (xdiv loc2 scale2))))
             (xmul (Fin (1 / 2)) (xexpm1 (xmul (Fin 2) diff_log_scale))))
       diff_log_scale.

(** ** LogStddevNormal, log_stddev_normal.py:45-68: the log-scale stored by the constructor. *)
Definition lsn_log_scale (log_scale : XR) (max_scale : option R) : XR :=
  match max_scale with
  | Some m => let max_log_scale := rlog m in
              xsub max_log_scale (xsoftplus (xsub max_log_scale log_scale))
  | None => log_scale
  end.
Definition lsn_scale (log_scale : XR) (max_scale : option R) : XR := xexp (lsn_log_scale log_scale max_scale).
(** __getitem__, log_stddev_normal.py:75-81: the stored log-scale of the slice. *)
Definition lsn_sliced_log_scale (log_scale : XR) (max_scale : option R) : XR :=
  lsn_log_scale (lsn_log_scale log_scale max_scale) max_scale.
(** _kl_logstddevnormal_logstddevnormal, 84-101 (arguments: loc, scale and stored log-scale). *)
Definition lsn_kl (loc1 scale1 ls1 loc2 scale2 ls2 : XR) : XR :=
  let variance1 := xsquare scale1 in
  let variance2 := xsquare scale2 in
  xsub (xsub (xadd (xdiv (xadd variance1 (xsquare (xsub loc1 loc2))) (xmul (Fin 2) variance2)) ls2) ls1) (Fin (1 / 2)).

(** ** Laplace, laplace.py *)
Definition laplace_sample (rnd loc scale : XR) : XR := xadd loc (xmul scale rnd).   (* 89, 94 *)
Definition laplace_salp_log_prob (rnd scale : XR) : XR :=                           (* 95 *)
  xsub (xsub (xopp (xabs rnd)) (Fin (ln 2))) (xlog scale).
Definition laplace_log_prob (value loc scale : XR) : XR :=                          (* 98-101 *)
  xsub (xsub (xopp (xabs (standardize value loc scale))) (Fin (ln 2))) (xlog scale).
Definition laplace_entropy (scale : XR) : XR := xadd (xadd (Fin (ln 2)) (Fin 1)) (xlog scale). (* 105 *)
Definition laplace_cdf (value loc scale : XR) : XR :=                               (* 107-110 *)
  let norm_value := standardize value loc scale in
  xsub (Fin (1 / 2)) (xmul (xmul (Fin (1 / 2)) (xsign norm_value)) (xexpm1 (xopp (xabs norm_value)))).
Definition log_cdf_laplace (norm_value : XR) : XR :=                                (* 35-40 *)
  let lower_value := xsub norm_value (Fin (ln 2)) in
  let exp_neg_norm_value := xexp (xopp (xabs norm_value)) in
  let upper_value := xlog1p (xmul (Fin (- (1 / 2))) exp_neg_norm_value) in
  xwhere (xleb norm_value (Fin 0)) lower_value upper_value.
Definition laplace_log_cdf (value loc scale : XR) : XR := log_cdf_laplace (standardize value loc scale). (* 115-118 *)
Definition laplace_log_survival (value loc scale : XR) : XR := log_cdf_laplace (xopp (standardize value loc scale)). (* 120-123 *)
Definition laplace_mean (loc : XR) : XR := loc.                                     (* 127 *)
Definition laplace_stddev (scale : XR) : XR := xmul (Fin (sqrt 2)) scale.           (* 131 *)
Definition laplace_variance (scale : XR) : XR := xmul (Fin 2) (xsquare scale).      (* 135 *)
Definition laplace_mode (loc : XR) : XR := laplace_mean loc.                        (* 139 *)
Definition laplace_median (loc : XR) : XR := laplace_mean loc.                      (* 143 *)
(** _kl_divergence_laplace_laplace, laplace.py:151-169. *)
Definition laplace_kl (loc1 scale1 loc2 scale2 : XR) : XR :=
  let distance := xabs (xsub loc1 loc2) in
  let diff_log_scale := xsub (xlog scale1) (xlog scale2) in
  xadd (xsub (xadd (xopp diff_log_scale) (xdiv distance scale2)) (Fin 1))
       (xexp (xadd (xdiv (xopp distance) scale1) diff_log_scale)).

(** ** Logistic, logistic.py *)
Definition logistic_sample (uniform loc scale : XR) : XR :=                         (* 85-86 *)
  xadd (xmul scale (xsub (xlog uniform) (xlog1p (xopp uniform)))) loc.
Definition logistic_log_prob (value loc scale : XR) : XR :=                         (* 88-91 *)
  let z := standardize value loc scale in
  xsub (xsub (xopp z) (xmul (Fin 2) (xsoftplus (xopp z)))) (xlog scale).
Definition logistic_entropy (scale : XR) : XR := xadd (Fin 2) (xlog scale).         (* 95 *)
Definition logistic_cdf (value loc scale : XR) : XR := xsigmoid (standardize value loc scale).  (* 99 *)
Definition logistic_log_cdf (value loc scale : XR) : XR := xopp (xsoftplus (xopp (standardize value loc scale))). (* 103 *)
Definition logistic_survival (value loc scale : XR) : XR := xsigmoid (xopp (standardize value loc scale)). (* 107 *)
Definition logistic_log_survival (value loc scale : XR) : XR := xopp (xsoftplus (standardize value loc scale)). (* 111 *)
Definition logistic_mean (loc : XR) : XR := loc.                                    (* 115 *)
Definition logistic_variance (scale : XR) : XR := xdiv (xsquare (xmul scale (Fin PI))) (Fin 3). (* 119 *)
Definition logistic_stddev (scale : XR) : XR := xdiv (xmul scale (Fin PI)) (xsqrt (Fin 3)). (* 123 *)
Definition logistic_mode (loc : XR) : XR := logistic_mean loc.                      (* 127 *)
Definition logistic_median (loc : XR) : XR := logistic_mean loc.                    (* 131 *)

(** ** Gumbel, gumbel.py; [euler_gamma] is jnp.euler_gamma and [lgamma] is jax.lax.lgamma. *)
Definition gumbel_log_prob (value loc scale : XR) : XR :=                           (* 77-80 *)
  let z := standardize value loc scale in
  xsub (xopp (xadd z (xexp (xopp z)))) (xlog scale).
Definition gumbel_sample (rnd loc scale : XR) : XR := xadd (xmul scale rnd) loc.    (* 90, 95 *)
Definition gumbel_salp_log_prob (rnd scale : XR) : XR :=                            (* 96 *)
  xsub (xopp (xadd rnd (xexp (xopp rnd)))) (xlog scale).
Definition gumbel_entropy (euler_gamma : R) (scale : XR) : XR := xadd (xadd (xlog scale) (Fin 1)) (Fin euler_gamma). (* 101 *)
Definition gumbel_log_cdf (value loc scale : XR) : XR := xopp (xexp (xopp (standardize value loc scale))). (* 103-106 *)
Definition gumbel_mean (euler_gamma : R) (loc scale : XR) : XR := xadd loc (xmul scale (Fin euler_gamma)). (* 110 *)
Definition gumbel_stddev (scale : XR) : XR := xdiv (xmul (xmul scale (Fin 1)) (Fin PI)) (Fin (sqrt 6)). (* 114 *)
Definition gumbel_variance (scale : XR) : XR := xdiv (xsquare (xmul (xmul scale (Fin 1)) (Fin PI))) (Fin 6). (* 118 *)
Definition gumbel_mode (loc : XR) : XR := loc.                                      (* 122 *)
Definition gumbel_median (loc scale : XR) : XR := xsub loc (xmul scale (Fin (ln (ln 2)))). (* 126 *)
(** _kl_divergence_gumbel_gumbel, gumbel.py:134-152. *)
Definition gumbel_kl (euler_gamma : R) (lgamma : XR -> XR) (loc1 scale1 loc2 scale2 : XR) : XR :=
  xadd (xadd (xadd (xsub (xlog scale2) (xlog scale1))
                   (xmul (Fin euler_gamma) (xsub (xdiv scale1 scale2) (Fin 1))))
             (xexpm1 (xadd (xdiv (xsub loc2 loc1) scale2) (lgamma (xadd (xdiv scale1 scale2) (Fin 1))))))
       (xdiv (xsub loc1 loc2) scale2).

(** ** Uniform, uniform.py *)
Definition uniform_range (low high : XR) : XR := xsub high low.                     (* 70 *)
Definition uniform_sample (u low high : XR) : XR := xadd low (xmul (uniform_range low high) u). (* 83 *)
Definition uniform_salp_log_prob (low high : XR) : XR := xopp (xlog (uniform_range low high)). (* 88-89 *)
Definition uniform_prob (value low high : XR) : XR :=                               (* 96-101 *)
  xwhere (orb (xltb value low) (xltb high value)) (Fin 0) (xdiv (Fin 1) (uniform_range low high)).
Definition uniform_log_prob (value low high : XR) : XR := xlog (uniform_prob value low high). (* 94 *)
Definition uniform_entropy (low high : XR) : XR := xlog (uniform_range low high).   (* 105 *)
Definition uniform_mean (low high : XR) : XR := xdiv (xadd low high) (Fin 2).       (* 109 *)
Definition uniform_variance (low high : XR) : XR := xdiv (xsquare (uniform_range low high)) (Fin 12). (* 113 *)
Definition uniform_stddev (low high : XR) : XR := xdiv (uniform_range low high) (Fin (sqrt 12)). (* 117 *)
Definition uniform_median (low high : XR) : XR := uniform_mean low high.            (* 121 *)
Definition uniform_cdf (value low high : XR) : XR :=                                (* 123-129 *)
  let result_if_not_big := xwhere (xltb value low) (Fin 0) (xdiv (xsub value low) (uniform_range low high)) in
  xwhere (xltb high value) (Fin 1) result_if_not_big.
Definition uniform_log_cdf (value low high : XR) : XR := xlog (uniform_cdf value low high). (* 133 *)
(** _kl_divergence_uniform_uniform, uniform.py:141-161. *)
Definition uniform_kl (low1 high1 low2 high2 : XR) : XR :=
  xwhere (andb (xleb low2 low1) (xleb high1 high2))
    (xsub (xlog (xsub high2 low2)) (xlog (xsub high1 low1))) PInf.

(** ** Deterministic, deterministic.py *)
Definition det_slack (loc atol rtol : XR) : XR :=                                   (* 91-96 *)
  xwhere (xeqb rtol (Fin 0)) atol (xadd atol (xmul rtol (xabs loc))).
Definition det_sample (loc : XR) : XR := loc.                                       (* 98-102 *)
Definition det_salp_log_prob : XR := Fin 0.                                         (* 107 *)
Definition det_prob (value loc atol rtol : XR) : XR :=                              (* 114-117 *)
  xwhere (xleb (xabs (xsub value loc)) (det_slack loc atol rtol)) (Fin 1) (Fin 0).
Definition det_log_prob (value loc atol rtol : XR) : XR := xlog (det_prob value loc atol rtol). (* 112 *)
Definition det_entropy : XR := Fin 0.                                               (* 121 *)
Definition det_mean (loc : XR) : XR := loc.                                         (* 125 *)
Definition det_mode (loc : XR) : XR := det_mean loc.                                (* 129 *)
Definition det_variance : XR := Fin 0.                                              (* 133 *)
Definition det_stddev : XR := det_variance.                                         (* 137 *)
Definition det_cdf (value loc atol rtol : XR) : XR :=                               (* 145 *)
  xwhere (xleb (xsub loc (det_slack loc atol rtol)) value) (Fin 1) (Fin 0).
Definition det_log_cdf (value loc atol rtol : XR) : XR := xlog (det_cdf value loc atol rtol). (* 141 *)
(** _kl_divergence_deterministic_deterministic, deterministic.py:154-172. *)
Definition det_kl (loc1 loc2 atol2 rtol2 : XR) : XR :=
  let slack2 := xadd atol2 (xmul rtol2 (xabs loc2)) in
  xopp (xlog (xwhere (xleb (xabs (xsub loc1 loc2)) slack2) (Fin 1) (Fin 0))).
