(** Models of gamma.py, beta.py and dirichlet.py.  Gamma and Beta: the formula of each method on one element, and the array
    methods that broadcast it.  Dirichlet: each method on one row (a vector over the last axis), and the constructor's checks.
    [lgamma], [digamma], [igamma], [betainc] are jax.lax.lgamma, jax.lax.digamma, jax.lax.igamma, jax.scipy.special.betainc. *)
From Coq Require Import Reals List Bool Arith.
From Verif Require Import Base.Result Base.Tensor Base.XR Base.Lift Model.MathUtils Model.ScalarDist Model.ArrayDist.
Import ListNotations.
Local Open Scope R_scope.

Section Special.
Variables (lgamma digamma : XR -> XR).

(** ** Gamma, gamma.py *)
Definition gamma_sample (rnd rate : XR) : XR := xdiv rnd rate.                                      (* 79-82 *)
Definition gamma_log_prob (value concentration rate : XR) : XR :=                                   (* 84-91 *)
  xsub (xsub (xadd (xmul concentration (xlog rate)) (xmul (xsub concentration (Fin 1)) (xlog value))) (xmul rate value)) (lgamma concentration).
Definition gamma_entropy (concentration rate : XR) : XR :=                                          (* 93-101 *)
  let log_rate := xlog rate in
  xadd (xadd (xsub concentration log_rate) (lgamma concentration)) (xmul (xsub (Fin 1) concentration) (digamma concentration)).
Definition gamma_cdf (igamma : XR -> XR -> XR) (value concentration rate : XR) : XR := igamma concentration (xmul rate value). (* 103-105 *)
Definition gamma_log_cdf (igamma : XR -> XR -> XR) (value concentration rate : XR) : XR :=          (* 107-109 *)
  xlog (gamma_cdf igamma value concentration rate).
Definition gamma_mean (concentration rate : XR) : XR := xdiv concentration rate.                    (* 111-113 *)
Definition gamma_stddev (concentration rate : XR) : XR := xdiv (xsqrt concentration) rate.          (* 115-117 *)
Definition gamma_variance (concentration rate : XR) : XR := xdiv concentration (xsquare rate).      (* 119-121 *)
Definition gamma_mode (concentration rate : XR) : XR :=                                             (* 123-126 *)
  let mode := xdiv (xsub concentration (Fin 1)) rate in
  xwhere (xleb (Fin 1) concentration) mode NaN.
(** _kl_divergence_gamma_gamma, 135-155 *)
Definition gamma_kl (concentration1 rate1 concentration2 rate2 : XR) : XR :=
  let t1 := xmul concentration2 (xsub (xlog rate1) (xlog rate2)) in
  let t2 := xsub (lgamma concentration2) (lgamma concentration1) in
  let t3 := xmul (xsub concentration1 concentration2) (digamma concentration1) in
  let t4 := xmul (xsub rate2 rate1) (xdiv concentration1 rate1) in
  xadd (xadd (xadd t1 t2) t3) t4.

(** ** Beta, beta.py *)
(** math.log_beta, math.py:162-174 *)
Definition xlog_beta (a b : XR) : XR := xsub (xadd (lgamma a) (lgamma b)) (lgamma (xadd a b)).
Definition beta_log_prob (value alpha beta : XR) : XR :=                                            (* 94-104; 64 *)
  let log_normalization_constant := xlog_beta alpha beta in
  let result := xsub (xadd (xmul (xsub alpha (Fin 1)) (xlog value)) (xmul (xsub beta (Fin 1)) (xlog (xsub (Fin 1) value)))) log_normalization_constant in
  xwhere (orb (andb (xeqb alpha (Fin 1)) (xeqb value (Fin 0))) (andb (xeqb beta (Fin 1)) (xeqb value (Fin 1))))
         (xopp log_normalization_constant) result.
Definition beta_cdf (betainc : XR -> XR -> XR -> XR) (value alpha beta : XR) : XR := betainc alpha beta value. (* 106-108 *)
Definition beta_log_cdf (betainc : XR -> XR -> XR -> XR) (value alpha beta : XR) : XR :=            (* 110-112 *)
  xlog (beta_cdf betainc value alpha beta).
Definition beta_entropy (alpha beta : XR) : XR :=                                                   (* 114-122 *)
  xadd (xsub (xsub (xlog_beta alpha beta) (xmul (xsub alpha (Fin 1)) (digamma alpha))) (xmul (xsub beta (Fin 1)) (digamma beta)))
       (xmul (xsub (xadd alpha beta) (Fin 2)) (digamma (xadd alpha beta))).
Definition beta_mean (alpha beta : XR) : XR := xdiv alpha (xadd alpha beta).                        (* 124-126 *)
Definition beta_variance (alpha beta : XR) : XR :=                                                  (* 128-132 *)
  let sum_alpha_beta := xadd alpha beta in
  xdiv (xmul alpha beta) (xmul (xsquare sum_alpha_beta) (xadd sum_alpha_beta (Fin 1))).
Definition beta_mode (alpha beta : XR) : XR :=                                                      (* 134-150 *)
  xwhere (andb (xltb (Fin 1) alpha) (xltb (Fin 1) beta))
         (xdiv (xsub alpha (Fin 1)) (xsub (xadd alpha beta) (Fin 2)))
         (xwhere (andb (xleb alpha (Fin 1)) (xltb (Fin 1) beta)) (Fin 0)
                 (xwhere (andb (xltb (Fin 1) alpha) (xleb beta (Fin 1))) (Fin 1) NaN)).
(** _kl_divergence_beta_beta, 171-192 *)
Definition beta_kl (alpha1 beta1 alpha2 beta2 : XR) : XR :=
  let t1 := xsub (xlog_beta alpha2 beta2) (xlog_beta alpha1 beta1) in
  let t2 := xmul (xsub alpha1 alpha2) (digamma alpha1) in
  let t3 := xmul (xsub beta1 beta2) (digamma beta1) in
  let t4 := xmul (xsub (xadd (xsub alpha2 alpha1) beta2) beta1) (digamma (xadd alpha1 beta1)) in
  xadd (xadd (xadd t1 t2) t3) t4.

(** ** Dirichlet, dirichlet.py, one row *)
(** __init__, 53-71: the checks on the shape of [concentration]; returns (batch_shape, event_shape), 73-81 *)
Definition dirichlet_shapes (s : shape) : result (shape * shape) :=
  match rev s with
  | [] => Err ValueError
  | K :: rest => if Nat.ltb K 2 then Err ValueError else Ok (rev rest, [K])
  end.
(** math.log_beta_multivariate, math.py:177-190 *)
Definition xlog_beta_multivariate (alpha : list XR) : XR := xsub (xsum (map lgamma alpha)) (lgamma (xsum alpha)).
Definition dir_log_prob (value concentration : list XR) : XR :=                                     (* 96-99 *)
  xsub (xsum (map2 (fun a x => xmul (xsub a (Fin 1)) (xlog x)) concentration value)) (xlog_beta_multivariate concentration).
Definition dir_entropy (concentration : list XR) : XR :=                                            (* 101-110 *)
  let sum_concentration := xsum concentration in
  xsub (xadd (xlog_beta_multivariate concentration)
             (xmul (xsub sum_concentration (Fin (INR (length concentration)))) (digamma sum_concentration)))
       (xsum (map (fun a => xmul (xsub a (Fin 1)) (digamma a)) concentration)).
Definition dir_mean (concentration : list XR) : list XR := map (fun a => xdiv a (xsum concentration)) concentration. (* 112-115 *)
Definition dir_mode (concentration : list XR) : list XR :=                                          (* 117-129 *)
  let minus_one := map (fun a => xsub a (Fin 1)) concentration in
  let result_if_valid := map (fun a => xdiv a (xsum minus_one)) minus_one in
  let valid := forallb (fun a => xltb (Fin 1) a) concentration in
  map (fun r => xwhere valid r NaN) result_if_valid.
Definition dir_variance (concentration : list XR) : list XR :=                                      (* 131-136 *)
  let sum_concentration := xsum concentration in
  let norm_concentration := map (fun a => xdiv a sum_concentration) concentration in
  map (fun p => xdiv (xmul p (xsub (Fin 1) p)) (xadd sum_concentration (Fin 1))) norm_concentration.
(** covariance, 138-151: row i, column j *)
Definition dir_covariance (concentration : list XR) : list (list XR) :=
  let sum_concentration := xsum concentration in
  let norm_concentration := map (fun a => xdiv a sum_concentration) concentration in
  let norm_over_sum := map (fun p => xdiv p (xadd sum_concentration (Fin 1))) norm_concentration in
  let n := length concentration in
  map (fun i => map (fun j =>
    let cov := xmul (xopp (nth i norm_over_sum NaN)) (nth j norm_concentration NaN) in
    xadd cov (if Nat.eqb i j then nth i norm_over_sum NaN else Fin 0)) (seq 0 n)) (seq 0 n).
(** _obtain_concentration, 162-175, one row: a Dirichlet's own parameter, or (alpha, beta) stacked *)
Inductive dirichlet_like := DDirichlet (concentration : list XR) | DBeta (alpha beta : XR) | DOther.
Definition obtain_concentration (d : dirichlet_like) : result (list XR) :=
  match d with DDirichlet c => Ok c | DBeta a b => Ok [a; b] | DOther => Err ValueError end.
(** _kl_divergence_dirichlet_dirichlet, 178-206 *)
Definition dir_kl (dist1 dist2 : dirichlet_like) : result XR :=
  do concentration1 <- obtain_concentration dist1;
  do concentration2 <- obtain_concentration dist2;
  if Nat.eqb (length concentration1) (length concentration2) then
    let sum_concentration1 := xsum concentration1 in
    let t1 := xsub (xlog_beta_multivariate concentration2) (xlog_beta_multivariate concentration1) in
    let t2 := xsum (map2 (fun a1 a2 => xmul (xsub a1 a2) (xsub (digamma a1) (digamma sum_concentration1))) concentration1 concentration2) in
    Ok (xadd t1 t2)
  else Err ValueError.

(** ** Array level of Gamma and Beta: [a], [b] the parameter arrays; batch_shape is [batch_shape2 a b]
    (gamma.py:49-50, beta.py:62-63). *)
Definition gamma_sample_n (rnd rate : tensor XR) := lift2 gamma_sample rnd rate.                     (* gamma.py:79-82 *)
Definition gamma_log_prob_arr (v a b : tensor XR) := lift3 gamma_log_prob v a b.                    (* gamma.py:84-91 *)
Definition gamma_entropy_arr (a b : tensor XR) := lift2 gamma_entropy a b.                          (* gamma.py:93-101 *)
Definition gamma_mean_arr (a b : tensor XR) := lift2 gamma_mean a b.                                (* gamma.py:111-113 *)
Definition gamma_stddev_arr (a b : tensor XR) := lift2 gamma_stddev a b.                            (* gamma.py:115-117 *)
Definition gamma_variance_arr (a b : tensor XR) := lift2 gamma_variance a b.                        (* gamma.py:119-121 *)
(** gamma.py:123-126: the condition uses the unbroadcast concentration, which jnp.where broadcasts *)
Definition gamma_mode_arr (a b : tensor XR) := lift2 gamma_mode a b.
Definition beta_log_prob_arr (v a b : tensor XR) := lift3 beta_log_prob v a b.                      (* beta.py:94-104 *)
Definition beta_entropy_arr (a b : tensor XR) := lift2 beta_entropy a b.                            (* beta.py:114-122 *)
Definition beta_mean_arr (a b : tensor XR) := lift2 beta_mean a b.                                  (* beta.py:124-126 *)
Definition beta_variance_arr (a b : tensor XR) := lift2 beta_variance a b.                          (* beta.py:128-132 *)
Definition beta_mode_arr (a b : tensor XR) := lift2 beta_mode a b.                                  (* beta.py:134-150 *)
End Special.
