(** Reductions over event dimensions and mixture components in floating point.  A reduced axis of length [n] is a
    function of the index; sums take an arbitrary order. *)
From Coq Require Import Reals List Arith.
From Verif Require Import Base.XR Base.Float Spec.Rounding Model.FloatDist.
Local Open Scope R_scope.

(** Independent.log_prob, entropy, log_cdf and KL: independent.py:104-121, 147-149 and 175-177; Block's log-determinants,
    block.py:90-112 (math.sum_last): jnp.sum over the reinterpreted dimensions *)
Definition fl_reduce (dt : dtype) (o : order) (x : nat -> XR) : XR := sum_in dt o x.

(** jax.scipy.special.logsumexp, as used by MixtureSameFamily.log_prob: the maximum is subtracted when it is finite *)
Definition fl_logsumexp (dt : dtype) (L E : XR -> XR) (o : order) (n : nat) (a : nat -> XR) : XR :=
  let m := match fl_amax n a with Fin r => Fin r | _ => Fin 0 end in
  fadd dt (L (sum_in dt o (fun i => E (fsub dt (a i) m)))) m.
(** MixtureSameFamily.log_prob, mixture_same_family.py:116-124: [lp] the components' log_prob, [w] = _mixture_log_probs *)
Definition fl_mixture_log_prob (dt : dtype) (L E : XR -> XR) (o : order) (n : nat) (lp w : nat -> XR) : XR :=
  fl_logsumexp dt L E o n (fun i => fadd dt (lp i) (w i)).

(** MultivariateNormalDiag.log_prob over [n] coordinates: Transformed.log_prob (transformed.py:161-166) with base
    Independent(Normal(0, 1)) and Chain([Block(Shift(loc)), DiagLinear(s)]) (mvn_from_bijector.py:80-87, mvn_diag.py:92-93,
    diag_linear.py:53-64, chain.py:103-109).  [o1], [o2], [o3] are the orders of the sums of the base's log_prob and of the two
    log-determinants; Shift's is zero (shift.py:59-62, 72-74), ScalarAffine's is log|scale| (scalar_affine.py:71, 121-124). *)
Definition fl_mvn_diag_inverse (dt : dtype) (loc s y : nat -> XR) (i : nat) : XR :=
  fl_affine_inverse dt (Fin 0) (s i) (fl_shift_inverse dt (loc i) (y i)).
Definition fl_mvn_diag_log_prob (dt : dtype) (L : XR -> XR) (c : XR) (o1 o2 o3 : order) (loc s y : nat -> XR) : XR :=
  let lp := fl_reduce dt o1 (fun i => fl_normal_log_prob dt L c (fl_mvn_diag_inverse dt loc s y i) (Fin 0) (Fin 1)) in
  let log_det := fadd dt (fl_reduce dt o2 (fun _ => Fin 0)) (fl_reduce dt o3 (fun i => xopp (L (xabs (s i))))) in
  fadd dt lp log_det.
