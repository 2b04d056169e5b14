(** Model of von_mises.py.  [i0], [i0e], [i1e] are jax.scipy.special.i0, i0e, i1e.  Random draws are arguments. *)
From Coq Require Import Reals List Bool Arith.
From Verif Require Import Base.Result Base.Tensor Base.XR Base.Lift Model.MathUtils Model.ScalarDist Model.Multinomial Model.ArrayDist.
Import ListNotations.
Local Open Scope R_scope.

(** jnp.cos, jnp.sin, jnp.arccos *)
Definition xcos (a : XR) : XR := match a with Fin x => Fin (cos x) | _ => NaN end.
Definition xsin (a : XR) : XR := match a with Fin x => Fin (sin x) | _ => NaN end.
Definition xacos (a : XR) : XR := match a with Fin x => if Rle_dec (-1) x then if Rle_dec x 1 then Fin (acos x) else NaN else NaN | _ => NaN end.
Definition two_pi : XR := Fin (2 * PI).

(** _convert_angle_to_standard, 211-215 *)
Definition convert_angle_to_standard (angle : XR) : XR :=
  let num_periods := xround (xdiv angle two_pi) in
  xsub angle (xmul two_pi num_periods).

Section Bessel.
Variables (i0 i0e i1e : XR -> XR).

Definition vm_mean (loc conc : XR) : XR := loc.                                                     (* 121-123, 102-104 *)
Definition vm_mode (loc conc : XR) : XR := vm_mean loc conc.                                        (* 160-162 *)
Definition vm_variance (conc : XR) : XR := xsub (Fin 1) (xdiv (i1e conc) (i0e conc)).               (* 125-128 *)
Definition vm_prob (value loc conc : XR) : XR :=                                                    (* 130-135 *)
  let unnormalized_prob := xexp (xmul conc (xsub (xcos (xsub value loc)) (Fin 1))) in
  let normalization := xmul two_pi (i0e conc) in
  xdiv unnormalized_prob normalization.
Definition vm_log_prob (value loc conc : XR) : XR :=                                                (* 137-143 *)
  let i_0 := i0 conc in
  xsub (xsub (xmul conc (xcos (xsub value loc))) (Fin (ln (2 * PI)))) (xlog i_0).
Definition vm_entropy (conc : XR) : XR :=                                                           (* 153-158 *)
  xadd (xadd (xmul conc (xsub (Fin 1) (xdiv (i1e conc) (i0e conc)))) (Fin (ln (2 * PI)))) (xlog (i0e conc)).

(** ** The cdf *)
(** _von_mises_cdf_series, 389-420: the loop body at [n], state (rn, drn, vn, dvn) *)
Definition vm_series_step (value conc : XR) (n : nat) (s : XR * XR * XR * XR) : XR * XR * XR * XR :=
  let '(rn, drn, vn, dvn) := s in
  let xn := Fin (INR n) in
  let denominator := xadd (xdiv (xmul (Fin 2) xn) conc) rn in
  let ddenominator_dk := xadd (xdiv (xmul (Fin (-2)) xn) (xsquare conc)) drn in
  let rn' := xdiv (Fin 1) denominator in
  let drn' := xdiv (xopp ddenominator_dk) (xsquare denominator) in
  let multiplier := xadd (xdiv (xsin (xmul xn value)) xn) vn in
  let vn' := xmul rn' multiplier in
  let dvn' := xadd (xmul drn' multiplier) (xmul rn' dvn) in
  (rn', drn', vn', dvn').
(** for n in range(num_terms, 0, -1) *)
Fixpoint vm_series_loop (value conc : XR) (n : nat) (s : XR * XR * XR * XR) : XR * XR * XR * XR :=
  match n with O => s | S m => vm_series_loop value conc m (vm_series_step value conc (S m) s) end.
Definition vm_cdf_series (num_terms : nat) (value conc : XR) : XR * XR :=
  let '(_, _, vn, dvn) := vm_series_loop value conc num_terms (Fin 0, Fin 0, Fin 0, Fin 0) in
  let cdf := xadd (xadd (Fin (1 / 2)) (xdiv value two_pi)) (xdiv vn (Fin PI)) in
  let dcdf := xdiv dvn (Fin PI) in
  let cdf_clipped := xclip cdf (Fin 0) (Fin 1) in
  let dcdf := xmul dcdf (if xleb (Fin 0) cdf && xleb cdf (Fin 1) then Fin 1 else Fin 0) in
  (cdf_clipped, dcdf).
(** _von_mises_cdf_normal, 423-458: the value; the derivative with respect to the concentration is jax.grad of it, [dnormal] below *)
Definition vm_cdf_normal (value conc : XR) : XR :=
  let z := xmul (xdiv (xsqrt (Fin (2 / PI))) (i0e conc)) (xsin (xmul (Fin (1 / 2)) value)) in
  let z2 := xsquare z in
  let z3 := xmul z2 z in
  let z4 := xsquare z2 in
  let c := xmul (Fin 24) conc in
  let c1 := Fin 56 in
  let xi := xsub z (xdiv z3 (xsquare (xsub
    (xdiv (xsub (xsub c (xmul (Fin 2) z2)) (Fin 16)) (Fin 3))
    (xdiv (xadd (xadd z4 (xmul (Fin (7 / 4)) z2)) (Fin (167 / 2))) (xadd (xsub (xsub c c1) z2) (Fin 3)))))) in
  xndtr xi.
(** the value on one period, 365-374 *)
Definition vm_cdf_period (x conc : XR) : XR :=
  if xltb conc (Fin 10.5) then fst (vm_cdf_series 20 x conc) else vm_cdf_normal x conc.
(** _von_mises_cdf, 310-346, the value returned by the jvp rule 350-375; [period] is the value on one period *)
Definition vm_cdf_std (period : XR -> XR -> XR) (x conc : XR) : XR :=
  let num_periods := xround (xdiv x two_pi) in
  let x := xsub x (xmul two_pi num_periods) in
  xadd (period x conc) num_periods.
(** its tangent, 376-386 *)
Definition vm_cdf_jvp (dnormal : XR -> XR -> XR) (x conc dx dconc : XR) : XR :=
  let num_periods := xround (xdiv x two_pi) in
  let x := xsub x (xmul two_pi num_periods) in
  let dcdf := if xltb conc (Fin 10.5) then snd (vm_cdf_series 20 x conc) else dnormal x conc in
  let prob := xdiv (xexp (xmul conc (xsub (xcos x) (Fin 1)))) (xmul two_pi (i0e conc)) in
  xadd (xmul dconc dcdf) (xmul dx prob).
Definition vm_cdf (period : XR -> XR -> XR) (value loc conc : XR) : XR :=                           (* 164-182 *)
  let loc := convert_angle_to_standard loc in
  xclip (xsub (vm_cdf_std period (xsub value loc) conc) (vm_cdf_std period (xsub (Fin (- PI)) loc) conc)) (Fin 0) (Fin 1).
Definition vm_log_cdf (period : XR -> XR -> XR) (value loc conc : XR) : XR := xlog (vm_cdf period value loc conc). (* 184-186 *)
Definition vm_survival (period : XR -> XR -> XR) (value loc conc : XR) : XR :=                      (* 188-197 *)
  let loc := convert_angle_to_standard loc in
  xclip (xsub (vm_cdf_std period (xsub (Fin PI) loc) conc) (vm_cdf_std period (xsub value loc) conc)) (Fin 0) (Fin 1).
Definition vm_log_survival (period : XR -> XR -> XR) (value loc conc : XR) : XR := xlog (vm_survival period value loc conc). (* 199-201 *)

(** _von_mises_sample_jvp, 280-307: [samples] is the sampled angle at concentration clip(conc, 1e-7); [conc] below is already clipped.
    [vectorized_grad_cdf] is the tangent of _von_mises_cdf for a unit change of the concentration. *)
Definition vm_sample_jvp (dnormal : XR -> XR -> XR) (samples conc dconc : XR) : XR :=
  let dcdf := vm_cdf_jvp dnormal samples conc (Fin 0) (Fin 1) in
  let inv_prob := xmul (xexp (xmul (xopp conc) (xsub (xcos samples) (Fin 1)))) (xmul two_pi (i0e conc)) in
  xmul dconc (xmul (xopp inv_prob) dcdf).
(** _kl_divergence_vonmises_vonmises, 461-485 *)
Definition vm_kl (loc1 conc1 loc2 conc2 : XR) : XR :=
  let i0e1 := i0e conc1 in
  let i1e1 := i1e conc1 in
  let i0e2 := i0e conc2 in
  xadd (xadd (xsub conc2 conc1) (xlog (xdiv i0e2 i0e1)))
       (xmul (xdiv i1e1 i0e1) (xsub conc1 (xmul conc2 (xcos (xsub loc1 loc2))))).
End Bessel.

(** ** Sampling: _von_mises_sample, 218-277.  [cutoff] is s_concentration_cutoff for the dtype (227-232). *)
Definition vm_s (cutoff conc : XR) : XR :=                                                          (* 233-240 *)
  let use_exact := xltb cutoff conc in
  let c := xwhere use_exact conc (Fin 1) in
  let r := xadd (Fin 1) (xsqrt (xadd (Fin 1) (xmul (Fin 4) (xsquare c)))) in
  let rho := xdiv (xsub r (xsqrt (xmul (Fin 2) r))) (xmul (Fin 2) c) in
  let s_exact := xdiv (xadd (Fin 1) (xsquare rho)) (xmul (Fin 2) rho) in
  let s_approximate := xdiv (Fin 1) (xmax conc (Fin (1 / 10000000))) in
  xwhere use_exact s_exact s_approximate.
(** the proposal, 249-250, and the acceptance test, 251-254 *)
Definition vm_proposal (s u : XR) : XR := let z := xcos (xmul (Fin PI) u) in xdiv (xadd (Fin 1) (xmul s z)) (xadd s z).
Definition vm_accept (s conc w v : XR) : bool :=
  let y := xmul conc (xsub s w) in negb (xltb (xmul y (xexp (xsub (Fin 1) y))) v).
(** one lane (array element) of the loop state *)
Record lane := mkLane { l_done : bool; l_u : XR; l_w : XR }.
(** loop_body, 242-255, on one lane, given its fresh u and v *)
Definition vm_lane_step (s conc : XR) (l : lane) (u v : XR) : lane :=
  let w := if l_done l then l_w l else vm_proposal s u in
  mkLane (vm_accept s conc w v || l_done l) u w.
(** the while_loop, 257-276, over [N] lanes; [u it i], [v it i] are the draws of iteration [it] for lane [i].
    [rem] counts down from 100 (count < 100). *)
Fixpoint vm_loop (N : nat) (s conc : nat -> XR) (u v : nat -> nat -> XR) (rem it : nat) (st : nat -> lane) : nat -> lane :=
  match rem with
  | O => st
  | S rem =>
      if forallb (fun i => l_done (st i)) (seq 0 N) then st
      else vm_loop N s conc u v rem (S it) (fun i => vm_lane_step (s i) (conc i) (st i) (u it i) (v it i))
  end.
Definition vm_std_sample (cutoff : XR) (N : nat) (conc : nat -> XR) (u v : nat -> nat -> XR) : nat -> XR :=
  let final := vm_loop N (fun i => vm_s cutoff (conc i)) conc u v 100 0 (fun _ => mkLane false (Fin 0) (Fin 0)) in
  fun i => xmul (xsign (l_u (final i))) (xacos (xclip (l_w (final i)) (Fin (-1)) (Fin 1))).         (* 277 *)
(** _sample_n, 145-151 *)
Definition vm_sample (cutoff : XR) (N : nat) (loc conc : nat -> XR) (u v : nat -> nat -> XR) : nat -> XR :=
  fun i => convert_angle_to_standard (xadd (vm_std_sample cutoff N conc u v i) (loc i)).

(** ** Array level *)
Definition vm_mean_arr (loc conc : tensor XR) := param loc loc conc.                                 (* 121-123, 102-104 *)
Definition vm_prob_arr (i0e : XR -> XR) (v loc conc : tensor XR) := lift3 (vm_prob i0e) v loc conc.  (* 130-135 *)
Definition vm_log_prob_arr (i0 : XR -> XR) (v loc conc : tensor XR) := lift3 (vm_log_prob i0) v loc conc. (* 137-143 *)
(** variance and entropy use the unbroadcast concentration, so their shape is that of [conc], not batch_shape (127-128, 155-158) *)
Definition vm_variance_arr (i0e i1e : XR -> XR) (loc conc : tensor XR) : result (tensor XR) := Ok (tmap (vm_variance i0e i1e) conc).
Definition vm_entropy_arr (i0e i1e : XR -> XR) (loc conc : tensor XR) : result (tensor XR) := Ok (tmap (vm_entropy i0e i1e) conc).
