(** HMM.forward, backward and forward_backward in floating point (length=None), utils/hmm.py.  Vectors over the states are functions of
    the state; [o1] and [o2] are the orders in which the two sums over the states are added; [ob t j] is
    [obs_dist.prob(obs_seq[t])] at state [j]; [L] the library's log. *)
From Coq Require Import Reals.
From Verif Require Import Base.XR Base.Float Spec.Rounding.
From Verif Require Import Model.HMM.
Local Open Scope R_scope.

Section Forward.
Variables (dt : Float.dtype) (o1 o2 : order) (L : XR -> XR) (init : nat -> XR) (tr ob : nat -> nat -> XR).
(** hmm.py:41, [jnp.where(u == 0, 0, jnp.where(u < eps, eps, u))]; the Python number eps is converted to [dt] *)
Definition fl_hmm_clamp (x : XR) : XR :=
  let threshold := fround dt (Fin hmm_eps) in
  if xeqb x (Fin 0) then Fin 0 else if xltb x threshold then threshold else x.
(** hmm.py:41-44 *)
Definition fl_hmm_normalize (u : nat -> XR) : (nat -> XR) * XR :=
  let u j := fl_hmm_clamp (u j) in
  let c := sum_in dt o2 u in
  let c := if xeqb c (Fin 0) then Fin 1 else c in
  (fun j => fdiv dt (u j) c, c).
(** hmm.py:176-177 *)
Definition fl_hmm_message (t : nat) (alpha_prev : nat -> XR) (j : nat) : XR :=
  fmul dt (ob t j) (sum_in dt o1 (fun i => fmul dt (alpha_prev i) (tr i j))).
(** hmm.py:172-192: the carry (alpha, log_ll) after the first [t + 1] observations *)
Fixpoint fl_hmm_forward (t : nat) : (nat -> XR) * XR :=
  match t with
  | O => let (alpha, c) := fl_hmm_normalize (fun j => fmul dt (init j) (ob 0 j)) in (alpha, L c)     (* 186-190 *)
  | S t => let (alpha_prev, log_ll_prev) := fl_hmm_forward t in
           let (alpha, c) := fl_hmm_normalize (fl_hmm_message (S t) alpha_prev) in
           (alpha, fadd dt (L c) log_ll_prev)
  end.

(** hmm.py:216-232: the carry after [r] steps of the scan over t = seq_len, ..., 2, i.e. beta at time [last - r]
    where [last] is the index of the last observation; [o3] is the order of the sum over the next states *)
Variables (o3 : order) (last : nat).
Fixpoint fl_hmm_backward (r : nat) : nat -> XR :=
  match r with
  | O => fun _ => Fin 1
  | S r => let beta_prev := fl_hmm_backward r in
           fst (fl_hmm_normalize (fun i => sum_in dt o3 (fun j => fmul dt (fmul dt (beta_prev j) (ob (last - r) j)) (tr i j))))
  end.
(** hmm.py:270-280: gamma at time [t] *)
Definition fl_hmm_gamma (t : nat) : nat -> XR :=
  fst (fl_hmm_normalize (fun j => fmul dt (fst (fl_hmm_forward t) j) (fl_hmm_backward (last - t) j))).
End Forward.
