(** Greedy and EpsilonGreedy in floating point, one batch element.  The preferences are [n] numbers or
    infinities or NaN; [dt] is the default float dtype (a boolean array divided by an integer array);
    [epsilon] is a Python number of type [host], converted to [dt] when combined with an array. *)
From Coq Require Import Reals List Bool ZArith.
From Verif Require Import Base.XR Base.Float Spec.Rounding Model.FloatDist.
Import ListNotations.
Local Open Scope R_scope.

Section Policies.
Variables (dt host : dtype) (n : nat) (pref : nat -> XR).
(** epsilon_greedy.py:30, greedy.py:30: [preferences == preferences.max()] *)
Definition fl_optimal (i : nat) : bool := xeqb (pref i) (fl_amax n pref).
(** epsilon_greedy.py:31, greedy.py:31: [optimal_actions / optimal_actions.sum()]; the sum is an integer *)
Definition fl_greedy_probs (i : nat) : XR :=
  fdiv dt (Fin (if fl_optimal i then 1 else 0)) (fround dt (Fin (INR (length (filter fl_optimal (seq 0 n)))))).
(** epsilon_greedy.py:36-38 *)
Definition fl_epsilon_greedy_probs (epsilon : XR) (i : nat) : XR :=
  let uniform_probs := fdiv dt (Fin 1) (fround dt (Fin (INR n))) in
  fadd dt (fmul dt (fround dt (fsub host (Fin 1) epsilon)) (fl_greedy_probs i))
    (fmul dt (fround dt epsilon) uniform_probs).
End Policies.
