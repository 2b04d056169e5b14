(** Softmax's temperature in floating point: softmax.py 50-51 (the logits divided by the temperature, then normalised by Categorical,
    categorical.py 63, utils/math.py 133-140).  [L] and [E] are the library's log and exp, [o] the order of the sum. *)
From Coq Require Import Reals.
From Verif Require Import Base.XR Base.Float Model.FloatDist Spec.Rounding.
Local Open Scope R_scope.
Definition fl_scaled_logits (dt : dtype) (temperature : XR) (logits : nat -> XR) (i : nat) : XR := fdiv dt (logits i) temperature.
Definition fl_softmax_logits (dt : dtype) (L E : XR -> XR) (o : order) (n : nat) (temperature : XR) (logits : nat -> XR) (i : nat) : XR :=
  fl_log_softmax dt L E o n (fl_scaled_logits dt temperature logits) i.
