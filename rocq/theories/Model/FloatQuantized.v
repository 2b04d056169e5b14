(** Quantized in floating point, quantized.py, one element at a time.  [F], [S] are the base
    distribution's cdf and survival_function; floor and ceil are exact.  [low], [high] are the
    bounds after the constructor's rounding, already converted to the dtype of the values. *)
From Coq Require Import Reals List Bool ZArith.
From Flocq Require Import Core.
From Verif Require Import Base.XR Base.Float.
Import ListNotations.
Local Open Scope R_scope.

Definition fl_floor (a : XR) : XR := match a with Fin x => Fin (IZR (Zfloor x)) | a => a end.
Definition fl_ceil (a : XR) : XR := match a with Fin x => Fin (IZR (Zceil x)) | a => a end.
Definition fl_q_sample (low high : option XR) (base_sample : XR) : XR :=                 (* 126-137 *)
  let s := fl_ceil base_sample in
  let s := match low with Some l => if xltb s l then l else s | None => s end in
  match high with Some h => if xltb h s then h else s | None => s end.
Definition fl_q_cdf (F : XR -> XR) (low high : option XR) (value : XR) : XR :=           (* 257-271 *)
  let y := fl_floor value in
  let r := F y in
  let r := match low with Some l => if xltb y l then Fin 0 else r | None => r end in
  match high with Some h => if xltb y h then r else Fin 1 | None => r end.
Definition fl_q_sf (S : XR -> XR) (low high : option XR) (value : XR) : XR :=            (* 300-326 *)
  let y := fl_floor value in
  let r := S y in
  let r := match low with Some l => if xltb y l then Fin 1 else r | None => r end in
  match high with Some h => if xltb y h then r else Fin 0 | None => r end.
Definition fl_q_prob dt (F S : XR -> XR) (low high : option XR) (value : XR) : XR :=     (* 211-239 *)
  let value_m1 := fsub dt value (Fin 1) in
  let cdf := fl_q_cdf F low high value in
  let cdf_m1 := fl_q_cdf F low high value_m1 in
  let sf := fl_q_sf S low high value in
  let sf_m1 := fl_q_sf S low high value_m1 in
  let probs := if xltb sf cdf then fsub dt sf_m1 sf else fsub dt cdf cdf_m1 in
  if xltb (fl_floor value) value then Fin 0 else probs.
