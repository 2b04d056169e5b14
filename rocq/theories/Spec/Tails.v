(** Vocabulary of C107: what the cdf, log_cdf, survival_function and log_survival_function of a
    continuous scalar distribution must look like in floating point. *)
From Coq Require Import Reals.
From Verif Require Import Base.XR Base.Float Spec.Rounding.
Local Open Scope R_scope.

Definition probability (dt : dtype) (x : XR) : Prop := exists r, x = Fin r /\ repr dt r /\ 0 <= r <= 1.
Definition log_probability (dt : dtype) (x : XR) : Prop := value dt x /\ fle x (Fin 0).
(** [up] goes from [a] at minus infinity to [b] at plus infinity without ever decreasing; [down] the
    opposite.  Infinite and finite inputs alike; NaN excluded. *)
Definition increasing_from_to (dt : dtype) (f : XR -> XR) (a b : XR) : Prop :=
  (forall v w, value dt v -> value dt w -> fle v w -> fle (f v) (f w)) /\ f NInf = a /\ f PInf = b.
Definition decreasing_from_to (dt : dtype) (f : XR -> XR) (a b : XR) : Prop :=
  (forall v w, value dt v -> value dt w -> fle v w -> fle (f w) (f v)) /\ f NInf = a /\ f PInf = b.
Record proper_tails (dt : dtype) (cdf log_cdf sf log_sf : XR -> XR) : Prop := {
  cdf_range : forall v, value dt v -> v <> NaN -> probability dt (cdf v);
  sf_range : forall v, value dt v -> v <> NaN -> probability dt (sf v);
  log_cdf_range : forall v, value dt v -> v <> NaN -> log_probability dt (log_cdf v);
  log_sf_range : forall v, value dt v -> v <> NaN -> log_probability dt (log_sf v);
  cdf_up : increasing_from_to dt cdf (Fin 0) (Fin 1);
  sf_down : decreasing_from_to dt sf (Fin 1) (Fin 0);
  log_cdf_up : increasing_from_to dt log_cdf NInf (Fin 0);
  log_sf_down : decreasing_from_to dt log_sf (Fin 0) NInf }.

(** What is assumed of the library's [ndtr] and [sigmoid] *)
Record cdf_fn (dt : dtype) (N : XR -> XR) : Prop := {
  cdf_fn_range : forall x, value dt x -> x <> NaN -> probability dt (N x);
  cdf_fn_up : increasing_from_to dt N (Fin 0) (Fin 1) }.
(** ... of [log_ndtr] *)
Record log_cdf_fn (dt : dtype) (N : XR -> XR) : Prop := {
  log_cdf_fn_range : forall x, value dt x -> x <> NaN -> log_probability dt (N x);
  log_cdf_fn_up : increasing_from_to dt N NInf (Fin 0) }.
(** ... of [expm1] and [log1p], on the arguments that occur: [-inf, 0] and [-1, 0] *)
Record expm1_fn (dt : dtype) (X : XR -> XR) : Prop := {
  expm1_fn_range : forall x, value dt x -> fle x (Fin 0) -> exists r, X x = Fin r /\ repr dt r /\ -1 <= r <= 0;
  expm1_fn_mono : forall x y, value dt x -> value dt y -> fle x y -> fle y (Fin 0) -> fle (X x) (X y);
  expm1_fn_zero : X (Fin 0) = Fin 0;
  expm1_fn_ninf : X NInf = Fin (-1) }.
Record log1p_fn (dt : dtype) (L : XR -> XR) : Prop := {
  log1p_fn_range : forall x, repr dt x -> -1 <= x <= 0 -> log_probability dt (L (Fin x));
  log1p_fn_mono : forall x y, repr dt x -> repr dt y -> -1 <= x <= y -> y <= 0 -> fle (L (Fin x)) (L (Fin y));
  log1p_fn_zero : L (Fin 0) = Fin 0;
  log1p_fn_minus_one : L (Fin (-1)) = NInf }.
