(** Vocabulary of C108: passing a point through a list of maps, each with a log-derivative, and the
    error a pass in floating point may make. *)
From Coq Require Import Reals List.
From Verif Require Import Base.XR Base.Float Spec.Accuracy.
Import ListNotations.
Local Open Scope R_scope.

(** One layer: the exact map and its log-derivative; on [dom] they are Lipschitz with constants [lip]
    and [lip_ld], and the floating-point layer is off by at most [err] and [err_ld]. *)
Record layer := { map_of : R -> R; log_der : R -> R; dom : R -> Prop; lip : R; lip_ld : R; err : R; err_ld : R }.
Definition faithful (dt : dtype) (l : layer) (f : XR -> XR * XR) : Prop :=
  0 <= lip l /\ 0 <= lip_ld l /\
  (forall x y, dom l x -> dom l y -> Rabs (map_of l x - map_of l y) <= lip l * Rabs (x - y)) /\
  (forall x y, dom l x -> dom l y -> Rabs (log_der l x - log_der l y) <= lip_ld l * Rabs (x - y)) /\
  (forall x, repr dt x -> dom l x -> exists y t, f (Fin x) = (Fin y, Fin t) /\ repr dt y /\
     Rabs (y - map_of l x) <= err l /\ Rabs (t - log_der l x) <= err_ld l).

(** The exact pass: the image, the sum of the log-derivatives (the log-derivative of the composition),
    and the sum of their absolute values. *)
Fixpoint image (ls : list layer) (x : R) : R := match ls with [] => x | l :: r => image r (map_of l x) end.
Fixpoint total_log_der (ls : list layer) (x : R) : R := match ls with [] => 0 | l :: r => log_der l x + total_log_der r (map_of l x) end.
Fixpoint size_log_der (ls : list layer) (x : R) : R := match ls with [] => 0 | l :: r => Rabs (log_der l x) + size_log_der r (map_of l x) end.
(** An incoming error [a] leaves a layer as [err + lip * a]. *)
Fixpoint image_err (ls : list layer) (a : R) : R := match ls with [] => a | l :: r => image_err r (err l + lip l * a) end.
Fixpoint log_der_err (ls : list layer) (a : R) : R := match ls with [] => 0 | l :: r => err_ld l + lip_ld l * a + log_der_err r (err l + lip l * a) end.
(** Every point within the accumulated error of the exact point is in the domain of the next layer. *)
Fixpoint inside (ls : list layer) (x a : R) : Prop :=
  match ls with [] => True | l :: r => (forall t, Rabs (t - x) <= a -> dom l t) /\ inside r (map_of l x) (err l + lip l * a) end.
