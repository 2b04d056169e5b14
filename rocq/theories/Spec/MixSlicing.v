(** Specification vocabulary: two objects evaluate alike at the positions an index picks. *)
From Coq Require Import List Reals.
From Verif Require Import Base.Result Base.Tensor Base.XR Model.Distribution Model.AdvIndex Spec.Slicing.
Import ListNotations.

(** [ev] is a method of a distribution of batch shape [bs], [ev'] the same method of another, of batch shape [rs] (the shape of an array of shape [bs] indexed
    with [ix]).  Whenever x' holds, at every position, the event of x that [ix] picks for it (events have shape [es]; leading sample axes [S] are left alone),
    the results are related in the same way. *)
Definition draws_agree (bs : shape) (ix : index_object) (rs es : shape) (ev ev' : tensor XR -> result (tensor XR)) : Prop :=
  forall S x x', wf x -> wf x' -> shp x = S ++ bs ++ es -> shp x' = S ++ rs ++ es ->
  (forall s r c e, inb S s -> picks bs ix rs r c -> inb es e -> tget (Fin 0) x' (s ++ r ++ e) = tget (Fin 0) x (s ++ c ++ e)) ->
  exists y y', ev x = Ok y /\ ev' x' = Ok y' /\ shp y = S ++ bs /\ shp y' = S ++ rs /\
    forall s r c, inb S s -> picks bs ix rs r c -> tget (Fin 0) y' (s ++ r) = tget (Fin 0) y (s ++ c).
(** the same for a statistic, an array of shape batch + [es] *)
Definition stats_agree (bs : shape) (ix : index_object) (rs es : shape) (st st' : result (tensor XR)) : Prop :=
  exists y y', st = Ok y /\ st' = Ok y' /\ shp y = bs ++ es /\ shp y' = rs ++ es /\
    forall r c e, picks bs ix rs r c -> inb es e -> tget (Fin 0) y' (r ++ e) = tget (Fin 0) y (c ++ e).
