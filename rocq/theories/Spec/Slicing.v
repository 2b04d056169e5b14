(** Specification vocabulary: what it means for evaluation to commute with indexing. *)
From Coq Require Import List ZArith Reals.
From Verif Require Import Base.Result Base.Tensor Base.XR Model.Distribution Model.AdvIndex.
Import ListNotations.

(** the arrays in the index object have as many entries as their shapes say *)
Definition index_ok (ix : index_object) : Prop := match ix with IxArrays l => Forall wf l | IxMixed l => forall t, In (MArr t) l -> wf t | _ => True end.
(** [d[ix].method(x[ix]) = d.method(x)[ix]], exceptions included: [item] is [d[ix]], [ev x] is [d.method(x)] and [ev' d' x'] is [d'.method(x')] *)
Definition indexing_commutes {D} (item : result D) (ix : index_object) (ev : tensor XR -> result (tensor XR)) (ev' : D -> tensor XR -> result (tensor XR))
    (x : tensor XR) : Prop :=
  (do d' <- item; do x' <- any_getitem (Fin 0) x ix; ev' d' x') = (do y <- ev x; any_getitem (Fin 0) y ix).
(** [d[ix].statistic() = d.statistic()[ix]] *)
Definition statistic_commutes {D} (item : result D) (ix : index_object) (st : result (tensor XR)) (st' : D -> result (tensor XR)) : Prop :=
  (do d' <- item; st' d') = (do y <- st; any_getitem (Fin 0) y ix).
(** indexing an array of shape [batch] with [ix] gives an array of shape [rs] whose entry [r] is the entry [c] of the original *)
Definition picks (batch : shape) (ix : index_object) (rs : shape) (r c : list nat) : Prop :=
  exists src, any_index batch ix = Ok (rs, src) /\ inb rs r /\ c = src r.
(** The same with leading sample axes [S], which indexing leaves alone: [ev x p q] is [d.method(x)] for [d] with parameters [p], [q]. *)
Definition draws_commute (ev : tensor XR -> tensor XR -> tensor XR -> result (tensor XR)) (item : index_object -> result (tensor XR * tensor XR))
    (p q : tensor XR) (batch : shape) : Prop :=
  forall S ix rs x x' d', index_ok ix -> item ix = Ok d' -> wf x -> wf x' -> shp x = S ++ batch -> shp x' = S ++ rs ->
  (exists src, any_index batch ix = Ok (rs, src)) ->
  (forall s r c, inb S s -> picks batch ix rs r c -> tget (Fin 0) x' (s ++ r) = tget (Fin 0) x (s ++ c)) ->
  exists y y', ev x p q = Ok y /\ ev x' (fst d') (snd d') = Ok y' /\ shp y = S ++ batch /\ shp y' = S ++ rs /\
    forall s r c, inb S s -> picks batch ix rs r c -> tget (Fin 0) y' (s ++ r) = tget (Fin 0) y (s ++ c).
