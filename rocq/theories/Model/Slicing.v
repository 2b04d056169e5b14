(** The [__getitem__] methods of the univariate distributions and of Independent, with any index object. *)
From Coq Require Import List Reals ZArith Bool.
From Verif Require Import Base.Result Base.Sums Base.Tensor Base.XR Base.Lift Model.Distribution Model.AdvIndex Model.ScalarDist Model.ArrayDist Model.Compose.
Import ListNotations.

(** [D(p=self.p[index], q=self.q[index])] with [index = to_batch_shape_index(self.batch_shape, index)], where the properties [p] and [q] are the
    parameters broadcast to the batch shape: normal.py:143-146, laplace.py:145-148, logistic.py:133-136, gumbel.py:128-131, uniform.py:135-138,
    gamma.py:128-132, beta.py:152-155, von_mises.py:203-208. *)
Definition pair_getitem (p q : tensor XR) (ix : index_object) : result (tensor XR * tensor XR) :=
  do batch <- batch_shape2 p q;
  do pb <- param p p q; do qb <- param q p q;
  do p' <- slice_param_any (Fin 0) batch ix pb; do q' <- slice_param_any (Fin 0) batch ix qb; Ok (p', q').
(** Deterministic.__getitem__, deterministic.py:147-151; the properties [atol], [rtol] are broadcast to loc's shape (80-96) *)
Definition det_getitem (loc atol rtol : tensor XR) (ix : index_object) : result (tensor XR * tensor XR * tensor XR) :=
  do a <- broadcast_to atol (shp loc); do r <- broadcast_to rtol (shp loc);
  do loc' <- slice_param_any (Fin 0) (shp loc) ix loc; do a' <- slice_param_any (Fin 0) (shp loc) ix a; do r' <- slice_param_any (Fin 0) (shp loc) ix r;
  Ok (loc', a', r').
(** Independent.__getitem__, independent.py:145-150: the index becomes a tuple of integer arrays (to_batch_shape_index), with which the wrapped
    distribution is indexed; [item] is its __getitem__, [batch] its batch shape and [k] the number of reinterpreted axes. *)
Definition tuple_index (ixs : list (tensor nat)) : index_object := IxArrays (map (tmap Z.of_nat) ixs).
Definition independent_getitem_any {D} (item : index_object -> result D) (batch : shape) (k : nat) (ix : index_object) : result D :=
  do ixs <- rmapM (fun x => any_getitem 0 x ix) (np_indices (firstn (length batch - k) batch)); item (tuple_index ixs).
