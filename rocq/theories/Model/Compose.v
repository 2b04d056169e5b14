(** Model of independent.py and joint.py: products of independent distributions. *)
From Coq Require Import List Reals ZArith Bool.
From Verif Require Import Base.Result Base.Sums Base.Tensor Base.Tree Base.XR Base.Lift Model.Distribution Model.ArrayDist.
Import ListNotations.

(** A distribution object as its wrappers use it (distribution.py:34-304), with samples in [E].  [p_sample key n] is
    [sample(seed=key, sample_shape=n)]; [p_event = None] is a nested event shape. *)
Record pdist (K E : Type) := mkPdist {
  p_batch : shape;
  p_event : option shape;
  p_log_prob : E -> result (tensor XR);
  p_log_cdf : E -> result (tensor XR);
  p_entropy : result (tensor XR);
  p_sample : K -> nat -> result E;
  p_salp : K -> nat -> result (E * tensor XR);
  p_mean : result E;
  p_median : result E;
  p_mode : result E;
  p_variance : result E;
  p_stddev : result E
}.
Arguments p_batch {K E} _.
Arguments p_event {K E} _.
Arguments p_log_prob {K E} _ _.
Arguments p_log_cdf {K E} _ _.
Arguments p_entropy {K E} _.
Arguments p_sample {K E} _ _ _.
Arguments p_salp {K E} _ _ _.
Arguments p_mean {K E} _.
Arguments p_median {K E} _.
Arguments p_mode {K E} _.
Arguments p_variance {K E} _.
Arguments p_stddev {K E} _.
Arguments mkPdist {K E}.

(** jnp.sum(t, axis=[-1, ..., -k]) *)
Definition sum_last_axes (k : nat) (t : tensor XR) : result (tensor XR) :=
  if Nat.leb k (rank t) then
    let s := shp t in
    let outer := firstn (length s - k) s in
    let inner := skipn (length s - k) s in
    Ok (tgen outer (fun idx => xsum (map (fun e => tget (Fin 0) t (idx ++ e)) (indices inner))))
  else Err ValueError.

(** ** Independent *)
Section Independent.
Context {K E : Type}.
Record independent := mkIndependent { i_dist : pdist K E; i_ndims : nat }.
(** __init__, 39-74; [reinterpreted_batch_ndims] is an int or None *)
Definition independent_init (d : pdist K E) (ndims : option Z) : result independent :=
  match p_event d with
  | None => Err ValueError                                                                   (* 53-59 *)
  | Some _ =>
    match ndims with
    | Some k => if (Z.of_nat (length (p_batch d)) <? k)%Z then Err ValueError                (* 64-68 *)
                else if (k <? 0)%Z then Err ValueError                                       (* 69-71 *)
                else Ok (mkIndependent d (Z.to_nat k))
    | None => Ok (mkIndependent d (Nat.max (length (p_batch d) - 1) 0))                      (* 74 *)
    end
  end.
(** event_shape, 76-81 *)
Definition independent_event_shape (i : independent) : shape :=
  let b := p_batch (i_dist i) in
  skipn (length b - i_ndims i) b ++ match p_event (i_dist i) with Some ev => ev | None => [] end.
(** batch_shape, 91-96 *)
Definition independent_batch_shape (i : independent) : shape :=
  let b := p_batch (i_dist i) in firstn (length b - i_ndims i) b.
(** _reduce, 141-143 *)
Definition independent_reduce (i : independent) (t : tensor XR) : result (tensor XR) := sum_last_axes (i_ndims i) t.
(** log_prob, 109-111 *)
Definition independent_log_prob (i : independent) (value : E) : result (tensor XR) :=
  do lp <- p_log_prob (i_dist i) value; independent_reduce i lp.
(** entropy, 113-115 *)
Definition independent_entropy (i : independent) : result (tensor XR) :=
  do h <- p_entropy (i_dist i); independent_reduce i h.
(** log_cdf, 117-119 *)
Definition independent_log_cdf (i : independent) (value : E) : result (tensor XR) :=
  do l <- p_log_cdf (i_dist i) value; independent_reduce i l.
(** _sample_n_and_log_prob, 102-107 *)
Definition independent_salp (i : independent) (key : K) (n : nat) : result (E * tensor XR) :=
  do (samples, log_prob) <- p_salp (i_dist i) key n;
  do log_prob <- independent_reduce i log_prob;
  Ok (samples, log_prob).
(** The Independent object: _sample_n, 98-100, and the moments, 121-139, are those of the base. *)
Definition independent_dist (i : independent) : pdist K E :=
  let d := i_dist i in
  mkPdist (independent_batch_shape i) (Some (independent_event_shape i)) (independent_log_prob i) (independent_log_cdf i)
    (independent_entropy i) (p_sample d) (independent_salp i) (p_mean d) (p_median d) (p_mode d) (p_variance d) (p_stddev d).
(** __getitem__, 145-150; [base_item] is [self.distribution[index]] with a tuple of index arrays *)
Definition independent_getitem (base_item : list (tensor nat) -> result (pdist K E)) (i : independent) (ix : list ielem) : result independent :=
  do ixs <- to_batch_shape_index (independent_batch_shape i) ix;
  do d <- base_item ixs;
  independent_init d (Some (Z.of_nat (i_ndims i))).
(** _kl_divergence_independent_independent, 153-186; [base_kl] is [p.kl_divergence(q)] *)
Definition shape_eqb (s t : shape) : bool := if list_eq_dec Nat.eq_dec s t then true else false.
Definition independent_kl (base_kl : pdist K E -> pdist K E -> result (tensor XR)) (i1 i2 : independent) : result (tensor XR) :=
  let p := i_dist i1 in let q := i_dist i2 in
  let pe := match p_event p with Some ev => ev | None => [] end in
  let qe := match p_event q with Some ev => ev | None => [] end in
  if shape_eqb (independent_event_shape i1) (independent_event_shape i2) then
    if shape_eqb pe qe then
      let num_reduce_dims := length (independent_event_shape i1) - length pe in
      do kl <- base_kl p q; sum_last_axes num_reduce_dims kl
    else Err NotImplementedError
  else Err ValueError.
End Independent.
Arguments independent K E : clear implicits.

(** ** Joint *)
(** tree.map_structure with two trees (dm-tree); different structures raise.  (dm-tree raises ValueError or TypeError,
    the model ValueError.) *)
Fixpoint tree_map2M {A B C} (f : A -> B -> result C) (s : tree A) (t : tree B) {struct s} : result (tree C) :=
  match s, t with
  | Leaf a, Leaf b => do c <- f a b; Ok (Leaf c)
  | Node l, Node m =>
      do l' <- (fix go (l : list (tree A)) (m : list (tree B)) {struct l} : result (list (tree C)) :=
                  match l, m with
                  | [], [] => Ok []
                  | s :: l', t :: m' => do c <- tree_map2M f s t; do cs <- go l' m'; Ok (c :: cs)
                  | _, _ => Err ValueError
                  end) l m;
      Ok (Node l')
  | _, _ => Err ValueError
  end.
(** tree.unflatten_as: the leaves of [t] replaced by the elements of the list, in order; the rest of the list is returned *)
Fixpoint unflatten {A B} (t : tree A) (bs : list B) : result (tree B * list B) :=
  match t with
  | Leaf _ => match bs with [] => Err ValueError | b :: bs => Ok (Leaf b, bs) end
  | Node l =>
      do (l', rest) <- (fix go (l : list (tree A)) (bs : list B) : result (list (tree B) * list B) :=
                  match l with
                  | [] => Ok ([], bs)
                  | t :: l' => do (b, rest) <- unflatten t bs; do (m, rest') <- go l' rest; Ok (b :: m, rest')
                  end) l bs;
      Ok (Node l', rest)
  end.
Definition unflatten_as {A B} (t : tree A) (bs : list B) : result (tree B) :=
  do (u, rest) <- unflatten t bs; match rest with [] => Ok u | _ => Err ValueError end.
(** jnp.sum(jnp.stack(ts), axis=0) *)
Definition sum_stack (ts : list (tensor XR)) : result (tensor XR) :=
  match ts with
  | [] => Err ValueError
  | t :: _ => if forallb (fun u => shape_eqb (shp u) (shp t)) ts
              then Ok (tgen (shp t) (fun idx => xsum (map (fun u => tget (Fin 0) u idx) ts)))
              else Err ValueError
  end.
(** Python's sum(...) of arrays: 0 + a + b + ... with broadcasting *)
Definition py_sum (ts : list (result (tensor XR))) : result (tensor XR) :=
  fold_left (fun acc t => do a <- acc; do t <- t; lift2 xadd a t) ts (Ok (tscalar (Fin 0))).
Fixpoint zip_with {A B C} (f : A -> B -> C) (l : list A) (m : list B) : list C :=
  match l, m with a :: l', b :: m' => f a b :: zip_with f l' m' | _, _ => [] end.

Section Joint.
Context {K E : Type}.
Variable split : K -> nat -> list K.  (* jax.random.split(key, n) *)
(** __init__, 46-66: the check over the leaves; [batch_shape or dist.batch_shape] keeps the first non-empty shape *)
Fixpoint joint_check (batch_shape : shape) (ds : list (pdist K E)) : bool :=
  match ds with
  | [] => true
  | d :: ds' =>
      let batch_shape := match batch_shape with [] => p_batch d | s => s end in
      shape_eqb (p_batch d) batch_shape && joint_check batch_shape ds'
  end.
Definition joint_init (ds : tree (pdist K E)) : result (tree (pdist K E)) :=
  if joint_check [] (leaves ds) then Ok ds else Err ValueError.
(** batch_shape, 110-112 *)
Definition joint_batch_shape (ds : tree (pdist K E)) : result shape :=
  match leaves ds with [] => Err IndexError | d :: _ => Ok (p_batch d) end.
(** event_shape, 105-108 *)
Definition joint_event_shape (ds : tree (pdist K E)) : result (tree (option shape)) := tree_mapM (fun d => Ok (p_event d)) ds.
(** _sample_n, 68-75 *)
Definition joint_sample_n (ds : tree (pdist K E)) (key : K) (n : nat) : result (tree E) :=
  do keys <- unflatten_as ds (split key (length (leaves ds)));
  tree_map2M (fun d k => p_sample d k n) ds keys.
(** _sample_n_and_log_prob, 77-92 *)
Definition joint_salp (ds : tree (pdist K E)) (key : K) (n : nat) : result (tree E * tensor XR) :=
  do keys <- unflatten_as ds (split key (length (leaves ds)));
  do both <- tree_map2M (fun d k => p_salp d k n) ds keys;
  do samples <- tree_mapM (fun p => Ok (fst p)) both;
  do log_probs <- tree_mapM (fun p => Ok (snd p)) both;
  do log_probs <- sum_stack (leaves log_probs);
  Ok (samples, log_probs).
(** log_prob, 94-99 *)
Definition joint_log_prob (ds : tree (pdist K E)) (value : tree E) : result (tensor XR) :=
  do log_probs <- tree_map2M (fun d v => p_log_prob d v) ds value;
  sum_stack (leaves log_probs).
(** entropy, 118-119 *)
Definition joint_entropy (ds : tree (pdist K E)) : result (tensor XR) := py_sum (map p_entropy (leaves ds)).
(** log_cdf, 121-124: [zip] of the leaves, whatever the structures *)
Definition joint_log_cdf (ds : tree (pdist K E)) (value : tree E) : result (tensor XR) :=
  py_sum (zip_with (fun d v => p_log_cdf d v) (leaves ds) (leaves value)).
(** mean, median, mode, 126-136 *)
Definition joint_mean (ds : tree (pdist K E)) : result (tree E) := tree_mapM p_mean ds.
Definition joint_median (ds : tree (pdist K E)) : result (tree E) := tree_mapM p_median ds.
Definition joint_mode (ds : tree (pdist K E)) : result (tree E) := tree_mapM p_mode ds.
(** __getitem__, 138-141; [item d] is [d[index]] *)
Definition joint_getitem (item : pdist K E -> result (pdist K E)) (ds : tree (pdist K E)) : result (tree (pdist K E)) :=
  do ds' <- tree_mapM item ds; joint_init ds'.
(** _kl_divergence_joint_joint, 144-150 *)
Definition joint_kl (kl : pdist K E -> pdist K E -> result (tensor XR)) (ds1 ds2 : tree (pdist K E)) : result (tensor XR) :=
  do _ <- tree_map2M (fun _ _ => Ok tt) ds1 ds2;
  py_sum (zip_with kl (leaves ds1) (leaves ds2)).
End Joint.
