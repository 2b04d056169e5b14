(** Model of the distribution base class (distrax/_src/distributions/distribution.py) and of batch
    slicing.  Random number generation is abstract: [_sample_n] is a function of the key. *)
From Coq Require Import List Reals ZArith Bool.
From Verif Require Import Base.Result Base.Sums Base.Tensor Base.Tree Base.XR.
Import ListNotations.

(** ** Seeds and sample shapes *)
(** The two forms of the [seed] and [sample_shape] arguments. *)
Inductive seed_arg (K : Type) := SeedInt (z : Z) | SeedKey (k : K).
Arguments SeedInt {K} z.
Arguments SeedKey {K} k.
Inductive shape_arg := ShapeInt (n : nat) | ShapeSeq (s : list nat).

(** convert_seed_and_sample_shape, distribution.py:312-327; [prng] is jax.random.PRNGKey. *)
Definition convert_seed_and_sample_shape {K} (prng : Z -> K) (seed : seed_arg K) (ss : shape_arg)
  : K * shape :=
  let sample_shape := match ss with ShapeInt n => [n] | ShapeSeq s => s end in
  let rng := match seed with SeedInt z => prng z | SeedKey k => k end in
  (rng, sample_shape).

(** [t.reshape(sample_shape + t.shape[1:])], distribution.py:162 and 176. *)
Definition reshape_leading {A} (sample_shape : shape) (t : tensor A) : result (tensor A) :=
  treshape (sample_shape ++ tl (shp t)) t.

(** Distribution.sample, distribution.py:144-162. [sample_n] is the subclass's [_sample_n]; a
    negative size in [sample_shape] is not modelled. *)
Definition sample {K A} (prng : Z -> K) (sample_n : K -> nat -> result (tree (tensor A)))
    (seed : seed_arg K) (ss : shape_arg) : result (tree (tensor A)) :=
  let '(rng, sample_shape) := convert_seed_and_sample_shape prng seed ss in
  let num_samples := fold_left Nat.mul sample_shape 1 in
  do samples <- sample_n rng num_samples;
  tree_mapM (reshape_leading sample_shape) samples.

(** Distribution.sample_and_log_prob, distribution.py:164-177. *)
Definition sample_and_log_prob {K A} (prng : Z -> K)
    (sample_n_and_log_prob : K -> nat -> result (tree (tensor A) * tensor XR))
    (seed : seed_arg K) (ss : shape_arg) : result (tree (tensor A) * tensor XR) :=
  let '(rng, sample_shape) := convert_seed_and_sample_shape prng seed ss in
  let num_samples := fold_left Nat.mul sample_shape 1 in
  do (samples, log_prob) <- sample_n_and_log_prob rng num_samples;
  do samples' <- tree_mapM (reshape_leading sample_shape) samples;
  do log_prob' <- reshape_leading sample_shape log_prob;
  Ok (samples', log_prob').

(** The default Distribution._sample_n_and_log_prob, distribution.py:57-79. *)
Definition default_sample_n_and_log_prob {K A} (sample_n : K -> nat -> result (tree (tensor A)))
    (log_prob : tree (tensor A) -> result (tensor XR)) (key : K) (n : nat)
  : result (tree (tensor A) * tensor XR) :=
  do samples <- sample_n key n;
  do log_prob <- log_prob samples;
  Ok (samples, log_prob).

(** The default Distribution.batch_shape, distribution.py:108-130, given the shapes of the arrays
    in one sample ([jax.eval_shape] of [self.sample]) and the event shapes, both flattened in
    pytree order.  [not self.event_shape] is [events = None]: the event shape is [()], or an
    empty container. *)
Definition default_batch_shape (sample_spec : list shape) (events : option (list shape)) : result shape :=
  let batch_shapes :=
    match events with
    | None => sample_spec
    | Some es => map (fun p : shape * shape => firstn (length (fst p) - length (snd p)) (fst p)) (combine sample_spec es)
    end in
  match batch_shapes with
  | [] => Ok []
  | b :: rest => if forallb (fun b' => if list_eq_dec Nat.eq_dec b b' then true else false) rest
                 then Ok b else Err AssertionError
  end.

(** ** Defaults derived from other methods, applied to one element of the batch *)
(** Distribution.prob, distribution.py:101. *)
Definition default_prob (log_prob : XR) : XR := xexp log_prob.
(** Distribution.cdf, distribution.py:217. *)
Definition default_cdf (log_cdf : XR) : XR := xexp log_cdf.
(** Distribution.survival_function, distribution.py:233-238. *)
Definition default_survival (event_shape : shape) (cdf : XR) : result XR :=
  match event_shape with [] => Ok (xsub (Fin 1) cdf) | _ => Err NotImplementedError end.
(** Distribution.log_survival_function, distribution.py:255-260. *)
Definition default_log_survival (event_shape : shape) (cdf : XR) : result XR :=
  match event_shape with [] => Ok (xlog1p (xopp cdf)) | _ => Err NotImplementedError end.
(** Distribution.stddev, distribution.py:279. *)
Definition default_stddev (variance : XR) : XR := xsqrt variance.
(** Distribution.cross_entropy, distribution.py:296. *)
Definition default_cross_entropy (kl entropy : XR) : XR := xadd kl entropy.

(** ** Basic indexing of arrays (NumPy semantics, used by slicing) *)
Inductive ielem := IInt (z : Z) | ISlice (start stop step : option Z) | IEllipsis | INewAxis.

(** Python's slice.indices: first position, step and number of selected positions. *)
Definition slice_spec (n : nat) (start stop step : option Z) : result (Z * Z * nat) :=
  let n := Z.of_nat n in
  let st := match step with None => 1%Z | Some s => s end in
  if (st =? 0)%Z then Err ValueError
  else
    let lo := if (0 <? st)%Z then 0%Z else (-1)%Z in
    let hi := if (0 <? st)%Z then n else (n - 1)%Z in
    let clamp z := let z := if (z <? 0)%Z then (z + n)%Z else z in Z.max lo (Z.min hi z) in
    let a := match start with None => if (0 <? st)%Z then lo else hi | Some z => clamp z end in
    let b := match stop with None => if (0 <? st)%Z then hi else lo | Some z => clamp z end in
    let cnt := if (0 <? st)%Z then ((b - a + st - 1) / st)%Z else ((a - b - st - 1) / (- st))%Z in
    Ok (a, st, Z.to_nat (Z.max 0 cnt)).

(** The result of [x[index]] for an array [x] of shape [s] and an index without Ellipsis: its
    shape and, for each position of the result, the position of [x] it is read from.  Axes not
    mentioned are kept whole. *)
Fixpoint basic_index (s : shape) (ix : list ielem) : result (shape * (list nat -> list nat)) :=
  match ix, s with
  | [], _ => Ok (s, fun r => r)
  | INewAxis :: ix', _ =>
      do (rs, src) <- basic_index s ix'; Ok (1 :: rs, fun r => src (tl r))
  | IInt z :: ix', d :: s' =>
      if ((- Z.of_nat d <=? z) && (z <? Z.of_nat d))%Z then
        do (rs, src) <- basic_index s' ix';
        Ok (rs, fun r => Z.to_nat (if (z <? 0)%Z then z + Z.of_nat d else z) :: src r)
      else Err IndexError
  | ISlice a b c :: ix', d :: s' =>
      do (st, step, cnt) <- slice_spec d a b c;
      do (rs, src) <- basic_index s' ix';
      Ok (cnt :: rs, fun r => Z.to_nat (st + Z.of_nat (hd 0 r) * step) :: src (tl r))
  | (IInt _ | ISlice _ _ _) :: _, [] => Err IndexError
  | IEllipsis :: _, _ => Err IndexError
  end.
(** Expansion of the (at most one) Ellipsis to the missing number of full slices. *)
Definition consumes (e : ielem) : bool := match e with IInt _ | ISlice _ _ _ => true | _ => false end.
Definition is_ellipsis (e : ielem) : bool := match e with IEllipsis => true | _ => false end.
Definition full_slice : ielem := ISlice None None None.
Fixpoint expand_ellipsis (missing : nat) (ix : list ielem) : list ielem :=
  match ix with
  | [] => []
  | IEllipsis :: ix' => repeat full_slice missing ++ expand_ellipsis missing ix'
  | e :: ix' => e :: expand_ellipsis missing ix'
  end.
Definition np_index (s : shape) (ix : list ielem) : result (shape * (list nat -> list nat)) :=
  if Nat.ltb 1 (length (filter is_ellipsis ix)) then Err IndexError
  else basic_index s (expand_ellipsis (length s - length (filter consumes ix)) ix).
(** [x[index]] *)
Definition np_getitem {A} (d : A) (x : tensor A) (ix : list ielem) : result (tensor A) :=
  do (rs, src) <- np_index (shp x) ix; Ok (tgen rs (fun r => tget d x (src r))).

(** [np.indices(shape)]: for each axis, the array of coordinates along that axis. *)
Definition np_indices (s : shape) : list (tensor nat) :=
  map (fun k => tgen s (fun idx => nth k idx 0)) (seq 0 (length s)).

(** to_batch_shape_index, distribution.py:330-358 (only IndexError is caught and re-raised as
    IndexError, so the exception classes are unchanged). Index objects other than ints, slices,
    Ellipsis and None (i.e. arrays and booleans) are not modelled. *)
Definition to_batch_shape_index (batch_shape : shape) (ix : list ielem) : result (list (tensor nat)) :=
  rmapM (fun x => np_getitem 0 x ix) (np_indices batch_shape).

(** [p[new_index]] for a tuple of equal-shaped integer arrays (NumPy advanced indexing of the
    leading axes); the empty tuple returns [p] itself. *)
Definition adv_getitem {A} (d : A) (p : tensor A) (ixs : list (tensor nat)) : tensor A :=
  match ixs with
  | [] => p
  | i0 :: _ =>
      tgen (shp i0 ++ skipn (length ixs) (shp p))
        (fun idx => let r := firstn (rank i0) idx in
                    tget d p (map (fun i => tget 0 i r) ixs ++ skipn (rank i0) idx))
  end.

(** Slicing one parameter array: [self.param[to_batch_shape_index(self.batch_shape, index)]], the
    pattern of every [__getitem__] in distrax/_src/distributions (for instance normal.py:143-146). *)
Definition slice_param {A} (d : A) (batch_shape : shape) (ix : list ielem) (p : tensor A) : result (tensor A) :=
  do ixs <- to_batch_shape_index batch_shape ix; Ok (adv_getitem d p ixs).
