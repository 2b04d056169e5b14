(** Model of distrax/_src/distributions/transformed.py. *)
From Coq Require Import List Reals ZArith Bool ClassicalEpsilon.
From Verif Require Import Base.Result Base.Sums Base.Tensor Base.XR Base.Lift Base.Rows Model.Bijector Model.ArrayDist
  Model.SameAs Model.Jaxpr.
Import ListNotations.
Local Open Scope Z_scope.

(** A distribution object with array events, as its users see it (distribution.py:34-304).  Events are
    arrays of exact reals; log-probabilities may be infinite.  [K] is the type of random keys. *)
Record dist (K : Type) := mkDist {
  d_batch : shape;                                       (* batch_shape *)
  d_event : option shape;                                (* event_shape; None: a nested structure *)
  d_log_prob : arr -> result (tensor XR);
  d_sample_n : K -> nat -> result arr;                   (* sample(seed=key, sample_shape=n) *)
  d_salp : K -> nat -> result (arr * tensor XR);         (* sample_and_log_prob(seed=key, sample_shape=n) *)
  d_mean : result arr;
  d_mode : result arr;
  d_entropy : result (tensor XR)
}.
Arguments d_batch {K} d.
Arguments d_event {K} d.
Arguments d_log_prob {K} d _.
Arguments d_sample_n {K} d _ _.
Arguments d_salp {K} d _ _.
Arguments d_mean {K} d.
Arguments d_mode {K} d.
Arguments d_entropy {K} d.
Arguments mkDist {K}.

(** jnp.zeros *)
Definition tzeros (s : shape) : arr := tgen s (fun _ => 0%R).

Section Transformed.
Context {K : Type}.
Variables (base : dist K) (b : bij).

(** Transformed.__init__, transformed.py:75-108 (conversions already applied): the event shape of the base. *)
Definition transformed_check : result shape :=
  match d_event base with
  | None => Err ValueError                                                      (* 88-95 *)
  | Some ev => if Z.of_nat (length ev) =? b_in b then Ok ev else Err ValueError (* 97-102 *)
  end.

(** _infer_shapes_and_dtype, 120-135: (batch_shape, event_shape); [jax.eval_shape] of forward is the shape of
    forward of the dummy.  [l[-k:]] and [l[:-k]] for 0 < k. *)
Definition transformed_shapes (ev : shape) : result (shape * shape) :=
  do y <- b_fwd b (tzeros (d_batch base ++ ev));
  let s := shp y in
  if b_out b =? 0 then Ok (s, [])
  else let k := (length s - Z.to_nat (b_out b))%nat in Ok (firstn k s, skipn k s).

(** log_prob, 161-166 *)
Definition transformed_log_prob (value : arr) : result (tensor XR) :=
  do (x, ildj_y) <- b_ial b value;
  do lp_x <- d_log_prob base x;
  lift2 xadd lp_x (tmap Fin ildj_y).

(** _sample_n, 168-172 *)
Definition transformed_sample_n (key : K) (n : nat) : result arr :=
  do x <- d_sample_n base key n;
  vmap (b_fwd b) x.

(** _sample_n_and_log_prob, 174-191 *)
Definition transformed_salp (key : K) (n : nat) : result (arr * tensor XR) :=
  do (x, lp_x) <- d_salp base key n;
  do (y, fldj) <- vmap_pair (b_fal b) x;
  do lp_y <- vmap2 (lift2 xsub) lp_x (tmap Fin fldj);
  Ok (y, lp_y).

(** mean, 193-200 *)
Definition transformed_mean : result arr :=
  if b_cj b then do m <- d_mean base; b_fwd b m else Err NotImplementedError.
(** mode, 202-210 *)
Definition transformed_mode : result arr :=
  if b_cl b then do m <- d_mode base; b_fwd b m else Err NotImplementedError.
(** entropy, 212-243 *)
Definition transformed_entropy (ev : shape) (input_hint : option arr) : result (tensor XR) :=
  if b_cl b then
    let hint := match input_hint with None => tzeros (d_batch base ++ ev) | Some h => h end in
    do entropy <- d_entropy base;
    do fldj <- b_fld b hint;
    lift2 xadd entropy (tmap Fin fldj)
  else Err NotImplementedError.

(** The Transformed object. *)
Definition transformed_init : result (dist K) :=
  do ev <- transformed_check;
  do (bs, es) <- transformed_shapes ev;
  Ok (mkDist bs (Some es) transformed_log_prob transformed_sample_n transformed_salp
        transformed_mean transformed_mode (transformed_entropy ev None)).
End Transformed.

(** ** KL, 246-306 *)
(** What the KL function looks at in a bijector: which Python object it is, its class and stored arrays
    (for [same_as]), and the program JAX traces for its [forward] at the hint ([make_jaxpr(...).jaxpr]); the
    arrays captured by the program are its constants, which [.jaxpr] (and its text) does not contain. *)
Record handle := mkHandle { h_id : nat; h_obj : obj; h_prog : jaxpr; h_consts : list R }.

(** [str(jaxpr1) == str(jaxpr2)]: the text determines the program up to the names of variables, which JAX
    assigns in order of occurrence; [h_prog] numbers them the same way. *)
Definition same_text (p q : jaxpr) : bool := if excluded_middle_informative (p = q) then true else false.

(** _kl_divergence_transformed_transformed, 246-306 *)
Definition transformed_kl {A} (ev1 ev2 : shape) (b1 b2 : handle) (base_kl : result A) : result A :=
  if list_eq_dec Nat.eq_dec ev1 ev2 then
    if negb (Nat.eqb (h_id b1) (h_id b2)) && negb (same_as (h_obj b1) (h_obj b2))                   (* 293 *)
       && negb (same_text (h_prog b1) (h_prog b2))                                                   (* 299 *)
    then Err NotImplementedError                                                                      (* 300-304 *)
    else base_kl                                                                                      (* 306 *)
  else Err ValueError.                                                                                (* 283-287 *)
