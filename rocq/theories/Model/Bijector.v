(** Model of the bijector base class and the combinators Chain, Inverse and Block.
    Arrays are tensors of exact reals; exceptions are [Err] values. *)
From Coq Require Import List Reals ZArith Bool.
From Verif Require Import Base.Result Base.Sums Base.Tensor.
Import ListNotations.
Local Open Scope Z_scope.

Definition arr := tensor R.

(** A bijector object: its metadata and its six public methods
    (distrax/_src/bijectors/bijector.py:116-163). *)
Record bij := mkBij {
  b_in : Z;                                  (* event_ndims_in,  145-148 *)
  b_out : Z;                                 (* event_ndims_out, 150-153 *)
  b_cj : bool;                               (* is_constant_jacobian, 155-158 *)
  b_cl : bool;                               (* is_constant_log_det, 160-163 *)
  b_fwd : arr -> result arr;                 (* forward *)
  b_inv : arr -> result arr;                 (* inverse *)
  b_fld : arr -> result arr;                 (* forward_log_det_jacobian *)
  b_ild : arr -> result arr;                 (* inverse_log_det_jacobian *)
  b_fal : arr -> result (arr * arr);         (* forward_and_log_det *)
  b_ial : arr -> result (arr * arr)          (* inverse_and_log_det *)
}.

(** The four metadata fields stored by the base constructor. *)
Record meta := mkMeta { m_in : Z; m_out : Z; m_cj : bool; m_cl : bool }.

(** Bijector.__init__, bijector.py:98-114. *)
Definition base_init (event_ndims_in : Z) (event_ndims_out : option Z)
    (is_constant_jacobian : bool) (is_constant_log_det : option bool) : result meta :=
  let event_ndims_out := match event_ndims_out with None => event_ndims_in | Some k => k end in
  if event_ndims_in <? 0 then Err ValueError
  else if event_ndims_out <? 0 then Err ValueError
  else
    let is_constant_log_det :=
      match is_constant_log_det with None => is_constant_jacobian | Some c => c end in
    if is_constant_jacobian && negb is_constant_log_det then Err ValueError
    else Ok (mkMeta event_ndims_in event_ndims_out is_constant_jacobian is_constant_log_det).

(** The default methods of the base class (bijector.py:116-134): [forward], [inverse],
    [forward_log_det_jacobian], [inverse_log_det_jacobian] obtained from
    [forward_and_log_det] and [inverse_and_log_det]. *)
Definition base_methods (m : meta) (fal ial : arr -> result (arr * arr)) : bij :=
  mkBij (m_in m) (m_out m) (m_cj m) (m_cl m)
    (fun x => rmap fst (fal x)) (fun y => rmap fst (ial y))
    (fun x => rmap snd (fal x)) (fun y => rmap snd (ial y)) fal ial.

(** Bijector.inverse_and_log_det default, bijector.py:140-143. *)
Definition base_inverse_and_log_det (y : arr) : result (arr * arr) := Err NotImplementedError.

(** _check_forward_input_shape / _check_inverse_input_shape, bijector.py:175-189. *)
Definition check_input_shape (event_ndims : Z) (x : arr) : result unit :=
  if Z.of_nat (rank x) <? event_ndims then Err ValueError else Ok tt.

(** math.sum_last, distrax/_src/utils/math.py:143-146: [jnp.sum(x, axis=range(-ndims,0))].
    [range(-ndims, 0)] is empty for [ndims <= 0] (no reduction); an axis below [-rank]
    raises ValueError. *)
Definition sum_last (x : arr) (ndims : Z) : result arr :=
  if ndims <=? 0 then Ok x
  else if Z.of_nat (rank x) <? ndims then Err ValueError
  else
    let k := (rank x - Z.to_nat ndims)%nat in
    Ok (tgen (firstn k (shp x))
          (fun idx => sumf (fun jdx => tget 0%R x (idx ++ jdx)) (indices (skipn k (shp x))))).

(** ** Chain *)
(** The neighbour check of Chain.__init__, chain.py:60-68:
    [zip(bijectors[:-1], bijectors[1:])]. *)
Definition chain_neighbours_ok (bs : list bij) : bool :=
  forallb (fun p : bij * bij => b_in (fst p) =? b_out (snd p)) (combine (removelast bs) (tl bs)).

(** Chain.forward, chain.py:83-87. *)
Definition chain_forward (bs : list bij) (x : arr) : result arr :=
  fold_left (fun acc b => do v <- acc; b_fwd b v) (rev bs) (Ok x).
(** Chain.inverse, chain.py:89-93. *)
Definition chain_inverse (bs : list bij) (y : arr) : result arr :=
  fold_left (fun acc b => do v <- acc; b_inv b v) bs (Ok y).
(** The loop body shared by chain.py:98-101 and 106-109 ([log_det += ld]). *)
Definition accum (f : bij -> arr -> result (arr * arr)) (acc : result (arr * arr)) (b : bij)
  : result (arr * arr) :=
  do (v, log_det) <- acc;
  do (v', ld) <- f b v;
  do log_det' <- tadd log_det ld;
  Ok (v', log_det').
(** Chain.forward_and_log_det, chain.py:95-101; the list is non-empty by construction. *)
Definition chain_fal (bs : list bij) (x : arr) : result (arr * arr) :=
  match rev bs with
  | [] => Err IndexError
  | last :: rest_rev => fold_left (accum b_fal) rest_rev (b_fal last x)
  end.
(** Chain.inverse_and_log_det, chain.py:103-109. *)
Definition chain_ial (bs : list bij) (y : arr) : result (arr * arr) :=
  match bs with
  | [] => Err IndexError
  | first :: rest => fold_left (accum b_ial) rest (b_ial first y)
  end.
(** Chain.__init__, chain.py:48-76 ([as_bijector] conversion already applied).  Chain
    overrides forward and inverse and inherits the two log-det methods of the base class. *)
Definition chain_init (bs : list bij) : result bij :=
  match bs with
  | [] => Err ValueError
  | first :: _ =>
      if negb (chain_neighbours_ok bs) then Err ValueError
      else
        do m <- base_init (b_in (last bs first)) (Some (b_out first))
                  (forallb b_cj bs) (Some (forallb b_cl bs));
        Ok (mkBij (m_in m) (m_out m) (m_cj m) (m_cl m)
              (chain_forward bs) (chain_inverse bs)
              (fun x => rmap snd (chain_fal bs x)) (fun y => rmap snd (chain_ial bs y))
              (chain_fal bs) (chain_ial bs))
  end.

(** ** Inverse, inverse.py:37-78 *)
Definition inverse_init (b : bij) : result bij :=
  do m <- base_init (b_out b) (Some (b_in b)) (b_cj b) (Some (b_cl b));
  Ok (mkBij (m_in m) (m_out m) (m_cj m) (m_cl m)
        (b_inv b) (b_fwd b) (b_ild b) (b_fld b) (b_ial b) (b_fal b)).

(** ** Block, block.py:51-112 *)
Definition block_init (b : bij) (ndims : Z) : result bij :=
  if ndims <? 0 then Err ValueError
  else
    do m <- base_init (ndims + b_in b) (Some (ndims + b_out b)) (b_cj b) (Some (b_cl b));
    let chk_f x := check_input_shape (m_in m) x in
    let chk_i y := check_input_shape (m_out m) y in
    Ok (mkBij (m_in m) (m_out m) (m_cj m) (m_cl m)
          (fun x => do _ <- chk_f x; b_fwd b x)
          (fun y => do _ <- chk_i y; b_inv b y)
          (fun x => do _ <- chk_f x; do ld <- b_fld b x; sum_last ld ndims)
          (fun y => do _ <- chk_i y; do ld <- b_ild b y; sum_last ld ndims)
          (fun x => do _ <- chk_f x; do (y, ld) <- b_fal b x; do s <- sum_last ld ndims; Ok (y, s))
          (fun y => do _ <- chk_i y; do (x, ld) <- b_ial b y; do s <- sum_last ld ndims; Ok (x, s))).
