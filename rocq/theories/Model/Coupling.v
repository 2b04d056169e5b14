(** Models of MaskedCoupling and SplitCoupling. *)
From Coq Require Import List Reals ZArith Bool.
From Verif Require Import Base.Result Base.Sums Base.Tensor Model.Bijector.
Import ListNotations.
Local Open Scope Z_scope.

(** jnp.where(m, a, b) with broadcasting of the three operands. *)
Definition bwhere (m : tensor bool) (a b : arr) : result arr :=
  match bshape (shp a) (shp b) with
  | None => Err ValueError
  | Some s1 =>
      match bshape (shp m) s1 with
      | None => Err ValueError
      | Some s =>
          Ok (tgen s (fun idx => if tget false m (bindex (shp m) idx)
                                 then tget 0%R a (bindex (shp a) idx)
                                 else tget 0%R b (bindex (shp b) idx)))
      end
  end.

(** The mask argument: an array of booleans, or an array of another dtype. *)
Inductive mask_arg := BoolMask (m : tensor bool) | NonBoolMask (m : arr).

Section Coupling.
Context {P : Type}.                      (* BijectorParams *)
Variable conditioner : arr -> result P.
Variable bijector : P -> bij.            (* conversion.as_bijector already applied *)

(** MaskedCoupling._inner_bijector, masked_coupling.py:125-134. *)
Definition mc_inner (inner : Z) (p : P) : result bij :=
  let b := bijector p in
  if negb (b_in b =? inner) || negb (b_out b =? inner) then Err ValueError else Ok b.

(** The common body of forward_and_log_det and inverse_and_log_det, masked_coupling.py:139-146
    and 151-157; [op] is the method called on the inner bijector. *)
Definition mc_apply (mask event_mask : tensor bool) (event_ndims inner : Z)
    (op : bij -> arr -> result (arr * arr)) (x : arr) : result (arr * arr) :=
  do masked_x <- bwhere event_mask x (tscalar 0%R);
  do params <- conditioner masked_x;
  do b <- mc_inner inner params;
  do (y0, log_d) <- op b x;
  do y <- bwhere event_mask x y0;
  do w <- bwhere mask (tscalar 0%R) log_d;
  do logdet <- sum_last w (event_ndims - inner);
  Ok (y, logdet).

(** MaskedCoupling.__init__, masked_coupling.py:93-108. *)
Definition masked_coupling_init (mask : mask_arg) (event_ndims : option Z) (inner : Z) : result bij :=
  match mask with
  | NonBoolMask _ => Err ValueError
  | BoolMask m =>
      if match event_ndims with Some e => e <? inner | None => false end then Err ValueError
      else
        let event_mask := mkT (shp m ++ repeat 1%nat (Z.to_nat inner)) (dat m) in
        let ev := match event_ndims with None => Z.of_nat (rank m) + inner | Some e => e end in
        do me <- base_init ev None false None;
        Ok (base_methods me
              (fun x => do _ <- check_input_shape (m_in me) x; mc_apply m event_mask ev inner b_fal x)
              (fun y => do _ <- check_input_shape (m_out me) y; mc_apply m event_mask ev inner b_ial y))
  end.

(** ** SplitCoupling *)
(** jnp.split(x, [i], axis): indices up to / from [i] (clamped to the axis length). *)
Definition tsplit (i : nat) (ax : nat) (x : arr) : arr * arr :=
  let pre := firstn ax (shp x) in
  let d := nth ax (shp x) 0%nat in
  let post := skipn (S ax) (shp x) in
  let k := Nat.min i d in
  (tgen (pre ++ k :: post) (tget 0%R x),
   tgen (pre ++ (d - k)%nat :: post)
     (fun idx => tget 0%R x (firstn ax idx ++ (k + nth ax idx 0)%nat :: skipn (S ax) idx))).
(** jnp.concatenate([x1, x2], axis); shapes must agree off the axis. *)
Definition tconcat (ax : nat) (x1 x2 : arr) : result arr :=
  let pre := firstn ax (shp x1) in
  let d1 := nth ax (shp x1) 0%nat in
  let d2 := nth ax (shp x2) 0%nat in
  let post := skipn (S ax) (shp x1) in
  if list_eq_dec Nat.eq_dec (shp x2) (pre ++ d2 :: post) then
    Ok (tgen (pre ++ (d1 + d2)%nat :: post)
          (fun idx => let i := nth ax idx 0%nat in
             if (i <? d1)%nat then tget 0%R x1 idx
             else tget 0%R x2 (firstn ax idx ++ (i - d1)%nat :: skipn (S ax) idx)))
  else Err ValueError.

(** SplitCoupling._split, split_coupling.py:153-157; [split_axis < 0] counts from the end. *)
Definition axis_pos (split_axis : Z) (x : arr) : nat := Z.to_nat (Z.of_nat (rank x) + split_axis).
Definition sc_split (split_index split_axis : Z) (swap : bool) (x : arr) : arr * arr :=
  let '(x1, x2) := tsplit (Z.to_nat split_index) (axis_pos split_axis x) x in
  if swap then (x2, x1) else (x1, x2).
(** SplitCoupling._recombine, split_coupling.py:159-162. *)
Definition sc_recombine (split_axis : Z) (swap : bool) (x1 x2 : arr) : result arr :=
  let '(x1, x2) := if swap then (x2, x1) else (x1, x2) in
  tconcat (axis_pos split_axis x1) x1 x2.
(** SplitCoupling._inner_bijector, split_coupling.py:164-180. *)
Definition sc_inner (event_ndims : Z) (p : P) : result bij :=
  let b := bijector p in
  if negb (b_in b =? b_out b) then Err ValueError
  else
    let extra_ndims := event_ndims - b_in b in
    if extra_ndims <? 0 then Err ValueError
    else if 0 <? extra_ndims then block_init b extra_ndims
    else Ok b.
(** The common body of split_coupling.py:185-188 and 193-196. *)
Definition sc_apply (split_index event_ndims split_axis : Z) (swap : bool)
    (op : bij -> arr -> result (arr * arr)) (x : arr) : result (arr * arr) :=
  let '(x1, x2) := sc_split split_index split_axis swap x in
  do params <- conditioner x1;
  do b <- sc_inner event_ndims params;
  do (y2, logdet) <- op b x2;
  do y <- sc_recombine split_axis swap x1 y2;
  Ok (y, logdet).
(** SplitCoupling.__init__, split_coupling.py:108-126. *)
Definition split_coupling_init (split_index event_ndims : Z) (swap : bool) (split_axis : Z) : result bij :=
  if split_index <? 0 then Err ValueError
  else if 0 <=? split_axis then Err ValueError
  else if event_ndims <? 0 then Err ValueError
  else if split_axis <? - event_ndims then Err ValueError
  else
    do me <- base_init event_ndims None false None;
    Ok (base_methods me
          (fun x => do _ <- check_input_shape (m_in me) x;
                    sc_apply split_index event_ndims split_axis swap b_fal x)
          (fun y => do _ <- check_input_shape (m_out me) y;
                    sc_apply split_index event_ndims split_axis swap b_ial y)).
End Coupling.
