(** Model of RationalQuadraticSpline (distrax/_src/bijectors/rational_quadratic_spline.py),
    over exact reals.  The last axis of `params` (and of x_pos, y_pos, knot_slopes) is a Coq
    list; the remaining (batch) axes are a tensor of such lists. *)
From Coq Require Import List Reals ZArith Bool Arith.
From Verif Require Import Base.Result Base.Sums Base.Tensor Model.Bijector Model.ScalarBij.
Import ListNotations.
Local Open Scope R_scope.

Definition Rleb (a b : R) : bool := if Rle_dec a b then true else false.
Definition Rltb (a b : R) : bool := if Rlt_dec a b then true else false.
(** jnp.clip(x, lo, hi). *)
Definition clip (x lo hi : R) : R := Rmin (Rmax x lo) hi.
(** jax.nn.softmax over the last axis (exact-real meaning; the max-shift cancels). *)
Definition softmax (l : list R) : list R :=
  map (fun a => exp a / rsum (map exp l)) l.

(** _normalize_bin_sizes, 27-38; [num_bins] is the size of the last axis. *)
Definition normalize_bin_sizes (num_bins : nat) (u : tensor (list R)) (total_size min_bin_size : R)
  : result (tensor (list R)) :=
  if Rltb total_size (INR num_bins * min_bin_size) then Err ValueError
  else Ok (tmap (fun row => map (fun b => b * (total_size - INR num_bins * min_bin_size) + min_bin_size)
                              (softmax row)) u).

(** _normalize_knot_slopes, 41-52. *)
Definition normalize_knot_slopes (u : tensor (list R)) (min_knot_slope : R) : result (tensor (list R)) :=
  if Rleb 1 min_knot_slope then Err ValueError
  else
    let offset := ln (exp (1 - min_knot_slope) - 1) in
    Ok (tmap (map (fun a => softplus (a + offset) + min_knot_slope)) u).

(** The bin search, 76-88 and 181-193: one boolean per bin, falling back to the first bin,
    and the masked sums that select the parameters of the bin. *)
Definition correct_bin (x : R) (pos : list R) : list bool :=
  let cb := map (fun p : R * R => Rleb (fst p) x && Rltb x (snd p)) (combine (removelast pos) (tl pos)) in
  if existsb (fun b => b) cb then cb
  else match cb with [] => [] | _ :: cb' => true :: map (fun _ => false) cb' end.
Definition mask_sum (cb : list bool) (l : list R) : R :=
  rsum (map (fun p : bool * R => (if fst p then 1 else 0) * snd p) (combine cb l)).

(** _rational_quadratic_spline_fwd, 55-130. *)
Definition rqs_fwd (x : R) (x_pos y_pos knot_slopes : list R) : R * R :=
  let below_range := Rleb x (hd 0 x_pos) in                                     (* 76 *)
  let above_range := Rleb (last x_pos 0) x in                                   (* 77 *)
  let cb := correct_bin x x_pos in                                              (* 78-84 *)
  let xl := mask_sum cb (removelast x_pos) in let xr := mask_sum cb (tl x_pos) in
  let yl := mask_sum cb (removelast y_pos) in let yr := mask_sum cb (tl y_pos) in
  let dl := mask_sum cb (removelast knot_slopes) in let dr := mask_sum cb (tl knot_slopes) in
  let bin_width := xr - xl in                                                   (* 94 *)
  let bin_height := yr - yl in
  let bin_slope := bin_height / bin_width in
  let z := clip ((x - xl) / bin_width) 0 1 in                                   (* 98-102 *)
  let sq_z := z * z in
  let z1mz := z - sq_z in
  let sq_1mz := (1 - z) ^ 2 in
  let slopes_term := dr + dl - 2 * bin_slope in                                 (* 106 *)
  let numerator := bin_height * (bin_slope * sq_z + dl * z1mz) in
  let denominator := bin_slope + slopes_term * z1mz in
  let y := yl + numerator / denominator in
  let logdet := 2 * ln bin_slope + ln (dr * sq_z + 2 * bin_slope * z1mz + dl * sq_1mz)
                - 2 * ln denominator in                                         (* 121-123 *)
  let y := if below_range then (x - hd 0 x_pos) * hd 0 knot_slopes + hd 0 y_pos else y in
  let y := if above_range then (x - last x_pos 0) * last knot_slopes 0 + last y_pos 0 else y in
  let logdet := if below_range then ln (hd 0 knot_slopes) else logdet in
  let logdet := if above_range then ln (last knot_slopes 0) else logdet in
  (y, logdet).

(** _safe_quadratic_root, 133-157; [tiny] is jnp.finfo(dtype).tiny. *)
Definition safe_quadratic_root (tiny a b c : R) : R :=
  let sqrt_diff := b ^ 2 - 4 * a * c in
  let safe_sqrt := sqrt (Rmax sqrt_diff tiny) in
  let safe_sqrt := if Rltb 0 sqrt_diff then safe_sqrt else 0 in
  let numerator := if Rleb 0 b then 2 * c else - b + safe_sqrt in
  let denominator := if Rleb 0 b then - b - safe_sqrt else 2 * a in
  numerator / denominator.

(** _rational_quadratic_spline_inv, 160-230. *)
Definition rqs_inv (tiny y : R) (x_pos y_pos knot_slopes : list R) : R * R :=
  let below_range := Rleb y (hd 0 y_pos) in
  let above_range := Rleb (last y_pos 0) y in
  let cb := correct_bin y y_pos in
  let xl := mask_sum cb (removelast x_pos) in let xr := mask_sum cb (tl x_pos) in
  let yl := mask_sum cb (removelast y_pos) in let yr := mask_sum cb (tl y_pos) in
  let dl := mask_sum cb (removelast knot_slopes) in let dr := mask_sum cb (tl knot_slopes) in
  let bin_width := xr - xl in
  let bin_height := yr - yl in
  let bin_slope := bin_height / bin_width in
  let w := clip ((y - yl) / bin_height) 0 1 in                                  (* 203-204 *)
  let slopes_term := dr + dl - 2 * bin_slope in
  let c := - bin_slope * w in
  let b := dl - slopes_term * w in
  let a := bin_slope - b in
  let z := clip (safe_quadratic_root tiny a b c) 0 1 in                         (* 212-213 *)
  let x := bin_width * z + xl in
  let sq_z := z * z in
  let z1mz := z - sq_z in
  let sq_1mz := (1 - z) ^ 2 in
  let denominator := bin_slope + slopes_term * z1mz in
  let logdet := - (2) * ln bin_slope - ln (dr * sq_z + 2 * bin_slope * z1mz + dl * sq_1mz)
                + 2 * ln denominator in
  let x := if below_range then (y - hd 0 y_pos) / hd 0 knot_slopes + hd 0 x_pos else x in
  let x := if above_range then (y - last y_pos 0) / last knot_slopes 0 + last x_pos 0 else x in
  let logdet := if below_range then - ln (hd 0 knot_slopes) else logdet in
  let logdet := if above_range then - ln (last knot_slopes 0) else logdet in
  (x, logdet).

(** jnp.cumsum. *)
Fixpoint cumsum_from (acc : R) (l : list R) : list R :=
  match l with [] => [] | a :: l' => (acc + a) :: cumsum_from (acc + a) l' end.
Definition cumsum (l : list R) : list R := cumsum_from 0 l.

(** The boundary_slopes strings; [Other] is any other string. *)
Inductive boundary := Unconstrained | LowerIdentity | UpperIdentity | Identity | Circular | Other.

(** 361-379. *)
Definition apply_boundary (bd : boundary) (k : tensor (list R)) : result (tensor (list R)) :=
  match bd with
  | Unconstrained => Ok k
  | LowerIdentity => Ok (tmap (fun k => [1] ++ tl k) k)
  | UpperIdentity => Ok (tmap (fun k => removelast k ++ [1]) k)
  | Identity => Ok (tmap (fun k => [1] ++ removelast (tl k) ++ [1]) k)
  | Circular => Ok (tmap (fun k => removelast k ++ firstn 1 k) k)
  | Other => Err ValueError
  end.

(** 351-357: pad_below ++ (range_min + cumsum(sizes[:-1])) ++ pad_above. *)
Definition knot_positions (range_min range_max : R) (sizes : list R) : list R :=
  [range_min] ++ map (Rplus range_min) (cumsum (removelast sizes)) ++ [range_max].

(** The three stored arrays, one list per batch position. *)
Record spline := mkSpline {
  x_pos : tensor (list R); y_pos : tensor (list R); knot_slopes : tensor (list R) }.

(** RationalQuadraticSpline.__init__, 325-379.  [n] is params.shape[-1]; [params] holds one list
    of length [n] per batch position. *)
Definition rqs_init (n : nat) (params : tensor (list R)) (range_min range_max : R) (bd : boundary)
    (min_bin_size min_knot_slope : R) : result spline :=
  if negb (Nat.eqb (Nat.modulo n 3) 1) || Nat.ltb n 4 then Err ValueError       (* 326 *)
  else if Rleb range_max range_min then Err ValueError                          (* 330 *)
  else if Rleb min_bin_size 0 then Err ValueError                               (* 333 *)
  else if Rleb min_knot_slope 0 then Err ValueError                             (* 336 *)
  else
    let num_bins := Nat.div (n - 1) 3 in                                        (* 340 *)
    let uw := tmap (firstn num_bins) params in                                  (* 342 *)
    let uh := tmap (fun p => skipn num_bins (firstn (2 * num_bins) p)) params in (* 343 *)
    let us := tmap (skipn (2 * num_bins)) params in                             (* 344 *)
    let range_size := range_max - range_min in
    do bin_widths <- normalize_bin_sizes num_bins uw range_size min_bin_size;
    do bin_heights <- normalize_bin_sizes num_bins uh range_size min_bin_size;
    do slopes <- normalize_knot_slopes us min_knot_slope;
    do slopes <- apply_boundary bd slopes;
    Ok (mkSpline (tmap (knot_positions range_min range_max) bin_widths)
                 (tmap (knot_positions range_min range_max) bin_heights) slopes).

(** forward_and_log_det / inverse_and_log_det, 401-413: jnp.vectorize over the batch axes. *)
Definition vectorize_knots (f : R -> list R -> list R -> list R -> R * R) (sp : spline) (x : arr)
  : result (arr * arr) :=
  match bshape (shp x) (shp (x_pos sp)) with
  | None => Err ValueError
  | Some s =>
      let r idx := f (tget 0 x (bindex (shp x) idx)) (tget [] (x_pos sp) (bindex (shp (x_pos sp)) idx))
                     (tget [] (y_pos sp) (bindex (shp (y_pos sp)) idx))
                     (tget [] (knot_slopes sp) (bindex (shp (knot_slopes sp)) idx)) in
      Ok (tgen s (fun idx => fst (r idx)), tgen s (fun idx => snd (r idx)))
  end.
Definition rqs_bij (tiny : R) (n : nat) (params : tensor (list R)) (range_min range_max : R) (bd : boundary)
    (min_bin_size min_knot_slope : R) : result bij :=
  do m <- base_init 0 None false None;                                          (* 325 *)
  do sp <- rqs_init n params range_min range_max bd min_bin_size min_knot_slope;
  Ok (base_methods m (vectorize_knots rqs_fwd sp) (vectorize_knots (rqs_inv tiny) sp)).
