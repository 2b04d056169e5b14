(** Model of quantized.py. *)
From Coq Require Import List Reals Bool.
From Verif Require Import Base.Result Base.Tensor Base.XR Base.Lift Model.Distribution Model.MathUtils Model.ArrayDist Model.Clipped.
Import ListNotations.

(** jnp.floor and jnp.ceil *)
Definition rfloor (x : R) : R := IZR (Int_part x).
Definition xfloor (a : XR) : XR := match a with Fin x => Fin (rfloor x) | a => a end.
Definition xceil (a : XR) : XR := match a with Fin x => Fin (- rfloor (- x)) | a => a end.
Definition xisinf (a : XR) : bool := match a with PInf | NInf => true | _ => false end.

Section Quantized.
Context {K : Type}.
(** [eps] is modelled as a number (an array of gaps is not modelled). *)
Record quantized := mkQuantized { q_dist : udist K; q_low : option (tensor XR); q_high : option (tensor XR); q_eps : option XR }.
(** __init__, 49-91; data types are not modelled *)
Definition quantized_bound (rnd : XR -> XR) (d : udist K) (b : option (tensor XR)) : result (option (tensor XR)) :=
  match b with
  | None => Ok None
  | Some b => let b := tmap rnd b in if Nat.ltb (length (u_batch d)) (rank b) then Err ValueError else Ok (Some b)
  end.
Definition quantized_init (d : udist K) (low high : option (tensor XR)) (eps : option XR) : result quantized :=
  match u_event d with
  | _ :: _ => Err ValueError
  | [] =>
    do low <- quantized_bound xceil d low;
    do high <- quantized_bound xfloor d high;
    Ok (mkQuantized d low high eps)
  end.
Definition quantized_event_shape (q : quantized) : shape := u_event (q_dist q).   (* 114-119 *)
Definition quantized_batch_shape (q : quantized) : shape := u_batch (q_dist q).   (* 121-124 *)
(** the properties low and high, 100-112: broadcast to batch_shape + event_shape *)
Definition quantized_param (q : quantized) (b : option (tensor XR)) : result (option (tensor XR)) :=
  match b with
  | None => Ok None
  | Some b => do b <- broadcast_to b (quantized_batch_shape q ++ quantized_event_shape q); Ok (Some b)
  end.
(** [if bound is not None: t = jnp.where(x < bound, yes, no)] and variants: [f x bound t] elementwise *)
Definition if_bound (f : XR -> XR -> XR -> XR) (b : option (tensor XR)) (x t : tensor XR) : result (tensor XR) :=
  match b with None => Ok t | Some b => lift3 f x b t end.
(** _sample_n, 126-137 *)
Definition quantized_sample_n (q : quantized) (key : K) (n : nat) : result (tensor XR) :=
  do samples <- u_sample (q_dist q) key n;
  let samples := tmap xceil samples in
  do low <- quantized_param q (q_low q);
  do samples <- if_bound (fun s low _ => if xltb s low then low else s) low samples samples;
  do high <- quantized_param q (q_high q);
  if_bound (fun s high _ => if xltb high s then high else s) high samples samples.
(** log_cdf, 241-255 *)
Definition quantized_log_cdf (q : quantized) (value : tensor XR) : result (tensor XR) :=
  let y := tmap xfloor value in
  do result <- u_log_cdf (q_dist q) y;
  do low <- quantized_param q (q_low q);
  do result <- if_bound (fun y low r => if xltb y low then NInf else r) low y result;
  do high <- quantized_param q (q_high q);
  if_bound (fun y high r => if xltb y high then r else Fin 0) high y result.
(** cdf, 257-271 *)
Definition quantized_cdf (q : quantized) (value : tensor XR) : result (tensor XR) :=
  let y := tmap xfloor value in
  do result <- u_cdf (q_dist q) y;
  do low <- quantized_param q (q_low q);
  do result <- if_bound (fun y low r => if xltb y low then Fin 0 else r) low y result;
  do high <- quantized_param q (q_high q);
  if_bound (fun y high r => if xltb y high then r else Fin 1) high y result.
(** log_survival_function, 273-298 *)
Definition quantized_log_survival (q : quantized) (value : tensor XR) : result (tensor XR) :=
  let y := tmap xfloor value in
  do result <- u_log_survival (q_dist q) y;
  do result <- if_bound (fun y low r => if xltb y low then Fin 0 else r) (q_low q) y result;
  if_bound (fun y high r => if xltb y high then r else NInf) (q_high q) y result.
(** survival_function, 300-325 *)
Definition quantized_survival (q : quantized) (value : tensor XR) : result (tensor XR) :=
  let y := tmap xfloor value in
  do result <- u_survival (q_dist q) y;
  do result <- if_bound (fun y low r => if xltb y low then Fin 1 else r) (q_low q) y result;
  if_bound (fun y high r => if xltb y high then r else Fin 0) (q_high q) y result.
(** value - 1. *)
Definition minus_one (t : tensor XR) : tensor XR := tmap (fun v => xsub v (Fin 1)) t.
(** [jnp.where(log_sf < log_cdf, a, b)] *)
Definition by_tail (log_sf log_cdf a b : XR) : XR := if xltb log_sf log_cdf then a else b.
(** log_prob, 161-209 *)
Definition quantized_log_prob (q : quantized) (value : tensor XR) : result (tensor XR) :=
  do log_cdf <- quantized_log_cdf q value;
  do log_cdf_m1 <- quantized_log_cdf q (minus_one value);
  do log_sf <- quantized_log_survival q value;
  do log_sf_m1 <- quantized_log_survival q (minus_one value);
  do big <- lift4 by_tail log_sf log_cdf log_sf_m1 log_cdf;
  do small <- lift4 by_tail log_sf log_cdf log_sf log_cdf_m1;
  do big <- match q_eps q with
            | None => Ok big
            | Some eps => lift2 (fun big small => if xltb eps (xsub big small) then big else xadd small eps) big small
            end;
  do log_probs <- lift2 log_expbig_minus_expsmall big small;
  do log_probs <- lift2 (fun v lp => if xltb (xfloor v) v then NInf else lp) value log_probs;
  lift3 (fun lc lsm1 lp => if xisinf lc || xisinf lsm1 then NInf else lp) log_cdf log_sf_m1 log_probs.
(** prob, 211-239 *)
Definition quantized_prob (q : quantized) (value : tensor XR) : result (tensor XR) :=
  do cdf <- quantized_cdf q value;
  do cdf_m1 <- quantized_cdf q (minus_one value);
  do sf <- quantized_survival q value;
  do sf_m1 <- quantized_survival q (minus_one value);
  do upper <- lift2 xsub sf_m1 sf;
  do lower <- lift2 xsub cdf cdf_m1;
  do probs <- lift4 by_tail sf cdf upper lower;
  lift2 (fun v p => if xltb (xfloor v) v then Fin 0 else p) value probs.
(** _sample_n_and_log_prob, 139-159 *)
Definition quantized_sample_n_and_log_prob (q : quantized) (key : K) (n : nat) : result (tensor XR * tensor XR) :=
  do samples <- quantized_sample_n q key n;
  let d := q_dist q in
  do log_cdf <- u_log_cdf d samples;
  do log_cdf_m1 <- u_log_cdf d (minus_one samples);
  do log_sf <- u_log_survival d samples;
  do log_sf_m1 <- u_log_survival d (minus_one samples);
  do high <- quantized_param q (q_high q);
  do log_cdf <- if_bound (fun s high r => if xltb s high then r else Fin 0) high samples log_cdf;
  do log_sf <- if_bound (fun s high r => if xltb s high then r else NInf) high samples log_sf;
  do low <- quantized_param q (q_low q);
  do log_cdf_m1 <- if_bound (fun s1 low r => if xltb s1 low then NInf else r) low (minus_one samples) log_cdf_m1;
  do log_sf_m1 <- if_bound (fun s1 low r => if xltb s1 low then Fin 0 else r) low (minus_one samples) log_sf_m1;
  do big <- lift4 by_tail log_sf log_cdf log_sf_m1 log_cdf;
  do small <- lift4 by_tail log_sf log_cdf log_sf log_cdf_m1;
  do log_probs <- lift2 log_expbig_minus_expsmall big small;
  Ok (samples, log_probs).
(** __getitem__, 327-332: the result is built without [eps] *)
Definition quantized_getitem (base_item : list (tensor nat) -> result (udist K)) (q : quantized) (ix : list ielem) : result quantized :=
  do ixs <- to_batch_shape_index (quantized_batch_shape q) ix;
  do low <- quantized_param q (q_low q);
  do high <- quantized_param q (q_high q);
  do d <- base_item ixs;
  quantized_init d (option_map (fun b => adv_getitem (Fin 0) b ixs) low) (option_map (fun b => adv_getitem (Fin 0) b ixs) high) None.
End Quantized.
Arguments quantized K : clear implicits.
