(** Model of multinomial.py on one batch element ([total_count] a number, [logits]/[probs] a vector over the last axis), and
    its batch and event shape.  [lgamma] is jax.lax.lgamma, [gumbel i] the noise of jax.random.categorical in iteration i. *)
From Coq Require Import Reals List Bool Arith ZArith.
From Verif Require Import Base.Result Base.Tensor Base.XR Model.MathUtils Model.MathMore Model.Categorical.
Import ListNotations.
Local Open Scope R_scope.

(** _total_count, and the categorical parameters _probs or _logits *)
Record multinomial := mkMulti { mu_total : XR; mu_cat : categorical }.
(** jnp.asarray(total_count, dtype), 81: conversion to an integer type drops the fractional part *)
Definition rtrunc (x : R) : R := if Rle_dec 0 x then IZR (Int_part x) else - IZR (Int_part (- x)).
Definition as_dtype (dt : dtype) (a : XR) : XR := match dt, a with DInt, Fin x => Fin (rtrunc x) | _, _ => a end.
(** __init__, 45-84 *)
Definition multi_init (total : XR) (logits probs : option (list XR)) (dt : dtype) : result multinomial :=
  match logits, probs with
  | None, None | Some _, Some _ => Err ValueError                                        (* 63-66 *)
  | Some l, None =>
      if Nat.ltb (length l) 2 then Err ValueError else                                   (* 67-70 *)
      match dt with DInt | DFloat => Ok (mkMulti (as_dtype dt total) (CLogits (normalize_logits l))) | _ => Err ValueError end
  | None, Some p =>
      if Nat.ltb (length p) 2 then Err ValueError else                                   (* 71-74 *)
      match dt with DInt | DFloat => Ok (mkMulti (as_dtype dt total) (CProbs (normalize_probs p))) | _ => Err ValueError end
  end.
(** the shapes, 86-105: [total_shape] of total_count, [param_shape] of logits or probs *)
Definition multi_shapes (total_shape param_shape : shape) : result (shape * shape) :=
  match rev param_shape with
  | [] => Err ValueError                                                                 (* not logits.shape *)
  | K :: rest => match bshape (rev rest) total_shape with Some b => Ok (b, [K]) | None => Err ValueError end
  end.
Definition multi_logits (d : multinomial) : list XR := cat_logits (mu_cat d).            (* 117-123; log_of_probs, 133-141, is the same *)
Definition multi_probs (d : multinomial) : list XR := cat_probs (mu_cat d).              (* 125-131 *)
Definition multi_K (d : multinomial) : nat := num_categories (mu_cat d).                 (* 94-100 *)

Section Lgamma.
Variable lgamma : XR -> XR.
(** log_prob, 143-150 *)
Definition multi_log_prob (d : multinomial) (value : list XR) : XR :=
  let total_permutations := lgamma (xadd (mu_total d) (Fin 1)) in
  let counts_factorial := map (fun v => lgamma (xadd v (Fin 1))) value in
  let redundant_permutations := xsum counts_factorial in
  let log_combinations := xsub total_permutations redundant_permutations in
  xadd log_combinations (xsum (map2 multiply_no_nan (multi_logits d) value)).

(** lax.while_loop; [None] when it needs more than [fuel] iterations *)
Fixpoint while_loop {St} (cond : St -> bool) (body : St -> St) (fuel : nat) (s : St) : option St :=
  if cond s then match fuel with O => None | S f => while_loop cond body f (body s) end else Some s.
(** _sample_n_scalar, 163-181, one row *)
Definition multi_sample (gumbel : nat -> list XR) (d : multinomial) (fuel : nat) : option (list XR) :=
  let logits := multi_logits d in
  let cond := fun s : nat * list XR => xltb (Fin (INR (fst s))) (mu_total d) in
  let body := fun s : nat * list XR =>
    let sample_i := random_categorical (gumbel (fst s)) logits in
    let one_hot_i := one_hot (Fin (INR sample_i)) (length logits) in
    (S (fst s), map2 xadd (snd s) one_hot_i) in
  match while_loop cond body fuel (O, repeat (Fin 0) (length logits)) with Some s => Some (snd s) | None => None end.

(** jnp.round: to the nearest integer, ties to even *)
Definition rround (x : R) : R :=
  let f := Int_part x in
  if Rlt_dec (x - IZR f) (1 / 2) then IZR f
  else if Rlt_dec (1 / 2) (x - IZR f) then IZR (f + 1)
  else if Z.even f then IZR f else IZR (f + 1).
Definition xround (a : XR) : XR := match a with Fin x => Fin (rround x) | _ => a end.
(** _entropy_scalar_with_lax, 225-259 *)
Definition entropy_body (log_n_factorial total : XR) (probs : list XR) (s : nat * list XR) : nat * list XR :=
  let xi := Fin (INR (fst s)) in
  let log_xi_factorial := lgamma (xadd xi (Fin 1)) in
  let log_comb_n_xi := xsub (xsub log_n_factorial log_xi_factorial) (lgamma (xadd (xsub total xi) (Fin 1))) in
  let comb_n_xi := xround (xexp log_comb_n_xi) in
  let likelihood1 := map (fun p => power_no_nan p xi) probs in
  let likelihood2 := map (fun p => power_no_nan (xsub (Fin 1) p) (xsub total xi)) probs in
  let likelihood := map2 xmul likelihood1 likelihood2 in
  let comb_term := map (fun l => xmul (xmul comb_n_xi log_xi_factorial) l) likelihood in
  (S (fst s), map2 xadd (snd s) comb_term).
Definition multi_entropy (d : multinomial) (fuel : nat) : option XR :=                    (* entropy, 183-192 *)
  let total := mu_total d in
  let probs := multi_probs d in
  let log_of_probs := multi_logits d in
  let log_n_factorial := lgamma (xadd total (Fin 1)) in
  match while_loop (fun s : nat * list XR => xleb (Fin (INR (fst s))) total) (entropy_body log_n_factorial total probs) fuel
          (O, map (fun _ => Fin 0) probs) with
  | None => None
  | Some s =>
      let comb_term := xsum (snd s) in
      let n_probs_factor := xsum (map (fun x => xmul total x) (map2 multiply_no_nan log_of_probs probs)) in
      Some (xadd (xsub (xopp log_n_factorial) n_probs_factor) comb_term)
  end.
(** _entropy_scalar, 194-223; [n] is the integer total_count *)
Definition entropy_scalar (n : nat) (probs log_of_probs : list XR) : XR :=
  let total := Fin (INR n) in
  let xi := map (fun i => Fin (INR i)) (seq 0 (n + 1)) in
  let log_xi_factorial := map (fun x => lgamma (xadd x (Fin 1))) xi in
  let log_n_minus_xi_factorial := rev log_xi_factorial in
  let log_n_factorial := last log_xi_factorial NaN in
  let log_comb_n_xi := map2 xsub (map (fun a => xsub log_n_factorial a) log_xi_factorial) log_n_minus_xi_factorial in
  let comb_n_xi := map (fun a => xround (xexp a)) log_comb_n_xi in
  let likelihood := map (fun x => xsum (map (fun p => xmul (power_no_nan p x) (power_no_nan (xsub (Fin 1) p) (xsub total x))) probs)) xi in
  let comb_term := xsum (map2 xmul (map2 xmul comb_n_xi log_xi_factorial) likelihood) in
  let n_probs_factor := xsum (map (fun x => xmul total x) (map2 multiply_no_nan log_of_probs probs)) in
  xadd (xsub (xopp log_n_factorial) n_probs_factor) comb_term.
End Lgamma.

Definition multi_mean (d : multinomial) : list XR := map (fun p => xmul (mu_total d) p) (multi_probs d).    (* 261-263 *)
Definition multi_variance (d : multinomial) : list XR :=                                                    (* 265-268 *)
  map (fun p => xmul (xmul (mu_total d) p) (xsub (Fin 1) p)) (multi_probs d).
(** covariance, 270-280: the product with the outer product of probs, plus the diagonal matrix of total_count * probs *)
Definition multi_covariance (d : multinomial) : list (list XR) :=
  let probs := multi_probs d in
  map (fun i => map (fun j =>
    xadd (xmul (xopp (mu_total d)) (xmul (nth j probs NaN) (nth i probs NaN)))
         (if Nat.eqb i j then xmul (mu_total d) (nth i probs NaN) else Fin 0)) (seq 0 (length probs))) (seq 0 (length probs)).
(** __getitem__, 282-290, of one batch element *)
Definition multi_getitem (d : multinomial) (dt : dtype) : result multinomial :=
  match mu_cat d with
  | CLogits l => multi_init (mu_total d) (Some l) None dt
  | CProbs p => multi_init (mu_total d) None (Some p) dt
  end.
