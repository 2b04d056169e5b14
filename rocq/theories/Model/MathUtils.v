(** Model of distrax/_src/utils/math.py and of the jnp/jax.nn reductions it is used with, on one vector
    (the last axis) of floats. *)
From Coq Require Import Reals List Bool.
From Verif Require Import Base.XR.
Import ListNotations.
Local Open Scope R_scope.

(** math.multiply_no_nan, math.py:29-47 *)
Definition multiply_no_nan (x y : XR) : XR := if xeqb y (Fin 0) then Fin 0 else xmul x y.
(** math.mul_exp, math.py:114-129 *)
Definition mul_exp (x logp : XR) : XR :=
  let p := xexp logp in
  let x := if xeqb p (Fin 0) then Fin 0 else x in
  xmul x p.
(** math.log_expbig_minus_expsmall, math.py:149-159 *)
Definition log_expbig_minus_expsmall (big small : XR) : XR := xadd big (xlog1p (xopp (xexp (xsub small big)))).

(** elementwise binary operation on vectors of equal length *)
Fixpoint map2 {A B C} (f : A -> B -> C) (l : list A) (m : list B) : list C :=
  match l, m with a :: l', b :: m' => f a b :: map2 f l' m' | _, _ => [] end.
(** jnp.max along the axis (NaN propagates, -inf for the empty axis) *)
Definition xmaxl (l : list XR) : XR := fold_right xmax NInf l.
(** jax.nn.log_softmax and jax.nn.softmax along the axis *)
Definition log_softmax (l : list XR) : list XR :=
  let shifted := map (fun x => xsub x (xmaxl l)) l in
  let shifted_logsumexp := xlog (xsum (map xexp shifted)) in
  map (fun x => xsub x shifted_logsumexp) shifted.
Definition softmax (l : list XR) : list XR :=
  let unnormalized := map (fun x => xexp (xsub x (xmaxl l))) l in
  map (fun u => xdiv u (xsum unnormalized)) unnormalized.
(** math.normalize, math.py:132-140 *)
Definition normalize_probs (probs : list XR) : list XR := map (fun p => xdiv p (xsum probs)) probs.
Definition normalize_logits (logits : list XR) : list XR := log_softmax logits.
(** jnp.argmax along the axis: position of the first maximum; a NaN counts as larger than everything *)
Definition xabove (b a : XR) : bool := (xis_nan b && negb (xis_nan a)) || xltb a b.
Fixpoint argmax_from (best : nat) (a : XR) (i : nat) (l : list XR) : nat :=
  match l with
  | [] => best
  | b :: l' => if xabove b a then argmax_from i b (S i) l' else argmax_from best a (S i) l'
  end.
Definition argmax (l : list XR) : nat := match l with [] => O | a :: l' => argmax_from 0 a 1 l' end.
(** jax.nn.one_hot(value, K): compares value with 0..K-1, so a non-integer value gives zeros *)
Definition one_hot (value : XR) (K : nat) : list XR :=
  map (fun i => if xeqb value (Fin (INR i)) then Fin 1 else Fin 0) (seq 0 K).
(** jnp.cumsum along the axis *)
Fixpoint cumsum_from (acc : XR) (l : list XR) : list XR :=
  match l with [] => [] | a :: l' => xadd acc a :: cumsum_from (xadd acc a) l' end.
Definition cumsum (l : list XR) : list XR := cumsum_from (Fin 0) l.
(** jnp.clip *)
Definition xclip (x lo hi : XR) : XR := xmin (xmax x lo) hi.
