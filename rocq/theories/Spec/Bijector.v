(** Independent specification vocabulary for the bijector combinators. *)
From Coq Require Import List Reals ZArith Bool.
From Verif Require Import Base.Result Base.Sums Base.Tensor Model.Bijector.
Import ListNotations.
Local Open Scope Z_scope.

(** "f1(f2(...fN(x)))", an exception in any link being the exception of the whole. *)
Fixpoint compose_forward (bs : list bij) (x : arr) : result arr :=
  match bs with
  | [] => Ok x
  | f1 :: rest => match compose_forward rest x with Ok z => b_fwd f1 z | Err e => Err e end
  end.
(** "fN^-1(...f1^-1(y))". *)
Fixpoint compose_inverse (bs : list bij) (y : arr) : result arr :=
  match bs with
  | [] => Ok y
  | f1 :: rest => match b_inv f1 y with Ok z => compose_inverse rest z | Err e => Err e end
  end.

(** The individual methods of one bijector agree with its combined ones. *)
Definition methods_agree (b : bij) : Prop :=
  (forall x y l, b_fal b x = Ok (y, l) -> b_fwd b x = Ok y /\ b_fld b x = Ok l) /\
  (forall y x l, b_ial b y = Ok (x, l) -> b_inv b y = Ok x /\ b_ild b y = Ok l).

(** Every link undoes itself at the point the chain feeds it, starting from [x]. *)
Fixpoint links_invert_from (bs : list bij) (x : arr) : Prop :=
  match bs with
  | [] => True
  | f1 :: rest =>
      links_invert_from rest x /\
      forall z y, compose_forward rest x = Ok z -> b_fwd f1 z = Ok y -> b_inv f1 y = Ok z
  end.
Fixpoint links_invert_to (bs : list bij) (y : arr) : Prop :=
  match bs with
  | [] => True
  | f1 :: rest =>
      forall z, b_inv f1 y = Ok z -> b_fwd f1 z = Ok y /\ links_invert_to rest z
  end.

(** [forward_trace bs x ys lds y]: running the links right to left from [x] gives the
    successive log-dets [lds] (innermost first) and the final value [y]. *)
Inductive forward_trace : list bij -> arr -> list arr -> arr -> Prop :=
| ft_nil : forall x, forward_trace [] x [] x
| ft_cons : forall f1 rest x lds z ld y,
    forward_trace rest x lds z -> b_fal f1 z = Ok (y, ld) ->
    forward_trace (f1 :: rest) x (lds ++ [ld]) y.
(** total of a non-empty list of arrays under broadcasting addition *)
Fixpoint tsum_from (a : arr) (l : list arr) : result arr :=
  match l with [] => Ok a | b :: l' => do c <- tadd a b; tsum_from c l' end.
Definition tsum (l : list arr) : result arr :=
  match l with [] => Err ValueError | a :: l' => tsum_from a l' end.

(** At the input [x], [b]'s inverse direction returns the input and the opposite log-det. *)
Definition opposite_at (b : bij) (x : arr) : Prop :=
  forall y l, b_fal b x = Ok (y, l) -> wf y /\ wf l /\ b_ial b y = Ok (x, tneg l).
Definition opposite_log_dets (b : bij) : Prop := forall x, wf x -> opposite_at b x.
(** Every link does so at the point the chain feeds it, starting from [x]. *)
Fixpoint links_opposite_from (bs : list bij) (x : arr) : Prop :=
  match bs with
  | [] => True
  | f1 :: rest => links_opposite_from rest x /\ forall lds z, forward_trace rest x lds z -> opposite_at f1 z
  end.

(** Metadata coherence. *)
Definition coherent (b : bij) : Prop :=
  0 <= b_in b /\ 0 <= b_out b /\ (b_cj b = true -> b_cl b = true).

(** All bijectors obtainable from base-constructed ones by Chain, Inverse and Block. *)
Inductive built : bij -> Prop :=
| built_base : forall nin nout cj cl m fal ial,
    base_init nin nout cj cl = Ok m -> built (base_methods m fal ial)
| built_chain : forall bs c, (forall b, In b bs -> built b) -> chain_init bs = Ok c -> built c
| built_inverse : forall b c, built b -> inverse_init b = Ok c -> built c
| built_block : forall b k c, built b -> block_init b k = Ok c -> built c.

(** Observational equality of bijectors: same metadata, same six methods. *)
Definition same_behaviour (a b : bij) : Prop :=
  b_in a = b_in b /\ b_out a = b_out b /\ b_cj a = b_cj b /\ b_cl a = b_cl b /\
  (forall x, b_fwd a x = b_fwd b x) /\ (forall x, b_inv a x = b_inv b x) /\
  (forall x, b_fld a x = b_fld b x) /\ (forall x, b_ild a x = b_ild b x) /\
  (forall x, b_fal a x = b_fal b x) /\ (forall x, b_ial a x = b_ial b x).

(** Two neighbours of a chain that do not fit together. *)
Definition mismatched_neighbours (bs : list bij) : Prop :=
  exists pre outer inner post, bs = pre ++ outer :: inner :: post /\ b_in outer <> b_out inner.
