(** Specification of "the same bijector": equal metadata, equal forward, inverse and combined
    methods on every input (exceptions included), and on every input the combined method accepts
    the separate log-det methods of both give that same log-det. *)
From Coq Require Import List Reals ZArith Bool.
From Verif Require Import Base.Result Base.Tensor Model.Bijector Spec.Bijector.
Definition agree_where_valid (a b : bij) : Prop :=
  b_in a = b_in b /\ b_out a = b_out b /\ b_cj a = b_cj b /\ b_cl a = b_cl b /\
  (forall x, b_fwd a x = b_fwd b x) /\ (forall y, b_inv a y = b_inv b y) /\
  (forall x, b_fal a x = b_fal b x) /\ (forall y, b_ial a y = b_ial b y) /\
  methods_agree a /\ methods_agree b.
