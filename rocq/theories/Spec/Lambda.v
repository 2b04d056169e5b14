(** Independent specification of the Lambda bijector: the six functions determined by the
    constructor's arguments, as documented in lambda_bijector.py:27-57. *)
From Coq Require Import List Reals ZArith Bool.
From Verif Require Import Base.Result Base.Tensor Model.Bijector Model.Lambda.
Import ListNotations.
Local Open Scope Z_scope.

Section Spec.
  Variables inv log_det_scalar : fn -> fn.

  (** "the given function, or the automatic inverse of the other one" *)
  Definition doc_forward (a : lambda_args) : fn :=
    match a_fwd a, a_inv a with
    | Some f, _ => f
    | None, Some g => inv g
    | None, None => fun _ => Err ValueError
    end.
  Definition doc_inverse (a : lambda_args) : fn :=
    match a_inv a, a_fwd a with
    | Some g, _ => g
    | None, Some f => inv f
    | None, None => fun _ => Err ValueError
    end.
  (** event dims: [event_ndims_in] defaults to 0, [event_ndims_out] to [event_ndims_in] *)
  Definition doc_in (a : lambda_args) : Z := match a_in a with Some k => k | None => 0 end.
  Definition doc_out (a : lambda_args) : Z := match a_out a with Some k => k | None => doc_in a end.
  (** inputs with too few dimensions are rejected *)
  Definition guarded (ndims : Z) (f : fn) : fn :=
    fun x => if Z.of_nat (length (shp x)) <? ndims then Err ValueError else f x.
  Definition doc_method_forward a := guarded (doc_in a) (doc_forward a).
  Definition doc_method_inverse a := guarded (doc_out a) (doc_inverse a).
  (** "the given log-det, or the one obtained by differentiation" *)
  Definition doc_method_fld (a : lambda_args) : fn :=
    guarded (doc_in a)
      (match a_fld a with Some h => h | None => log_det_scalar (doc_method_forward a) end).
  Definition doc_method_ild (a : lambda_args) : fn :=
    guarded (doc_out a)
      (match a_ild a with Some h => h | None => log_det_scalar (doc_method_inverse a) end).
  Definition both (f g : fn) (x : arr) : result (arr * arr) :=
    match f x with Err e => Err e | Ok y => match g x with Err e => Err e | Ok l => Ok (y, l) end end.
  Definition doc_answer (a : lambda_args) (c : call) : answer :=
    match c with
    | CForward x => One (doc_method_forward a x)
    | CInverse y => One (doc_method_inverse a y)
    | CFld x => One (doc_method_fld a x)
    | CIld y => One (doc_method_ild a y)
    | CFal x => Two (both (doc_method_forward a) (doc_method_fld a) x)
    | CIal y => Two (both (doc_method_inverse a) (doc_method_ild a) y)
    end.
  (** the combinations of arguments that are rejected *)
  Definition rejected (a : lambda_args) : Prop :=
    (a_fwd a = None /\ a_inv a = None) \/
    ((a_fld a <> None \/ a_ild a <> None) /\ a_in a = None) \/
    (a_fld a = None /\ a_ild a = None /\ (a_in a <> None \/ a_out a <> None)) \/
    (exists k, a_in a = Some k /\ k < 0) \/ (exists k, a_out a = Some k /\ k < 0).
End Spec.
