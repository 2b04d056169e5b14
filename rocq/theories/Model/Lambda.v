(** Model of distrax/_src/bijectors/lambda_bijector.py.  The object's four function slots are
    mutable: a missing one is derived on first use and stored.  [inv], [log_det_scalar] and
    [is_constant_jacobian] (distrax/_src/utils/transformations.py) are parameters here; they are
    modelled in Model/Jaxpr.v. *)
From Coq Require Import List Reals ZArith Bool.
From Verif Require Import Base.Result Base.Sums Base.Tensor Model.Bijector.
Import ListNotations.
Local Open Scope Z_scope.

Definition fn := arr -> result arr.

(** What a slot of the object holds: nothing yet, a function given by the user, the result of
    [transformations.inv(self._other)] (lines 104 and 111; the raw slot is captured), or the
    closure [transformations.log_det_scalar(self.method)] (lines 118 and 126), which calls the
    bound method again whenever it is called. *)
Inductive slot : Type := Unset | Given (f : fn) | Inverted (f : fn) | Differentiated.

Record lambda_state := mkLambda {
  l_meta : meta;
  l_fwd : slot; l_inv : slot; l_fld : slot; l_ild : slot
}.

Record lambda_args := mkArgs {
  a_fwd : option fn; a_inv : option fn; a_fld : option fn; a_ild : option fn;
  a_in : option Z; a_out : option Z; a_cj : option bool
}.

Definition to_slot (o : option fn) : slot := match o with Some f => Given f | None => Unset end.
Definition is_none {A} (o : option A) : bool := match o with None => true | Some _ => false end.

Section Derived.
  Variable inv : fn -> fn.                       (* transformations.inv *)
  Variable log_det_scalar : fn -> fn.            (* transformations.log_det_scalar *)
  Variable is_constant_jacobian : fn -> bool.    (* transformations.is_constant_jacobian *)

  (** Lambda.__init__, lambda_bijector.py:59-98. *)
  Definition lambda_init (a : lambda_args) : result lambda_state :=
    match a_fwd a, a_inv a with
    | None, None => Err ValueError                                               (* 70-72 *)
    | f, g =>
        let jac_functions_specified := negb (is_none (a_fld a)) || negb (is_none (a_ild a)) in (* 74-75 *)
        do nin <- (if jac_functions_specified
                   then match a_in a with None => Err ValueError | Some k => Ok k end   (* 77-79 *)
                   else if negb (is_none (a_in a)) || negb (is_none (a_out a))
                        then Err ValueError                                      (* 81-84 *)
                        else Ok 0);                                              (* 85 *)
        let cj := match a_cj a with
                  | Some c => c
                  | None => match f, g with                                      (* 87-89 *)
                            | Some h, _ => is_constant_jacobian h
                            | None, Some h => is_constant_jacobian h
                            | None, None => false (* excluded above *)
                            end
                  end in
        do m <- base_init nin (a_out a) cj None;                                 (* 91-94 *)
        Ok (mkLambda m (to_slot f) (to_slot g) (to_slot (a_fld a)) (to_slot (a_ild a)))
    end.

  (** Lambda.forward, 100-105.  The new state is returned also when the call raises. *)
  Definition lambda_forward (s : lambda_state) (x : arr) : lambda_state * result arr :=
    match check_input_shape (m_in (l_meta s)) x with
    | Err e => (s, Err e)
    | Ok _ =>
        match l_fwd s with
        | Given f | Inverted f => (s, f x)
        | _ =>
            match l_inv s with
            | Given g | Inverted g =>
                (mkLambda (l_meta s) (Inverted (inv g)) (l_inv s) (l_fld s) (l_ild s), inv g x)
            | _ => (s, Err TypeError)  (* inv(None): not reachable *)
            end
        end
    end.
  (** Lambda.inverse, 107-112. *)
  Definition lambda_inverse (s : lambda_state) (y : arr) : lambda_state * result arr :=
    match check_input_shape (m_out (l_meta s)) y with
    | Err e => (s, Err e)
    | Ok _ =>
        match l_inv s with
        | Given g | Inverted g => (s, g y)
        | _ =>
            match l_fwd s with
            | Given f | Inverted f =>
                (mkLambda (l_meta s) (l_fwd s) (Inverted (inv f)) (l_fld s) (l_ild s), inv f y)
            | _ => (s, Err TypeError)
            end
        end
    end.
  (** Lambda.forward_log_det_jacobian, 114-120: calling the derived closure calls the bound
      method [self.forward] (from [_check_numerical_stability], transformations.py:180, and when
      tracing), which stores the derived forward function if it was missing. *)
  Definition lambda_fld (s : lambda_state) (x : arr) : lambda_state * result arr :=
    match check_input_shape (m_in (l_meta s)) x with
    | Err e => (s, Err e)
    | Ok _ =>
        match l_fld s with
        | Given h | Inverted h => (s, h x)
        | _ =>
            let s' := fst (lambda_forward s (tscalar 0%R)) in
            (mkLambda (l_meta s') (l_fwd s') (l_inv s') Differentiated (l_ild s'),
             log_det_scalar (fun z => snd (lambda_forward s' z)) x)
        end
    end.
  (** Lambda.inverse_log_det_jacobian, 122-128. *)
  Definition lambda_ild (s : lambda_state) (y : arr) : lambda_state * result arr :=
    match check_input_shape (m_out (l_meta s)) y with
    | Err e => (s, Err e)
    | Ok _ =>
        match l_ild s with
        | Given h | Inverted h => (s, h y)
        | _ =>
            let s' := fst (lambda_inverse s (tscalar 0%R)) in
            (mkLambda (l_meta s') (l_fwd s') (l_inv s') (l_fld s') Differentiated,
             log_det_scalar (fun z => snd (lambda_inverse s' z)) y)
        end
    end.

  (** Public calls and their results ([forward_and_log_det], 130-132, and
      [inverse_and_log_det], 134-136, call two methods in order). *)
  Inductive call : Type :=
  | CForward (x : arr) | CInverse (y : arr) | CFld (x : arr) | CIld (y : arr)
  | CFal (x : arr) | CIal (y : arr).
  Inductive answer : Type := One (r : result arr) | Two (r : result (arr * arr)).

  Definition seq2 (m1 m2 : lambda_state -> arr -> lambda_state * result arr) (s : lambda_state) (x : arr)
    : lambda_state * result (arr * arr) :=
    let (s1, r1) := m1 s x in
    match r1 with
    | Err e => (s1, Err e)
    | Ok y => let (s2, r2) := m2 s1 x in (s2, do l <- r2; Ok (y, l))
    end.
  Definition lambda_call (s : lambda_state) (c : call) : lambda_state * answer :=
    match c with
    | CForward x => let (s', r) := lambda_forward s x in (s', One r)
    | CInverse y => let (s', r) := lambda_inverse s y in (s', One r)
    | CFld x => let (s', r) := lambda_fld s x in (s', One r)
    | CIld y => let (s', r) := lambda_ild s y in (s', One r)
    | CFal x => let (s', r) := seq2 lambda_forward lambda_fld s x in (s', Two r)
    | CIal y => let (s', r) := seq2 lambda_inverse lambda_ild s y in (s', Two r)
    end.
  Fixpoint lambda_calls (s : lambda_state) (cs : list call) : list answer :=
    match cs with
    | [] => []
    | c :: cs' => let (s', a) := lambda_call s c in a :: lambda_calls s' cs'
    end.
End Derived.
