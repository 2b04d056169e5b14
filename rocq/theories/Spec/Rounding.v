(** Vocabulary of the floating-point properties. *)
From Coq Require Import Reals List ZArith.
From Flocq Require Import Core.
From Verif.Base Require Import XR Float.
Import ListNotations.
Local Open Scope R_scope.

(** [u] is a possible output of [jax.random.uniform(key, dtype=dt, minval=0., maxval=1.)]: jax fills
    the [mant dt - 1] fraction bits of a number in [1, 2) with random bits and subtracts 1, so the
    outputs are the multiples of [2 ^ (1 - mant dt)] in [0, 1), all equally likely. *)
Definition grid (dt : dtype) : R := bpow radix2 (1 - mant dt).
Definition uniform_output (dt : dtype) (u : R) : Prop :=
  exists k : Z, (0 <= k < 2 ^ (mant dt - 1))%Z /\ u = IZR k * grid dt.

(** An order of summation of a vector: any binary tree of additions. *)
Inductive order := At (i : nat) | Plus (l r : order).
Fixpoint visits (o : order) : list nat :=
  match o with At i => [i] | Plus l r => visits l ++ visits r end.
Fixpoint depth (o : order) : nat :=
  match o with At _ => 0 | Plus l r => S (Nat.max (depth l) (depth r)) end.
(** [v] is the sum of [p] computed in dtype [dt] in the order [o]. *)
Fixpoint sum_in (dt : dtype) (o : order) (p : nat -> XR) : XR :=
  match o with At i => p i | Plus l r => fadd dt (sum_in dt l p) (sum_in dt r p) end.

(** The probability that a function of one draw of [jax.random.uniform] returns [true]: the fraction
    of the equally likely outputs on which it does. *)
Definition outputs (dt : dtype) : list R :=
  map (fun k => INR k * grid dt) (seq 0 (Z.to_nat (2 ^ (mant dt - 1)))).
Definition frequency (dt : dtype) (f : R -> bool) : R :=
  INR (length (filter f (outputs dt))) / INR (length (outputs dt)).

(** Order of floating-point values, false when either is NaN. *)
Definition fle (a b : XR) : Prop := xleb a b = true.
(** [x] is a value of the dtype: NaN, an infinity or a representable real. *)
Definition value (dt : dtype) (x : XR) : Prop := match x with Fin r => repr dt r | _ => True end.

(** What is assumed of the library's elementary functions in floating point: far less than correct
    rounding (Proofs/FloatLib.v shows that correctly rounded functions qualify). *)
Record log_fn (dt : dtype) (L : XR -> XR) : Prop := {
  log_fn_finite : forall x, 0 < x -> repr dt x -> exists r, L (Fin x) = Fin r /\ repr dt r /\ Rabs r <= bpow radix2 (emax dt - 1);
  log_fn_one : L (Fin 1) = Fin 0;
  log_fn_mono : forall x y, 0 < x -> repr dt x -> repr dt y -> x <= y -> fle (L (Fin x)) (L (Fin y));
  log_fn_zero : L (Fin 0) = NInf;
  log_fn_inf : L PInf = PInf }.
Record exp_fn (dt : dtype) (E : XR -> XR) : Prop := {
  exp_fn_value : forall x, value dt x -> value dt (E x);
  exp_fn_zero : E (Fin 0) = Fin 1;
  exp_fn_mono : forall x y, value dt x -> value dt y -> fle x y -> fle (E x) (E y);
  exp_fn_ninf : E NInf = Fin 0;
  exp_fn_inf : E PInf = PInf }.
Record softplus_fn (dt : dtype) (S : XR -> XR) : Prop := {
  softplus_fn_finite : forall x, repr dt x -> exists r, S (Fin x) = Fin r /\ repr dt r /\ 0 <= r /\ x <= r;
  softplus_fn_mono : forall x y, repr dt x -> repr dt y -> x <= y -> fle (S (Fin x)) (S (Fin y));
  softplus_fn_ninf : S NInf = Fin 0;
  softplus_fn_inf : S PInf = PInf }.
