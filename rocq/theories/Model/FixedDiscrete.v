(** Categorical and Multinomial samples in the requested dtype: a fixed-width integer type or a floating-point
    type (categorical.py:56-60 and multinomial.py:75-79 accept both).  The draws of
    [jax.random.categorical] are arbitrary category indices. *)
From Coq Require Import Reals Bool ZArith List.
From Verif Require Import Base.XR Base.Float Model.FixedDeterministic.
Local Open Scope R_scope.

(** The arithmetic of one dtype: conversion from an integer, addition, comparison. *)
Record machine := Machine { V : Type; of_Z : Z -> V; plus : V -> V -> V; lt : V -> V -> bool }.
Definition int_machine (it : itype) : machine :=
  Machine Z (wrap it) (fun a b => wrap it (a + b)%Z) Z.ltb.
Definition float_machine (dt : dtype) : machine :=
  Machine XR (to_float dt) (fadd dt) xltb.

(** categorical.py:97-98, [categorical(...).astype(dtype)]; 128 [argmax(...).astype(dtype)] *)
Definition cast_index (m : machine) (index : nat) : V m := of_Z m (Z.of_nat index).

(** multinomial.py:163-181, [_sample_n_scalar] for one sample: [draw i] is the category drawn in the
    [i]-th iteration.  The while loop is a relation between the loop state and the returned aggregator.
    The counter is a weakly typed integer: [jnp.less] converts it to the dtype of [total_count] (171).
    Simplified: its own width (32 or 64 bits) is not modelled, the counter does not overflow. *)
Definition one_hot (m : machine) (index k : nat) : V m := of_Z m (if Nat.eqb index k then 1 else 0).  (* 177 *)
Definition cond (m : machine) (total_count : V m) (i : nat) : bool := lt m (of_Z m (Z.of_nat i)) total_count.  (* 169-171 *)
Inductive loop (m : machine) (total_count : V m) (draw : nat -> nat) : nat -> (nat -> V m) -> (nat -> V m) -> Prop :=
| loop_stop i agg : cond m total_count i = false -> loop m total_count draw i agg agg
| loop_step i agg r : cond m total_count i = true ->
    loop m total_count draw (S i) (fun k => plus m (agg k) (one_hot m (draw i) k)) r ->                (* 173-178 *)
    loop m total_count draw i agg r.
(** 81 [asarray(total_count, dtype)], 180-181 *)
Definition multinomial_sample (m : machine) (total_count : Z) (draw : nat -> nat) (r : nat -> V m) : Prop :=
  loop m (of_Z m total_count) draw 0 (fun _ => of_Z m 0) r.
