(** Specification vocabulary: averages over random seeds for laws with densities. *)
From Coq Require Import Reals List.
From Coquelicot Require Import Coquelicot.
From Verif Require Import Base.Sums Base.Integral Spec.Flow.
Import ListNotations.
Local Open Scope R_scope.

(** [E F v] says that the average of [F] over the seed exists and is [v]; averaging is linear *)
Definition linear_average {K} (E : (K -> R) -> R -> Prop) : Prop :=
  (forall F G u v, E F u -> E G v -> E (fun k => F k + G k) (u + v)) /\
  (forall c F v, E F v -> E (fun k => c * F k) (c * v)).
(** each of the [n] draws has density [q] with respect to the integral [I] ([I h v]: h is integrable with integral v): the average of g(draw) is the integral of g q *)
Definition draws_with_density {K X} (E : (K -> R) -> R -> Prop) (I : (X -> R) -> R -> Prop) (draw : K -> nat -> X) (n : nat) (q : X -> R) : Prop :=
  forall i g v, (i < n)%nat -> I (fun x => g x * q x) v -> E (fun key => g (draw key i)) v.

(** The case of [n] independent real draws with density [q]: the seed is the list of draws, and the average is the iterated integral against the product density. *)
Definition line_integral (h : R -> R) (v : R) : Prop := (forall t, continuous h t) /\ integral h v.
Definition draw_coords (n : nat) : list coord := map (fun i => [i]) (seq 0 n).
Definition iid_average (n : nat) (q : R -> R) (F : point -> R) (v : R) : Prop :=
  iterated_smooth (draw_coords n) (fun x => F x * prodf (fun i => q (x i)) (draw_coords n)) (fun _ => v).
