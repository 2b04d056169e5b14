(** Specification vocabulary: the (Frechet) Jacobian of a map between real vector spaces,
    using mathcomp matrices over the standard library's reals.  Independent of the models. *)
From mathcomp Require Import all_ssreflect all_algebra.
From Coq Require Import Reals.
From Verif Require Import Base.Result Base.Tensor Model.Bijector Spec.Bijector Base.Rmx.
Set Implicit Arguments.
Unset Strict Implicit.
Unset Printing Implicit Defensive.
Import GRing.Theory.
Delimit Scope ring_scope with Ri.
Delimit Scope R_scope with R.
Local Open Scope R_scope.

(** 1-norm of a column vector *)
Definition norm1 (n : nat) (h : 'cV[R]_n) : R := (\sum_(i < n) Rabs (h i ord0))%Ri.

(** [J] is the total derivative of [F] at [x]:
    |F(x+h) - F(x) - J h| = o(|h|). *)
Definition is_jacobian (n m : nat) (F : 'cV[R]_n -> 'cV[R]_m) (x : 'cV[R]_n) (J : 'M[R]_(m, n)) : Prop :=
  forall eps, 0 < eps -> exists delta, 0 < delta /\
    forall h : 'cV[R]_n, norm1 h < delta ->
      norm1 (F (x + h)%Ri - F x - J *m h)%Ri <= eps * norm1 h.

(** [l] is log|det J| for the (invertible) Jacobian [J] of [F] at [x]. *)
Definition is_log_det (n : nat) (F : 'cV[R]_n -> 'cV[R]_n) (x : 'cV[R]_n) (l : R) : Prop :=
  exists J, is_jacobian F x J /\ (\det J)%Ri <> 0 /\ l = ln (Rabs (\det J)%Ri).

(** The event of a batched array: the trailing axes [suf] at batch position [idx],
    flattened row-major into a column vector. *)
Definition event (suf : shape) (x : arr) (idx : list nat) : 'cV[R]_(prodl suf) :=
  (\col_(j < prodl suf) tget 0 x (idx ++ unravel suf j)%list)%Ri.

(** At the array [x] (batch shape [pre], event shape [suf]) the bijector [b] computes, in
    each batch position [idx], the map [F idx] on the event, and the log-det it reports there
    is log|det| of the true Jacobian of [F idx] at that event. *)
Definition log_det_ok (b : bij) (pre suf : shape)
    (F : list nat -> 'cV[R]_(prodl suf) -> 'cV[R]_(prodl suf)) (x : arr) : Prop :=
  exists y ld, b_fal b x = Ok (y, ld) /\ wf y /\ shp y = (pre ++ suf)%list /\ wf ld /\ shp ld = pre /\
    forall idx, inb pre idx ->
      event suf y idx = F idx (event suf x idx) /\
      is_log_det (F idx) (event suf x idx) (tget 0 ld idx).

(** Every link of a chain is correct at the point the chain feeds it. *)
Fixpoint links_log_det_ok (pre suf : shape)
    (bs : list (bij * (list nat -> 'cV[R]_(prodl suf) -> 'cV[R]_(prodl suf)))) (x : arr) : Prop :=
  match bs with
  | nil => True
  | cons (b, F) rest =>
      links_log_det_ok pre rest x /\
      forall z, compose_forward (List.map fst rest) x = Ok z -> log_det_ok b pre F z
  end.
Fixpoint compose_maps (n : nat) (Fs : list (list nat -> 'cV[R]_n -> 'cV[R]_n)) (idx : list nat) (v : 'cV[R]_n) : 'cV[R]_n :=
  match Fs with nil => v | cons F rest => F idx (compose_maps rest idx v) end.

(** The array of shape [s] holding a column vector, row-major. *)
Definition unflat (s : shape) (v : 'cV[R]_(prodl s)) : arr :=
  mkT s (List.map (fun i => match insub i with Some j => v j ord0 | None => 0 end) (List.seq 0 (prodl s))).

(** The rank-1 array holding an n-vector. *)
Definition vec (n : nat) (v : 'cV[R]_n) : arr :=
  mkT (cons n nil) (List.map (fun i => match insub i with Some j => v j ord0 | None => 0 end) (List.seq 0 n)).
(** The two coupling maps on (k + r)-vectors: the first (resp. second) part is kept. *)
Definition coupling_lower (k r : nat) (G : 'cV[R]_k -> 'cV[R]_r -> 'cV[R]_r) (v : 'cV[R]_(k + r)) : 'cV[R]_(k + r) :=
  col_mx (usubmx v) (G (usubmx v) (dsubmx v)).
Definition coupling_upper (k r : nat) (G : 'cV[R]_r -> 'cV[R]_k -> 'cV[R]_k) (v : 'cV[R]_(k + r)) : 'cV[R]_(k + r) :=
  col_mx (G (dsubmx v) (usubmx v)) (dsubmx v).
