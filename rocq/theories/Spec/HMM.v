(** Specification vocabulary for hidden Markov models: sums over all hidden paths. *)
From Coq Require Import Reals List Arith ZArith.
From Verif Require Import Base.Sums Base.XR Spec.Categorical Model.Categorical Model.HMM.
Import ListNotations.
Local Open Scope R_scope.

(** all state sequences of length [T] over the states 0..N-1 *)
Fixpoint paths (N T : nat) : list (list nat) :=
  match T with O => [[]] | S T' => flat_map (fun s => map (cons s) (paths N T')) (seq 0 N) end.

Section Model.
Context {E : Type}.
(** initial probabilities, transition matrix (row = current state), observation probability of each state *)
Variables (pi : list R) (A : list (list R)) (b : E -> list R).
Let N := length pi.
Definition start (s : nat) : R := nth s pi 0.
Definition step (s s' : nat) : R := nth s' (nth s A []) 0.
Definition emit (s : nat) (x : E) : R := nth s (b x) 0.

(** probability of visiting [path] and emitting [obs] after having been in state [s] *)
Fixpoint continue_prob (s : nat) (path : list nat) (obs : list E) : R :=
  match path, obs with
  | s' :: path', x :: obs' => step s s' * emit s' x * continue_prob s' path' obs'
  | _, _ => 1
  end.
(** joint probability of a hidden path and its observations *)
Definition path_prob (obs : list E) (path : list nat) : R :=
  match path, obs with
  | s :: path', x :: obs' => start s * emit s x * continue_prob s path' obs'
  | _, _ => 1
  end.
(** P(observations) *)
Definition likelihood (obs : list E) : R := sumf (path_prob obs) (paths N (length obs)).
(** P(observations and state j at time t) *)
Definition state_joint (obs : list E) (t j : nat) : R :=
  sumf (fun p => if Nat.eqb (nth t p N) j then path_prob obs p else 0) (paths N (length obs)).
(** P(state j at time t | observations up to and including time t) *)
Definition filtering (obs : list E) (t j : nat) : R :=
  state_joint (firstn (S t) obs) t j / likelihood (firstn (S t) obs).
(** P(state j at time t | all observations) *)
Definition posterior (obs : list E) (t j : nat) : R := state_joint obs t j / likelihood obs.
(** P(observations after time t | state i at time t) *)
Definition future (obs : list E) (t i : nat) : R :=
  sumf (fun p => continue_prob i p (skipn (S t) obs)) (paths N (length obs - S t)).

(** the parameters are a probability vector, a stochastic matrix and non-negative observation probabilities *)
Definition stochastic : Prop :=
  is_pmf pi /\ length A = N /\ (forall row, In row A -> is_pmf row /\ length row = N) /\
  (forall x, length (b x) = N /\ forall y, In y (b x) -> 0 <= y).

(** a number that survives the clipping threshold [eps] of the implementation *)
Definition resolvable (eps x : R) : Prop := x = 0 \/ eps <= x.
(** every forward message: P(state j at t, observation t | observations before t) *)
Definition forward_resolvable (eps : R) (obs : list E) : Prop :=
  forall t j, (t < length obs)%nat -> (j < N)%nat ->
    resolvable eps (state_joint (firstn (S t) obs) t j / likelihood (firstn t obs)).
(** total weight of the backward messages at time t (the last one, all ones, is not normalised) *)
Definition future_total (obs : list E) (t : nat) : R :=
  if Nat.eqb (S t) (length obs) then 1 else sumf (future obs t) (seq 0 N).
Definition backward_resolvable (eps : R) (obs : list E) : Prop :=
  forall t i, (S t < length obs)%nat -> (i < N)%nat -> resolvable eps (future obs t i / future_total obs (S t)).
(** the products of forward and backward messages *)
Definition product_resolvable (eps : R) (obs : list E) : Prop :=
  forall t i, (t < length obs)%nat -> (i < N)%nat ->
    resolvable eps (filtering obs t i * (future obs t i / future_total obs t)).
End Model.

(** What the components of a constructed HMM report through their public attributes: the probabilities and
    logits of the categorical parts, and prob / log_prob of the observation distribution *)
Definition describes {E} (h : hmm E) (pi : list R) (A : list (list R)) (b : E -> list R) : Prop :=
  h_n h = length pi /\
  cat_probs (h_init h) = map Fin pi /\ cat_logits (h_init h) = map rlog pi /\
  map cat_probs (h_trans h) = map (map Fin) A /\ map cat_logits (h_trans h) = map (map rlog) A /\
  (forall x, ob_prob (h_obs h) x = map Fin (b x)) /\ (forall x, ob_log_prob (h_obs h) x = map rlog (b x)) /\
  stochastic pi A b.
