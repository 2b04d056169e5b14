(** Specification vocabulary for mixtures. *)
From Coq Require Import List Reals.
From Verif Require Import Base.Result Base.Sums Base.Tensor Base.XR Spec.Categorical Model.Mixture.
Import ListNotations.
Local Open Scope R_scope.

(** the event at position [pre] of an array of events of shape [es] *)
Definition event_at (es : shape) (x : tensor XR) (pre : list nat) : tensor XR :=
  tgen es (fun e => tget (Fin 0) x (pre ++ e)).
(** the logits of batch element [b] *)
Definition logits_at (t : tensor XR) (K : nat) (b : list nat) : list XR :=
  map (fun k => tget (Fin 0) t (b ++ [k])) (seq 0 K).
(** the mixture weights of batch element [b]: the exponentials of its logits over their total *)
Definition mixture_weight (t : tensor XR) (K : nat) (b : list nat) (k : nat) : R :=
  nth k (normalised (map weight (logits_at t K b))) 0.
(** the logits of every batch element are legal (some -inf allowed, not all) *)
Definition legal_mixture (t : tensor XR) (bs : shape) (K : nat) : Prop :=
  shp t = (bs ++ [K])%list /\ forall b, inb bs b -> legal_logits (logits_at t K b).
(** log_prob of [d] is the log of the densities [f b k] of its batch elements (b, k), at every event of any array
    that broadcasts along the component axis and whose entries are legal values [D] (finite numbers, say: the log_prob of a nan is nan, which is
    not the logarithm of a density) *)
Definition has_densities {key} (D : XR -> Prop) (d : xdist key) (bs : shape) (K : nat) (es : shape)
    (f : list nat -> nat -> tensor XR -> R) : Prop :=
  (forall b k v, 0 <= f b k v) /\
  forall s x, wf x -> List.Forall D (dat x) -> shp x = (s ++ bs ++ 1%nat :: es)%list ->
  exists lp, x_log_prob d x = Ok lp /\ shp lp = (s ++ bs ++ [K])%list /\
    forall i b k, inb s i -> inb bs b -> (k < K)%nat ->
      tget (Fin 0) lp (i ++ b ++ [k]) = rlog (f b k (event_at es x (i ++ b ++ [0%nat]))).
(** the array [t] of shape [s] holds the reals [f] *)
Definition holds_reals (t : tensor XR) (s : shape) (f : list nat -> R) : Prop :=
  shp t = s /\ forall i, inb s i -> tget (Fin 0) t i = Fin (f i).
(** An averaging operation: [E g v] says that [v] is the average of [g] under some probability distribution on [X]. *)
Record averaging {X} (E : (X -> R) -> R -> Prop) : Prop := {
  avg_one : E (fun _ => 1) 1;
  avg_scale : forall c g u, E g u -> E (fun x => c * g x) (c * u);
  avg_plus : forall g h u v, E g u -> E h v -> E (fun x => g x + h x) (u + v);
  avg_ext : forall g h u, (forall x, g x = h x) -> E g u -> E h u
}.
(** the average under the mixture of K distributions with weights [w] *)
Definition mixture_average {X} (K : nat) (w : nat -> R) (E : nat -> (X -> R) -> R -> Prop) (g : X -> R) (v : R) : Prop :=
  exists u : nat -> R, (forall k, (k < K)%nat -> E k g (u k)) /\ v = sumf (fun k => w k * u k) (seq 0 K).
(** mean and variance under an averaging operation *)
Definition mean_of {X} (E : (X -> R) -> R -> Prop) (coord : X -> R) (m : R) : Prop := E coord m.
Definition variance_of {X} (E : (X -> R) -> R -> Prop) (coord : X -> R) (v : R) : Prop :=
  exists m, E coord m /\ E (fun x => (coord x - m) ^ 2) v.
(** [t] holds one real for each batch element, component and event coordinate *)
Definition component_reals (t : tensor XR) (bs : shape) (K : nat) (es : shape) (m : list nat -> nat -> list nat -> R) : Prop :=
  shp t = (bs ++ K :: es)%list /\
  forall b k e, inb bs b -> (k < K)%nat -> inb es e -> tget (Fin 0) t (b ++ k :: e) = Fin (m b k e).
(** [t] holds one real for each batch element and event coordinate *)
Definition event_reals (t : tensor XR) (bs es : shape) (m : list nat -> list nat -> R) : Prop :=
  shp t = (bs ++ es)%list /\ wf t /\ forall b e, inb bs b -> inb es e -> tget (Fin 0) t (b ++ e) = Fin (m b e).
(** the mixture distribution has legal logits for K components over the batch [bs], and the components distribution has
    batch shape bs ++ [K] and events of shape es *)
Definition mixture_of {key} (mix : mixing key) (comp : xdist key) (bs : shape) (K : nat) (es : shape) : Prop :=
  legal_mixture (m_logits mix) bs K /\ m_batch mix = bs /\ x_batch comp = (bs ++ [K])%list /\ x_event comp = es.
