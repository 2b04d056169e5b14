(** Specification vocabulary for distributions over finitely many categories. *)
From Coq Require Import Reals List ZArith.
From Verif Require Import Base.XR Base.Sums.
Import ListNotations.
Local Open Scope R_scope.

(** a probability vector *)
Definition is_pmf (p : list R) : Prop := (forall x, In x p -> 0 <= x) /\ rsum p = 1.
(** the probability of the integer [k] under the vector [p]: zero outside 0..K-1 *)
Definition pmf_at (p : list R) (k : Z) : R :=
  if (Z.leb 0 k && Z.ltb k (Z.of_nat (length p)))%bool then nth (Z.to_nat k) p 0 else 0.
(** the sum of the probabilities of the categories 0..k *)
Definition cumulative (p : list R) (k : Z) : R :=
  rsum (map (fun j => pmf_at p (Z.of_nat j)) (seq 0 (Z.to_nat (k + 1)))).
(** weights divided by their total *)
Definition normalised (w : list R) : list R := map (fun x => x / rsum w) w.
(** Legal parameters.  Logits may be -inf (an impossible category) but not all of them, probs are
    non-negative reals not all zero.  [w] is the weight that the parameters give to each category. *)
Definition weight (a : XR) : R := match a with Fin x => exp x | _ => 0 end.
Definition legal_logits (l : list XR) : Prop :=
  (forall a, In a l -> a = NInf \/ exists x, a = Fin x) /\ exists x, In (Fin x) l.
Definition legal_probs (w : list R) : Prop := (forall x, In x w -> 0 <= x) /\ 0 < rsum w.
Definition parametrises (logits probs : option (list XR)) (w : list R) : Prop :=
  (exists l, logits = Some l /\ probs = None /\ legal_logits l /\ w = map weight l) \/
  (logits = None /\ probs = Some (map Fin w) /\ legal_probs w).
(** x log x with 0 log 0 = 0 *)
Definition xlnx (x : R) : R := if Req_EM_T x 0 then 0 else x * ln x.
Definition shannon_entropy (p : list R) : R := - rsum (map xlnx p).
(** one summand of the KL divergence, p log (p / q) with 0 log (0 / q) = 0 *)
Definition kl_term (pq : R * R) : R := let (p, q) := pq in if Req_EM_T p 0 then 0 else p * ln (p / q).
Definition kullback_leibler (p q : list R) : R := rsum (map kl_term (combine p q)).
(** one summand of the cross entropy, - p log q with 0 log 0 = 0 *)
Definition ce_term (pq : R * R) : R := let (p, q) := pq in if Req_EM_T p 0 then 0 else - (p * ln q).
Definition cross_entropy_of (p q : list R) : R := rsum (map ce_term (combine p q)).
(** every category possible under p is possible under q *)
Definition absolutely_continuous (p q : list R) : Prop := forall k, 0 < nth k p 0 -> 0 < nth k q 0.
(** the vector with a one at position [k] *)
Definition indicator (k K : nat) : list XR := map (fun i => if Nat.eqb i k then Fin 1 else Fin 0) (seq 0 K).
(** the extended-real order on preferences (no NaN) *)
Definition pref_le (a b : XR) : Prop :=
  match a, b with
  | NaN, _ | _, NaN => False
  | NInf, _ | _, PInf => True
  | Fin x, Fin y => x <= y
  | _, _ => False
  end.
(** [best] lists, without repetition, exactly the positions of maximal preference *)
Definition argmax_set (prefs : list XR) (best : list nat) : Prop :=
  NoDup best /\
  forall i, In i best <->
            (i < length prefs)%nat /\ forall j, (j < length prefs)%nat -> pref_le (nth j prefs NaN) (nth i prefs NaN).
