(** Specification vocabulary: Monte Carlo estimates over random seeds. *)
From Coq Require Import Reals List Arith.
From Verif Require Import Base.Result Base.XR Base.Sums Base.Tensor Spec.FiniteLaw Spec.Univariate.
Import ListNotations.
Local Open Scope R_scope.

(** the law with mass [f x] at the outcomes [xs], and the Kullback-Leibler divergence of two laws on them *)
Definition mass_law {X} (xs : list X) (f : X -> R) : law X := map (fun x => (x, f x)) xs.
Definition kl_finite {X} (xs : list X) (a b : X -> R) : R := sumf (fun x => a x * ln (a x / b x)) xs.
(** [draw key] are [n] independent outcomes with law [q], when the seed has law [m] *)
Definition draws_iid {K X} (m : law K) (draw : K -> list X) (n : nat) (q : law X) : Prop :=
  (forall key w, In (key, w) m -> length (draw key) = n /\ forall x, In x (draw key) -> exists u, In (x, u) q) /\
  forall g : list X -> R, expect (fun key => g (draw key)) m = expect g (iid n q).
(** the log-probabilities [lp], of shape n :: batch, are those of the outcomes [xs] at batch position [b] *)
Definition log_masses {X} (lp : tensor XR) (n : nat) (b : list nat) (xs : list X) (f : X -> R) : Prop :=
  forall i x, nth_error xs i = Some x -> tget (Fin 0) lp (i :: b) = rlog (f x).
(** the entry of a result *)
Definition entry (r : result (tensor XR)) (b : list nat) : XR := match r with Ok t => tget (Fin 0) t b | Err _ => NaN end.
