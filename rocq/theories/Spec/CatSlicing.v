(** Specification vocabulary: legal parameters of a batch of categorical distributions. *)
From Coq Require Import List Reals.
From Verif Require Import Base.Result Base.Tensor Base.XR Model.Categorical Model.CatSlicing Spec.Categorical.
Import ListNotations.

(** an array of shape batch + (K,) whose rows are legal logits (C34), or legal probs *)
Definition legal_rows (k : cat_kind) (t : tensor XR) (batch : shape) (K : nat) : Prop :=
  wf t /\ shp t = batch ++ [K] /\
  forall i, inb batch i -> match k with KLogits => legal_logits (vec t i) | KProbs => exists w, vec t i = map Fin w /\ legal_probs w end.
(** Categorical(logits=t) or Categorical(probs=t) *)
Definition construct (k : cat_kind) (t : tensor XR) (dt : dtype) : result catb :=
  match k with KLogits => catb_init (Some t) None dt | KProbs => catb_init None (Some t) dt end.
