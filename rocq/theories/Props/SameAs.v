(** C27: same_as. *)
From Coq Require Import List Reals ZArith Bool Lia.
From Verif Require Import Base.Result Base.Sums Base.Tensor Model.Bijector Model.ScalarBij Model.Linear
  Model.SameAs Spec.Bijector Spec.SameAs Proofs.SameAs.
Import ListNotations.

(** If [a.same_as(b)] is True for two successfully constructed objects then they behave alike. *)
Theorem C27_same_as_sound : forall h a b ba bb,
  all_stored_ok h a -> all_stored_ok h b -> denote h a = Ok ba -> denote h b = Ok bb ->
  same_as a b = true -> agree_where_valid ba bb.
Proof. intros h a b ba bb. exact (respects_all h a b ba bb). Qed.
Print Assumptions C27_same_as_sound.

(** Every bijector built from the classes that override same_as (other than Lambda) is the same
    as itself. *)
Fixpoint comparable (o : obj) : Prop :=
  match o with
  | OChain l => (fix go (l : list obj) : Prop := match l with [] => True | o :: l' => comparable o /\ go l' end) l
  | OInverse o | OBlock o _ => comparable o
  | OLambda _ | OOther _ => False
  | _ => True
  end.
Theorem C27_same_as_reflexive : forall o, comparable o -> same_as o o = true.
Proof.
  intros o. induction o as [l IH|o IH|o k IH|a Ha] using obj_ind'; cbn [comparable same_as]; intros H.
  - rewrite Nat.eqb_refl. cbn. induction IH as [|o l Ho _ IHl]; [auto|]. destruct H as [H1 H2].
    rewrite (Ho H1). cbn. apply IHl, H2.
  - auto.
  - rewrite IH, Z.eqb_refl; auto.
  - destruct a; try contradiction; cbn in *; try contradiction; rewrite ?Nat.eqb_refl, ?Bool.eqb_reflx; auto.
Qed.
Print Assumptions C27_same_as_reflexive.

(** same_as is not symmetric: a one-link Chain equals its link, not conversely. *)
Theorem C27_same_as_symmetry_refuted :
  same_as (OChain [OTanh]) OTanh = true /\ same_as OTanh (OChain [OTanh]) = false.
Proof. split; reflexivity. Qed.
Print Assumptions C27_same_as_symmetry_refuted.

(** A Lambda bijector is never "the same", not even as itself. *)
Theorem C27_lambda_never_same : forall b o, same_as (OLambda b) o = false.
Proof. reflexivity. Qed.
Print Assumptions C27_lambda_never_same.

(** Two different objects sharing arrays: Chain([Block(ScalarAffine(a0, a1), 1), Inverse(Tanh)])
    built twice from the same arrays (the derived log_scale, a2, is shared). *)
Example C27_nonvacuous :
  let h : heap := fun a => match a with 0 => tscalar 5%R | 1 => tscalar 2%R | 2 => tscalar (ln (Rabs 2)) | _ => tscalar 0%R end in
  let o := OChain [OBlock (OScalarAffine (Some 1) None 0 1 2) 1; OBlock (OInverse OTanh) 1] in
  all_stored_ok h o /\ (exists b, denote h o = Ok b) /\ same_as o o = true /\
  same_as (OChain [OInverse o]) (OInverse o) = true.
Proof.
  cbv zeta. split; [|split; [eexists; reflexivity|split; reflexivity]].
  cbn. repeat split; auto. eexists. reflexivity.
Qed.
