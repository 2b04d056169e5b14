From Coq Require Import List Reals ZArith Bool Lia FunctionalExtensionality.
From Verif Require Import Base.Result Base.Sums Base.Tensor Model.Bijector Model.Lambda Spec.Lambda
  Proofs.Bijector.
Import ListNotations.
Local Open Scope Z_scope.

Section P.
  Variables inv lds : fn -> fn.
  Variable icj : fn -> bool.

  Lemma lambda_init_rejects a :
    (rejected a <-> lambda_init icj a = Err ValueError) /\
    (forall e, lambda_init icj a = Err e -> e = ValueError).
  Proof.
    unfold rejected, lambda_init, base_init.
    destruct a as [f g lf lg nin nout cj]; cbn.
    destruct f as [f|], g as [g|], lf as [lf|], lg as [lg|], nin as [nin|], nout as [nout|]; cbn;
    repeat match goal with |- context [if ?b then _ else _] =>
      lazymatch b with context [if _ then _ else _] => fail | _ => destruct b eqn:? end end;
    cbn in *; try (destruct (match cj with Some c => c | None => _ end); discriminate);
    repeat match goal with
    | H : (_ <? _) = true |- _ => apply Z.ltb_lt in H
    | H : (_ <? _) = false |- _ => apply Z.ltb_ge in H end;
    (split; [split; [intros HH; try reflexivity; exfalso|intros HH; try discriminate HH]|intros e HH; try discriminate HH; congruence]);
    repeat match goal with
    | H : _ \/ _ |- _ => destruct H
    | H : _ /\ _ |- _ => destruct H
    | H : exists _, _ |- _ => destruct H
    | H : Some _ = Some _ |- _ => injection H as <- end;
    try congruence; try lia;
    try (left; split; reflexivity);
    try (right; left; split; [first [left; congruence | right; congruence]|reflexivity]);
    try (right; right; left; split; [reflexivity|split; [reflexivity|first [left; congruence | right; congruence]]]);
    try (right; right; right; left; eexists; split; [reflexivity|lia]);
    try (right; right; right; right; eexists; split; [reflexivity|lia]).
  Qed.

  Definition consistent (a : lambda_args) (s : lambda_state) : Prop :=
    m_in (l_meta s) = doc_in a /\ m_out (l_meta s) = doc_out a /\
    (a_fwd a <> None \/ a_inv a <> None) /\
    (match a_fwd a with
     | Some f => l_fwd s = Given f
     | None => l_fwd s = Unset \/ exists g, a_inv a = Some g /\ l_fwd s = Inverted (inv g) end) /\
    (match a_inv a with
     | Some g => l_inv s = Given g
     | None => l_inv s = Unset \/ exists f, a_fwd a = Some f /\ l_inv s = Inverted (inv f) end) /\
    (match a_fld a with Some h => l_fld s = Given h | None => l_fld s = Unset \/ l_fld s = Differentiated end) /\
    (match a_ild a with Some h => l_ild s = Given h | None => l_ild s = Unset \/ l_ild s = Differentiated end).

  Lemma init_consistent a s : lambda_init icj a = Ok s -> consistent a s.
  Proof.
    unfold lambda_init, base_init, consistent, doc_out, doc_in.
    destruct a as [f g lf lg nin nout cj]; cbn.
    destruct f as [f|], g as [g|], lf as [lf|], lg as [lg|], nin as [nin|], nout as [nout|]; cbn; try discriminate;
    repeat match goal with |- context [if ?b then _ else _] =>
      lazymatch b with context [if _ then _ else _] => fail | _ => destruct b eqn:? end end; cbn; try discriminate;
    intros H; injection H as <-; cbn;
    (repeat split; auto; first [left; congruence | right; congruence]).
  Qed.

  Lemma forward_ok a s : consistent a s -> forall x,
    snd (lambda_forward inv s x) = doc_method_forward inv a x /\ consistent a (fst (lambda_forward inv s x)).
  Proof.
    intros C x. pose proof C as (Hi & Ho & Hn & Hf & Hg & Hlf & Hlg).
    unfold lambda_forward, doc_method_forward, guarded, check_input_shape, rank. rewrite Hi.
    destruct (_ <? _); cbn; [auto|]. unfold doc_forward.
    destruct (a_fwd a) as [f|] eqn:Ef.
    - rewrite Hf; cbn; auto.
    - destruct (a_inv a) as [g|] eqn:Eg; [|destruct Hn; congruence].
      rewrite Hg. destruct Hf as [Hf|(g' & E & Hf)].
      + rewrite Hf; cbn. split; [reflexivity|]. unfold consistent; cbn. rewrite Ef, Eg.
        repeat split; auto. right; exists g; auto.
      + injection E as <-. rewrite Hf; cbn; auto.
  Qed.
  Lemma inverse_ok a s : consistent a s -> forall x,
    snd (lambda_inverse inv s x) = doc_method_inverse inv a x /\ consistent a (fst (lambda_inverse inv s x)).
  Proof.
    intros C x. pose proof C as (Hi & Ho & Hn & Hf & Hg & Hlf & Hlg).
    unfold lambda_inverse, doc_method_inverse, guarded, check_input_shape, rank. rewrite Ho.
    destruct (_ <? _); cbn; [auto|]. unfold doc_inverse.
    destruct (a_inv a) as [g|] eqn:Eg.
    - rewrite Hg; cbn; auto.
    - destruct (a_fwd a) as [f|] eqn:Ef; [|destruct Hn; congruence].
      rewrite Hf. destruct Hg as [Hg|(g' & E & Hg)].
      + rewrite Hg; cbn. split; [reflexivity|]. unfold consistent; cbn. rewrite Ef, Eg.
        repeat split; auto. right; exists f; auto.
      + injection E as <-. rewrite Hg; cbn; auto.
  Qed.
  Lemma fld_ok a s : consistent a s -> forall x,
    snd (lambda_fld inv lds s x) = doc_method_fld inv lds a x /\ consistent a (fst (lambda_fld inv lds s x)).
  Proof.
    intros C x. pose proof C as (Hi & Ho & Hn & Hf & Hg & Hlf & Hlg).
    unfold lambda_fld. unfold check_input_shape, rank. rewrite Hi.
    unfold doc_method_fld. unfold guarded at 1.
    destruct (_ <? _); cbn; [auto|].
    destruct (a_fld a) as [h|] eqn:E.
    - rewrite Hlf; cbn; auto.
    - destruct (forward_ok a s C (tscalar 0%R)) as [_ C'].
      assert (K : (fun z => snd (lambda_forward inv (fst (lambda_forward inv s (tscalar 0%R))) z))
                  = doc_method_forward inv a).
      { extensionality z. apply forward_ok, C'. }
      destruct Hlf as [Hlf|Hlf]; rewrite Hlf; cbn; rewrite K; (split; [reflexivity|]);
      destruct C' as (D1&D2&D3&D4&D5&D6&D7); unfold consistent; cbn; rewrite E; repeat split; auto.
  Qed.
  Lemma ild_ok a s : consistent a s -> forall x,
    snd (lambda_ild inv lds s x) = doc_method_ild inv lds a x /\ consistent a (fst (lambda_ild inv lds s x)).
  Proof.
    intros C x. pose proof C as (Hi & Ho & Hn & Hf & Hg & Hlf & Hlg).
    unfold lambda_ild. unfold check_input_shape, rank. rewrite Ho.
    unfold doc_method_ild. unfold guarded at 1.
    destruct (_ <? _); cbn; [auto|].
    destruct (a_ild a) as [h|] eqn:E.
    - rewrite Hlg; cbn; auto.
    - destruct (inverse_ok a s C (tscalar 0%R)) as [_ C'].
      assert (K : (fun z => snd (lambda_inverse inv (fst (lambda_inverse inv s (tscalar 0%R))) z))
                  = doc_method_inverse inv a).
      { extensionality z. apply inverse_ok, C'. }
      destruct Hlg as [Hlg|Hlg]; rewrite Hlg; cbn; rewrite K; (split; [reflexivity|]);
      destruct C' as (D1&D2&D3&D4&D5&D6&D7); unfold consistent; cbn; rewrite E; repeat split; auto.
  Qed.
  Lemma seq2_ok a m1 m2 d1 d2 s x :
    (forall s, consistent a s -> forall x, snd (m1 s x) = d1 x /\ consistent a (fst (m1 s x))) ->
    (forall s, consistent a s -> forall x, snd (m2 s x) = d2 x /\ consistent a (fst (m2 s x))) ->
    consistent a s -> snd (seq2 m1 m2 s x) = both d1 d2 x /\ consistent a (fst (seq2 m1 m2 s x)).
  Proof.
    intros H1 H2 C. destruct (H1 s C x) as [E1 C1]. unfold seq2, both. destruct (m1 s x) as [s1 r1]; cbn in *.
    rewrite <- E1. destruct r1; cbn; [|auto].
    destruct (H2 s1 C1 x) as [E2 C2]. destruct (m2 s1 x) as [s2 r2]; cbn in *. rewrite <- E2. split; [|auto].
    destruct r2; reflexivity.
  Qed.
  Lemma call_ok a s c : consistent a s ->
    snd (lambda_call inv lds s c) = doc_answer inv lds a c /\ consistent a (fst (lambda_call inv lds s c)).
  Proof.
    intros C. destruct c as [x|x|x|x|x|x]; cbn.
    - destruct (forward_ok a s C x) as [E D]; destruct (lambda_forward inv s x); cbn in *; subst; auto.
    - destruct (inverse_ok a s C x) as [E D]; destruct (lambda_inverse inv s x); cbn in *; subst; auto.
    - destruct (fld_ok a s C x) as [E D]; destruct (lambda_fld inv lds s x); cbn in *; subst; auto.
    - destruct (ild_ok a s C x) as [E D]; destruct (lambda_ild inv lds s x); cbn in *; subst; auto.
    - destruct (seq2_ok a _ _ _ _ s x (forward_ok a) (fld_ok a) C) as [E D];
        destruct (seq2 _ _ s x); cbn in *; subst; auto.
    - destruct (seq2_ok a _ _ _ _ s x (inverse_ok a) (ild_ok a) C) as [E D];
        destruct (seq2 _ _ s x); cbn in *; subst; auto.
  Qed.
  Lemma calls_ok a s cs : consistent a s -> lambda_calls inv lds s cs = map (doc_answer inv lds a) cs.
  Proof.
    revert s; induction cs as [|c cs IH]; intros s C; [reflexivity|]. cbn.
    destruct (call_ok a s c C) as [E D]. destruct (lambda_call inv lds s c) as [s' r]; cbn in *.
    rewrite E, IH; auto.
  Qed.
  Lemma init_meta a s : lambda_init icj a = Ok s ->
    m_in (l_meta s) = doc_in a /\ m_out (l_meta s) = doc_out a /\
    m_cl (l_meta s) = m_cj (l_meta s) /\
    m_cj (l_meta s) = match a_cj a, a_fwd a, a_inv a with
                      | Some c, _, _ => c | None, Some f, _ => icj f | None, None, Some g => icj g
                      | _, _, _ => false end.
  Proof.
    unfold lambda_init, base_init, doc_out, doc_in.
    destruct a as [f g lf lg nin nout cj]; cbn.
    destruct f as [f|], g as [g|], lf as [lf|], lg as [lg|], nin as [nin|], nout as [nout|]; cbn; try discriminate;
    repeat match goal with |- context [if ?b then _ else _] =>
      lazymatch b with context [if _ then _ else _] => fail | _ => destruct b eqn:? end end; cbn; try discriminate;
    intros H; injection H as <-; cbn; auto.
  Qed.
End P.
