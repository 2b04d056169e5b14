From Coq Require Import List Reals ZArith Bool Lia Lra.
From Verif Require Import Base.Result Model.Jaxpr Spec.Jaxpr Proofs.JaxprPrims.
Import ListNotations.
Local Open Scope R_scope.

(** ** Induction principles for nested programs *)
Section EqnInd.
  Variable P : eqn -> Prop.
  Hypothesis H1 : forall p a o, P (EUn p a o).
  Hypothesis H2 : forall n a o, P (EIntPow n a o).
  Hypothesis H3 : forall p a b o, P (EBin p a b o).
  Hypothesis H4 : forall n a o, P (EMany n a o).
  Hypothesis H5 : forall i c body o k a r, Forall P body -> P (ECall i c body o k a r).
  Fixpoint eqn_ind' (q : eqn) : P q :=
    match q with
    | EUn p a o => H1 p a o
    | EIntPow n a o => H2 n a o
    | EBin p a b o => H3 p a b o
    | EMany n a o => H4 n a o
    | ECall i c body o k a r => H5 i c body o k a r
        ((fix go (l : list eqn) : Forall P l :=
            match l with [] => Forall_nil P | q :: l' => Forall_cons q (eqn_ind' q) (go l') end) body)
    end.
End EqnInd.
Section GeqnInd.
  Variable P : geqn -> Prop.
  Hypothesis H1 : forall n a o, P (GPrim n a o).
  Hypothesis H2 : forall i body o a r, Forall P body -> P (GCall i body o a r).
  Fixpoint geqn_ind' (q : geqn) : P q :=
    match q with
    | GPrim n a o => H1 n a o
    | GCall i body o a r => H2 i body o a r
        ((fix go (l : list geqn) : Forall P l :=
            match l with [] => Forall_nil P | q :: l' => Forall_cons q (geqn_ind' q) (go l') end) body)
    end.
End GeqnInd.

Lemma NoDup_app_remove_l {A} (l l' : list A) : NoDup (l ++ l') -> NoDup l'.
Proof. induction l as [|a l IH]; cbn; [auto|]. intros H; inversion H; auto. Qed.
Lemma NoDup_app_remove_r {A} (l l' : list A) : NoDup (l ++ l') -> NoDup l.
Proof.
  induction l as [|a l IH]; cbn; [constructor|]. intros H; inversion H; subst. constructor; auto.
  intros K; apply H2, in_app_iff; auto.
Qed.

(** ** Environments *)
Definition ext (e e' : env) : Prop := forall v x, e v = Some x -> e' v = Some x.
Definition dom_in (e : env) (bound : list var) : Prop := forall v x, e v = Some x -> In v bound.
Lemma ext_refl e : ext e e. Proof. intros v x H; exact H. Qed.
Lemma ext_trans a b c : ext a b -> ext b c -> ext a c.
Proof. intros H1 H2 v x H; auto. Qed.
Lemma upd_same e v x : upd e v x v = Some x. Proof. unfold upd; rewrite Nat.eqb_refl; auto. Qed.
Lemma upd_other e v x w : w <> v -> upd e v x w = e w.
Proof. intros H; unfold upd. destruct (Nat.eqb_spec w v); congruence. Qed.
Lemma ext_upd_fresh e bound v x : dom_in e bound -> ~ In v bound -> ext e (upd e v x).
Proof.
  intros D N w y H. rewrite upd_other; auto. intros ->. apply N. eapply D; eauto.
Qed.
Lemma dom_upd e bound v x : dom_in e bound -> dom_in (upd e v x) (v :: bound).
Proof.
  intros D w y H. unfold upd in H. destruct (Nat.eqb_spec w v); [subst; left; auto|right; eapply D; eauto].
Qed.
Lemma upd_ext_into r F v x : ext r F -> F v = Some x -> ext (upd r v x) F.
Proof.
  intros H Hx w y Hw. unfold upd in Hw. destruct (Nat.eqb_spec w v); [subst; congruence|auto].
Qed.
Lemma write_all_spec vs xs e e' bound : write_all e vs xs = Ok e' -> NoDup vs -> dom_in e bound ->
  (forall v, In v vs -> ~ In v bound) ->
  ext e e' /\ dom_in e' (vs ++ bound) /\ Forall2 (fun v x => e' v = Some x) vs xs.
Proof.
  revert xs e bound; induction vs as [|v vs IH]; intros [|x xs] e bound H N D F; try discriminate; cbn in H.
  - injection H as <-. split; [apply ext_refl|split; [auto|constructor]].
  - inversion N as [|? ? N1 N2]; subst.
    assert (Fv : ~ In v bound) by (apply F; left; auto).
    destruct (IH xs (upd e v x) (v :: bound) H N2 (dom_upd _ _ _ _ D)) as (A & B & C).
    { intros w Hw [->|Hb]; [auto|]. apply (F w); [right; auto|auto]. }
    split; [|split].
    + eapply ext_trans; [eapply ext_upd_fresh; eauto|exact A].
    + intros w y Hw. apply B in Hw. apply in_app_iff in Hw as [Hw|[->|Hw]]; cbn; rewrite in_app_iff; auto.
    + constructor; [|exact C]. apply A, upd_same.
Qed.
Lemma dom_empty bound : dom_in empty_env bound. Proof. intros v x H; discriminate. Qed.
Lemma write_all_length vs xs e e' : write_all e vs xs = Ok e' -> length vs = length xs.
Proof. revert xs e; induction vs as [|v vs IH]; intros [|x xs] e H; try discriminate; cbn in *; eauto. Qed.
Lemma write_all_into vs xs r F r' : write_all r vs xs = Ok r' -> ext r F ->
  Forall2 (fun v x => F v = Some x) vs xs -> ext r' F.
Proof.
  revert xs r; induction vs as [|v vs IH]; intros [|x xs] r H E Q; try discriminate; cbn in H.
  - injection H as <-; auto.
  - inversion Q; subst. eapply IH; [exact H| |auto]. apply upd_ext_into; auto.
Qed.
Lemma write_atoms_into vs xs r F r' : write_atoms r vs xs = Ok r' -> ext r F ->
  Forall2 (fun a x => read F a = Ok x) vs xs -> ext r' F.
Proof.
  revert xs r; induction vs as [|[v|c] vs IH]; intros [|x xs] r H E Q; try discriminate; cbn in H.
  - injection H as <-; auto.
  - inversion Q; subst. eapply IH; [exact H| |auto]. apply upd_ext_into; auto. cbn in H3.
    destruct (F v); [congruence|discriminate].
  - inversion Q; subst. eapply IH; eauto.
Qed.
Lemma rmapM_Forall2 {A B} (f : A -> result B) l ys : rmapM f l = Ok ys -> Forall2 (fun a y => f a = Ok y) l ys.
Proof.
  revert ys; induction l as [|a l IH]; intros ys H; cbn in H; [injection H as <-; constructor|].
  apply rbind_ok_inv in H as (b & E & H). apply rbind_ok_inv in H as (bs & E2 & H). injection H as <-.
  constructor; auto.
Qed.
Lemma Forall2_rmapM {A B} (f : A -> result B) l ys : Forall2 (fun a y => f a = Ok y) l ys -> rmapM f l = Ok ys.
Proof. induction 1 as [|a y l ys E _ IH]; cbn; [auto|]. rewrite E; cbn; rewrite IH; auto. Qed.
Lemma read_ext e e' a x : ext e e' -> read e a = Ok x -> read e' a = Ok x.
Proof.
  intros H. destruct a as [v|c]; cbn; [|auto]. destruct (e v) eqn:E; [|discriminate].
  rewrite (H _ _ E); auto.
Qed.
Lemma read_agree e e' a x y : ext e e' -> read e a = Ok x -> read e' a = Ok y -> x = y.
Proof. intros H A B. apply (read_ext _ _ _ _ H) in A. congruence. Qed.

Section P.
  Variable other1 : nat -> R -> val.
  Variable other2 : nat -> R -> R -> val.
  Variable other_many : nat -> list R -> val.
  Variable hs : bool.
  Notation eval1 := (eval_eqn other1 other2 other_many).
  Notation evals := (eval_eqns other1 other2 other_many).
  Notation inv1 := (inv_eqn other1 other2 hs).
  Notation invs := (inv_eqns other1 other2 hs).
  Notation step_ok := (step_invertible other1 other2 other_many).
  Notation steps_ok := (steps_invertible other1 other2 other_many).

  Lemma eval_call_go body : forall e,
    (fix go (l : list eqn) (e : env) : result env :=
       match l with [] => Ok e | q :: l' => do e' <- eval1 q e; go l' e' end) body e = evals body e.
  Proof. induction body as [|q l IH]; intros e; cbn; [auto|]. destruct (eval1 q e); cbn; auto. Qed.
  Lemma inv_call_go body : forall e,
    (fix go (l : list eqn) (e : env) : result env :=
       match l with [] => Ok e | q :: l' => do e' <- go l' e; inv1 q e' end) body e = invs body e.
  Proof. induction body as [|q l IH]; intros e; cbn; [auto|]. rewrite IH; auto. Qed.
  Lemma ssa_go body : forall bound,
    (fix go (bound : list var) (l : list eqn) : Prop :=
         match l with
         | [] => True
         | q :: l' => fresh_results bound q /\ ssa_inside q /\ go (results q ++ bound) l'
         end) bound body = ssa bound body.
  Proof. induction body as [|q l IH]; intros b; cbn; [auto|]. rewrite IH; auto. Qed.
  Lemma steps_go body : forall e,
    (fix go (l : list eqn) (e : env) : Prop :=
             match l with
             | [] => True
             | q :: l' => step_ok q e /\ forall e', eval1 q e = Ok e' -> go l' e'
             end) body e <-> steps_ok body e.
  Proof.
    induction body as [|q l IH]; intros e; cbn; [tauto|]. split; intros [A B]; split; auto; intros e' E; apply IH; auto.
  Qed.

  Lemma eval_eqn_ext q e e' bound : eval1 q e = Ok e' -> dom_in e bound -> fresh_results bound q ->
    ext e e' /\ dom_in e' (results q ++ bound).
  Proof.
    intros H D [N F]. destruct q as [p a o|n a o|p a b o|n l o|ins cvs body outs k a res]; cbn in H.
    - apply rbind_ok_inv in H as (x & _ & H). injection H as <-.
      split; [eapply ext_upd_fresh; [eauto|apply F; left; auto]|apply dom_upd; auto].
    - apply rbind_ok_inv in H as (x & _ & H). injection H as <-.
      split; [eapply ext_upd_fresh; [eauto|apply F; left; auto]|apply dom_upd; auto].
    - apply rbind_ok_inv in H as (x & _ & H). apply rbind_ok_inv in H as (y & _ & H). injection H as <-.
      split; [eapply ext_upd_fresh; [eauto|apply F; left; auto]|apply dom_upd; auto].
    - apply rbind_ok_inv in H as (x & _ & H). injection H as <-.
      split; [eapply ext_upd_fresh; [eauto|apply F; left; auto]|apply dom_upd; auto].
    - apply rbind_ok_inv in H as (x & _ & H). apply rbind_ok_inv in H as (e0 & _ & H).
      apply rbind_ok_inv in H as (e1 & _ & H). apply rbind_ok_inv in H as (e2 & _ & H).
      apply rbind_ok_inv in H as (ys & _ & H).
      destruct (write_all_spec _ _ _ _ _ H N D F) as (A & B & _). auto.
  Qed.
  Lemma evals_ext l : forall e ef bound, evals l e = Ok ef -> dom_in e bound -> ssa bound l -> ext e ef.
  Proof.
    induction l as [|q l IH]; intros e ef bound H D S; cbn in *.
    - injection H as <-; apply ext_refl.
    - apply rbind_ok_inv in H as (e1 & E & H). destruct S as (F & _ & S).
      destruct (eval_eqn_ext _ _ _ _ E D F) as [X Y]. eapply ext_trans; [exact X|]. eapply IH; eauto.
  Qed.

  (** one reverse step recovers the value that the forward step consumed *)
  Definition inverts_step (q : eqn) : Prop := forall e e' F r r' bound,
    ssa_inside q -> fresh_results bound q -> dom_in e bound ->
    eval1 q e = Ok e' -> step_ok q e -> ext e' F -> ext r F -> inv1 q r = Ok r' -> ext r' F.
  Definition inverts_steps (l : list eqn) : Prop := forall e ef F r r' bound,
    ssa bound l -> dom_in e bound -> evals l e = Ok ef -> steps_ok l e -> ext ef F -> ext r F ->
    invs l r = Ok r' -> ext r' F.

  Lemma steps_from_step l : Forall inverts_step l -> inverts_steps l.
  Proof.
    induction 1 as [|q l Hq _ IH]; intros e ef F r r' bound S D E K X Y I; cbn in *.
    - injection I as <-; auto.
    - apply rbind_ok_inv in E as (e1 & E1 & E2). apply rbind_ok_inv in I as (r1 & I1 & I2).
      destruct S as (F1 & S1 & S2). destruct K as [K1 K2].
      destruct (eval_eqn_ext _ _ _ _ E1 D F1) as [X1 D1].
      assert (Y1 : ext r1 F) by (eapply (IH e1 ef F r r1 (results q ++ bound)); eauto).
      assert (X2 : ext e1 F) by (eapply ext_trans; [eapply evals_ext; eauto|auto]).
      eapply (Hq e e1 F r1 r' bound); eauto.
  Qed.

  Lemma inverts_all q : inverts_step q.
  Proof.
    induction q as [p a o|n a o|p a b o|n l o|ins cvs body outs k a res IH] using eqn_ind';
      intros e e' F r r' bound S FR D E K X Y I.
    - cbn [eval_eqn inv_eqn step_invertible] in E, I, K. destruct K as (x & y & Rx & Uy & Dp). rewrite Rx in E; cbn [rbind vbind] in E. injection E as <-.
      apply rbind_ok_inv in I as (f & If & I). apply rbind_ok_inv in I as (w & Rw & I).
      assert (w = Some y).
      { assert (Fo : F o = Some (Some y)) by (apply X; rewrite upd_same; rewrite Uy; auto).
        cbn in Rw. destruct (r o) eqn:Ro; [|discriminate]. injection Rw as <-. apply Y in Ro. congruence. }
      subst w. assert (f y = Some x).
      { unfold lookup in If. destruct (inv_un other1 hs p) eqn:Ep; [|discriminate]. injection If as <-.
        eapply un_inv; eauto. }
      eapply (write_atoms_into [a] _ r F); [exact I|auto|].
      constructor; [|constructor]. cbn. rewrite H. eapply read_ext; [|exact Rx].
      eapply ext_trans; [|exact X]. destruct FR as [_ FR]. eapply ext_upd_fresh; [eauto|apply FR; left; auto].
    - cbn [eval_eqn inv_eqn step_invertible] in E, I, K. destruct K as (x & y & Rx & Uy & Dp). rewrite Rx in E; cbn [rbind vbind] in E. injection E as <-.
      apply rbind_ok_inv in I as (w & Rw & I).
      assert (w = Some y).
      { assert (Fo : F o = Some (Some y)) by (apply X; rewrite upd_same; rewrite Uy; auto).
        cbn in Rw. destruct (r o) eqn:Ro; [|discriminate]. injection Rw as <-. apply Y in Ro. congruence. }
      subst w. destruct (r_int_pow_inv _ _ _ Dp Uy) as [Hn Hp].
      destruct (Z.eqb_spec n 0); [lia|].
      eapply (write_atoms_into [a] _ r F); [exact I|auto|].
      constructor; [|constructor]. cbn [vbind]. rewrite Hp. eapply read_ext; [|exact Rx].
      eapply ext_trans; [|exact X]. destruct FR as [_ FR]. eapply ext_upd_fresh; [eauto|apply FR; left; auto].
    - destruct a as [v|c], b as [v'|c']; try discriminate I.
      + destruct K as (x & y & Rx & Uy & Dp). cbn [eval_eqn inv_eqn] in E, I. rewrite Rx in E; cbn [read rbind vbind2 vbind] in E.
        rewrite Uy in E. injection E as <-.
        apply rbind_ok_inv in I as (f & If & I). apply rbind_ok_inv in I as (w & Rw & I).
        assert (w = Some y).
        { assert (Fo : F o = Some (Some y)) by (apply X; rewrite upd_same; auto).
          cbn in Rw. destruct (r o) eqn:Ro; [|discriminate]. injection Rw as <-. apply Y in Ro. congruence. }
        subst w. unfold lookup in If. destruct (inv_bin_left other2 p) eqn:Ep; [|discriminate]. injection If as ->.
        injection I as <-. cbn [vbind]. rewrite (bin_left_inv _ _ _ _ _ _ Uy Dp Ep).
        apply upd_ext_into; auto. apply X. rewrite upd_other.
        * cbn in Rx. destruct (e v) eqn:Ev; [congruence|discriminate].
        * intros ->. destruct FR as [_ FR]. apply (FR o); [left; auto|]. cbn in Rx. destruct (e o) eqn:Ev; [|discriminate]. eapply D; eauto.
      + destruct K as (x & y & Rx & Uy & Dp). cbn [eval_eqn inv_eqn] in E, I. rewrite Rx in E; cbn [read rbind vbind2 vbind] in E.
        rewrite Uy in E. injection E as <-.
        apply rbind_ok_inv in I as (f & If & I). apply rbind_ok_inv in I as (w & Rw & I).
        assert (w = Some y).
        { assert (Fo : F o = Some (Some y)) by (apply X; rewrite upd_same; auto).
          cbn in Rw. destruct (r o) eqn:Ro; [|discriminate]. injection Rw as <-. apply Y in Ro. congruence. }
        subst w. unfold lookup in If. destruct (inv_bin_right other2 p) eqn:Ep; [|discriminate]. injection If as ->.
        injection I as <-. cbn [vbind]. rewrite (bin_right_inv _ _ _ _ _ _ Uy Dp Ep).
        apply upd_ext_into; auto. apply X. rewrite upd_other.
        * cbn in Rx. destruct (e v') eqn:Ev; [congruence|discriminate].
        * intros ->. destruct FR as [_ FR]. apply (FR o); [left; auto|]. cbn in Rx. destruct (e o) eqn:Ev; [|discriminate]. eapply D; eauto.
    - discriminate I.
    - cbn [eval_eqn inv_eqn step_invertible] in E, I, K.
      apply rbind_ok_inv in E as (x & Rx & E). apply rbind_ok_inv in E as (e0 & E0 & E).
      apply rbind_ok_inv in E as (e1 & E1 & E). apply rbind_ok_inv in E as (e2 & E2 & E).
      apply rbind_ok_inv in E as (ys & Ry & E).
      destruct K as (x' & e0' & e1' & Rx' & E0' & E1' & K).
      rewrite Rx in Rx'; injection Rx' as <-. rewrite E0 in E0'; injection E0' as <-.
      rewrite E1 in E1'; injection E1' as <-. apply steps_go in K. rewrite eval_call_go in E2.
      cbn [ssa_inside] in S. destruct S as [N S]. rewrite ssa_go in S.
      apply NoDup_app_remove_l in N as Ni. apply NoDup_app_remove_r in N as Nc.
      assert (Nd : forall v, In v ins -> ~ In v cvs).
      { intros v Hi Hc. clear -N Hi Hc. induction cvs as [|c cvs IHc]; [inversion Hc|]. cbn in N. inversion N; subst.
        destruct Hc as [->|Hc]; [apply H1, in_app_iff; auto|auto]. }
      destruct (write_all_spec _ _ _ _ [] E0 Nc (dom_empty _) ltac:(intros; intros [])) as (_ & D0 & C0).
      rewrite app_nil_r in D0.
      destruct (write_all_spec _ _ _ _ cvs E1 Ni D0 Nd) as (X01 & D1 & C1).
      assert (D1' : dom_in e1 (cvs ++ ins)) by (intros v w Hv; apply D1 in Hv; rewrite in_app_iff in *; tauto).
      pose proof (evals_ext _ _ _ _ E2 D1' S) as X12.
      destruct (write_all_spec _ _ _ _ _ E (proj1 FR) D (proj2 FR)) as (Xee & _ & Cres).
      apply rbind_ok_inv in I as (zs & Rz & I). apply rbind_ok_inv in I as (s0 & I0 & I).
      apply rbind_ok_inv in I as (s1 & I1 & I). apply rbind_ok_inv in I as (s2 & I2 & I).
      apply rbind_ok_inv in I as (xs & I3 & I). rewrite inv_call_go in I2.
      assert (zs = ys).
      { apply rmapM_Forall2 in Rz. clear -Rz Cres X Y. revert ys Cres; induction Rz as [|o z os zs H _ IHz]; intros ys C.
        - inversion C; auto.
        - inversion C as [|? w ? ws Hw Hws]; subst. f_equal; [|apply IHz; auto].
          cbn in H. destruct (r o) eqn:Ro; [|discriminate]. injection H as <-. apply Y in Ro. apply X in Hw. congruence. }
      subst zs.
      assert (Y0 : ext s0 e2).
      { eapply write_atoms_into; [exact I0|intros v w; discriminate|]. apply rmapM_Forall2; auto. }
      assert (Y1 : ext s1 e2).
      { eapply write_all_into; [exact I1|auto|]. clear -C0 X01 X12.
        induction C0 as [|v w vs ws H _ IHc]; constructor; auto. }
      assert (Y2 : ext s2 e2).
      { eapply (steps_from_step body IH); [exact S|exact D1'|exact E2|exact K|apply ext_refl|exact Y1|exact I2]. }
      pose proof (write_all_length _ _ _ _ E1) as Li. destruct ins as [|i [|? ?]]; try discriminate Li.
      inversion C1 as [|? ? ? ? Ci _]; subst.
      assert (xs = [x]).
      { cbn in I3. destruct (s2 i) eqn:Si; cbn in I3; [|discriminate]. injection I3 as <-. apply Y2 in Si.
        apply X12 in Ci. congruence. }
      subst xs. eapply (write_atoms_into [a] _ r F); [exact I|auto|]. constructor; [|constructor].
      eapply read_ext; [|exact Rx]. eapply ext_trans; eauto.
  Qed.

  Lemma interpret_inverse_correct j consts args outs r :
    single_assignment j -> eval_jaxpr other1 other2 other_many j consts args = Ok outs ->
    runs_invertibly other1 other2 other_many j consts args ->
    interpret_inverse other1 other2 hs j consts outs = Ok r -> r = args.
  Proof.
    intros [N S] E K I. unfold eval_jaxpr in E. unfold interpret_inverse in I.
    apply rbind_ok_inv in E as (e0 & E0 & E). apply rbind_ok_inv in E as (e1 & E1 & E).
    apply rbind_ok_inv in E as (e2 & E2 & E).
    apply rbind_ok_inv in I as (s0 & I0 & I). apply rbind_ok_inv in I as (s1 & I1 & I).
    apply rbind_ok_inv in I as (s2 & I2 & I).
    specialize (K e0 e1 E0 E1).
    set (cvs := j_const j) in *. set (ins := j_in j) in *.
    apply NoDup_app_remove_l in N as Ni. apply NoDup_app_remove_r in N as Nc.
    assert (Nd : forall v, In v ins -> ~ In v cvs).
    { intros v Hi Hc. clear -N Hi Hc. induction cvs as [|c cvs' IHc]; [inversion Hc|]. cbn in N. inversion N; subst.
      destruct Hc as [->|Hc]; [apply H1, in_app_iff; auto|auto]. }
    destruct (write_all_spec _ _ _ _ [] E0 Nc (dom_empty _) ltac:(intros; intros [])) as (_ & D0 & C0).
    rewrite app_nil_r in D0.
    destruct (write_all_spec _ _ _ _ cvs E1 Ni D0 Nd) as (X01 & D1 & C1).
    assert (D1' : dom_in e1 (cvs ++ ins)) by (intros v w Hv; apply D1 in Hv; rewrite in_app_iff in *; tauto).
    pose proof (evals_ext _ _ _ _ E2 D1' S) as X12.
    assert (Y0 : ext s0 e2).
    { eapply write_atoms_into; [exact I0|intros v w; discriminate|]. apply rmapM_Forall2; auto. }
    assert (Y1 : ext s1 e2).
    { eapply write_all_into; [exact I1|auto|]. clear -C0 X01 X12.
      induction C0 as [|v w vs ws H _ IHc]; constructor; auto. }
    assert (Y2 : ext s2 e2).
    { eapply (steps_from_step (j_eqns j)); [apply Forall_forall; intros q _; apply inverts_all|exact S|exact D1'|exact E2|exact K|apply ext_refl|exact Y1|exact I2]. }
    destruct (forallb _ ins); [|discriminate].
    apply rmapM_Forall2 in I. clear -I C1 X12 Y2. fold ins in I.
    revert args C1; induction I as [|v z vs zs H _ IH]; intros args C; inversion C as [|? w ? ws Hw Hws]; subst; auto.
    f_equal; [|apply IH; auto]. cbn in H. destruct (s2 v) eqn:Sv; [|discriminate]. injection H as <-.
    apply Y2 in Sv. apply X12 in Hw. congruence.
  Qed.

  (** unsupported equations *)
  Lemma unsupported_inv q e : unsupported hs q -> inv1 q e = Err NotImplementedError.
  Proof.
    intros H. destruct q as [p a o|n a o|p a b o|n l o|]; cbn in H; try contradiction.
    - destruct p; try contradiction; [subst hs|]; reflexivity.
    - destruct a, b, p; try contradiction; reflexivity.
    - reflexivity.
  Qed.
  Lemma invs_app l1 l2 e : invs (l1 ++ l2) e = (do e' <- invs l2 e; invs l1 e').
  Proof.
    induction l1 as [|q l1 IH]; cbn; [destruct (invs l2 e); auto|]. rewrite IH, rbind_assoc. auto.
  Qed.
  Lemma unsupported_raises j consts args pre q post :
    j_eqns j = pre ++ q :: post -> unsupported hs q ->
    exists e, interpret_inverse other1 other2 hs j consts args = Err e /\
      (post = [] -> length args = length (j_out j) -> length consts = length (j_const j) -> e = NotImplementedError).
  Proof.
    intros Ej U. unfold interpret_inverse.
    destruct (write_atoms empty_env (j_out j) args) as [e0|e0] eqn:W0; cbn.
    2:{ exists e0; split; auto. intros _ L _. exfalso. clear -W0 L. revert W0. generalize empty_env.
        revert args L; induction (j_out j) as [|[v|c] l IH]; intros [|x xs] L e W; cbn in *; try discriminate; eapply IH; eauto. }
    destruct (write_all e0 (j_const j) (map Some consts)) as [e1|e1] eqn:W1; cbn.
    2:{ exists e1; split; auto. intros _ _ L. exfalso. clear -W1 L. revert W1. generalize e0.
        revert consts L; induction (j_const j) as [|v l IH]; intros [|x xs] L e W; cbn in *; try discriminate; eapply IH; eauto. }
    rewrite Ej, invs_app. cbn. destruct (invs post e1) as [e2|e2] eqn:W2; cbn.
    - rewrite (unsupported_inv q e2 U); cbn. exists NotImplementedError; auto.
    - exists e2; split; auto. intros -> _ _. discriminate W2.
  Qed.
End P.

(** ** The dependence analysis *)
Section Dep.
  Variable I : nat -> list R -> list R.
  Notation gev := (geval_eqn I).
  Notation gevs := (geval_eqns I).
  (** two environments that agree outside the dependence set *)
  Definition agree (d : vset) (e e' : genv) : Prop := forall v, d v = false -> e v = e' v.

  Lemma gev_go body : forall e,
    (fix go (l : list geqn) (e : genv) : option genv :=
                  match l with [] => Some e | q :: l' => obind (gev q e) (go l') end) body e = gevs body e.
  Proof. induction body as [|q l IH]; intros e; cbn; [auto|]. destruct (gev q e); cbn; auto. Qed.
  Lemma dep_go body : forall d,
    (fix go (l : list geqn) (d : vset) : vset :=
                    match l with [] => d | q :: l' => go l' (dep_eqn q d) end) body d = dep_eqns body d.
  Proof. induction body as [|q l IH]; intros d; cbn; auto. Qed.
  Lemma tidy_go body :
    (fix go (l : list geqn) : Prop := match l with [] => True | q :: l' => tidy_calls q /\ go l' end) body = all_tidy body.
  Proof. induction body as [|q l IH]; cbn; [auto|]. rewrite IH; auto. Qed.

  Lemma gread_agree d e e' a : agree d e e' -> in_set d a = false -> gread e a = gread e' a.
  Proof. intros A H. destruct a; cbn in *; auto. Qed.
  Lemma greads_agree d e e' l : agree d e e' -> existsb (in_set d) l = false -> greads e l = greads e' l.
  Proof.
    intros A. induction l as [|a l IH]; cbn; [auto|]. intros H. apply orb_false_iff in H as [H1 H2].
    rewrite (gread_agree d e e' a A H1), IH; auto.
  Qed.
  Lemma add_all_false d vs v : add_all d vs v = false <-> ~ In v vs /\ d v = false.
  Proof.
    unfold add_all. rewrite orb_false_iff. split; intros [A B]; split; auto.
    - intros H. assert (existsb (Nat.eqb v) vs = true); [|congruence].
      apply existsb_exists. exists v; split; auto. apply Nat.eqb_refl.
    - apply not_true_iff_false. intros H. apply existsb_exists in H as (w & Hw & E). apply Nat.eqb_eq in E; subst; auto.
  Qed.
  (** writing two lists that agree at the positions whose variable is outside [d'] *)
  Lemma gwrite_agree vs : forall d e e' xs xs' f f', agree d e e' ->
    gwrite e vs xs = Some f -> gwrite e' vs xs' = Some f' ->
    (forall i v, nth_error vs i = Some v -> d v = false -> nth_error xs i = nth_error xs' i) ->
    agree d f f'.
  Proof.
    induction vs as [|v vs IH]; intros d e e' [|x xs] [|x' xs'] f f' A W W' H; try discriminate; cbn in W, W'.
    - injection W as <-; injection W' as <-; auto.
    - eapply IH; [|exact W|exact W'|].
      + intros w Hw. cbn. destruct (Nat.eqb_spec w v); [|auto]. subst.
        specialize (H 0%nat v eq_refl Hw). cbn in H. congruence.
      + intros i w Hi Hd. exact (H (S i) w Hi Hd).
  Qed.
  Lemma agree_weaken d d' e e' : (forall v, d' v = false -> d v = false) -> agree d e e' -> agree d' e e'.
  Proof. intros H A v Hv; auto. Qed.
  Lemma greads_nth e l xs : greads e l = Some xs -> forall i, nth_error xs i = match nth_error l i with Some a => gread e a | None => None end.
  Proof.
    revert xs; induction l as [|a l IH]; intros xs H i; cbn in H.
    - injection H as <-. destruct i; auto.
    - destruct (gread e a) eqn:Ea; [|discriminate]. destruct (greads e l) eqn:El; [|discriminate]. injection H as <-.
      destruct i; cbn; auto.
  Qed.
  Lemma greads_length e l xs : greads e l = Some xs -> length xs = length l.
  Proof.
    revert xs; induction l as [|a l IH]; intros xs H; cbn in H; [injection H as <-; auto|].
    destruct (gread e a); [|discriminate]. destruct (greads e l); [|discriminate]. injection H as <-. cbn; auto.
  Qed.
  Lemma gwrite_length vs : forall e xs f, gwrite e vs xs = Some f -> length vs = length xs.
  Proof. induction vs as [|v vs IH]; intros e [|x xs] f H; try discriminate; cbn in *; eauto. Qed.

  Lemma dict_get_tidy {A} (keys : list atom) (vals : list A) i v x :
    (forall i j v, nth_error keys i = Some (AVar v) -> nth_error keys j = Some (AVar v) -> i = j) ->
    nth_error keys i = Some (AVar v) -> nth_error vals i = Some x -> dict_get keys vals v = Some x.
  Proof.
    revert vals i; induction keys as [|k keys IH]; intros vals i T Hk Hv; [destruct i; discriminate|].
    destruct vals as [|y vals]; [destruct i; discriminate|]. cbn.
    assert (T' : forall i j v, nth_error keys i = Some (AVar v) -> nth_error keys j = Some (AVar v) -> i = j).
    { intros a b w Ha Hb. specialize (T (S a) (S b) w Ha Hb). congruence. }
    destruct i as [|i]; cbn in Hk, Hv.
    - injection Hk as ->. injection Hv as ->.
      destruct (dict_get keys vals v) eqn:G.
      + exfalso. assert (exists j, nth_error keys j = Some (AVar v)) as [j Hj].
        { clear -G. revert vals G; induction keys as [|k keys IHk]; intros [|y vals] G; try discriminate. cbn in G.
          destruct (dict_get keys vals v) eqn:G2.
          - injection G as ->. destruct (IHk vals G2) as [j Hj]. exists (S j); auto.
          - destruct k; cbn in G; [|discriminate]. destruct (Nat.eqb_spec v v0); [|discriminate]. subst. exists 0%nat; auto. }
        discriminate (T 0%nat (S j) v eq_refl Hj).
      + cbn. rewrite Nat.eqb_refl; auto.
    - rewrite (IH vals i T' Hk Hv); auto.
  Qed.

  Definition sound_eqn (q : geqn) : Prop := forall d e e' f f', tidy_calls q -> agree d e e' ->
    gev q e = Some f -> gev q e' = Some f' -> agree (dep_eqn q d) f f'.
  Definition sound_eqns (l : list geqn) : Prop := forall d e e' f f', all_tidy l -> agree d e e' ->
    gevs l e = Some f -> gevs l e' = Some f' -> agree (dep_eqns l d) f f'.
  Lemma sound_list l : Forall sound_eqn l -> sound_eqns l.
  Proof.
    induction 1 as [|q l Hq _ IH]; intros d e e' f f' T A E E'; cbn in *.
    - injection E as <-; injection E' as <-; auto.
    - destruct (gev q e) as [e1|] eqn:Q; [|discriminate]. destruct (gev q e') as [e1'|] eqn:Q'; [|discriminate].
      cbn in E, E'. destruct T as [T1 T2]. eapply IH; [auto| |exact E|exact E']. eapply Hq; eauto.
  Qed.
  Lemma in_flat {A B} (f : A -> list B) l i a b : nth_error l i = Some a -> In b (f a) -> In b (flat_map f l).
  Proof. intros H K. apply in_flat_map. exists a; split; auto. eapply nth_error_In; eauto. Qed.

  Lemma sound_all q : sound_eqn q.
  Proof.
    induction q as [n args outs|ins body outvars args outs IH] using geqn_ind';
      intros d e e' f f' T A E E'.
    - cbn in E, E'. destruct (greads e args) as [xs|] eqn:G; [|discriminate].
      destruct (greads e' args) as [xs'|] eqn:G'; [|discriminate]. cbn in E, E'.
      cbn. destruct (existsb (in_set d) args) eqn:X.
      + eapply gwrite_agree; [|exact E|exact E'|].
        * eapply agree_weaken; [|exact A]. intros v Hv. apply add_all_false in Hv; tauto.
        * intros i v Hi Hv. apply add_all_false in Hv as [Hv _]. exfalso; apply Hv. eapply nth_error_In; eauto.
      + rewrite (greads_agree d e e' args A X) in G. rewrite G in G'. injection G' as <-.
        eapply gwrite_agree; [exact A|exact E|exact E'|]. auto.
    - cbn [geval_eqn] in E, E'. destruct (greads e args) as [xs|] eqn:G; [|discriminate].
      destruct (greads e' args) as [xs'|] eqn:G'; [|discriminate]. cbn [obind] in E, E'.
      destruct (gwrite (fun _ => None) ins xs) as [e1|] eqn:W; [|discriminate].
      destruct (gwrite (fun _ => None) ins xs') as [e1'|] eqn:W'; [|discriminate]. cbn [obind] in E, E'.
      rewrite gev_go in E, E'. destruct (gevs body e1) as [e2|] eqn:B; [|discriminate].
      destruct (gevs body e1') as [e2'|] eqn:B'; [|discriminate]. cbn [obind] in E, E'.
      destruct (greads e2 outvars) as [ys|] eqn:Y; [|discriminate].
      destruct (greads e2' outvars) as [ys'|] eqn:Y'; [|discriminate]. cbn [obind] in E, E'.
      cbn [dep_eqn]. rewrite dep_go. cbn [tidy_calls] in T. rewrite tidy_go in T. destruct T as (T1 & T2 & T3).
      match goal with |- context [dep_eqns body ?X] => set (ad' := X) end.
      assert (A1 : agree ad' e1 e1').
      { eapply gwrite_agree; [|exact W|exact W'|]; [intros v _; reflexivity|].
        intros i v Hi Hv. rewrite (greads_nth _ _ _ G), (greads_nth _ _ _ G').
        destruct (nth_error args i) as [a|] eqn:Na; [|auto]. apply (gread_agree d); [auto|].
        destruct a as [w|c]; [|auto]. cbn. destruct (d w) eqn:Dw; [|auto].
        exfalso. apply add_all_false in Hv as [Hv _]. apply Hv. eapply in_flat; [exact Na|]. cbn. rewrite Dw.
        rewrite (dict_get_tidy args ins i w v T1 Na Hi). left; auto. }
      assert (A2 : agree (dep_eqns body ad') e2 e2') by (eapply (sound_list body IH); eauto).
      set (sub := dep_eqns body ad') in *.
      eapply gwrite_agree; [|exact E|exact E'|].
      + eapply agree_weaken; [|exact A]. intros v Hv. apply add_all_false in Hv; tauto.
      + intros i v Hi Hv. rewrite (greads_nth _ _ _ Y), (greads_nth _ _ _ Y').
        destruct (nth_error outvars i) as [a|] eqn:Na; [|auto]. apply (gread_agree sub); [auto|].
        destruct a as [w|c]; [|auto]. cbn. destruct (sub w) eqn:Dw; [|auto].
        exfalso. apply add_all_false in Hv as [Hv _]. apply Hv. eapply in_flat; [exact Na|]. cbn. rewrite Dw.
        rewrite (dict_get_tidy outvars outs i w v T2 Na Hi). left; auto.
  Qed.

  Lemma analysis_sound j consts xs xs' ys ys' : all_tidy (g_eqns j) ->
    is_constant_jacobian j = true -> geval I j consts xs = Some ys -> geval I j consts xs' = Some ys' -> ys = ys'.
  Proof.
    unfold is_constant_jacobian, dependent_variables, geval. intros T C E E'. apply negb_true_iff in C.
    destruct (gwrite (fun _ => None) (g_const j) consts) as [e0|]; [|discriminate]. cbn in E, E'.
    destruct (gwrite e0 (g_in j) xs) as [e1|] eqn:W; [|discriminate].
    destruct (gwrite e0 (g_in j) xs') as [e1'|] eqn:W'; [|discriminate]. cbn in E, E'.
    destruct (gevs (g_eqns j) e1) as [e2|] eqn:B; [|discriminate].
    destruct (gevs (g_eqns j) e1') as [e2'|] eqn:B'; [|discriminate]. cbn in E, E'.
    assert (A1 : agree (add_all (fun _ => false) (g_in j)) e1 e1').
    { eapply gwrite_agree; [|exact W|exact W'|]; [intros v _; reflexivity|].
      intros i v Hi Hv. apply add_all_false in Hv as [Hv _]. exfalso; apply Hv. eapply nth_error_In; eauto. }
    assert (A2 := sound_list (g_eqns j) ltac:(apply Forall_forall; intros q _; apply sound_all) _ _ _ _ _ T A1 B B').
    rewrite (greads_agree _ _ _ _ A2 C) in E. congruence.
  Qed.
End Dep.
