From Coq Require Import List Reals ZArith Bool Lia Lra.
From Verif Require Import Base.Result Base.Sums Base.Tensor Model.Bijector Model.ScalarBij Model.Linear
  Model.SameAs Spec.Bijector Spec.SameAs Proofs.Bijector Proofs.Block.
Import ListNotations.

Section ObjInd.
  Variable P : obj -> Prop.
  Hypothesis HC : forall l, Forall P l -> P (OChain l).
  Hypothesis HI : forall o, P o -> P (OInverse o).
  Hypothesis HB : forall o k, P o -> P (OBlock o k).
  Hypothesis HO : forall o, match o with OChain _ | OInverse _ | OBlock _ _ => False | _ => True end -> P o.
  Fixpoint obj_ind' (o : obj) : P o.
  Proof.
    destruct o; try (apply HO; exact I).
    - apply HC. induction links as [|o l IH]; constructor; [apply obj_ind'|exact IH].
    - apply HI, obj_ind'.
    - apply HB, obj_ind'.
  Defined.
End ObjInd.

Lemma denotes_go h l :
  (fix go (l : list obj) : result (list bij) :=
     match l with [] => Ok [] | o :: l' => do b <- denote h o; do bs <- go l'; Ok (b :: bs) end) l = denotes h l.
Proof. induction l as [|o l IH]; cbn; [auto|]. rewrite IH; auto. Qed.

Lemma agree_refl b : methods_agree b -> agree_where_valid b b.
Proof. intros H. unfold agree_where_valid. auto 12. Qed.
Lemma agree_trans a b c : agree_where_valid a b -> agree_where_valid b c -> agree_where_valid a c.
Proof.
  intros (A1&A2&A3&A4&A5&A6&A7&A8&A9&A10) (B1&B2&B3&B4&B5&B6&B7&B8&B9&B10).
  unfold agree_where_valid.
  split; [congruence|]. split; [congruence|]. split; [congruence|]. split; [congruence|].
  split; [congruence|]. split; [congruence|]. split; [congruence|]. split; [congruence|]. auto.
Qed.

(** leaf objects *)
Lemma linear_methods_agree m n bs f g ld : methods_agree (@linear_methods m n bs f g ld).
Proof.
  split; intros x y l H; cbn in *.
  - destruct (rbind_ok_inv _ _ _ H) as (y' & -> & H1). destruct (rbind_ok_inv _ _ _ H1) as (l' & -> & H2).
    injection H2 as <- <-. auto.
  - destruct (rbind_ok_inv _ _ _ H) as (y' & -> & H1). destruct (rbind_ok_inv _ _ _ H1) as (l' & -> & H2).
    injection H2 as <- <-. auto.
Qed.
Lemma shift_methods_agree s b : shift_init s = Ok b -> methods_agree b.
Proof.
  intros E; injection E as <-. split; intros x y l H; cbn in *;
  destruct (rbind_ok_inv _ _ _ H) as (y' & -> & H1); destruct (rbind_ok_inv _ _ _ H1) as (l' & -> & H2);
  injection H2 as <- <-; auto.
Qed.
Lemma sa_methods_agree s c l b : scalar_affine_init s c l = Ok b -> methods_agree b.
Proof.
  unfold scalar_affine_init; cbn. intros E. destruct (rbind_ok_inv _ _ _ E) as ([[sc inv] ls] & _ & E1).
  destruct (rbind_ok_inv _ _ _ E1) as (bs & _ & E2). injection E2 as <-.
  split; intros x y ld H; cbn in *;
  destruct (rbind_ok_inv _ _ _ H) as (y' & -> & H1); destruct (rbind_ok_inv _ _ _ H1) as (l' & -> & H2);
  injection H2 as <- <-; auto.
Qed.
Lemma block_methods_agree b k c : methods_agree b -> block_init b k = Ok c -> methods_agree c.
Proof.
  intros [A1 A2] E. unfold block_init in E. destruct (k <? 0)%Z; [discriminate|].
  destruct (rbind_ok_inv _ _ _ E) as (m & _ & E1). injection E1 as <-.
  split; intros x y l H; cbn in *; destruct (check_input_shape _ x); try discriminate; cbn in *;
  destruct (rbind_ok_inv _ _ _ H) as ([y' l'] & F & H1); destruct (rbind_ok_inv _ _ _ H1) as (s & S & H2);
  injection H2 as <- <-.
  - destruct (A1 _ _ _ F) as [-> ->]. auto.
  - destruct (A2 _ _ _ F) as [-> ->]. auto.
Qed.
Lemma inverse_methods_agree b c : methods_agree b -> inverse_init b = Ok c -> methods_agree c.
Proof.
  intros [A1 A2] E. unfold inverse_init in E. destruct (rbind_ok_inv _ _ _ E) as (m & _ & E1). injection E1 as <-.
  split; intros; cbn in *; auto.
Qed.
Lemma meta_with_methods m b : methods_agree b ->
  methods_agree (mkBij (m_in m) (m_out m) (m_cj m) (m_cl m) (b_fwd b) (b_inv b) (b_fld b) (b_ild b) (b_fal b) (b_ial b)).
Proof. intros H; exact H. Qed.
Lemma diag_methods_agree d b : diag_linear_init d = Ok b -> methods_agree b.
Proof.
  unfold diag_linear_init. destruct (Nat.ltb _ _); [discriminate|]. intros E.
  destruct (rbind_ok_inv _ _ _ E) as (sa & Esa & E1). destruct (rbind_ok_inv _ _ _ E1) as (bl & Ebl & E2).
  destruct (rbind_ok_inv _ _ _ E2) as (m & _ & E3). injection E3 as <-.
  apply meta_with_methods. eapply block_methods_agree; [|exact Ebl]. eapply sa_methods_agree; eauto.
Qed.
Lemma tri_methods_agree a lo p : triangular_linear_init a lo = Ok p -> methods_agree (snd p).
Proof.
  unfold triangular_linear_init. destruct (Nat.ltb _ _); [discriminate|]. destruct (negb _); [discriminate|].
  intros E. destruct (rbind_ok_inv _ _ _ E) as (m & _ & E1). injection E1 as <-. apply linear_methods_agree.
Qed.
Lemma unconstrained_methods_agree m b c : unconstrained_affine_init m b = Ok c -> methods_agree c.
Proof.
  unfold unconstrained_affine_init. intros E. destruct (rbind_ok_inv _ _ _ E) as (u & _ & E1).
  destruct (rbind_ok_inv _ _ _ E1) as (mt & _ & E2). destruct (rbind_ok_inv _ _ _ E2) as (bs & _ & E3).
  injection E3 as <-. apply linear_methods_agree.
Qed.
Lemma lu_methods_agree m b c : lu_affine_init m b = Ok c -> methods_agree c.
Proof.
  unfold lu_affine_init. intros E. destruct (rbind_ok_inv _ _ _ E) as (u & _ & E1).
  destruct (rbind_ok_inv _ _ _ E1) as ([mu up] & Eu & E2). destruct (rbind_ok_inv _ _ _ E2) as ([ml lo] & El & E3).
  destruct (rbind_ok_inv _ _ _ E3) as (sh & Es & E4). destruct (rbind_ok_inv _ _ _ E4) as (shb & Eb & E5).
  eapply chain_methods_agree; [exact E5|]. intros b' [<-|[<-|[<-|[]]]].
  - eapply block_methods_agree; [|exact Eb]. eapply shift_methods_agree; eauto.
  - exact (tri_methods_agree _ _ _ El).
  - exact (tri_methods_agree _ _ _ Eu).
Qed.
Lemma dplr_methods_agree d u v c : diag_plus_low_rank_init d u v = Ok c -> methods_agree c.
Proof.
  unfold diag_plus_low_rank_init. intros E. destruct (rbind_ok_inv _ _ _ E) as (x & _ & E1).
  destruct (rbind_ok_inv _ _ _ E1) as (w & _ & E2). destruct (rbind_ok_inv _ _ _ E2) as (idl & Ei & E3).
  destruct (rbind_ok_inv _ _ _ E3) as (dl & Ed & E4). destruct (rbind_ok_inv _ _ _ E4) as (ch & Ec & E5).
  destruct (rbind_ok_inv _ _ _ E5) as (b1 & _ & E6). destruct (rbind_ok_inv _ _ _ E6) as (b2 & _ & E7).
  destruct (rbind_ok_inv _ _ _ E7) as (m & _ & E8). injection E8 as <-. apply meta_with_methods.
  eapply chain_methods_agree; [exact Ec|]. intros b' [<-|[<-|[]]].
  - eapply diag_methods_agree; eauto.
  - unfold id_plus_low_rank_init in Ei. destruct (rbind_ok_inv _ _ _ Ei) as (mi & _ & Ei1).
    destruct (rbind_ok_inv _ _ _ Ei1) as (bs & _ & Ei2). injection Ei2 as <-. apply linear_methods_agree.
Qed.

(** stored arrays determine the behaviour *)
Lemma sa_inv_scale s l sc inv ls : sa_params s l = Ok (sc, inv, ls) -> inv = tmap (fun a => 1 / a)%R sc.
Proof.
  unfold sa_params. destruct s, l; intros H; try discriminate; injection H as <- <- <-.
  - reflexivity.
  - unfold tmap. cbn. f_equal. rewrite map_map. apply map_ext. intros x.
    rewrite exp_Ropp. unfold Rdiv; ring.
  - unfold tmap, tscalar. cbn. do 2 f_equal. lra.
Qed.
Lemma sa_determined s c1 l1 c2 l2 sc inv1 inv2 ls :
  sa_params c1 l1 = Ok (sc, inv1, ls) -> sa_params c2 l2 = Ok (sc, inv2, ls) ->
  scalar_affine_init s c1 l1 = scalar_affine_init s c2 l2.
Proof.
  intros H1 H2. pose proof (sa_inv_scale _ _ _ _ _ H1). pose proof (sa_inv_scale _ _ _ _ _ H2). subst inv1 inv2.
  unfold scalar_affine_init. rewrite H1, H2. reflexivity.
Qed.
Lemma tri_determined a1 a2 lo mat b1 b2 :
  triangular_linear_init a1 lo = Ok (mat, b1) -> triangular_linear_init a2 lo = Ok (mat, b2) -> b1 = b2.
Proof.
  unfold triangular_linear_init. destruct (Nat.ltb _ 2); [discriminate|]. destruct (negb _); [discriminate|].
  intros E1. destruct (Nat.ltb _ 2); [discriminate|]. destruct (negb _); [discriminate|]. intros E2.
  destruct (rbind_ok_inv _ _ _ E1) as (m & Em & F1). destruct (rbind_ok_inv _ _ _ E2) as (m' & Em' & F2).
  rewrite Em in Em'. injection Em' as <-.
  injection F1 as G1 H1. injection F2 as G2 H2.
  assert (S : shp a1 = shp a2).
  { transitivity (shp mat); [rewrite <- G1|rewrite <- G2]; destruct lo; reflexivity. }
  rewrite G1 in H1. rewrite G2 in H2. rewrite S in H1. congruence.
Qed.

(** congruence of the combinators *)
Lemma block_congr a b k c d : agree_where_valid a b -> block_init a k = Ok c -> block_init b k = Ok d ->
  agree_where_valid c d.
Proof.
  intros (A1&A2&A3&A4&A5&A6&A7&A8&A9&A10) C D.
  assert (Mc := block_methods_agree _ _ _ A9 C). assert (Md := block_methods_agree _ _ _ A10 D).
  unfold block_init in *. destruct (k <? 0)%Z; [discriminate|].
  rewrite A1, A2, A3, A4 in C. destruct (base_init _ _ _ _) as [m|]; [|discriminate]. cbn in C, D.
  injection C as <-. injection D as <-. unfold agree_where_valid; cbn in *.
  split; [auto|]. split; [auto|]. split; [auto|]. split; [auto|].
  split; [intros x; rewrite A5; auto|]. split; [intros x; rewrite A6; auto|].
  split; [intros x; rewrite A7; auto|]. split; [intros x; rewrite A8; auto|]. auto.
Qed.
Lemma inverse_congr a b c d : agree_where_valid a b -> inverse_init a = Ok c -> inverse_init b = Ok d ->
  agree_where_valid c d.
Proof.
  intros (A1&A2&A3&A4&A5&A6&A7&A8&A9&A10) C D.
  assert (Mc := inverse_methods_agree _ _ A9 C). assert (Md := inverse_methods_agree _ _ A10 D).
  unfold inverse_init in *. rewrite A1, A2, A3, A4 in C. destruct (base_init _ _ _ _) as [m|]; [|discriminate].
  cbn in C, D. injection C as <-. injection D as <-. unfold agree_where_valid; cbn in *. auto 12.
Qed.
Lemma chain_single b c : methods_agree b -> coherent b -> chain_init [b] = Ok c -> agree_where_valid c b.
Proof.
  intros M Co E. assert (Mc : methods_agree c).
  { eapply chain_methods_agree; [exact E|]. intros b' [<-|[]]; auto. }
  unfold chain_init in E. cbn in E. destruct (rbind_ok_inv _ _ _ E) as (m & Em & E1).
  rewrite !andb_true_r in Em. destruct Co as (C1 & C2 & C3).
  assert (m = mkMeta (b_in b) (b_out b) (b_cj b) (b_cl b)).
  { unfold base_init in Em. destruct (Z.ltb_spec (b_in b) 0); [lia|]. destruct (Z.ltb_spec (b_out b) 0); [lia|].
    destruct (b_cj b && negb (b_cl b))%bool; [discriminate|]. injection Em as <-; auto. }
  subst m. injection E1 as <-. unfold agree_where_valid; cbn. auto 12.
Qed.
Lemma agree_fields a b : agree_where_valid a b ->
  b_in a = b_in b /\ b_out a = b_out b /\ b_cj a = b_cj b /\ b_cl a = b_cl b.
Proof. intros (A1&A2&A3&A4&_); auto. Qed.
Lemma chain_congr l1 l2 c d : Forall2 agree_where_valid l1 l2 ->
  chain_init l1 = Ok c -> chain_init l2 = Ok d -> agree_where_valid c d.
Proof.
  intros F C D.
  assert (M1 : methods_agree c).
  { eapply chain_methods_agree; [exact C|]. clear -F. induction F as [|a b l1 l2 H _ IH]; intros x Hx; [inversion Hx|destruct Hx as [<-|Hx]; [apply H|auto]]. }
  assert (M2 : methods_agree d).
  { eapply chain_methods_agree; [exact D|]. clear -F. induction F as [|a b l1 l2 H _ IH]; intros x Hx; [inversion Hx|destruct Hx as [<-|Hx]; [apply H|auto]]. }
  assert (FW : forall x, b_fwd c x = b_fwd d x).
  { intros x. rewrite (chain_forward_spec _ _ x C), (chain_forward_spec _ _ x D). clear -F.
    induction F as [|a b l1 l2 H _ IH]; cbn; [auto|]. rewrite IH. destruct (compose_forward l2 x); [apply H|auto]. }
  assert (IW : forall x, b_inv c x = b_inv d x).
  { intros x. rewrite (chain_inverse_spec _ _ x C), (chain_inverse_spec _ _ x D). clear -F. revert x.
    induction F as [|a b l1 l2 H _ IH]; intros x; cbn; [auto|]. destruct H as (_&_&_&_&_&A6&_). rewrite A6.
    destruct (b_inv b x); auto. }
  inversion F as [|a b l1' l2' H F' E1 E2]; subst; [discriminate|].
  unfold chain_init in C, D. destruct (negb _); [discriminate|]. destruct (negb _); [discriminate|].
  assert (CJ : forallb b_cj (a :: l1') = forallb b_cj (b :: l2')).
  { clear -F. induction F as [|x y ? ? H _ IH]; cbn; [auto|]. apply agree_fields in H as (_&_&->&_). f_equal; auto. }
  assert (CL : forallb b_cl (a :: l1') = forallb b_cl (b :: l2')).
  { clear -F. induction F as [|x y ? ? H _ IH]; cbn; [auto|]. apply agree_fields in H as (_&_&_&->). f_equal; auto. }
  assert (LA : b_in (last (a :: l1') a) = b_in (last (b :: l2') b)).
  { assert (G : forall p q, b_in p = b_in q -> b_in (last (a :: l1') p) = b_in (last (b :: l2') q)); [|apply G, H].
    clear -F. induction F as [|x y ? ? H F IH]; intros p q Hpq; [auto|].
    destruct F; [cbn; apply H|]. exact (IH p q Hpq). }
  destruct H as (H1&H2&H3&H4&H5&H6&H7&H8&H9&H10).
  rewrite CJ, CL, LA, H2 in C. destruct (base_init _ _ _ _) as [m|]; [|discriminate]. cbn [rbind] in C, D.
  injection C as <-. injection D as <-. unfold agree_where_valid; cbn [b_in b_out b_cj b_cl].
  split; [auto|]. split; [auto|]. split; [auto|]. split; [auto|]. split; [exact FW|]. split; [exact IW|].
  cbn [b_fal b_ial].
  split; [|split; [|auto]].
  - intros x. unfold chain_fal.
    assert (FR : Forall2 agree_where_valid (rev (a :: l1')) (rev (b :: l2'))).
    { clear -F. induction F as [|x y ? ? H _ IH]; cbn; [constructor|]. apply Forall2_app; auto. }
    destruct FR as [|p q r1 r2 Hp Fr]; [auto|].
    assert (E0 : b_fal p x = b_fal q x) by apply Hp. rewrite E0. generalize (b_fal q x). clear -Fr.
    induction Fr as [|u w r1 r2 H _ IH]; intros acc; cbn; [auto|].
    assert (K : accum b_fal acc u = accum b_fal acc w).
    { unfold accum. destruct acc as [[v ld]|]; cbn; [|auto]. destruct H as (_&_&_&_&_&_&A7&_). rewrite A7; auto. }
    rewrite K; auto.
  - intros x. unfold chain_ial. rewrite H8. generalize (b_ial b x). clear -F'.
    induction F' as [|u w r1 r2 H _ IH]; intros acc; cbn; [auto|].
    assert (K : accum b_ial acc u = accum b_ial acc w).
    { unfold accum. destruct acc as [[v ld]|]; cbn; [|auto]. destruct H as (_&_&_&_&_&_&_&A8&_). rewrite A8; auto. }
    rewrite K; auto.
Qed.

Definition respects (h : heap) (a : obj) : Prop := forall b ba bb,
  all_stored_ok h a -> all_stored_ok h b -> denote h a = Ok ba -> denote h b = Ok bb ->
  same_as a b = true -> agree_where_valid ba bb.

Lemma same_as_go l : forall l',
  (fix go (l l' : list obj) : bool :=
     match l, l' with o :: r, o' :: r' => same_as o o' && go r r' | _, _ => true end) l l' =
  forallb (fun p => same_as (fst p) (snd p)) (combine l l').
Proof. induction l as [|o l IH]; intros [|o' l']; cbn; auto. rewrite IH; auto. Qed.
Lemma stored_go h l :
  (fix go (l : list obj) : Prop := match l with [] => True | o :: l' => all_stored_ok h o /\ go l' end) l <->
  Forall (all_stored_ok h) l.
Proof.
  induction l as [|o l IH]; [split; auto|]. rewrite IH. split; [intros []; constructor; auto|intros H; inversion H; auto].
Qed.
Lemma denotes_length h l bs : denotes h l = Ok bs -> Forall2 (fun o b => denote h o = Ok b) l bs.
Proof.
  revert bs; induction l as [|o l IH]; intros bs H; cbn in H; [injection H as <-; constructor|].
  destruct (rbind_ok_inv _ _ _ H) as (b & E & H1). destruct (rbind_ok_inv _ _ _ H1) as (bs' & E' & H2).
  injection H2 as <-. constructor; auto.
Qed.
Ltac split_and := repeat match goal with H : (_ && _)%bool = true |- _ => apply andb_true_iff in H; destruct H end;
  repeat match goal with
  | H : Nat.eqb _ _ = true |- _ => apply Nat.eqb_eq in H; subst
  | H : Z.eqb _ _ = true |- _ => apply Z.eqb_eq in H; subst
  | H : Bool.eqb _ _ = true |- _ => apply Bool.eqb_prop in H; subst end.

(** an object that can be the left side of a successful comparison has agreeing methods and
    coherent metadata *)
Lemma elementwise_methods m f lf g lg : methods_agree (elementwise m f lf g lg).
Proof. split; intros a b l H; cbn in *; injection H as <- <-; auto. Qed.

Lemma respects_all h a : respects h a.
Proof.
  induction a as [l IH|o IH|o k IH|a Ha] using obj_ind'; intros b ba bb Sa Sb Da Db E.
  - cbn [denote] in Da. rewrite denotes_go in Da. destruct (rbind_ok_inv _ _ _ Da) as (bs & Es & Ec).
    cbn [all_stored_ok] in Sa. apply stored_go in Sa.
    assert (Single : forall o, l = [o] -> same_as o b = true -> agree_where_valid ba bb).
    { intros o -> Eo. cbn in Es. destruct (rbind_ok_inv _ _ _ Es) as (bo & Do & Es1). injection Es1 as <-.
      inversion IH as [|? ? IHo _]; subst. inversion Sa as [|? ? So _]; subst.
      pose proof (IHo b bo bb So Sb Do Db Eo) as A. eapply agree_trans; [|exact A].
      eapply chain_single; [apply A| |exact Ec].
      (* coherence follows from the chain having been accepted *)
      unfold chain_init in Ec; cbn in Ec. destruct (rbind_ok_inv _ _ _ Ec) as (m & Em & _).
      rewrite !andb_true_r in Em. unfold base_init in Em.
      destruct (Z.ltb_spec (b_in bo) 0); [discriminate|]. destruct (Z.ltb_spec (b_out bo) 0); [discriminate|].
      destruct (b_cj bo) eqn:?; destruct (b_cl bo) eqn:?; try discriminate; split; [|split| |split| |split]; auto; congruence. }
    destruct b as [| | | | | | | | | |l'| | | |]; cbn [same_as] in E;
      try (destruct l as [|o [|? ?]]; try discriminate; exact (Single o eq_refl E)).
    cbn [denote] in Db. rewrite denotes_go in Db. destruct (rbind_ok_inv _ _ _ Db) as (bs' & Es' & Ec').
    apply andb_true_iff in E as [EL E]. apply Nat.eqb_eq in EL. rewrite same_as_go in E.
    cbn [all_stored_ok] in Sb. apply stored_go in Sb.
    eapply chain_congr; [|exact Ec|exact Ec'].
    apply denotes_length in Es. apply denotes_length in Es'. clear -IH Sa Sb EL E Es Es'.
    revert l' bs' Sb EL E Es'. induction Es as [|o bo l bs Do _ IHl]; intros l' bs' Sb EL E Es'.
    + destruct l'; [|discriminate]. inversion Es'; constructor.
    + destruct l' as [|o' l']; [discriminate|]. inversion Es' as [|? bo' ? bs'' Do' Es'']; subst.
      cbn in E. apply andb_true_iff in E as [E1 E2]. inversion IH; subst. inversion Sa; subst. inversion Sb; subst.
      constructor; [eauto|]. eapply IHl; eauto.
  - destruct b; cbn [same_as] in E; try discriminate. cbn in Da, Db, Sa, Sb.
    destruct (rbind_ok_inv _ _ _ Da) as (x & Ex & Ix). destruct (rbind_ok_inv _ _ _ Db) as (y & Ey & Iy).
    eapply inverse_congr; eauto.
  - destruct b; cbn [same_as] in E; try discriminate. cbn in Da, Db, Sa, Sb. split_and.
    destruct (rbind_ok_inv _ _ _ Da) as (x & Ex & Ix). destruct (rbind_ok_inv _ _ _ Db) as (y & Ey & Iy).
    eapply block_congr; eauto.
  - destruct a; try contradiction; cbn [same_as] in E; try discriminate; destruct b; try discriminate; split_and;
      cbn [denote] in Da, Db; cbn [all_stored_ok stored_ok] in Sa, Sb.
    + rewrite Da in Db; injection Db as <-. apply agree_refl. injection Da as <-. apply elementwise_methods.
    + rewrite Da in Db; injection Db as <-. apply agree_refl. injection Da as <-. apply elementwise_methods.
    + rewrite Da in Db; injection Db as <-. apply agree_refl. injection Da as <-. apply elementwise_methods.
    + rewrite Da in Db; injection Db as <-. apply agree_refl. eapply shift_methods_agree; eauto.
    + destruct Sa as [i1 Sa], Sb as [i2 Sb]. rewrite (sa_determined _ _ _ _ _ _ _ _ _ Sa Sb) in Da.
      rewrite Da in Db; injection Db as <-. apply agree_refl. eapply sa_methods_agree; eauto.
    + rewrite Da in Db; injection Db as <-. apply agree_refl. eapply diag_methods_agree; eauto.
    + destruct (triangular_linear_init (h arg) _) as [[m1 b1]|] eqn:T1; [|discriminate].
      destruct (triangular_linear_init (h arg0) _) as [[m2 b2]|] eqn:T2; [|discriminate].
      cbn in *. injection Sa as ->. injection Sb as ->. injection Da as <-. injection Db as <-.
      rewrite (tri_determined _ _ _ _ _ _ T1 T2). apply agree_refl. exact (tri_methods_agree _ _ _ T2).
    + rewrite Da in Db; injection Db as <-. apply agree_refl. eapply unconstrained_methods_agree; eauto.
    + destruct Sa as [L1 U1], Sb as [L2 U2].
      pose proof (lu_methods_agree _ _ _ Da) as Ma. pose proof (lu_methods_agree _ _ _ Db) as Mb.
      unfold lu_affine_init in Da, Db.
      destruct (rbind_ok_inv _ _ _ Da) as (? & _ & Da1). destruct (rbind_ok_inv _ _ _ Db) as (? & _ & Db1).
      destruct (triangular_linear_init (h arg_matrix) false) as [[m1 b1]|] eqn:T1; [|discriminate].
      destruct (triangular_linear_init (h arg_matrix0) false) as [[m2 b2]|] eqn:T2; [|discriminate].
      destruct (triangular_linear_init (unit_lower (h arg_matrix)) true) as [[m3 b3]|] eqn:T3; [|discriminate].
      destruct (triangular_linear_init (unit_lower (h arg_matrix0)) true) as [[m4 b4]|] eqn:T4; [|discriminate].
      cbn [rbind rmap fst] in *. injection L1 as ->. injection L2 as ->. injection U1 as ->. injection U2 as ->.
      rewrite (tri_determined _ _ _ _ _ _ T1 T2) in Da1. rewrite (tri_determined _ _ _ _ _ _ T3 T4) in Da1.
      rewrite Da1 in Db1. injection Db1 as <-. apply agree_refl; auto.
    + rewrite Da in Db; injection Db as <-. apply agree_refl. eapply dplr_methods_agree; eauto.
Qed.
