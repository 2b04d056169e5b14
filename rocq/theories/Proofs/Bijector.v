(** Proofs about Chain, Inverse, Block and sum_last. *)
From Coq Require Import List Reals ZArith Bool Lia Lra.
From Verif Require Import Base.Result Base.Sums Base.Tensor Model.Bijector Spec.Bijector.
Import ListNotations.
Local Open Scope Z_scope.

(** ** Chain: composition *)
Lemma chain_forward_cons b bs x : chain_forward (b :: bs) x = do z <- chain_forward bs x; b_fwd b z.
Proof. unfold chain_forward; cbn [rev]. rewrite fold_left_app; reflexivity. Qed.
Lemma chain_forward_compose bs x : chain_forward bs x = compose_forward bs x.
Proof.
  induction bs as [|b bs IH]; [reflexivity|]. rewrite chain_forward_cons, IH; reflexivity.
Qed.
Lemma fold_err {A} (f : bij -> A -> result A) bs (e : exn) :
  fold_left (fun acc b => do v <- acc; f b v) bs (Err e) = Err e.
Proof. induction bs; cbn; auto. Qed.
Lemma chain_inverse_compose bs y : chain_inverse bs y = compose_inverse bs y.
Proof.
  unfold chain_inverse. revert y; induction bs as [|b bs IH]; intros y; [reflexivity|].
  cbn. destruct (b_inv b y) as [z|e]; [apply IH|]. apply fold_err.
Qed.
Lemma chain_fields bs c : chain_init bs = Ok c ->
  b_fwd c = chain_forward bs /\ b_inv c = chain_inverse bs /\
  b_fal c = chain_fal bs /\ b_ial c = chain_ial bs /\ bs <> [] /\
  (forall x, b_fld c x = rmap snd (chain_fal bs x)) /\ (forall y, b_ild c y = rmap snd (chain_ial bs y)).
Proof.
  unfold chain_init. destruct bs as [|b bs]; [discriminate|].
  destruct (negb _); [discriminate|]. destruct (base_init _ _ _ _); [|discriminate].
  cbn [rbind]. intros H; injection H as <-. repeat split; auto; discriminate.
Qed.
Lemma chain_forward_spec bs c x : chain_init bs = Ok c -> b_fwd c x = compose_forward bs x.
Proof. intros H; destruct (chain_fields _ _ H) as (-> & _). apply chain_forward_compose. Qed.
Lemma chain_inverse_spec bs c y : chain_init bs = Ok c -> b_inv c y = compose_inverse bs y.
Proof. intros H; destruct (chain_fields _ _ H) as (_ & -> & _). apply chain_inverse_compose. Qed.

Lemma compose_round_trip bs x y :
  links_invert_from bs x -> compose_forward bs x = Ok y -> compose_inverse bs y = Ok x.
Proof.
  revert y; induction bs as [|b bs IH]; cbn; intros y H E.
  - injection E as ->; reflexivity.
  - destruct H as [H1 H2]. destruct (compose_forward bs x) as [z|] eqn:Ez; [|discriminate].
    rewrite (H2 z y eq_refl E). apply IH; auto.
Qed.
Lemma compose_round_trip_inv bs y x :
  links_invert_to bs y -> compose_inverse bs y = Ok x -> compose_forward bs x = Ok y.
Proof.
  revert y; induction bs as [|b bs IH]; cbn; intros y H E.
  - injection E as ->; reflexivity.
  - destruct (b_inv b y) as [z|] eqn:Ez; [|discriminate].
    destruct (H z eq_refl) as [Hb Hr]. rewrite (IH z Hr E). exact Hb.
Qed.

(** ** Chain: log-dets *)
Lemma chain_fal_cons b bs x : bs <> [] -> chain_fal (b :: bs) x = accum b_fal (chain_fal bs x) b.
Proof.
  intros H. unfold chain_fal; cbn [rev]. destruct (rev bs) as [|l r] eqn:E.
  - exfalso; apply H. rewrite <- (rev_involutive bs), E; reflexivity.
  - cbn [app]. rewrite fold_left_app; reflexivity.
Qed.
Lemma tsum_snoc l a b : tsum l = Ok a -> tsum (l ++ [b]) = tadd a b.
Proof.
  destruct l as [|c l]; [discriminate|]. cbn. revert c; induction l as [|d l IH]; cbn; intros c H.
  - injection H as ->. apply rbind_ok_r.
  - apply rbind_ok_inv in H as (e & -> & H). cbn. apply IH; auto.
Qed.
Lemma tsum_snoc_inv l b s : l <> [] -> tsum (l ++ [b]) = Ok s -> exists a, tsum l = Ok a /\ tadd a b = Ok s.
Proof.
  destruct l as [|c l]; [congruence|]. intros _; cbn. revert c; induction l as [|d l IH]; cbn; intros c H.
  - apply rbind_ok_inv in H as (e & He & H). injection H as ->. eauto.
  - apply rbind_ok_inv in H as (e & -> & H). cbn. apply IH; auto.
Qed.
Lemma trace_length bs x lds y : forward_trace bs x lds y -> length lds = length bs.
Proof. induction 1; cbn; auto. rewrite app_length; cbn; lia. Qed.
Lemma chain_fal_trace bs x y l :
  bs <> [] ->
  (chain_fal bs x = Ok (y, l) <-> exists lds, forward_trace bs x lds y /\ tsum lds = Ok l).
Proof.
  revert y l; induction bs as [|b bs IH]; intros y l Hne; [congruence|].
  destruct bs as [|b' bs].
  - unfold chain_fal; cbn. split.
    + intros H. exists [l]; split; [|reflexivity]. change [l] with ([] ++ [l]).
      econstructor; [constructor|exact H].
    + intros (lds & Ht & Hs). inversion Ht as [|? ? ? lds' z ld y' Ht' Hb]; subst.
      inversion Ht'; subst. cbn in Hs. injection Hs as ->. exact Hb.
  - rewrite chain_fal_cons by discriminate. assert (Hne' : b' :: bs <> []) by discriminate.
    specialize (fun y l => IH y l Hne'). unfold accum. split.
    + intros H. apply rbind_ok_inv in H as ([z lz] & Hz & H).
      apply rbind_ok_inv in H as ([y' ld] & Hb & H). apply rbind_ok_inv in H as (l' & Ha & H).
      injection H as -> ->. apply IH in Hz as (lds & Ht & Hs).
      exists (lds ++ [ld]); split; [econstructor; eauto|]. rewrite (tsum_snoc _ _ _ Hs); exact Ha.
    + intros (lds & Ht & Hs). inversion Ht as [|? ? ? lds' z ld y' Ht' Hb]; subst.
      assert (lds' <> []) by (intros ->; apply trace_length in Ht'; discriminate).
      apply tsum_snoc_inv in Hs as (a & Hs & Ha); auto.
      assert (Hz : chain_fal (b' :: bs) x = Ok (z, a)) by (apply IH; eauto).
      rewrite Hz; cbn. rewrite Hb; cbn. rewrite Ha; reflexivity.
Qed.
Lemma trace_forward bs x lds y :
  (forall b, In b bs -> methods_agree b) -> forward_trace bs x lds y -> compose_forward bs x = Ok y.
Proof.
  intros Hm; induction 1 as [|f1 rest x lds z ld y Ht IH Hb]; [reflexivity|]. cbn.
  rewrite IH by (intros; apply Hm; simpl; auto).
  destruct (Hm f1 (or_introl eq_refl)) as [H _]. apply (H _ _ _ Hb).
Qed.
Lemma accum_err f bs e : fold_left (accum f) bs (Err e) = Err e.
Proof. induction bs; cbn; auto. Qed.
Lemma chain_ial_inverse bs y x l :
  (forall b, In b bs -> methods_agree b) -> chain_ial bs y = Ok (x, l) -> compose_inverse bs y = Ok x.
Proof.
  destruct bs as [|b bs]; [discriminate|]. intros Hm. cbn.
  destruct (b_ial b y) as [[z lz]|e] eqn:Eb; [|rewrite accum_err; discriminate].
  destruct (Hm b (or_introl eq_refl)) as [_ H]. destruct (H _ _ _ Eb) as [-> _].
  assert (Hm' : forall b, In b bs -> methods_agree b) by (intros; apply Hm; simpl; auto).
  clear Eb H Hm. revert z lz. induction bs as [|c bs IH]; cbn; intros z lz E.
  - injection E as -> _; reflexivity.
  - destruct (b_ial c z) as [[w lw]|e] eqn:Ec; cbn in E; [|rewrite accum_err in E; discriminate].
    destruct (Hm' c (or_introl eq_refl)) as [_ H]. destruct (H _ _ _ Ec) as [-> _].
    destruct (tadd lz lw) as [s|e] eqn:Ea; cbn in E; [|rewrite accum_err in E; discriminate].
    apply (IH (fun b Hb => Hm' b (or_intror Hb)) w s E).
Qed.
Lemma chain_methods_agree bs c :
  chain_init bs = Ok c -> (forall b, In b bs -> methods_agree b) -> methods_agree c.
Proof.
  intros Hc Hm. destruct (chain_fields _ _ Hc) as (Ef & Ei & Efa & Eia & Hne & Efl & Eil). split.
  - intros x y l H. rewrite Efl. rewrite Efa in H. rewrite H. split; [|reflexivity].
    rewrite (chain_forward_spec _ _ _ Hc). apply chain_fal_trace in H as (lds & Ht & _); auto.
    eapply trace_forward; eauto.
  - intros y x l H. rewrite Eil. rewrite Eia in H. rewrite H. split; [|reflexivity].
    rewrite (chain_inverse_spec _ _ _ Hc). eapply chain_ial_inverse; eauto.
Qed.

(** inverse log-det is the opposite of the forward one *)
Lemma accum_assoc_gen bs z a b (f : bij -> arr -> result (arr * arr)) ab :
  tadd a b = Ok ab ->
  fold_left (accum f) bs (Ok (z, ab)) =
  match fold_left (accum f) bs (Ok (z, b)) with
  | Ok (w, l) => do l' <- tadd a l; Ok (w, l')
  | Err _ => fold_left (accum f) bs (Ok (z, ab)) end.
Proof.
  revert z b ab; induction bs as [|c bs IH]; intros z b ab H; cbn.
  - rewrite H; reflexivity.
  - destruct (f c z) as [[w lw]|e]; cbn; [|rewrite accum_err; reflexivity].
    pose proof (tadd_assoc a b lw) as HA. rewrite H in HA; cbn in HA.
    destruct (tadd b lw) as [blw|] eqn:E1; cbn in HA |- *.
    + rewrite HA. destruct (tadd a blw) as [x|] eqn:E2; cbn.
      * apply IH; auto.
      * rewrite accum_err.
        match goal with |- _ = match ?t with _ => _ end => destruct t as [[w' l']|] eqn:E3 end; [|reflexivity].
        (* the outer sum has an incompatible shape: so has the total *)
        assert (Hno : forall l, tadd a l = Err ValueError -> forall bs w' l',
          fold_left (accum f) bs (Ok (w, l)) = Ok (w', l') -> tadd a l' = Err ValueError) by
        (clear; intros l Hl bs; revert w l Hl; induction bs as [|c bs IH]; cbn; intros w l Hl w' l' E;
         [injection E as _ <-; exact Hl|];
         destruct (f c w) as [[v lv]|e]; cbn in E; [|rewrite accum_err in E; discriminate];
         destruct (tadd l lv) as [s|] eqn:Es; cbn in E; [|rewrite accum_err in E; discriminate];
         refine (IH v s _ w' l' E);
         pose proof (tadd_assoc a l lv) as HA; rewrite Hl, Es in HA; cbn in HA; symmetry; exact HA).
        assert (Ev : tadd a blw = Err ValueError).
        { revert E2; unfold tadd, tmap2; destruct (bshape _ _); congruence. }
        assert (e = ValueError) as -> by congruence.
        rewrite (Hno _ Ev _ _ _ E3). reflexivity.
    + rewrite HA; cbn. rewrite accum_err. reflexivity.
Qed.
Lemma accum_shift bs z a b (f : bij -> arr -> result (arr * arr)) ab w l l' :
  tadd a b = Ok ab -> fold_left (accum f) bs (Ok (z, b)) = Ok (w, l) -> tadd a l = Ok l' ->
  fold_left (accum f) bs (Ok (z, ab)) = Ok (w, l').
Proof.
  intros H1 H2 H3. rewrite (accum_assoc_gen bs z a b f ab H1).
  match goal with |- match ?t with _ => _ end = _ => replace t with (@Ok (arr * arr) (w, l)) by (symmetry; exact H2) end.
  rewrite H3; reflexivity.
Qed.
Lemma chain_fal_trace0 bs x y l : chain_fal bs x = Ok (y, l) -> exists lds, forward_trace bs x lds y.
Proof.
  revert y l. induction bs as [|b bs IH]; intros y l E; [discriminate|]. destruct bs as [|b' bs].
  - cbn in E. exists ([] ++ [l]). econstructor; [constructor|exact E].
  - rewrite chain_fal_cons in E by discriminate. unfold accum in E.
    apply rbind_ok_inv in E as ([z lz] & Hz & E). apply rbind_ok_inv in E as ([y' ld] & Hb & E).
    apply rbind_ok_inv in E as (l' & Ha & E). injection E as -> ->.
    destruct (IH _ _ Hz) as (lds & T). exists (lds ++ [ld]). econstructor; eauto.
Qed.
Lemma chain_opposite bs c x :
  chain_init bs = Ok c -> links_opposite_from bs x -> opposite_at c x.
Proof.
  intros Hc Ho. destruct (chain_fields _ _ Hc) as (_ & _ & Efa & Eia & Hne & _ & _).
  unfold opposite_at. rewrite Efa, Eia. clear Hc Efa Eia c.
  induction bs as [|b bs IH]; [congruence|]. destruct Ho as [Ho' Ho]. intros y l E. destruct bs as [|b' bs].
  - cbn in E |- *. apply (Ho [] x); [constructor|auto].
  - rewrite chain_fal_cons in E by discriminate. unfold accum in E.
    apply rbind_ok_inv in E as ([z lz] & Hz & E). apply rbind_ok_inv in E as ([y' ld] & Hb & E).
    apply rbind_ok_inv in E as (l' & Ha & E). injection E as -> ->.
    assert (Hne' : b' :: bs <> []) by discriminate.
    destruct (IH Ho' Hne' z lz Hz) as (_ & Hw & IH').
    destruct (chain_fal_trace0 _ _ _ _ Hz) as (lds & HT).
    destruct (Ho lds z HT _ _ Hb) as (Hwy & Hwd & Hi).
    split; [exact Hwy|]. split; [eapply tadd_wf; eauto|]. cbn. rewrite Hi. cbn in IH'.
    assert (Hn : tadd (tneg ld) (tneg lz) = Ok (tneg l)) by
      (rewrite tadd_comm, tadd_neg, Ha; auto).
    destruct (b_ial b' z) as [[w lw]|e] eqn:Eb'; cbn in IH' |- *; [|rewrite accum_err in IH'; discriminate].
    destruct (tadd (tneg ld) lw) as [s|e] eqn:Es; cbn.
    + rewrite Eb'; cbn. rewrite Es; cbn. exact (accum_shift bs w _ _ b_ial _ _ _ _ Es IH' Hn).
    + exfalso.
      assert (Hno : forall a l, tadd a l = Err ValueError -> forall bs w w' l',
          fold_left (accum b_ial) bs (Ok (w, l)) = Ok (w', l') -> tadd a l' = Err ValueError).
      { clear. intros a l Hl bs. revert l Hl; induction bs as [|c bs IH]; cbn; intros l Hl w w' l' E.
        - injection E as _ <-; exact Hl.
        - destruct (b_ial c w) as [[v lv]|e]; cbn in E; [|rewrite accum_err in E; discriminate].
          destruct (tadd l lv) as [s|] eqn:Es; cbn in E; [|rewrite accum_err in E; discriminate].
          refine (IH s _ v w' l' E).
          pose proof (tadd_assoc a l lv) as HA; rewrite Hl, Es in HA; cbn in HA; symmetry; exact HA. }
      assert (Ev : tadd (tneg ld) lw = Err ValueError).
      { revert Es; unfold tadd, tmap2; destruct (bshape _ _); congruence. }
      rewrite (Hno _ _ Ev _ _ _ _ IH') in Hn. discriminate.
Qed.

(** ** Construction *)
Lemma base_init_spec nin nout cj cl :
  let out := match nout with None => nin | Some k => k end in
  let l := match cl with None => cj | Some c => c end in
  (0 <= nin /\ 0 <= out /\ (cj = true -> l = true) /\
   base_init nin nout cj cl = Ok (mkMeta nin out cj l)) \/
  ((nin < 0 \/ out < 0 \/ (cj = true /\ l = false)) /\ base_init nin nout cj cl = Err ValueError).
Proof.
  cbn zeta. unfold base_init.
  set (out := match nout with None => nin | Some k => k end).
  set (l := match cl with None => cj | Some c => c end).
  destruct (Z.ltb_spec nin 0); [right; auto|].
  destruct (Z.ltb_spec out 0); [right; auto|].
  destruct cj; cbn [andb].
  - destruct l eqn:E; cbn [negb].
    + left; auto.
    + right; auto.
  - left; repeat split; auto; discriminate.
Qed.
Lemma base_init_ok nin nout cj cl m : base_init nin nout cj cl = Ok m ->
  0 <= m_in m /\ 0 <= m_out m /\ (m_cj m = true -> m_cl m = true) /\
  m = mkMeta nin (match nout with None => nin | Some k => k end) cj (match cl with None => cj | Some c => c end).
Proof.
  intros H. destruct (base_init_spec nin nout cj cl) as [(H1 & H2 & H3 & E)|[_ E]]; rewrite E in H;
    [injection H as <-; cbn; auto | discriminate].
Qed.
Lemma base_init_coherent nin nout cj cl :
  0 <= nin -> 0 <= nout -> (cj = true -> cl = true) ->
  base_init nin (Some nout) cj (Some cl) = Ok (mkMeta nin nout cj cl).
Proof.
  intros H1 H2 H3. destruct (base_init_spec nin (Some nout) cj (Some cl)) as [(_ & _ & _ & E)|[H _]]; [exact E|].
  cbn in H. destruct H as [H|[H|[H H']]]; [lia|lia|]. rewrite H3 in H'; auto; discriminate.
Qed.
Lemma neighbours_ok_spec bs : chain_neighbours_ok bs = true <-> ~ mismatched_neighbours bs.
Proof.
  unfold chain_neighbours_ok. induction bs as [|a bs IH].
  - cbn; split; auto. intros _ (pre & o & i & post & E & _). destruct pre; discriminate.
  - destruct bs as [|b bs].
    + cbn; split; auto. intros _ (pre & o & i & post & E & _). destruct pre as [|p [|q pre]]; discriminate.
    + change (removelast (a :: b :: bs)) with (a :: removelast (b :: bs)).
      change (tl (a :: b :: bs)) with (b :: tl (b :: bs)).
      cbn [combine forallb fst snd]. rewrite andb_true_iff, IH, Z.eqb_eq. split.
      * intros [H1 H2] (pre & o & i & post & E & Hn). destruct pre as [|p pre]; cbn in E.
        -- injection E as -> -> ->. contradiction.
        -- injection E as -> E. apply H2. exists pre, o, i, post; auto.
      * intros H; split.
        -- destruct (Z.eq_dec (b_in a) (b_out b)); auto. exfalso; apply H. exists [], a, b, bs; auto.
        -- intros (pre & o & i & post & E & Hn). apply H. exists (a :: pre), o, i, post; split; auto. cbn; rewrite E; reflexivity.
Qed.
Lemma neighbours_false bs : chain_neighbours_ok bs = false -> mismatched_neighbours bs.
Proof.
  unfold chain_neighbours_ok. induction bs as [|a bs IH]; [discriminate|].
  destruct bs as [|b bs]; [discriminate|].
  change (removelast (a :: b :: bs)) with (a :: removelast (b :: bs)).
  change (tl (a :: b :: bs)) with (b :: tl (b :: bs)).
  cbn [combine forallb fst snd]. intros H. apply andb_false_iff in H as [H|H].
  - apply Z.eqb_neq in H. exists [], a, b, bs; auto.
  - destruct (IH H) as (pre & o & i & post & E & Hn). exists (a :: pre), o, i, post. rewrite E; auto.
Qed.
Lemma last_In {A} (l : list A) d : l <> [] -> In (last l d) l.
Proof.
  induction l as [|a l IH]; [congruence|]. intros _. destruct l as [|b l]; [simpl; auto|].
  right. apply IH; discriminate.
Qed.
Lemma chain_init_spec bs :
  (forall b, In b bs -> coherent b) ->
  (chain_init bs = Err ValueError <-> bs = [] \/ mismatched_neighbours bs) /\
  (forall e, chain_init bs = Err e -> e = ValueError) /\
  (forall c, chain_init bs = Ok c ->
     (exists pre b, bs = pre ++ [b] /\ b_in c = b_in b) /\
     (exists b post, bs = b :: post /\ b_out c = b_out b) /\
     (b_cj c = true <-> (forall b, In b bs -> b_cj b = true)) /\
     (b_cl c = true <-> (forall b, In b bs -> b_cl b = true))).
Proof.
  intros Hc. unfold chain_init. destruct bs as [|b bs].
  - repeat split; auto; try (intros; discriminate). intros e H; injection H as <-; reflexivity.
  - pose proof (neighbours_ok_spec (b :: bs)) as Hn.
    destruct (chain_neighbours_ok (b :: bs)) eqn:En; cbn [negb].
    + assert (Hm : ~ mismatched_neighbours (b :: bs)) by (apply Hn; auto).
      destruct (Hc b (or_introl eq_refl)) as (_ & Hbo & _).
      assert (Hl : In (last (b :: bs) b) (b :: bs)) by (apply last_In; discriminate).
      destruct (Hc _ Hl) as (Hli & _ & _).
      rewrite base_init_coherent; auto.
      2: { intros H. rewrite forallb_forall in H |- *. intros x Hx. destruct (Hc x Hx) as (_ & _ & Hx'). auto. }
      cbn [rbind]. split; [|split].
      * split; [discriminate|]. intros [H|H]; [discriminate|contradiction].
      * discriminate.
      * intros c H; injection H as <-. cbn [b_in b_out b_cj b_cl m_in m_out m_cj m_cl]. split; [|split; [|split]].
        -- destruct (@exists_last _ (b :: bs)) as (pre & z & E); [discriminate|].
           exists pre, z; split; auto.
           change (b_in (last (b :: bs) b) = b_in z). rewrite E, last_last. reflexivity.
        -- exists b, bs; auto.
        -- apply (forallb_forall b_cj (b :: bs)).
        -- apply (forallb_forall b_cl (b :: bs)).
    + assert (Hm : mismatched_neighbours (b :: bs)) by (apply neighbours_false; auto).
      split; [split; auto|]. split; [intros e H; injection H as <-; auto|discriminate].
Qed.
Lemma built_coherent b : built b -> coherent b.
Proof.
  induction 1 as [nin nout cj cl m fal ial H|bs c _ IH H|b c _ IH H|b k c _ IH H].
  - apply base_init_ok in H as (H1 & H2 & H3 & _). unfold coherent; cbn; auto.
  - unfold chain_init in H. destruct bs as [|b bs]; [discriminate|].
    destruct (negb _); [discriminate|]. apply rbind_ok_inv in H as (m & Hm & H). injection H as <-.
    apply base_init_ok in Hm as (H1 & H2 & H3 & _). unfold coherent; cbn; auto.
  - apply rbind_ok_inv in H as (m & Hm & H). injection H as <-.
    apply base_init_ok in Hm as (H1 & H2 & H3 & _). unfold coherent; cbn; auto.
  - unfold block_init in H. destruct (k <? 0); [discriminate|].
    apply rbind_ok_inv in H as (m & Hm & H). injection H as <-.
    apply base_init_ok in Hm as (H1 & H2 & H3 & _). unfold coherent; cbn; auto.
Qed.
Lemma inverse_init_ok b : coherent b ->
  inverse_init b = Ok (mkBij (b_out b) (b_in b) (b_cj b) (b_cl b)
                         (b_inv b) (b_fwd b) (b_ild b) (b_fld b) (b_ial b) (b_fal b)).
Proof. intros (H1 & H2 & H3). unfold inverse_init. rewrite base_init_coherent; auto. Qed.
Lemma block_init_ok b k : coherent b -> 0 <= k -> exists c, block_init b k = Ok c.
Proof.
  intros (H1 & H2 & H3) Hk. unfold block_init. destruct (Z.ltb_spec k 0); [lia|].
  rewrite base_init_coherent; auto; try lia. cbn; eauto.
Qed.

(** ** Inverse *)
Lemma inverse_involution b c d :
  inverse_init b = Ok c -> inverse_init c = Ok d -> same_behaviour d b.
Proof.
  intros H1 H2. apply rbind_ok_inv in H1 as (m1 & Hm1 & H1). injection H1 as <-.
  apply rbind_ok_inv in H2 as (m2 & Hm2 & H2). injection H2 as <-.
  apply base_init_ok in Hm1 as (_ & _ & _ & ->). cbn in Hm2.
  apply base_init_ok in Hm2 as (_ & _ & _ & ->). unfold same_behaviour; cbn; repeat split; auto.
Qed.
Lemma fold_corr (F G : bij -> arr -> result arr) l1 l2 :
  Forall2 (fun b i => F i = G b) l1 l2 -> forall acc,
  fold_left (fun acc b => do v <- acc; F b v) l2 acc = fold_left (fun acc b => do v <- acc; G b v) l1 acc.
Proof. induction 1 as [|b i l1 l2 E HF IH]; intros acc; [reflexivity|]. cbn. rewrite E. apply IH. Qed.
Lemma accum_corr (F G : bij -> arr -> result (arr * arr)) l1 l2 :
  Forall2 (fun b i => F i = G b) l1 l2 -> forall acc,
  fold_left (accum F) l2 acc = fold_left (accum G) l1 acc.
Proof. induction 1 as [|b i l1 l2 E HF IH]; intros acc; [reflexivity|]. cbn [fold_left].
  replace (accum F acc i) with (accum G acc b) by (unfold accum; rewrite E; reflexivity). apply IH. Qed.
Lemma Forall2_impl {A B} (P Q : A -> B -> Prop) l1 l2 :
  (forall a b, P a b -> Q a b) -> Forall2 P l1 l2 -> Forall2 Q l1 l2.
Proof. intros H; induction 1; constructor; auto. Qed.
Lemma compose_inverses bs is x :
  Forall2 (fun b i => inverse_init b = Ok i) bs is ->
  chain_forward (rev is) x = chain_inverse bs x /\ chain_inverse (rev is) x = chain_forward bs x /\
  chain_fal (rev is) x = chain_ial bs x /\ chain_ial (rev is) x = chain_fal bs x.
Proof.
  intros H.
  assert (Hf : Forall2 (fun b i => b_fwd i = b_inv b /\ b_inv i = b_fwd b /\ b_fal i = b_ial b /\ b_ial i = b_fal b) bs is).
  { eapply Forall2_impl; [|exact H]. intros b i Hb.
    apply rbind_ok_inv in Hb as (m & Hm & Hb). injection Hb as <-. cbn; auto. }
  clear H. pose proof (Forall2_rev _ _ _ Hf) as Hr.
  split; [|split; [|split]].
  - unfold chain_forward, chain_inverse. rewrite rev_involutive. apply fold_corr.
    eapply Forall2_impl; [|exact Hf]; cbn; tauto.
  - unfold chain_forward, chain_inverse. apply fold_corr. eapply Forall2_impl; [|exact Hr]; cbn; tauto.
  - unfold chain_fal, chain_ial. rewrite rev_involutive. destruct Hf as [|b i bs is (H1 & H2 & H3 & H4) Hf]; [reflexivity|].
    rewrite H3. apply accum_corr. eapply Forall2_impl; [|exact Hf]; cbn; tauto.
  - unfold chain_fal, chain_ial. destruct Hr as [|b i bs' is' (H1 & H2 & H3 & H4) Hr]; [reflexivity|].
    rewrite H4. apply accum_corr. eapply Forall2_impl; [|exact Hr]; cbn; tauto.
Qed.
Lemma inverse_of_chain bs is c ic ci :
  Forall2 (fun b i => inverse_init b = Ok i) bs is ->
  chain_init bs = Ok c -> inverse_init c = Ok ic -> chain_init (rev is) = Ok ci ->
  same_behaviour ic ci.
Proof.
  intros HF Hc Hic Hci. destruct (chain_fields _ _ Hc) as (F1 & F2 & F3 & F4 & Hne & F5 & F6).
  destruct (chain_fields _ _ Hci) as (G1 & G2 & G3 & G4 & _ & G5 & G6).
  apply rbind_ok_inv in Hic as (m & Hm & Hic). apply base_init_ok in Hm as (_ & _ & _ & ->). injection Hic as <-.
  assert (Hx : forall x, _) by (intros x; exact (compose_inverses bs is x HF)).
  unfold same_behaviour; cbn [b_in b_out b_cj b_cl b_fwd b_inv b_fld b_ild b_fal b_ial m_in m_out m_cj m_cl].
  assert (Hmeta : b_in ci = b_out c /\ b_out ci = b_in c /\ b_cj ci = b_cj c /\ b_cl ci = b_cl c).
  { unfold chain_init in Hc, Hci. destruct bs as [|b bs]; [congruence|].
    destruct (negb (chain_neighbours_ok (b :: bs))); [discriminate|].
    apply rbind_ok_inv in Hc as (m & Hm & Hc). apply base_init_ok in Hm as (_ & _ & _ & ->). injection Hc as <-.
    cbn [b_in b_out b_cj b_cl m_in m_out m_cj m_cl].
    destruct (rev is) as [|r rs] eqn:Er; [discriminate|].
    destruct (negb (chain_neighbours_ok (r :: rs))); [discriminate|].
    apply rbind_ok_inv in Hci as (m' & Hm' & Hci). apply base_init_ok in Hm' as (_ & _ & _ & ->). injection Hci as <-.
    cbn [b_in b_out b_cj b_cl m_in m_out m_cj m_cl].
    assert (Hfb : forall p q l1 l2, Forall2 (fun b i => inverse_init b = Ok i) l1 l2 ->
       (forall b i, inverse_init b = Ok i -> q i = p b) -> forallb q l2 = forallb p l1).
    { intros p q l1 l2 H Hpq. induction H; cbn; auto. rewrite (Hpq x y), IHForall2 by auto; reflexivity. }
    assert (HFr : Forall2 (fun b i => inverse_init b = Ok i) (rev (b :: bs)) (r :: rs)) by (rewrite <- Er; apply Forall2_rev; auto).
    assert (Hrevfb : forall p (l : list bij), forallb p (rev l) = forallb p l).
    { intros p l; induction l; cbn; auto. rewrite forallb_app, IHl; cbn. destruct (p a), (forallb p l); auto. }
    split; [|split; [|split]].
    - (* last of rev is = image of first *)
      change (b_in (last (r :: rs) r) = b_out b).
      inversion HF as [|? i ? is' Hb HF' E1 E2]; subst. cbn [rev] in Er. rewrite <- Er.
      rewrite last_last. apply rbind_ok_inv in Hb as (mm & Hmm & Hb). apply base_init_ok in Hmm as (_ & _ & _ & ->). injection Hb as <-; reflexivity.
    - destruct (@exists_last _ (b :: bs)) as (pre & z & E); [discriminate|].
      change (b_out r = b_in (last (b :: bs) b)).
      rewrite E in HFr |- *. rewrite rev_app_distr in HFr. cbn in HFr. inversion HFr as [|? ? ? ? Hz]; subst.
      rewrite last_last. apply rbind_ok_inv in Hz as (mm & Hmm & Hb). apply base_init_ok in Hmm as (_ & _ & _ & ->). injection Hb as <-; reflexivity.
    - change (forallb b_cj (r :: rs) = forallb b_cj (b :: bs)). rewrite <- (Hrevfb b_cj (b :: bs)). apply Hfb; auto. intros b0 i Hb0.
      apply rbind_ok_inv in Hb0 as (mm & Hmm & Hb). apply base_init_ok in Hmm as (_ & _ & _ & ->). injection Hb as <-; reflexivity.
    - change (forallb b_cl (r :: rs) = forallb b_cl (b :: bs)). rewrite <- (Hrevfb b_cl (b :: bs)). apply Hfb; auto. intros b0 i Hb0.
      apply rbind_ok_inv in Hb0 as (mm & Hmm & Hb). apply base_init_ok in Hmm as (_ & _ & _ & ->). injection Hb as <-; reflexivity. }
  destruct Hmeta as (M1 & M2 & M3 & M4).
  repeat split; auto; intros x; destruct (Hx x) as (X1 & X2 & X3 & X4);
    rewrite ?F1, ?F2, ?F3, ?F4, ?F5, ?F6, ?G1, ?G2, ?G3, ?G4, ?G5, ?G6; congruence.
Qed.

Lemma chain_round_trip bs c x y : chain_init bs = Ok c ->
  links_invert_from bs x -> b_fwd c x = Ok y -> b_inv c y = Ok x.
Proof.
  intros Hc Hl. rewrite (chain_forward_spec _ _ _ Hc), (chain_inverse_spec _ _ _ Hc).
  apply compose_round_trip; auto.
Qed.
Lemma chain_round_trip_inv bs c x y : chain_init bs = Ok c ->
  links_invert_to bs y -> b_inv c y = Ok x -> b_fwd c x = Ok y.
Proof.
  intros Hc Hl. rewrite (chain_forward_spec _ _ _ Hc), (chain_inverse_spec _ _ _ Hc).
  apply compose_round_trip_inv; auto.
Qed.
Lemma chain_fal_spec bs c x y l : chain_init bs = Ok c ->
  (b_fal c x = Ok (y, l) <-> exists lds, forward_trace bs x lds y /\ tsum lds = Ok l).
Proof.
  intros Hc. destruct (chain_fields _ _ Hc) as (_ & _ & Ef & _ & Hne & _). rewrite Ef.
  apply chain_fal_trace; auto.
Qed.
Lemma inverse_swaps b c : coherent b -> inverse_init b = Ok c ->
  b_in c = b_out b /\ b_out c = b_in b /\ b_cj c = b_cj b /\ b_cl c = b_cl b /\
  (forall x, b_fwd c x = b_inv b x) /\ (forall x, b_inv c x = b_fwd b x) /\
  (forall x, b_fld c x = b_ild b x) /\ (forall x, b_ild c x = b_fld b x) /\
  (forall x, b_fal c x = b_ial b x) /\ (forall x, b_ial c x = b_fal b x).
Proof.
  intros Hc. rewrite inverse_init_ok by auto. intros H; injection H as <-. cbn. repeat split.
Qed.
Lemma wrappers_accepted b : coherent b ->
  (exists c, inverse_init b = Ok c) /\ (forall k, 0 <= k -> exists c, block_init b k = Ok c).
Proof.
  intros Hc; split; [rewrite inverse_init_ok by auto; eauto|]. intros k Hk; apply block_init_ok; auto.
Qed.
