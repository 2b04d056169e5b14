From Coq Require Import List Reals ZArith Bool Lia Lra.
From Verif Require Import Base.Result Base.Sums Base.Tensor Model.Bijector Model.Coupling
  Spec.Bijector Spec.Coupling Proofs.Bijector Proofs.Block.
Import ListNotations.
Local Open Scope nat_scope.

(** ** Broadcasting of the event mask *)
Lemma rev_repeat {A} (a : A) k : rev (repeat a k) = repeat a k.
Proof.
  induction k as [|k IH]; [reflexivity|]. cbn [repeat rev]. rewrite IH. clear IH.
  induction k as [|k IH]; [reflexivity|]. cbn [repeat app]. rewrite IH. reflexivity.
Qed.
Lemma bdim_1_l b : bdim 1 b = Some b.
Proof. unfold bdim. destruct (Nat.eqb_spec 1 b) as [<-|]; reflexivity. Qed.
Lemma bshape_rev_ones k a b c : length b = k ->
  bshape_rev (repeat 1 k ++ a) (b ++ c) = option_map (app b) (bshape_rev a c).
Proof.
  revert b; induction k as [|k IH]; intros b Hb.
  - destruct b; [|discriminate]. cbn. destruct (bshape_rev a c); reflexivity.
  - destruct b as [|d b]; [discriminate|]. cbn [repeat app bshape_rev].
    rewrite bdim_1_l, IH by (injection Hb; auto). destruct (bshape_rev a c); reflexivity.
Qed.
Lemma bshape_emask m pre suf s : bshape m pre = Some s ->
  bshape (m ++ repeat 1 (length suf)) (pre ++ suf) = Some (s ++ suf).
Proof.
  intros H. unfold bshape. rewrite !rev_app_distr, rev_repeat.
  rewrite bshape_rev_ones by apply rev_length.
  apply bshape_inv in H. rewrite H. cbn. rewrite rev_app_distr, !rev_involutive. reflexivity.
Qed.
Lemma bz_ones k a i j : length i = k -> bz (repeat 1 k ++ a) (i ++ j) = repeat 0 k ++ bz a j.
Proof.
  revert i; induction k as [|k IH]; intros i Hi.
  - destruct i; [reflexivity|discriminate].
  - destruct i as [|x i]; [discriminate|]. cbn [repeat app bz Nat.eqb]. f_equal. apply IH. injection Hi; auto.
Qed.
Lemma bindex_emask (m suf idx j : list nat) : length j = length suf ->
  bindex (m ++ repeat 1 (length suf)) (idx ++ j) = bindex m idx ++ repeat 0 (length suf).
Proof.
  intros H. unfold bindex. rewrite !rev_app_distr, rev_repeat.
  rewrite bz_ones by (rewrite rev_length; auto). rewrite rev_app_distr, rev_repeat. reflexivity.
Qed.
Lemma ravel_zeros k : ravel (repeat 1 k) (repeat 0 k) = 0.
Proof. induction k as [|k IH]; cbn; auto. Qed.
Lemma prodl_ones k : prodl (repeat 1 k) = 1.
Proof.
  induction k as [|k IH]; [reflexivity|].
  change (prodl (repeat 1 (S k))) with (1 * prodl (repeat 1 k)). lia.
Qed.
Lemma emask_get (m : tensor bool) (suf pre idx j : list nat) :
  bshape (shp m) pre = Some pre -> inb pre idx -> length j = length suf ->
  tget false (mkT (shp m ++ repeat 1 (length suf)) (dat m)) (bindex (shp m ++ repeat 1 (length suf)) (idx ++ j))
  = mask_at m idx.
Proof.
  intros Hb Hi Hj. rewrite bindex_emask by auto. unfold mask_at, tget. cbn [shp dat].
  pose proof (bindex_inb _ _ _ _ Hb Hi) as Hin. apply inb_length in Hin.
  rewrite ravel_app by auto. rewrite prodl_ones, ravel_zeros. f_equal. lia.
Qed.

(** ** MaskedCoupling *)
Section Masked.
Context {P : Type} (cond : arr -> result P) (bijector : P -> bij).
Variables (m : tensor bool) (pre suf : shape).
Hypothesis Hm : bshape (shp m) pre = Some pre.
Let emask := mkT (shp m ++ repeat 1 (length suf)) (dat m).
Let inner := Z.of_nat (length suf).

Lemma where_event (a b : arr) :
  (forall s, s = pre ++ suf -> bshape (shp a) (shp b) = Some s) ->
  bwhere emask a b = Ok (tgen (pre ++ suf) (fun idx =>
    if mask_at m (firstn (length pre) idx) then bget a idx else bget b idx)).
Proof.
  intros Hab. unfold bwhere. rewrite (Hab _ eq_refl).
  change (shp emask) with (shp m ++ repeat 1 (length suf)).
  rewrite (bshape_emask _ _ _ _ Hm). f_equal. apply tgen_ext. intros idx Hi.
  apply inb_app_inv in Hi as (i & j & -> & Hi & Hj).
  pose proof (inb_length _ _ Hi) as Li. pose proof (inb_length _ _ Hj) as Lj.
  unfold emask. rewrite (emask_get m suf pre) by auto.
  rewrite <- Li, firstn_app, Nat.sub_diag, firstn_all, firstn_O, app_nil_r. reflexivity.
Qed.
Lemma where_batch (l : arr) : shp l = pre ->
  bwhere m (tscalar 0%R) l = Ok (tgen pre (fun idx => if mask_at m idx then 0%R else tget 0%R l idx)).
Proof.
  intros Hl. unfold bwhere. cbn [shp tscalar]. rewrite bshape_nil_l, Hl, Hm. f_equal.
  apply tgen_ext. intros idx Hi. unfold mask_at. rewrite (bindex_refl pre) by auto.
  destruct (tget false m (bindex (shp m) idx)); [|reflexivity].
  unfold tget, bindex. cbn. reflexivity.
Qed.
Lemma masked_x_eq x : shp x = pre ++ suf ->
  bwhere emask x (tscalar 0%R) = Ok (masked_input m (length pre) x).
Proof.
  intros Hs. rewrite where_event.
  - unfold masked_input. rewrite Hs. f_equal. apply tgen_ext. intros idx Hi.
    destruct (mask_at m (firstn (length pre) idx)); [|reflexivity].
    unfold bget. rewrite Hs, bindex_refl; auto.
  - intros s ->. rewrite Hs. cbn [shp tscalar]. rewrite bshape_comm. apply bshape_nil_l.
Qed.

Lemma mc_apply_spec op ev x p y0 l0 :
  shp x = pre ++ suf -> cond (masked_input m (length pre) x) = Ok p ->
  b_in (bijector p) = inner -> b_out (bijector p) = inner ->
  op (bijector p) x = Ok (y0, l0) -> shp y0 = pre ++ suf -> shp l0 = pre ->
  mc_apply cond bijector m emask ev inner op x =
  do s <- sum_last (tgen pre (fun idx => if mask_at m idx then 0%R else tget 0%R l0 idx)) (ev - inner)%Z;
  Ok (tgen (pre ++ suf) (fun idx => if mask_at m (firstn (length pre) idx) then tget 0%R x idx else tget 0%R y0 idx), s).
Proof.
  intros Hs Hc Hbi Hbo Hop Hy Hl. unfold mc_apply.
  rewrite masked_x_eq by auto. cbn [rbind]. rewrite Hc. cbn [rbind].
  unfold mc_inner. rewrite Hbi, Hbo, Z.eqb_refl. cbn [negb orb rbind]. rewrite Hop. cbn [rbind].
  rewrite where_event by (intros s ->; rewrite Hs, Hy; apply bshape_refl). cbn [rbind].
  rewrite where_batch by auto. cbn [rbind].
  destruct (sum_last _ (ev - inner)) as [s|e]; [|reflexivity]. cbn [rbind]. do 2 f_equal.
  apply tgen_ext. intros idx Hi. unfold bget. rewrite Hs, Hy, !bindex_refl by auto. reflexivity.
Qed.

Lemma firstn_pre idx j : inb pre idx -> firstn (length pre) (idx ++ j) = idx.
Proof.
  intros H. rewrite <- (inb_length _ _ H), firstn_app, Nat.sub_diag, firstn_all, firstn_O, app_nil_r. reflexivity.
Qed.

(** generic round trip for the shared body *)
Lemma mc_apply_round op op' ev x p y ld :
  wf x -> shp x = pre ++ suf -> cond (masked_input m (length pre) x) = Ok p ->
  b_in (bijector p) = inner -> b_out (bijector p) = inner ->
  (0 <= ev - inner <= Z.of_nat (length pre))%Z ->
  acts_eventwise pre suf (op (bijector p)) -> acts_eventwise pre suf (op' (bijector p)) ->
  undoes pre suf (op (bijector p)) (op' (bijector p)) ->
  mc_apply cond bijector m emask ev inner op x = Ok (y, ld) ->
  mc_apply cond bijector m emask ev inner op' y = Ok (x, tneg ld).
Proof.
  intros Hw Hs Hc Hbi Hbo Hev [HT HL] [HT' HL'] Hu E.
  destruct (HT x Hw Hs) as (y0 & l0 & Eop & Hwy0 & Hsy0 & Hwl0 & Hsl0).
  rewrite (mc_apply_spec op ev x p y0 l0) in E by auto.
  apply rbind_ok_inv in E as (s & Es & E). injection E as <- <-.
  set (y := tgen (pre ++ suf) (fun idx => if mask_at m (firstn (length pre) idx) then tget 0%R x idx else tget 0%R y0 idx)).
  assert (Hwy : wf y) by apply tgen_wf. assert (Hsy : shp y = pre ++ suf) by reflexivity.
  assert (Hy : forall idx j, inb pre idx -> inb suf j ->
     tget 0%R y (idx ++ j) = if mask_at m idx then tget 0%R x (idx ++ j) else tget 0%R y0 (idx ++ j)).
  { intros idx j Hi Hj. unfold y. rewrite tget_tgen by (apply inb_app; auto). rewrite firstn_pre by auto. reflexivity. }
  assert (Hmy : masked_input m (length pre) y = masked_input m (length pre) x).
  { unfold masked_input. rewrite Hs, Hsy. apply tgen_ext. intros idx Hi.
    apply inb_app_inv in Hi as (i & j & -> & Hi & Hj). rewrite firstn_pre by auto.
    destruct (mask_at m i) eqn:Em; [|reflexivity]. rewrite Hy, Em by auto. reflexivity. }
  destruct (HT' y Hwy Hsy) as (x0 & l1 & Eop' & Hwx0 & Hsx0 & Hwl1 & Hsl1).
  rewrite (mc_apply_spec op' ev y p x0 l1) by (auto; rewrite Hmy; auto).
  pose proof (Hu x y0 l0 Hw Hs Eop) as Einv.
  assert (Hloc : forall idx, inb pre idx -> mask_at m idx = false ->
     same_event suf x0 x idx /\ tget 0%R l1 idx = tget 0%R (tneg l0) idx).
  { intros idx Hi Em. apply (HL' y y0 x0 x l1 (tneg l0) idx); auto.
    intros j Hj. rewrite Hy, Em by auto. reflexivity. }
  (* the log-dets *)
  destruct (split_shape pre (Z.to_nat (ev - inner))) as (p1 & p2 & Ep & Lp2); [lia|].
  assert (Hk : Z.of_nat (length p2) = (ev - inner)%Z) by lia.
  set (w0 := tgen pre (fun idx => if mask_at m idx then 0%R else tget 0%R l0 idx)) in *.
  set (w1 := tgen pre (fun idx => if mask_at m idx then 0%R else tget 0%R l1 idx)).
  destruct (sum_last_spec w0 p1 p2 (tgen_wf _ _)) as (s0 & E0 & Hws0 & Hss0 & V0); [exact Ep|].
  destruct (sum_last_spec w1 p1 p2 (tgen_wf _ _)) as (s1 & E1 & Hws1 & Hss1 & V1); [exact Ep|].
  rewrite Hk in E0, E1. rewrite E0 in Es. injection Es as <-. rewrite E1. cbn [rbind]. do 2 f_equal.
  - apply (tensor_ext 0%R); [apply tgen_wf|auto|auto|]. intros idx Hi. cbn [shp tgen] in Hi.
    rewrite tget_tgen by auto. apply inb_app_inv in Hi as (i & j & -> & Hi & Hj). rewrite firstn_pre by auto.
    destruct (mask_at m i) eqn:Em; [rewrite Hy, Em by auto; reflexivity|].
    apply (proj1 (Hloc i Hi Em)); auto.
  - apply (tensor_ext 0%R); auto; [apply tmap_wf; auto|rewrite Hss1; auto|]. rewrite Hss1.
    intros idx Hi. rewrite tget_tneg by (auto; rewrite Hss0; auto). rewrite V0, V1 by auto.
    rewrite <- sumf_opp. apply sumf_ext. intros j Hj. apply in_indices in Hj.
    assert (Hij : inb pre (idx ++ j)) by (rewrite Ep; apply inb_app; auto).
    unfold w0, w1. rewrite !tget_tgen by auto. destruct (mask_at m (idx ++ j)) eqn:Em; [lra|].
    rewrite (proj2 (Hloc _ Hij Em)). apply tget_tneg; auto. rewrite Hsl0; auto.
Qed.
End Masked.

(** ** MaskedCoupling, top level *)
Lemma base_methods_agree me fal ial : methods_agree (base_methods me fal ial).
Proof. split; intros a b l E; cbn in *; rewrite E; auto. Qed.
Lemma mc_init_ok {P} cond (bijector : P -> bij) mask ev inner c :
  masked_coupling_init cond bijector mask ev inner = Ok c ->
  exists m, mask = BoolMask m /\
    let e := match ev with None => (Z.of_nat (rank m) + inner)%Z | Some e => e end in
    (0 <= e)%Z /\ (match ev with Some e => inner <= e | None => True end)%Z /\
    b_in c = e /\ b_out c = e /\ b_cj c = false /\ b_cl c = false /\
    (forall x, b_fal c x = do _ <- check_input_shape e x;
        mc_apply cond bijector m (mkT (shp m ++ repeat 1 (Z.to_nat inner)) (dat m)) e inner b_fal x) /\
    (forall x, b_ial c x = do _ <- check_input_shape e x;
        mc_apply cond bijector m (mkT (shp m ++ repeat 1 (Z.to_nat inner)) (dat m)) e inner b_ial x) /\
    methods_agree c.
Proof.
  unfold masked_coupling_init. destruct mask as [m|a]; [|discriminate].
  destruct (match ev with Some e => (e <? inner)%Z | None => false end) eqn:Ev; [discriminate|].
  intros H. apply rbind_ok_inv in H as (me & Eme & H). injection H as <-.
  apply base_init_ok in Eme as (H1 & H2 & H3 & ->). cbn in H1. exists m. split; [reflexivity|]. cbn zeta.
  split; [exact H1|]. split.
  { destruct ev as [e|]; [|exact I]. destruct (Z.ltb_spec e inner); [discriminate|lia]. }
  do 4 (split; [reflexivity|]). do 2 (split; [intros; reflexivity|]). apply base_methods_agree.
Qed.
Lemma mc_init_spec {P} cond (bijector : P -> bij) mask ev inner :
  (masked_coupling_init cond bijector mask ev inner = Err ValueError <->
     (exists a, mask = NonBoolMask a) \/ (exists e, ev = Some e /\ (e < inner \/ e < 0)%Z) \/
     (exists m, mask = BoolMask m /\ ev = None /\ (Z.of_nat (rank m) + inner < 0)%Z)) /\
  (forall e, masked_coupling_init cond bijector mask ev inner = Err e -> e = ValueError).
Proof.
  unfold masked_coupling_init. destruct mask as [m|a].
  2: { split; [split; [eauto|auto]|]. intros e H; congruence. }
  assert (HB : forall e, (base_init e None false None = Err ValueError /\ (e < 0)%Z) \/
                         ((0 <= e)%Z /\ exists me, base_init e None false None = Ok me)).
  { intros e. destruct (base_init_spec e None false None) as [(A & B & C & D)|(A & D)]; eauto.
    left; split; auto. cbn in A; intuition congruence. }
  destruct ev as [e|].
  - destruct (Z.ltb_spec e inner) as [Hlt|Hge].
    + split; [split; [intros _; right; left; eauto|auto]|congruence].
    + destruct (HB e) as [(D & Hn)|(Hn & me & D)]; rewrite D; cbn.
      * split; [split; [intros _; right; left; eauto|auto]|congruence].
      * split; [|congruence]. split; [discriminate|].
        intros [(a & E)|[(e' & E & Hd)|(m' & _ & E & _)]]; [discriminate| |discriminate].
        injection E as <-. lia.
  - destruct (HB (Z.of_nat (rank m) + inner)%Z) as [(D & Hn)|(Hn & me & D)]; rewrite D; cbn.
    + split; [split; [intros _; right; right; eauto|auto]|congruence].
    + split; [|congruence]. split; [discriminate|].
      intros [(a & E)|[(e' & E & Hd)|(m' & E & _ & Hd)]]; [discriminate|discriminate|].
      injection E as <-. lia.
Qed.

Section MaskedTop.
Context {P : Type} (cond : arr -> result P) (bijector : P -> bij).
Variables (m : tensor bool) (ev : option Z) (pre suf : shape) (c : bij).
Hypothesis Hc : masked_coupling_init cond bijector (BoolMask m) ev (Z.of_nat (length suf)) = Ok c.
Hypothesis Hm : bshape (shp m) pre = Some pre.
Hypothesis Hrank : (b_in c <= Z.of_nat (length (pre ++ suf)))%Z.

Lemma mc_ev_bounds : (0 <= b_in c - Z.of_nat (length suf) <= Z.of_nat (length pre))%Z.
Proof.
  destruct (mc_init_ok _ _ _ _ _ _ Hc) as (m' & E & H). injection E as <-. cbn zeta in H.
  destruct H as (H0 & H1 & Ein & _). rewrite app_length in Hrank. rewrite Ein in *.
  destruct ev as [e|]; [lia|]. unfold rank in *. lia.
Qed.
Lemma mc_methods op x : (op = b_fal \/ op = b_ial) -> shp x = pre ++ suf ->
  op c x = mc_apply cond bijector m (mkT (shp m ++ repeat 1 (length suf)) (dat m)) (b_in c) (Z.of_nat (length suf)) op x.
Proof.
  intros Hop Hs. destruct (mc_init_ok _ _ _ _ _ _ Hc) as (m' & E & H). injection E as <-. cbn zeta in H.
  destruct H as (H0 & H1 & Ein & Eout & _ & _ & F1 & F2 & _). rewrite Nat2Z.id in F1, F2.
  assert (Hk : check_input_shape (b_in c) x = Ok tt) by (apply check_ok; unfold rank; rewrite Hs; exact Hrank).
  rewrite <- Ein in F1, F2.
  destruct Hop as [->| ->]; [rewrite F1|rewrite F2]; rewrite Hk; reflexivity.
Qed.

Lemma masked_coupling_values op x p y0 l0 : (op = b_fal \/ op = b_ial) ->
  shp x = pre ++ suf -> cond (masked_input m (length pre) x) = Ok p ->
  b_in (bijector p) = Z.of_nat (length suf) -> b_out (bijector p) = Z.of_nat (length suf) ->
  op (bijector p) x = Ok (y0, l0) -> shp y0 = pre ++ suf -> shp l0 = pre ->
  exists y s, op c x = Ok (y, s) /\ wf y /\ shp y = pre ++ suf /\ wf s /\
    (forall idx j, inb pre idx -> inb suf j ->
       tget 0%R y (idx ++ j) = if mask_at m idx then tget 0%R x (idx ++ j) else tget 0%R y0 (idx ++ j)) /\
    (forall p1 p2, pre = p1 ++ p2 -> Z.of_nat (length p2) = (b_in c - Z.of_nat (length suf))%Z ->
       shp s = p1 /\ forall idx, inb p1 idx ->
         tget 0%R s idx = sumf (fun j => if mask_at m (idx ++ j) then 0%R else tget 0%R l0 (idx ++ j)) (indices p2)).
Proof.
  intros Hop Hs Hp Hbi Hbo Eop Hy Hl. pose proof mc_ev_bounds as Hev.
  rewrite (mc_methods op x Hop Hs).
  rewrite (mc_apply_spec cond bijector m pre suf Hm op _ x p y0 l0) by auto.
  destruct (split_shape pre (Z.to_nat (b_in c - Z.of_nat (length suf)))) as (q1 & q2 & Eq & Lq); [lia|].
  set (w := tgen pre _) in *.
  destruct (sum_last_spec w q1 q2 (tgen_wf _ _) Eq) as (s & Es & Hws & Hss & V).
  rewrite Lq, Z2Nat.id in Es by lia. rewrite Es. cbn [rbind].
  do 2 eexists. split; [reflexivity|]. split; [apply tgen_wf|]. split; [reflexivity|]. split; [exact Hws|]. split.
  - intros idx j Hi Hj. rewrite tget_tgen by (apply inb_app; auto). rewrite firstn_pre by auto. reflexivity.
  - intros p1 p2 Ep Lp.
    assert (p1 = q1 /\ p2 = q2) as [-> ->].
    { assert (L : length p1 = length q1) by (apply (f_equal (@length nat)) in Ep, Eq; rewrite app_length in Ep, Eq; lia).
      rewrite Ep in Eq. clear -L Eq. revert q1 L Eq.
      induction p1 as [|a p1 IH]; intros [|b q1] L Eq; try discriminate; [auto|].
      injection L as L. injection Eq as -> Eq. destruct (IH q1 L Eq) as [-> ->]. auto. }
    split; [exact Hss|]. intros idx Hi. rewrite V by auto. apply sumf_ext. intros j Hj. apply in_indices in Hj.
    unfold w. rewrite tget_tgen; [reflexivity|]. rewrite Ep. apply inb_app; auto.
Qed.

Lemma masked_coupling_round op op' x p y ld :
  (op = b_fal /\ op' = b_ial) \/ (op = b_ial /\ op' = b_fal) ->
  wf x -> shp x = pre ++ suf -> cond (masked_input m (length pre) x) = Ok p ->
  b_in (bijector p) = Z.of_nat (length suf) -> b_out (bijector p) = Z.of_nat (length suf) ->
  acts_eventwise pre suf (op (bijector p)) -> acts_eventwise pre suf (op' (bijector p)) ->
  undoes pre suf (op (bijector p)) (op' (bijector p)) ->
  op c x = Ok (y, ld) -> op' c y = Ok (x, tneg ld).
Proof.
  intros Hop Hw Hs Hp Hbi Hbo HA HA' Hu E.
  assert (Hop1 : op = b_fal \/ op = b_ial) by tauto. assert (Hop2 : op' = b_fal \/ op' = b_ial) by tauto.
  destruct (proj1 HA x Hw Hs) as (y0 & l0 & E0 & _ & Hsy0 & _ & Hsl0).
  destruct (masked_coupling_values op x p y0 l0 Hop1 Hs Hp Hbi Hbo E0 Hsy0 Hsl0) as (y' & s & E' & _ & Hsy & _).
  rewrite E in E'. injection E' as <- <-.
  rewrite (mc_methods op x Hop1 Hs) in E. rewrite (mc_methods op' y Hop2 Hsy).
  apply (mc_apply_round cond bijector m pre suf Hm op op' _ x p y ld); auto. apply mc_ev_bounds.
Qed.
Lemma masked_coupling_inner_mismatch op x p : (op = b_fal \/ op = b_ial) ->
  shp x = pre ++ suf -> cond (masked_input m (length pre) x) = Ok p ->
  b_in (bijector p) <> Z.of_nat (length suf) \/ b_out (bijector p) <> Z.of_nat (length suf) ->
  op c x = Err ValueError.
Proof.
  intros Hop Hs Hp Hb. rewrite (mc_methods op x Hop Hs). unfold mc_apply.
  rewrite (masked_x_eq m pre suf) by auto. cbn [rbind]. rewrite Hp. cbn [rbind]. unfold mc_inner.
  destruct (Z.eqb_spec (b_in (bijector p)) (Z.of_nat (length suf)));
  destruct (Z.eqb_spec (b_out (bijector p)) (Z.of_nat (length suf))); cbn; auto. tauto.
Qed.
End MaskedTop.

(** ** SplitCoupling *)
Lemma nth_mid {A} (l1 l2 : list A) a d : nth (length l1) (l1 ++ a :: l2) d = a.
Proof. rewrite app_nth2, Nat.sub_diag; auto. Qed.
Lemma firstn_mid {A} (l1 l2 : list A) : firstn (length l1) (l1 ++ l2) = l1.
Proof. rewrite firstn_app, Nat.sub_diag, firstn_all, firstn_O, app_nil_r. reflexivity. Qed.
Lemma skipn_mid {A} (l1 l2 : list A) a : skipn (S (length l1)) (l1 ++ a :: l2) = l2.
Proof. induction l1 as [|b l1 IH]; [reflexivity|]. cbn [length app]. exact IH. Qed.
Lemma inb_mid pre post d i a j : inb pre i -> a < d -> inb post j -> inb (pre ++ d :: post) (i ++ a :: j).
Proof. intros H1 H2 H3. apply inb_app; auto. apply inb_cons; auto. Qed.
Lemma inb_mid_inv pre post d idx : inb (pre ++ d :: post) idx ->
  exists i a j, idx = i ++ a :: j /\ inb pre i /\ a < d /\ inb post j.
Proof.
  intros H. apply inb_app_inv in H as (i & r & -> & Hi & Hr). destruct r as [|a j]; [inversion Hr|].
  apply inb_cons in Hr as [Ha Hj]. exists i, a, j; auto.
Qed.
Lemma slice_unique pre post lo hi x p1 p2 :
  slice_of pre post lo hi x p1 -> slice_of pre post lo hi x p2 -> p1 = p2.
Proof.
  intros (W1 & S1 & V1) (W2 & S2 & V2). apply (tensor_ext 0%R); auto; [congruence|].
  rewrite S1. intros idx Hi. apply inb_mid_inv in Hi as (i & a & j & -> & Hi & Ha & Hj).
  rewrite V1, V2; auto.
Qed.
Lemma slices_determine pre post k d x y a b : k <= d -> wf x -> wf y ->
  shp x = pre ++ d :: post -> shp y = pre ++ d :: post ->
  slice_of pre post 0 k x a -> slice_of pre post 0 k y a ->
  slice_of pre post k d x b -> slice_of pre post k d y b -> x = y.
Proof.
  intros Hk Wx Wy Sx Sy (_ & _ & A1) (_ & _ & A2) (_ & _ & B1) (_ & _ & B2).
  apply (tensor_ext 0%R); auto; [congruence|]. rewrite Sx. intros idx Hi.
  apply inb_mid_inv in Hi as (i & q & j & -> & Hi & Hq & Hj).
  destruct (Nat.lt_ge_cases q k).
  - pose proof (A1 i q j Hi ltac:(lia) Hj) as P1. pose proof (A2 i q j Hi ltac:(lia) Hj) as P2.
    rewrite Nat.add_0_l in P1, P2. congruence.
  - replace q with (k + (q - k)) by lia. rewrite <- (B1 i (q - k) j), <- (B2 i (q - k) j); auto; lia.
Qed.
Lemma tsplit_spec i pre post d x : shp x = pre ++ d :: post ->
  exists a b, tsplit i (length pre) x = (a, b) /\
    slice_of pre post 0 (Nat.min i d) x a /\ slice_of pre post (Nat.min i d) d x b.
Proof.
  intros Hs. unfold tsplit. rewrite Hs, firstn_mid, nth_mid, skipn_mid. do 2 eexists. split; [reflexivity|].
  split.
  - split; [apply tgen_wf|]. split; [cbn [shp tgen]; rewrite Nat.sub_0_r; reflexivity|].
    intros i0 a j Hi Ha Hj. rewrite tget_tgen by (apply inb_mid; auto; lia). reflexivity.
  - split; [apply tgen_wf|]. split; [reflexivity|].
    intros i0 a j Hi Ha Hj. rewrite tget_tgen by (apply inb_mid; auto).
    rewrite <- (inb_length _ _ Hi), firstn_mid, nth_mid, skipn_mid. reflexivity.
Qed.
Lemma tconcat_spec pre post k d a b : k <= d -> wf a -> wf b ->
  shp a = pre ++ k :: post -> shp b = pre ++ (d - k) :: post ->
  exists y, tconcat (length pre) a b = Ok y /\ wf y /\ shp y = pre ++ d :: post /\
    slice_of pre post 0 k y a /\ slice_of pre post k d y b.
Proof.
  intros Hk Wa Wb Sa Sb. unfold tconcat. rewrite Sa, Sb, firstn_mid, !nth_mid, skipn_mid.
  destruct (list_eq_dec Nat.eq_dec (pre ++ (d - k) :: post) (pre ++ (d - k) :: post)); [|congruence].
  replace (k + (d - k)) with d by lia.
  eexists. split; [reflexivity|]. split; [apply tgen_wf|]. split; [reflexivity|]. split.
  - split; [auto|]. split; [rewrite Nat.sub_0_r; auto|]. intros i q j Hi Hq Hj.
    rewrite tget_tgen by (apply inb_mid; auto; lia). rewrite <- (inb_length _ _ Hi), nth_mid.
    rewrite Nat.add_0_l. destruct (Nat.ltb_spec q k); [reflexivity|lia].
  - split; [auto|]. split; [auto|]. intros i q j Hi Hq Hj.
    rewrite tget_tgen by (apply inb_mid; auto; lia). rewrite <- (inb_length _ _ Hi), nth_mid.
    destruct (Nat.ltb_spec (k + q) k); [lia|]. rewrite firstn_mid, skipn_mid.
    replace (k + q - k) with q by lia. reflexivity.
Qed.

Lemma sc_inner_promoted {P} (bijector : P -> bij) ev p b' : coherent (bijector p) -> promoted ev (bijector p) b' -> sc_inner bijector ev p = Ok b'.
Proof.
  intros Hco [E [[E1 ->]|[Hlt Eb]]]; unfold sc_inner; rewrite E, Z.eqb_refl; cbn [negb].
  - rewrite <- E, E1, Z.sub_diag. reflexivity.
  - rewrite <- E. destruct (Z.ltb_spec (ev - b_in (bijector p)) 0); [lia|].
    destruct (Z.ltb_spec 0 (ev - b_in (bijector p))); [exact Eb|lia].
Qed.

Section Split.
Context {P : Type} (cond : arr -> result P) (bijector : P -> bij).
Variables (si ev ax : Z) (swap : bool) (pre post : shape) (d : nat).
Hypothesis Hax : ax = (- Z.of_nat (S (length post)))%Z.
Let k := Nat.min (Z.to_nat si) d.
Lemma Hk_le : k <= d. Proof. unfold k; lia. Qed.
Lemma axis_pos_ok x e : shp x = pre ++ e :: post -> axis_pos ax x = length pre.
Proof. intros Hs. unfold axis_pos, rank. rewrite Hs, app_length, Hax. cbn [length]. lia. Qed.

Lemma sc_split_spec x : shp x = pre ++ d :: post ->
  exists x1 x2, sc_split si ax swap x = (x1, x2) /\
    slice_of pre post (kept_lo swap k d) (kept_hi swap k d) x x1 /\
    slice_of pre post (kept_lo (negb swap) k d) (kept_hi (negb swap) k d) x x2.
Proof.
  intros Hs. unfold sc_split. rewrite (axis_pos_ok x d Hs).
  destruct (tsplit_spec (Z.to_nat si) pre post d x Hs) as (a & b & -> & A & B).
  destruct swap; cbn; eauto.
Qed.
Lemma sc_recombine_spec x1 y2 : wf x1 -> wf y2 ->
  shp x1 = pre ++ (kept_hi swap k d - kept_lo swap k d) :: post ->
  shp y2 = pre ++ (kept_hi (negb swap) k d - kept_lo (negb swap) k d) :: post ->
  exists y, sc_recombine ax swap x1 y2 = Ok y /\ wf y /\ shp y = pre ++ d :: post /\
    slice_of pre post (kept_lo swap k d) (kept_hi swap k d) y x1 /\
    slice_of pre post (kept_lo (negb swap) k d) (kept_hi (negb swap) k d) y y2.
Proof.
  intros W1 W2 S1 S2. unfold sc_recombine. pose proof Hk_le.
  destruct swap; cbn [kept_lo kept_hi negb] in *; rewrite Nat.sub_0_r in *.
  - rewrite (axis_pos_ok y2 _ S2).
    destruct (tconcat_spec pre post k d y2 x1) as (y & E & W & S & A & B); auto. exists y; auto.
  - rewrite (axis_pos_ok x1 _ S1).
    destruct (tconcat_spec pre post k d x1 y2) as (y & E & W & S & A & B); auto. exists y; auto.
Qed.
Lemma sc_apply_spec op x x1 x2 p b' y2 l : shp x = pre ++ d :: post ->
  slice_of pre post (kept_lo swap k d) (kept_hi swap k d) x x1 ->
  slice_of pre post (kept_lo (negb swap) k d) (kept_hi (negb swap) k d) x x2 ->
  cond x1 = Ok p -> sc_inner bijector ev p = Ok b' -> op b' x2 = Ok (y2, l) -> wf y2 -> shp y2 = shp x2 ->
  exists y, sc_apply cond bijector si ev ax swap op x = Ok (y, l) /\ wf y /\ shp y = pre ++ d :: post /\
    slice_of pre post (kept_lo swap k d) (kept_hi swap k d) y x1 /\
    slice_of pre post (kept_lo (negb swap) k d) (kept_hi (negb swap) k d) y y2.
Proof.
  intros Hs A B Hp Hb Hop Wy Sy. unfold sc_apply.
  destruct (sc_split_spec x Hs) as (a & b & -> & A' & B').
  rewrite (slice_unique _ _ _ _ _ _ _ A' A), (slice_unique _ _ _ _ _ _ _ B' B).
  rewrite Hp; cbn [rbind]. rewrite Hb; cbn [rbind]. rewrite Hop; cbn [rbind].
  destruct (sc_recombine_spec x1 y2) as (y & -> & W & S & C & D); auto.
  - apply A.
  - apply A.
  - rewrite Sy. apply B.
  - exists y. cbn [rbind]. auto.
Qed.
Lemma sc_apply_round op op' x x1 x2 p b' y2 l y : wf x -> shp x = pre ++ d :: post ->
  slice_of pre post (kept_lo swap k d) (kept_hi swap k d) x x1 ->
  slice_of pre post (kept_lo (negb swap) k d) (kept_hi (negb swap) k d) x x2 ->
  cond x1 = Ok p -> sc_inner bijector ev p = Ok b' -> op b' x2 = Ok (y2, l) -> wf y2 -> shp y2 = shp x2 ->
  op' b' y2 = Ok (x2, tneg l) ->
  sc_apply cond bijector si ev ax swap op x = Ok (y, l) ->
  sc_apply cond bijector si ev ax swap op' y = Ok (x, tneg l).
Proof.
  intros Wx Hs A B Hp Hb Hop Wy Sy Hop' E. pose proof Hk_le as Hkd.
  destruct (sc_apply_spec op x x1 x2 p b' y2 l Hs A B Hp Hb Hop Wy Sy) as (y' & E' & Wy' & Sy' & A1 & B1).
  rewrite E in E'. injection E' as <-.
  assert (Wx2 : wf x2) by apply B.
  destruct (sc_apply_spec op' y x1 y2 p b' x2 (tneg l) Sy' A1 B1 Hp Hb Hop' Wx2) as (x' & E' & Wx' & Sx' & A2 & B2); auto.
  rewrite E'. do 2 f_equal. symmetry.
  destruct swap; cbn [kept_lo kept_hi negb] in *.
  - eapply (slices_determine pre post k d x x' x2 x1); eauto.
  - eapply (slices_determine pre post k d x x' x1 x2); eauto.
Qed.
End Split.

Lemma sc_init_spec {P} cond (bijector : P -> bij) si ev swap ax :
  (split_coupling_init cond bijector si ev swap ax = Err ValueError <->
     (si < 0 \/ 0 <= ax \/ ev < 0 \/ ax < - ev)%Z) /\
  (forall e, split_coupling_init cond bijector si ev swap ax = Err e -> e = ValueError) /\
  (forall c, split_coupling_init cond bijector si ev swap ax = Ok c ->
     b_in c = ev /\ b_out c = ev /\ b_cj c = false /\ b_cl c = false /\ methods_agree c /\
     (forall x, b_fal c x = do _ <- check_input_shape ev x; sc_apply cond bijector si ev ax swap b_fal x) /\
     (forall x, b_ial c x = do _ <- check_input_shape ev x; sc_apply cond bijector si ev ax swap b_ial x)).
Proof.
  unfold split_coupling_init.
  destruct (Z.ltb_spec si 0); [split; [split; auto|split; [congruence|discriminate]]|].
  destruct (Z.leb_spec 0 ax); [split; [split; auto|split; [congruence|discriminate]]|].
  destruct (Z.ltb_spec ev 0); [split; [split; auto|split; [congruence|discriminate]]|].
  destruct (Z.ltb_spec ax (- ev)); [split; [split; auto|split; [congruence|discriminate]]|].
  destruct (base_init_spec ev None false None) as [(A & B & C & D)|(A & D)]; cbn in A.
  - rewrite D. cbn. split; [split; [discriminate|lia]|]. split; [congruence|].
    intros c E; injection E as <-. do 4 (split; [reflexivity|]). split; [apply base_methods_agree|].
    split; intros; reflexivity.
  - exfalso. intuition (try lia; congruence).
Qed.
Lemma sc_inner_rejects {P} (bijector : P -> bij) ev p : coherent (bijector p) ->
  (sc_inner bijector ev p = Err ValueError <->
     (b_in (bijector p) <> b_out (bijector p) \/ ev < b_in (bijector p))%Z).
Proof.
  intros Hc. unfold sc_inner. destruct (Z.eqb_spec (b_in (bijector p)) (b_out (bijector p))); cbn [negb].
  - destruct (Z.ltb_spec (ev - b_in (bijector p)) 0); [split; auto; right; lia|].
    destruct (Z.ltb_spec 0 (ev - b_in (bijector p))).
    + destruct (block_init_ok (bijector p) (ev - b_in (bijector p)) Hc) as (c & ->); [lia|].
      split; [discriminate|lia].
    + split; [discriminate|lia].
  - split; auto.
Qed.
Lemma slices_exist pre post d k (x : arr) : k <= d -> shp x = pre ++ d :: post ->
  exists x1 x2, slice_of pre post 0 k x x1 /\ slice_of pre post k d x x2.
Proof.
  intros Hk Hs. destruct (tsplit_spec k pre post d x Hs) as (a & b & _ & A & B).
  rewrite Nat.min_l in A, B by auto. eauto.
Qed.
Lemma split_coupling_values {P} (cond : arr -> result P) (bijector : P -> bij) si ev swap ax pre post d c :
  split_coupling_init cond bijector si ev swap ax = Ok c ->
  ax = (- Z.of_nat (S (length post)))%Z -> let k := Nat.min (Z.to_nat si) d in
  forall op x x1 x2 p b' y2 l, (op = b_fal \/ op = b_ial) ->
  shp x = pre ++ d :: post -> (ev <= Z.of_nat (rank x))%Z ->
  slice_of pre post (kept_lo swap k d) (kept_hi swap k d) x x1 ->
  slice_of pre post (kept_lo (negb swap) k d) (kept_hi (negb swap) k d) x x2 ->
  cond x1 = Ok p -> coherent (bijector p) -> promoted ev (bijector p) b' ->
  op b' x2 = Ok (y2, l) -> wf y2 -> shp y2 = shp x2 ->
  exists y, op c x = Ok (y, l) /\ wf y /\ shp y = shp x /\
    slice_of pre post (kept_lo swap k d) (kept_hi swap k d) y x1 /\
    slice_of pre post (kept_lo (negb swap) k d) (kept_hi (negb swap) k d) y y2.
Proof.
  intros Hc Hax k op x x1 x2 p b' y2 l Hop Hs Hr A B Hp Hco Hb E Wy Sy.
  destruct (sc_init_spec cond bijector si ev swap ax) as (_ & _ & HC).
  destruct (HC c Hc) as (_ & _ & _ & _ & _ & F1 & F2).
  assert (Eop : op c x = sc_apply cond bijector si ev ax swap op x).
  { destruct Hop as [->| ->]; [rewrite F1|rewrite F2]; rewrite check_ok by auto; reflexivity. }
  rewrite Eop. pose proof (sc_inner_promoted bijector ev p b' Hco Hb) as Hb'. rewrite Hs.
  apply (sc_apply_spec cond bijector si ev ax swap pre post d Hax op x x1 x2 p b' y2 l); auto.
Qed.
Lemma split_coupling_round {P} (cond : arr -> result P) (bijector : P -> bij) si ev swap ax pre post d c :
  split_coupling_init cond bijector si ev swap ax = Ok c ->
  ax = (- Z.of_nat (S (length post)))%Z -> let k := Nat.min (Z.to_nat si) d in
  forall op op' x x1 x2 p b' y2 l y, (op = b_fal /\ op' = b_ial) \/ (op = b_ial /\ op' = b_fal) ->
  wf x -> shp x = pre ++ d :: post -> (ev <= Z.of_nat (rank x))%Z ->
  slice_of pre post (kept_lo swap k d) (kept_hi swap k d) x x1 ->
  slice_of pre post (kept_lo (negb swap) k d) (kept_hi (negb swap) k d) x x2 ->
  cond x1 = Ok p -> coherent (bijector p) -> promoted ev (bijector p) b' ->
  op b' x2 = Ok (y2, l) -> wf y2 -> shp y2 = shp x2 -> op' b' y2 = Ok (x2, tneg l) ->
  op c x = Ok (y, l) -> op' c y = Ok (x, tneg l).
Proof.
  intros Hc Hax k op op' x x1 x2 p b' y2 l y Hop Wx Hs Hr A B Hp Hco Hb E Wy Sy E' Ey.
  destruct (split_coupling_values cond bijector si ev swap ax pre post d c Hc Hax op x x1 x2 p b' y2 l) as (y' & Ey' & Wy' & Sy' & _); auto; [tauto|].
  rewrite Ey in Ey'. injection Ey' as <-.
  destruct (sc_init_spec cond bijector si ev swap ax) as (_ & _ & HC).
  destruct (HC c Hc) as (_ & _ & _ & _ & _ & F1 & F2).
  assert (Eop : forall o z, (o = b_fal \/ o = b_ial) -> shp z = shp x -> o c z = sc_apply cond bijector si ev ax swap o z).
  { intros o z Ho Hz. assert (Hr' : (ev <= Z.of_nat (rank z))%Z) by (unfold rank in *; rewrite Hz; exact Hr).
    destruct Ho as [->| ->]; [rewrite F1|rewrite F2]; rewrite check_ok by auto; reflexivity. }
  rewrite Eop in Ey by (auto; tauto). rewrite Eop by (auto; tauto).
  pose proof (sc_inner_promoted bijector ev p b' Hco Hb) as Hb'.
  eapply (sc_apply_round cond bijector si ev ax swap pre post d Hax op op'); eauto.
Qed.
