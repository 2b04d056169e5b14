(** C29 for index tuples that mix arrays with ints, slices, Ellipsis and None. *)
From Coq Require Import List Reals ZArith Bool Lia.
From Verif Require Import Base.Result Base.Sums Base.Tensor Base.XR Base.Lift Model.Distribution Model.AdvIndex Spec.Distribution Spec.AdvIndex Proofs.Distribution Props.AdvIndex.
Import ListNotations.

Lemma pieces_app m a : forall s b ps rest, pieces m s (a ++ b) = Ok (ps, rest) ->
  exists pa ra pb, pieces m s a = Ok (pa, ra) /\ pieces m ra b = Ok (pb, rest) /\ ps = pa ++ pb /\ length pa = length a.
Proof.
  induction a as [|e a IH]; intros s b ps rest H; [exists [], s, ps; auto|]. rewrite <- app_comm_cons in H. cbn [pieces] in H |- *.
  assert (G : forall s' p, (do (ps, rest) <- pieces m s' (a ++ b); Ok (p :: ps, rest)) = Ok (ps, rest) ->
    exists pa ra pb, (do (ps, rest) <- pieces m s' a; Ok (p :: ps, rest)) = Ok (pa, ra) /\ pieces m ra b = Ok (pb, rest) /\ ps = pa ++ pb /\ length pa = S (length a)).
  { intros s' p Q. destruct (pieces m s' (a ++ b)) as [[q0 r0]|] eqn:E; [|discriminate]. cbn [rbind] in Q. injection Q as <- <-.
    destruct (IH _ _ _ _ E) as (pa & ra & pb & -> & Hb & -> & L). exists (p :: pa), ra, pb. cbn [rbind length app]. auto. }
  destruct e as [[z|x y w| |]|t|mk].
  - destruct s as [|d s]; [discriminate|]. destruct (in_range d z); [|discriminate]. apply G; auto.
  - destruct s as [|d s]; [discriminate|]. destruct (slice_spec d x y w) as [[[u v] c]|]; [|discriminate]. cbn [rbind] in *. apply G; auto.
  - destruct (Nat.ltb (length s) m); [discriminate|]. apply G; auto.
  - apply G; auto.
  - destruct s as [|d s]; [discriminate|]. destruct (forallb _ _); [|discriminate]. apply G; auto.
  - destruct list_eq_dec; [|discriminate]. apply G; auto.
Qed.
Lemma adv_shapes_app a b : adv_shapes (a ++ b) = adv_shapes a ++ adv_shapes b.
Proof. apply flat_map_app. Qed.
Lemma kept_dims_app a b : kept_dims (a ++ b) = kept_dims a ++ kept_dims b.
Proof. apply flat_map_app. Qed.

(** ** From the code to the specification *)
Lemma pieces_spans m ix : forall s ps rest, pieces m s ix = Ok (ps, rest) -> exists s1, s = s1 ++ rest /\ spans s1 ix (adv_shapes ps) (kept_dims ps).
Proof.
  induction ix as [|e ix IH]; intros s ps rest H; cbn [pieces] in H; [injection H as <- <-; exists []; split; [auto|constructor]|].
  assert (G : forall s' p, (do (ps, rest) <- pieces m s' ix; Ok (p :: ps, rest)) = Ok (ps, rest) ->
    exists ps' s1, ps = p :: ps' /\ s' = s1 ++ rest /\ spans s1 ix (adv_shapes ps') (kept_dims ps')).
  { intros s' p Q. destruct (pieces m s' ix) as [[q0 r0]|] eqn:E; [|discriminate]. cbn [rbind] in Q. injection Q as <- <-. destruct (IH _ _ _ E) as (s1 & H1 & H2). exists q0, s1. auto. }
  destruct e as [[z|x y w| |]|t|mk].
  - destruct s as [|d s]; [discriminate|]. destruct (in_range d z) eqn:R; [|discriminate]. apply in_range_spec in R. apply G in H as (ps' & s1 & -> & -> & H). exists (d :: s1). split; [auto|]. constructor; auto.
  - destruct s as [|d s]; [discriminate|]. destruct (slice_spec d x y w) as [[[u v] c]|] eqn:Es; [|discriminate]. cbn [rbind] in *. apply G in H as (ps' & s1 & -> & -> & H). exists (d :: s1). split; [auto|]. econstructor; eauto.
  - destruct (Nat.ltb_spec (length s) m); [discriminate|]. apply G in H as (ps' & s1 & -> & Hs & H). exists (firstn m s ++ s1). split; [rewrite <- app_assoc, <- Hs, firstn_skipn; auto|].
    cbn [adv_shapes kept_dims flat_map app]. constructor; auto.
  - apply G in H as (ps' & s1 & -> & -> & H). exists s1. split; [auto|]. constructor; auto.
  - destruct s as [|d s]; [discriminate|]. destruct (forallb _ _) eqn:F; [|discriminate]. rewrite forallb_forall in F. apply G in H as (ps' & s1 & -> & -> & H). exists (d :: s1). split; [auto|]. constructor; [|auto].
    intros z Hz. apply in_range_spec. auto.
  - destruct list_eq_dec as [El|]; [|discriminate]. apply G in H as (ps' & s1 & -> & Hs & H). exists (shp mk ++ s1). split; [rewrite <- app_assoc, <- Hs, <- El, firstn_skipn; auto|]. constructor; auto.
Qed.
Lemma firstn_exact {A} (a b : list A) n : length a = n -> firstn n (a ++ b) = a.
Proof. intros <-. rewrite firstn_app, firstn_all, Nat.sub_diag. apply app_nil_r. Qed.
Lemma skipn_exact {A} (a b : list A) n : length a = n -> skipn n (a ++ b) = b.
Proof. intros <-. rewrite skipn_app, skipn_all, Nat.sub_diag. auto. Qed.
Lemma bindex_nil rb : bindex [] rb = [].
Proof. unfold bindex. cbn. reflexivity. Qed.
Lemma hit_at m rb bs : bshape [length (mask_hits m)] bs = Some bs -> inb bs rb ->
  exists j c, bindex [length (mask_hits m)] rb = [j] /\ nth_error (mask_hits m) j = Some c /\ inb (shp m) c.
Proof.
  intros Hb Hr. pose proof (bindex_inb _ _ _ _ Hb Hr) as Hi. inversion Hi as [|j ? l ? Hj Hl E]; subst. inversion Hl; subst.
  destruct (nth_error (mask_hits m) j) as [c|] eqn:Ec; [|apply nth_error_None in Ec; lia]. exists j, c. split; [auto|]. split; [auto|].
  apply nth_error_In in Ec. unfold mask_hits in Ec. apply filter_In in Ec as [Ec _]. apply in_indices; auto.
Qed.
Lemma pieces_reads m ix : arrays_wf ix -> forall s ps rest bs rb k rr, pieces m s ix = Ok (ps, rest) -> (forall sh, In sh (adv_shapes ps) -> bshape sh bs = Some bs) -> inb bs rb ->
  inb (kept_dims ps) k -> exists s1 p, s = s1 ++ rest /\ reads rb s1 ix (adv_shapes ps) (kept_dims ps) k p /\ assemble rb ps (k ++ rr) = p ++ rr.
Proof.
  induction ix as [|e ix IH]; intros W s ps rest bs rb k rr H Hb Hr Hk; cbn [pieces] in H.
  { injection H as <- <-. inversion Hk; subst. exists [], []. split; [auto|]. split; [constructor|auto]. }
  assert (W' : arrays_wf ix) by (intros t Ht; apply W; right; auto).
  assert (G : forall s' p, (do (ps, rest) <- pieces m s' ix; Ok (p :: ps, rest)) = Ok (ps, rest) ->
    exists ps', ps = p :: ps' /\ forall k', inb (kept_dims ps') k' -> exists s1 q, s' = s1 ++ rest /\ reads rb s1 ix (adv_shapes ps') (kept_dims ps') k' q /\ assemble rb ps' (k' ++ rr) = q ++ rr).
  { intros s' p Q. destruct (pieces m s' ix) as [[q0 r0]|] eqn:E; [|discriminate]. cbn [rbind] in Q. injection Q as <- <-. exists q0. split; [auto|]. intros k' Hk'.
    apply (IH W' _ _ _ bs rb k' rr E); auto. intros sh Hsh. apply Hb. cbn [adv_shapes flat_map]. apply in_or_app. auto. }
  destruct e as [[z|x y w| |]|t|mk].
  - destruct s as [|d s]; [discriminate|]. destruct (in_range d z) eqn:R; [|discriminate]. apply in_range_spec, wrap_spec in R as [R1 R2]. apply G in H as (ps' & -> & H).
    destruct (H k Hk) as (s1 & q & -> & Hq & Ha). exists (d :: s1), (wrap d z :: q). split; [auto|]. split; [constructor; auto|]. cbn [assemble app]. rewrite Ha. auto.
  - destruct s as [|d s]; [discriminate|]. destruct (slice_spec d x y w) as [[[u v] c]|] eqn:Es; [|discriminate]. cbn [rbind] in *. apply G in H as (ps' & -> & H).
    inversion Hk as [|j ? k' ? Hj Hk']; subst. destruct (H k' Hk') as (s1 & q & -> & Hq & Ha).
    pose proof (slice_spec_inb _ _ _ _ _ _ _ _ Es Hj) as B.
    exists (d :: s1), (Z.to_nat (u + Z.of_nat j * v) :: q). split; [auto|]. split; [econstructor; eauto; lia|]. cbn [assemble app firstn skipn length hd]. rewrite Ha. auto.
  - destruct (Nat.ltb_spec (length s) m); [discriminate|]. apply G in H as (ps' & -> & H). cbn [kept_dims flat_map] in Hk. fold (kept_dims ps') in Hk.
    apply inb_app_inv in Hk as (k1 & k2 & -> & H1 & H2). destruct (H k2 H2) as (s1 & q & Hs & Hq & Ha). exists (firstn m s ++ s1), (k1 ++ q).
    split; [rewrite <- app_assoc, <- Hs, firstn_skipn; auto|]. split; [cbn [adv_shapes kept_dims flat_map app]; constructor; auto|].
    cbn [assemble]. rewrite <- app_assoc, (firstn_exact k1), (skipn_exact k1) by (apply inb_length in H1; auto). rewrite Ha, app_assoc. auto.
  - apply G in H as (ps' & -> & H). inversion Hk as [|j ? k' ? Hj Hk']; subst. destruct (H k' Hk') as (s1 & q & -> & Hq & Ha). exists s1, q. split; [auto|].
    assert (j = 0) as -> by lia. split; [constructor; auto|]. cbn [assemble app firstn skipn length]. auto.
  - destruct s as [|d s]; [discriminate|]. destruct (forallb _ _) eqn:F; [|discriminate]. rewrite forallb_forall in F. apply G in H as (ps' & -> & H).
    destruct (H k Hk) as (s1 & q & -> & Hq & Ha).
    assert (R : (- Z.of_nat d <= tget 0%Z t (bindex (shp t) rb) < Z.of_nat d)%Z).
    { apply in_range_spec, F, tget_in_data; [apply W; left; auto|]. apply (bindex_inb (shp t) bs bs); [|auto]. apply Hb. cbn [adv_shapes flat_map app]. left; auto. }
    apply wrap_spec in R as [R1 R2]. exists (d :: s1), (wrap d (tget 0%Z t (bindex (shp t) rb)) :: q). split; [auto|]. split; [constructor; auto|]. cbn [assemble app]. rewrite Ha. auto.
  - destruct list_eq_dec as [El|]; [|discriminate]. apply G in H as (ps' & -> & H). destruct (H k Hk) as (s1 & q & Hs & Hq & Ha).
    destruct (hit_at mk rb bs) as (j & c & Hj & Hc & Hin); [apply Hb; left; auto|auto|].
    exists (shp mk ++ s1), (c ++ q). split; [rewrite <- app_assoc, <- Hs, <- El, firstn_skipn; auto|]. split; [econstructor; eauto|].
    cbn [assemble]. rewrite Hj. cbn [hd]. rewrite (nth_error_nth _ _ _ Hc), Ha, app_assoc. auto.
Qed.
Lemma reads_inb rb s ix l ks k p : reads rb s ix l ks k p -> inb s p /\ inb ks k.
Proof.
  induction 1; repeat match goal with H : _ /\ _ |- _ => destruct H end; split; auto; try (constructor; auto; lia); try (apply inb_app; auto).
  apply nth_error_In in H0. apply filter_In in H0 as [H0 _]. apply in_indices; auto.
Qed.

(** ** Lengths, and where the Ellipsis is *)
Definition ells (ix : list melem) : nat := length (filter m_ellipsis ix).
Lemma ells_app a b : ells (a ++ b) = ells a + ells b.
Proof. unfold ells. rewrite filter_app, app_length. auto. Qed.
Lemma uses_app a b : all_uses (a ++ b) = all_uses a + all_uses b.
Proof. unfold all_uses. induction a as [|e a IH]; cbn [fold_right app]; [auto|]. rewrite IH. lia. Qed.
Lemma ells_in ix : In (MBasic IEllipsis) ix <-> 0 < ells ix.
Proof.
  unfold ells. split.
  - intros H. assert (Q : In (MBasic IEllipsis) (filter m_ellipsis ix)) by (apply filter_In; auto). destruct (filter m_ellipsis ix); [destruct Q|cbn; lia].
  - destruct (filter m_ellipsis ix) as [|e l] eqn:E; cbn; [lia|]. intros _. assert (Q : In e (filter m_ellipsis ix)) by (rewrite E; left; auto). apply filter_In in Q as [Q1 Q2].
    destruct e as [[]| |]; try discriminate. auto.
Qed.
Lemma ells_two ix : ells ix <= 1 <-> (forall a b c, ix <> a ++ MBasic IEllipsis :: b ++ MBasic IEllipsis :: c).
Proof.
  split.
  - intros H a b c ->. rewrite ells_app in H. change (MBasic IEllipsis :: b ++ MBasic IEllipsis :: c) with ([MBasic IEllipsis] ++ b ++ [MBasic IEllipsis] ++ c) in H. rewrite !ells_app in H. cbn in H. lia.
  - intros H. destruct (Nat.le_gt_cases (ells ix) 1) as [|G]; [auto|]. exfalso. assert (Q : In (MBasic IEllipsis) ix) by (apply ells_in; lia).
    apply in_split in Q as (a & r & ->). change (a ++ MBasic IEllipsis :: r) with (a ++ [MBasic IEllipsis] ++ r) in G. rewrite !ells_app in G. cbn [ells filter m_ellipsis length] in G.
    assert (0 < ells a \/ 0 < ells r) as [Q|Q] by (change (ells [MBasic IEllipsis]) with 1 in G; lia).
    + apply ells_in, in_split in Q as (a1 & a2 & ->). apply (H a1 a2 r). rewrite <- app_assoc. reflexivity.
    + apply ells_in, in_split in Q as (a1 & a2 & ->). apply (H a a1 a2). reflexivity.
Qed.
Lemma pieces_len m ix : forall s ps rest, pieces m s ix = Ok (ps, rest) -> length s = all_uses ix + ells ix * m + length rest.
Proof.
  induction ix as [|e ix IH]; intros s ps rest H; cbn [pieces] in H; [injection H as <- <-; cbn; lia|].
  assert (G : forall s' p, (do (ps, rest) <- pieces m s' ix; Ok (p :: ps, rest)) = Ok (ps, rest) -> length s' = all_uses ix + ells ix * m + length rest).
  { intros s' p Q. destruct (pieces m s' ix) as [[q0 r0]|] eqn:E; [|discriminate]. cbn [rbind] in Q. injection Q as <- <-. apply (IH _ _ _ E). }
  change (all_uses (e :: ix)) with (uses e + all_uses ix). change (ells (e :: ix)) with (ells ([e] ++ ix)). rewrite ells_app.
  destruct e as [[z|x y w| |]|t|mk]; cbn [uses].
  - destruct s as [|d s]; [discriminate|]. destruct (in_range d z) eqn:R; [|discriminate]. apply G in H. cbn. lia.
  - destruct s as [|d s]; [discriminate|]. destruct (slice_spec d x y w) as [[[u v] c]|] eqn:Es; [|discriminate]. cbn [rbind] in *. apply G in H. cbn. lia.
  - destruct (Nat.ltb_spec (length s) m); [discriminate|]. apply G in H. rewrite skipn_length in H. change (ells [MBasic IEllipsis]) with 1. lia.
  - apply G in H. cbn. lia.
  - destruct s as [|d s]; [discriminate|]. destruct (forallb _ _) eqn:F; [|discriminate]. apply G in H. cbn. lia.
  - destruct list_eq_dec as [El|]; [|discriminate]. apply G in H. rewrite skipn_length in H. assert (L : length (firstn (rank mk) s) = rank mk) by (rewrite El; auto). rewrite firstn_length in L.
    change (ells [MMask mk]) with 0. lia.
Qed.
Lemma spans_len s ix l ks : spans s ix l ks -> all_uses ix <= length s /\ (ells ix = 0 -> length s = all_uses ix).
Proof.
  induction 1; cbn [all_uses fold_right uses length]; rewrite ?app_length; unfold ells in *; cbn [filter m_ellipsis length]; unfold rank, all_uses in *;
    repeat match goal with H : _ /\ _ |- _ => destruct H end; split; try lia; try discriminate.
Qed.
Lemma reads_len rb s ix l ks k p : reads rb s ix l ks k p -> all_uses ix <= length s /\ (ells ix = 0 -> length s = all_uses ix).
Proof.
  induction 1; cbn [all_uses fold_right uses length]; rewrite ?app_length; unfold ells in *; cbn [filter m_ellipsis length]; unfold rank, all_uses in *;
    repeat match goal with H : _ /\ _ |- _ => destruct H end; split; try lia; try discriminate.
Qed.
(** ** From the specification to the code *)
Lemma spans_pieces s ix l ks : spans s ix l ks -> forall m rest, ells ix <= 1 -> (0 < ells ix -> length s = all_uses ix + m) ->
  exists ps, pieces m (s ++ rest) ix = Ok (ps, rest) /\ adv_shapes ps = l /\ kept_dims ps = ks.
Proof.
  induction 1 as [|s ix l ks H IH|s1 s ix l ks H IH|d s ix l ks a b c first step count Es H IH|d s ix l ks z Hz H IH|d s ix l ks t Ht H IH|s ix l ks mk H IH]; intros m rest E1 E2.
  - exists []. auto.
  - destruct (IH m rest E1 E2) as (ps & E & <- & <-). cbn [pieces]. rewrite E. eexists. split; [reflexivity|]. auto.
  - unfold ells in E1, E2. cbn [filter m_ellipsis length] in E1, E2. fold (ells ix) in *. destruct (spans_len _ _ _ _ H) as [L1 L2]. change (all_uses (MBasic IEllipsis :: ix)) with (all_uses ix) in E2.
    rewrite app_length in E2. specialize (E2 ltac:(lia)). specialize (L2 ltac:(lia)). assert (Lm : length s1 = m) by lia. destruct (IH m rest ltac:(lia) ltac:(lia)) as (ps & E & <- & <-).
    cbn [pieces]. rewrite <- app_assoc, (firstn_exact s1), (skipn_exact s1) by auto. rewrite E. rewrite app_length, Lm. destruct (Nat.ltb_spec (m + length (s ++ rest)) m); [lia|]. eexists. split; [reflexivity|]. auto.
  - destruct (IH m rest E1) as (ps & E & <- & <-); [intros Q; specialize (E2 Q); cbn in E2; unfold all_uses; lia|]. cbn [pieces app]. rewrite Es. cbn [rbind]. rewrite E. eexists. split; [reflexivity|]. auto.
  - destruct (IH m rest E1) as (ps & E & <- & <-); [intros Q; specialize (E2 Q); cbn in E2; unfold all_uses; lia|]. cbn [pieces app]. rewrite (proj2 (in_range_spec d z)) by auto. rewrite E. eexists. split; [reflexivity|]. auto.
  - destruct (IH m rest E1) as (ps & E & <- & <-); [intros Q; specialize (E2 Q); cbn in E2; unfold all_uses; lia|]. cbn [pieces app].
    replace (forallb (in_range d) (dat t)) with true by (symmetry; apply forallb_forall; intros z Hz; apply in_range_spec; auto). rewrite E. eexists. split; [reflexivity|]. auto.
  - destruct (IH m rest E1) as (ps & E & <- & <-); [intros Q; specialize (E2 Q); cbn in E2; rewrite app_length in E2; unfold rank in E2; unfold all_uses; lia|]. cbn [pieces].
    rewrite <- app_assoc, (firstn_exact (shp mk)), (skipn_exact (shp mk)) by auto. destruct list_eq_dec; [|congruence]. rewrite E. eexists. split; [reflexivity|]. auto.
Qed.
Lemma reads_pieces rb s ix l ks k p : reads rb s ix l ks k p -> forall m rest ps rest', ells ix <= 1 -> (0 < ells ix -> length s = all_uses ix + m) ->
  pieces m (s ++ rest) ix = Ok (ps, rest') -> rest' = rest /\ adv_shapes ps = l /\ kept_dims ps = ks /\ forall rr, assemble rb ps (k ++ rr) = p ++ rr.
Proof.
  induction 1 as [|s ix l ks k p H IH|s1 k1 s ix l ks k p Hk1 H IH|d s ix l ks k p a b c first step count j q Es Hj Hq Hd H IH|d s ix l ks k p z i Hi Hd H IH
    |d s ix l ks k p t i z Hi Hd H IH|s ix l ks k p mk c j hits Hj Hc H IH]; intros m rest ps rest' E1 E2 E; cbn [pieces] in E.
  - injection E as <- <-. auto.
  - destruct (pieces m (s ++ rest) ix) as [[q0 r0]|] eqn:Eq; [|discriminate]. cbn [rbind] in E. injection E as <- <-. destruct (IH m rest _ _ E1 E2 Eq) as (-> & <- & <- & Ha).
    do 3 (split; [auto|]). intros rr. cbn [assemble length firstn skipn app]. apply Ha.
  - unfold ells in E1, E2. cbn [filter m_ellipsis length] in E1, E2. fold (ells ix) in *. destruct (reads_len _ _ _ _ _ _ _ H) as [L1 L2]. change (all_uses (MBasic IEllipsis :: ix)) with (all_uses ix) in E2.
    rewrite app_length in E2. specialize (E2 ltac:(lia)). specialize (L2 ltac:(lia)). assert (Lm : length s1 = m) by lia.
    rewrite <- app_assoc, (firstn_exact s1), (skipn_exact s1) in E by auto. destruct (Nat.ltb _ _); [discriminate|].
    destruct (pieces m (s ++ rest) ix) as [[q0 r0]|] eqn:Eq; [|discriminate]. cbn [rbind] in E. injection E as <- <-. destruct (IH m rest _ _ ltac:(lia) ltac:(lia) Eq) as (-> & <- & <- & Ha).
    do 3 (split; [auto|]). intros rr. cbn [assemble]. rewrite <- app_assoc, (firstn_exact k1), (skipn_exact k1) by (apply inb_length in Hk1; auto). rewrite Ha, app_assoc. auto.
  - cbn [app] in E. rewrite Es in E. cbn [rbind] in E. destruct (pieces m (s ++ rest) ix) as [[q0 r0]|] eqn:Eq; [|discriminate]. cbn [rbind] in E. injection E as <- <-.
    destruct (IH m rest _ _ E1 ltac:(intros Q; specialize (E2 Q); cbn in E2; unfold all_uses; lia) Eq) as (-> & <- & <- & Ha).
    do 3 (split; [auto|]). intros rr. cbn [assemble length firstn skipn app hd]. rewrite Ha. f_equal. lia.
  - cbn [app] in E. destruct (in_range d z); [|discriminate]. destruct (pieces m (s ++ rest) ix) as [[q0 r0]|] eqn:Eq; [|discriminate]. cbn [rbind] in E. injection E as <- <-.
    destruct (IH m rest _ _ E1 ltac:(intros Q; specialize (E2 Q); cbn in E2; unfold all_uses; lia) Eq) as (-> & <- & <- & Ha).
    do 3 (split; [auto|]). intros rr. cbn [assemble app]. rewrite Ha. f_equal. unfold wrap. lia.
  - cbn [app] in E. destruct (forallb _ _); [|discriminate]. destruct (pieces m (s ++ rest) ix) as [[q0 r0]|] eqn:Eq; [|discriminate]. cbn [rbind] in E. injection E as <- <-.
    destruct (IH m rest _ _ E1 ltac:(intros Q; specialize (E2 Q); cbn in E2; unfold all_uses; lia) Eq) as (-> & <- & <- & Ha).
    do 3 (split; [auto|]). intros rr. cbn [assemble app]. rewrite Ha. f_equal. unfold wrap. fold z. lia.
  - rewrite <- app_assoc, (firstn_exact (shp mk)), (skipn_exact (shp mk)) in E by auto. destruct list_eq_dec; [|discriminate].
    destruct (pieces m (s ++ rest) ix) as [[q0 r0]|] eqn:Eq; [|discriminate]. cbn [rbind] in E. injection E as <- <-.
    destruct (IH m rest _ _ E1 ltac:(intros Q; specialize (E2 Q); cbn in E2; rewrite app_length in E2; unfold rank in E2; unfold all_uses; lia) Eq) as (-> & <- & <- & Ha).
    do 3 (split; [auto|]). intros rr. cbn [assemble]. change (mask_hits mk) with hits. rewrite Hj. cbn [hd]. rewrite (nth_error_nth _ _ _ Hc), Ha, app_assoc. auto.
Qed.
(** ** The place of the arrays *)
Lemma advanced_spec e : advanced e = true <-> is_array e.
Proof. destruct e as [[]| |]; cbn; split; auto; try discriminate; intros []. Qed.
Lemma lead_spec ix : Forall (fun e => ~ is_array e) (firstn (lead_basic ix) ix) /\ (skipn (lead_basic ix) ix = [] \/ exists e r, skipn (lead_basic ix) ix = e :: r /\ is_array e).
Proof.
  induction ix as [|e ix IH]; cbn [lead_basic]; [split; [constructor|auto]|]. destruct (advanced e) eqn:A; cbn [firstn skipn].
  - split; [constructor|]. right. exists e, ix. split; [auto|]. apply advanced_spec; auto.
  - destruct IH as [I1 I2]. split; [|auto]. constructor; [|auto]. intros Q. apply advanced_spec in Q. congruence.
Qed.
Lemma drop_spec ix : exists arrays, ix = arrays ++ drop_advanced ix /\ Forall is_array arrays /\ (arrays = [] -> ix = [] \/ exists e r, ix = e :: r /\ ~ is_array e).
Proof.
  induction ix as [|e ix IH]; cbn [drop_advanced]; [exists []; auto|]. destruct (advanced e) eqn:A.
  - destruct IH as (a & H1 & H2 & _). exists (e :: a). split; [cbn; congruence|]. split; [constructor; [apply advanced_spec; auto|auto]|discriminate].
  - exists []. split; [auto|]. split; [constructor|]. intros _. right. exists e, ix. split; [auto|]. intros Q. apply advanced_spec in Q. congruence.
Qed.
Lemma none_spec l : forallb (fun e => negb (advanced e)) l = true <-> Forall (fun e => ~ is_array e) l.
Proof.
  rewrite forallb_forall, Forall_forall. split; intros H e He; specialize (H e He).
  - intros Q. apply advanced_spec in Q. rewrite Q in H. discriminate.
  - destruct (advanced e) eqn:A; [|auto]. apply advanced_spec in A. contradiction.
Qed.
Lemma lead_app pre post : Forall (fun e => ~ is_array e) pre -> (post = [] \/ exists e r, post = e :: r /\ is_array e) -> lead_basic (pre ++ post) = length pre.
Proof.
  intros H Hp. induction H as [|e pre He H IH]; cbn [app lead_basic length].
  - destruct Hp as [->|(e & r & -> & He)]; [auto|]. cbn. apply advanced_spec in He. rewrite He. auto.
  - destruct (advanced e) eqn:A; [apply advanced_spec in A; contradiction|]. rewrite IH. auto.
Qed.
Lemma drop_app a b : Forall is_array a -> Forall (fun e => ~ is_array e) b -> drop_advanced (a ++ b) = b.
Proof.
  intros H Hb. induction H as [|e a He H IH]; cbn [app drop_advanced]; [|apply advanced_spec in He; rewrite He; auto].
  destruct Hb as [|e b He Hb]; [auto|]. cbn. destruct (advanced e) eqn:A; [apply advanced_spec in A; contradiction|auto].
Qed.
Definition split_at (ix : list melem) : nat := if adjacent_arrays ix then lead_basic ix else 0.
Lemma adjacent_found pre arrays after : Forall is_array arrays -> (arrays = [] -> after = []) -> Forall (fun e => ~ is_array e) (pre ++ after) ->
  adjacent_arrays (pre ++ arrays ++ after) = true /\ lead_basic (pre ++ arrays ++ after) = length pre.
Proof.
  intros Ha He Hb. apply Forall_app in Hb as [H1 H2].
  assert (L : lead_basic (pre ++ arrays ++ after) = length pre).
  { apply lead_app; [auto|]. destruct Ha as [|e a Hx Ha]; [left; rewrite He; auto|right; cbn; eauto]. }
  split; [|auto]. unfold adjacent_arrays. rewrite L, (skipn_exact pre) by auto. rewrite drop_app by auto. apply none_spec. auto.
Qed.
Lemma adjacent_give ix : adjacent_arrays ix = true -> exists arrays after, skipn (lead_basic ix) ix = arrays ++ after /\ Forall is_array arrays /\ (arrays = [] -> after = []) /\
  Forall (fun e => ~ is_array e) (firstn (lead_basic ix) ix ++ after).
Proof.
  intros A. unfold adjacent_arrays in A. apply none_spec in A. destruct (lead_spec ix) as [L1 L2]. destruct (drop_spec (skipn (lead_basic ix) ix)) as (arrays & H1 & H2 & H3).
  exists arrays, (drop_advanced (skipn (lead_basic ix) ix)). split; [auto|]. split; [auto|]. split; [|apply Forall_app; auto].
  intros ->. destruct L2 as [->|(e & r & L2 & He)]; [auto|]. destruct (H3 eq_refl) as [Q|(e' & r' & Q & He')]; rewrite L2 in Q; [discriminate|]. injection Q as <- <-. contradiction.
Qed.
Lemma split_correct ix : arrays_come_after ix (firstn (split_at ix) ix) (skipn (split_at ix) ix).
Proof.
  split; [symmetry; apply firstn_skipn|]. unfold split_at. destruct (adjacent_arrays ix) eqn:A.
  - left. destruct (adjacent_give ix A) as (a & b & H1 & H2 & H3 & H4). exists a, b. auto.
  - right. split; [auto|]. intros before arrays after -> Ha Hb. destruct arrays as [|e arrays].
    + assert (Q : adjacent_arrays ((before ++ after) ++ [] ++ []) = true) by (apply adjacent_found; [constructor|auto|rewrite app_nil_r; auto]). cbn [app] in Q, A. rewrite app_nil_r in Q. congruence.
    + destruct (adjacent_found before (e :: arrays) after) as [Q _]; [auto|discriminate|auto|]. congruence.
Qed.
Lemma split_unique ix pre post : arrays_come_after ix pre post -> length pre = split_at ix.
Proof.
  intros [-> [(a & b & -> & H1 & H2 & H3)|[-> H]]]; unfold split_at.
  - destruct (adjacent_found pre a b H1 H2 H3) as [-> ->]. auto.
  - destruct (adjacent_arrays ([] ++ post)) eqn:A; [|auto]. exfalso. destruct (adjacent_give _ A) as (a & b & H1 & H2 & H3 & H4).
    apply (H (firstn (lead_basic ([] ++ post)) ([] ++ post)) a b); auto. rewrite <- H1. symmetry. apply firstn_skipn.
Qed.
Lemma lead_le ix : lead_basic ix <= length ix.
Proof. induction ix as [|e ix IH]; cbn; [auto|]. destruct (advanced e); lia. Qed.
Lemma split_le ix : split_at ix <= length ix.
Proof. unfold split_at. destruct (adjacent_arrays ix); [apply lead_le|lia]. Qed.
Lemma spans_basic s ix l ks : spans s ix l ks -> Forall (fun e => ~ is_array e) ix -> l = [].
Proof. induction 1; intros F; auto; inversion F; subst; auto; exfalso; cbn in *; auto. Qed.
Lemma before_basic ix pre post : arrays_come_after ix pre post -> Forall (fun e => ~ is_array e) pre.
Proof. intros [_ [(a & b & _ & _ & _ & H)|[-> _]]]; [|constructor]. apply Forall_app in H. apply H. Qed.
Lemma pieces_join m a : forall s b pa ra pb rest, pieces m s a = Ok (pa, ra) -> pieces m ra b = Ok (pb, rest) -> pieces m s (a ++ b) = Ok (pa ++ pb, rest).
Proof.
  induction a as [|e a IH]; intros s b pa ra pb rest H Hb; [injection H as <- <-; auto|]. rewrite <- app_comm_cons. cbn [pieces] in H |- *.
  assert (G : forall s' p, (do (ps, rest) <- pieces m s' a; Ok (p :: ps, rest)) = Ok (pa, ra) -> (do (ps, rest) <- pieces m s' (a ++ b); Ok (p :: ps, rest)) = Ok (pa ++ pb, rest)).
  { intros s' p Q. destruct (pieces m s' a) as [[q0 r0]|] eqn:E; [|discriminate]. cbn [rbind] in Q. injection Q as <- <-. rewrite (IH _ _ _ _ _ _ E Hb). auto. }
  destruct e as [[z|x y w| |]|t|mk].
  - destruct s as [|d s]; [discriminate|]. destruct (in_range d z); [|discriminate]. apply G; auto.
  - destruct s as [|d s]; [discriminate|]. destruct (slice_spec d x y w) as [[[u v] c]|]; [|discriminate]. cbn [rbind] in *. apply G; auto.
  - destruct (Nat.ltb (length s) m); [discriminate|]. apply G; auto.
  - apply G; auto.
  - destruct s as [|d s]; [discriminate|]. destruct (forallb _ _); [|discriminate]. apply G; auto.
  - destruct list_eq_dec; [|discriminate]. apply G; auto.
Qed.
Lemma cut3 (k1 rb k2 : list nat) n1 nb : length k1 = n1 -> length rb = nb ->
  firstn nb (skipn n1 (k1 ++ rb ++ k2)) = rb /\ firstn n1 (k1 ++ rb ++ k2) ++ skipn (n1 + nb) (k1 ++ rb ++ k2) = k1 ++ k2.
Proof.
  intros H1 H2. rewrite (skipn_exact k1), (firstn_exact rb), (firstn_exact k1) by auto. split; [auto|]. f_equal. rewrite app_assoc. apply skipn_exact. rewrite app_length. lia.
Qed.
(** what a successful call computed *)
Lemma mixed_index_inv s ix rs src : mixed_index s ix = Ok (rs, src) ->
  exists pre post pa pb ra rest bs, let m := length s - all_uses ix in arrays_come_after ix pre post /\ ells ix <= 1 /\
    pieces m s pre = Ok (pa, ra) /\ pieces m ra post = Ok (pb, rest) /\ bshapes (adv_shapes pb) = Some bs /\ adv_shapes pa = [] /\ ellipsis_ok ix rest /\
    rs = kept_dims pa ++ bs ++ kept_dims pb ++ rest /\
    forall k1 rb k2, length k1 = length (kept_dims pa) -> length rb = length bs -> src (k1 ++ rb ++ k2) = assemble rb (pa ++ pb) (k1 ++ k2).
Proof.
  unfold mixed_index. intros H. destruct (Nat.ltb_spec 1 (length (filter m_ellipsis ix))) as [|L1]; [discriminate|]. set (m := length s - all_uses ix) in *.
  destruct (pieces m s ix) as [[ps rest]|] eqn:E; [|discriminate]. cbn [rbind] in H. destruct (bshapes (adv_shapes ps)) as [bs|] eqn:Eb; [|discriminate]. injection H as <- <-.
  fold (split_at ix). pose proof (split_correct ix) as C. pose proof (split_le ix) as Ln.
  pose proof E as E'. rewrite <- (firstn_skipn (split_at ix) ix) in E'. apply pieces_app in E' as (pa & ra & pb & Ea & Epb & -> & La).
  rewrite firstn_length in La. assert (La' : length pa = split_at ix) by lia.
  rewrite (firstn_exact pa), (skipn_exact pa) by auto.
  assert (Aa : adv_shapes pa = []). { destruct (pieces_spans _ _ _ _ _ Ea) as (s1 & _ & Hs). apply (spans_basic _ _ _ _ Hs), (before_basic _ _ _ C). }
  rewrite adv_shapes_app, Aa in Eb. cbn [app] in Eb.
  exists (firstn (split_at ix) ix), (skipn (split_at ix) ix), pa, pb, ra, rest, bs. cbv zeta. fold m. do 6 (split; [auto|]). split; [|split; [auto|]].
  - split; [apply ells_two; auto|]. intros Hin. apply ells_in in Hin. apply pieces_len in E. assert (ells ix = 1) as Q by (unfold ells in *; lia). rewrite Q in E. destruct rest; [auto|]. cbn in E. unfold m in *. lia.
  - intros k1 rb k2 H1 H2. destruct (cut3 k1 rb k2 _ _ H1 H2) as [-> ->]. auto.
Qed.
Lemma assemble_app rb pb : forall q k rest, length k = length (kept_dims q) -> assemble rb (q ++ pb) (k ++ rest) = assemble rb q k ++ assemble rb pb rest.
Proof.
  induction q as [|[ks f|sh c] q IH]; intros k rest' L; cbn [app assemble].
  - destruct k; [auto|discriminate].
  - cbn [kept_dims flat_map] in L. rewrite app_length in L. fold (kept_dims q) in L. rewrite firstn_app, skipn_app. replace (length ks - length k) with 0 by lia. cbn [firstn skipn]. rewrite app_nil_r, <- app_assoc, IH; [auto|].
    rewrite skipn_length. lia.
  - rewrite <- app_assoc, IH; auto.
Qed.
Lemma mixed_index_reads s ix rs src : arrays_wf ix -> mixed_index s ix = Ok (rs, src) -> forall r, inb rs r -> mixed_reads s ix rs r (src r).
Proof.
  intros W H r Hr. destruct (mixed_index_inv _ _ _ _ H) as (pre & post & pa & pb & ra & rest & bs & C & L1 & Ea & Eb & Hbs & Aa & He & -> & Hsrc).
  apply inb_app_inv in Hr as (k1 & r1 & -> & H1 & Hr). apply inb_app_inv in Hr as (rb & r2 & -> & H2 & Hr). apply inb_app_inv in Hr as (k2 & rr & -> & H3 & H4).
  assert (W1 : arrays_wf pre) by (intros t Ht; apply W; rewrite (proj1 C); apply in_or_app; auto). assert (W2 : arrays_wf post) by (intros t Ht; apply W; rewrite (proj1 C); apply in_or_app; auto).
  destruct (pieces_reads _ _ W2 _ _ _ bs rb k2 rr Eb (bshapes_absorb _ _ Hbs) H2 H3) as (s2 & p2 & -> & R2 & A2).
  destruct (pieces_reads _ _ W1 _ _ _ bs rb k1 [] Ea) as (s1 & p1 & -> & R1 & A1); [rewrite Aa; intros sh []|auto|auto|]. rewrite Aa in R1. rewrite !app_nil_r in A1.
  rewrite Hsrc by (apply inb_length; auto). rewrite assemble_app, A1, A2 by (apply inb_length; auto).
  apply (Mixed_reads _ ix pre post s1 s2 rest (adv_shapes pb) bs (kept_dims pa) (kept_dims pb) rb k1 k2 p1 p2 rr); auto.
Qed.
Lemma mixed_index_shape s ix rs src : mixed_index s ix = Ok (rs, src) -> mixed_shape s ix rs.
Proof.
  intros H. destruct (mixed_index_inv _ _ _ _ H) as (pre & post & pa & pb & ra & rest & bs & C & L1 & Ea & Eb & Hbs & Aa & He & -> & _).
  destruct (pieces_spans _ _ _ _ _ Eb) as (s2 & -> & S2). destruct (pieces_spans _ _ _ _ _ Ea) as (s1 & -> & S1). rewrite Aa in S1.
  apply (Mixed_shape _ ix pre post s1 s2 rest (adv_shapes pb)); auto.
Qed.
(** the number of axes an Ellipsis stands for *)
Lemma ellipsis_share pre post n1 n2 rest : ells (pre ++ post) <= 1 -> (0 < ells (pre ++ post) -> rest = 0) ->
  all_uses pre <= n1 /\ (ells pre = 0 -> n1 = all_uses pre) -> all_uses post <= n2 /\ (ells post = 0 -> n2 = all_uses post) ->
  let m := n1 + (n2 + rest) - all_uses (pre ++ post) in (0 < ells pre -> n1 = all_uses pre + m) /\ (0 < ells post -> n2 = all_uses post + m).
Proof. rewrite ells_app, uses_app. intros E R [P1 P2] [Q1 Q2] m. unfold m. split; intros H; lia. Qed.
Lemma mixed_shape_index s ix rs : mixed_shape s ix rs -> exists src, mixed_index s ix = Ok (rs, src).
Proof.
  intros [pre post s1 s2 rest l bs ks1 ks2 C [He1 He2] -> S1 S2 Hb]. apply ells_two in He1. pose proof (split_unique _ _ _ C) as Lp. pose proof (proj1 C) as ->.
  destruct (ellipsis_share pre post (length s1) (length s2) (length rest) He1 ltac:(rewrite <- ells_in; intros Q; rewrite He2; auto) (spans_len _ _ _ _ S1) (spans_len _ _ _ _ S2)) as [M1 M2].
  set (m := length s1 + (length s2 + length rest) - all_uses (pre ++ post)) in *. rewrite ells_app in He1.
  destruct (spans_pieces _ _ _ _ S1 m (s2 ++ rest) ltac:(lia) M1) as (pa & Ea & Aa & Ka). destruct (spans_pieces _ _ _ _ S2 m rest ltac:(lia) M2) as (pb & Eb & Ab & Kb).
  unfold mixed_index. destruct (Nat.ltb_spec 1 (length (filter m_ellipsis (pre ++ post)))) as [G|_]; [fold (ells (pre ++ post)) in G; rewrite ells_app in G; lia|].
  rewrite !app_length. fold m. rewrite (pieces_join _ _ _ _ _ _ _ _ Ea Eb). cbn [rbind]. rewrite adv_shapes_app, Aa, Ab. cbn [app]. rewrite Hb.
  fold (split_at (pre ++ post)). assert (La : length pa = split_at (pre ++ post)).
  { rewrite <- Lp. pose proof (pieces_app m pre (s1 ++ s2 ++ rest) [] pa (s2 ++ rest)) as Q. rewrite app_nil_r in Q. destruct (Q Ea) as (pa' & ra' & pb' & E' & _ & _ & L'). congruence. }
  rewrite (firstn_exact pa), (skipn_exact pa), Ka, Kb by auto. eexists. reflexivity.
Qed.
Lemma mixed_reads_index s ix rs src rs' r p : mixed_index s ix = Ok (rs, src) -> mixed_reads s ix rs' r p -> rs' = rs /\ src r = p.
Proof.
  intros H [pre post s1 s2 rest l bs ks1 ks2 rb k1 k2 p1 p2 rr C [He1 He2] -> Hb Hrb Hrr R1 R2].
  destruct (mixed_index_inv _ _ _ _ H) as (pre' & post' & pa & pb & ra & rest' & bs' & C' & L1 & Ea & Eb & Hbs & Aa & _ & -> & Hsrc).
  assert (pre' = pre /\ post' = post) as [-> ->].
  { pose proof (split_unique _ _ _ C) as L. pose proof (split_unique _ _ _ C') as L'. pose proof (proj1 C) as E. pose proof (proj1 C') as E'. rewrite E in E'.
    split; [rewrite <- (firstn_exact pre post (split_at ix)), E', firstn_exact by auto; auto|]. rewrite <- (skipn_exact pre post (split_at ix)), E', skipn_exact by auto; auto. }
  pose proof (proj1 C) as ->. apply ells_two in He1.
  destruct (ellipsis_share pre post (length s1) (length s2) (length rest) He1 ltac:(rewrite <- ells_in; intros Q; rewrite He2; auto) (reads_len _ _ _ _ _ _ _ R1) (reads_len _ _ _ _ _ _ _ R2)) as [M1 M2].
  rewrite !app_length in Ea, Eb. set (m := length s1 + (length s2 + length rest) - all_uses (pre ++ post)) in *. rewrite ells_app in He1.
  destruct (reads_pieces _ _ _ _ _ _ _ R1 m (s2 ++ rest) _ _ ltac:(lia) M1 Ea) as (-> & _ & Ka & Sa).
  destruct (reads_pieces _ _ _ _ _ _ _ R2 m rest _ _ ltac:(lia) M2 Eb) as (-> & Ab & Kb & Sb). rewrite Ab, Hb in Hbs. injection Hbs as <-. rewrite Ka, Kb. split; [auto|].
  pose proof (inb_length _ _ (proj2 (reads_inb _ _ _ _ _ _ _ R1))) as Lk. rewrite Hsrc; [|rewrite Ka; auto|apply inb_length; auto]. rewrite assemble_app by (rewrite Ka; auto).
  specialize (Sa []). rewrite !app_nil_r in Sa. rewrite Sa, Sb. auto.
Qed.
Lemma mixed_reads_inb s ix rs r p : mixed_reads s ix rs r p -> inb s p /\ inb rs r.
Proof.
  intros [pre post s1 s2 rest l bs ks1 ks2 rb k1 k2 p1 p2 rr C He -> Hb Hrb Hrr R1 R2]. apply reads_inb in R1 as [], R2 as []. split; repeat apply inb_app; auto.
Qed.
Theorem C29_mixed_tuples : forall A (d : A) batch event ix p q, batch <> [] -> shp p = batch ++ event -> arrays_wf ix ->
  slice_param_any d batch (IxMixed ix) p = Ok q ->
  exists rs, mixed_shape batch ix rs /\ wf q /\ shp q = rs ++ event /\
    (forall r, inb rs r -> exists b, mixed_reads batch ix rs r b) /\
    forall r b e, mixed_reads batch ix rs r b -> inb event e -> inb batch b /\ inb rs r /\ tget d q (r ++ e) = tget d p (b ++ e).
Proof.
  intros A d batch event ix p q Hne Sp W Hq. destruct (any_index batch (IxMixed ix)) as [[rs src]|e] eqn:E; [|rewrite (slice_any_err d batch _ p e Hne E) in Hq; discriminate].
  pose proof E as E'. cbn [any_index] in E'. pose proof (mixed_index_reads _ _ _ _ W E') as Hr.
  destruct (slice_any_ok d batch event (IxMixed ix) rs src p Hne E) as (q' & Eq & Wq & Sq & Hv); [intros r Hi; apply (mixed_reads_inb _ _ _ _ _ (Hr r Hi))|auto|].
  rewrite Eq in Hq. injection Hq as <-. exists rs. split; [apply (mixed_index_shape _ _ _ src E')|]. do 2 (split; [auto|]). split; [intros r Hi; exists (src r); auto|].
  intros r b e Hb He. destruct (mixed_reads_inb _ _ _ _ _ Hb) as [I1 I2]. split; [auto|]. split; [auto|]. rewrite Hv by auto. destruct (mixed_reads_index _ _ _ _ _ _ _ E' Hb) as [_ ->]. auto.
Qed.
Print Assumptions C29_mixed_tuples.
(** The call succeeds exactly for the legal tuples. *)
Theorem C29_mixed_legal : forall A (d : A) batch event ix p, batch <> [] -> shp p = batch ++ event -> arrays_wf ix ->
  ((exists q, slice_param_any d batch (IxMixed ix) p = Ok q) <-> exists rs, mixed_shape batch ix rs).
Proof.
  intros A d batch event ix p Hne Sp W. split.
  - intros [q Hq]. destruct (C29_mixed_tuples A d batch event ix p q Hne Sp W Hq) as (rs & H & _). eauto.
  - intros [rs H]. apply mixed_shape_index in H as [src E].
    destruct (slice_any_ok d batch event (IxMixed ix) rs src p Hne E) as (q' & Eq & _); [intros r Hi; apply (mixed_reads_inb _ _ _ _ _ (mixed_index_reads _ _ _ _ W E r Hi))|auto|]. eauto.
Qed.
Print Assumptions C29_mixed_legal.
(** Batch (2, 3, 4), event (5): in [:, [2, 0], None, 1] the None separates [2, 0] from 1, so the axis of the arrays comes first; [:, [2, 0], 1] keeps its place;
    [mask, ...] and [..., [3, 3, 0]] work too, [0, 1, 2, [0]] has one element too many. *)
Example C29_mixed_nonvacuous :
  let p := tgen [2; 3; 4; 5] (fun i => i) in let sl := MBasic full_slice in let a := MArr (mkT [2] [2; 0]%Z) in let one := MBasic (IInt 1) in
  let at2 i := nth i [2; 0] 0 in
  slice_param_any [] [2; 3; 4] (IxMixed [sl; a; MBasic INewAxis; one]) p = Ok (tgen [2; 2; 1; 5] (fun i => [nth 1 i 0; at2 (nth 0 i 0); 1; nth 3 i 0])) /\
  slice_param_any [] [2; 3; 4] (IxMixed [sl; a; one]) p = Ok (tgen [2; 2; 5] (fun i => [nth 0 i 0; at2 (nth 1 i 0); 1; nth 2 i 0])) /\
  slice_param_any [] [2; 3; 4] (IxMixed [MMask (mkT [2; 3] [false; true; false; true; true; false]); MBasic IEllipsis]) p
    = Ok (tgen [3; 4; 5] (fun i => nth (nth 0 i 0) [[0; 1]; [1; 0]; [1; 1]] [] ++ [nth 1 i 0; nth 2 i 0])) /\
  slice_param_any [] [2; 3; 4] (IxMixed [MBasic IEllipsis; MArr (mkT [1; 3] [3; -1; 0]%Z)]) p
    = Ok (tgen [2; 3; 1; 3; 5] (fun i => [nth 0 i 0; nth 1 i 0; nth (nth 3 i 0) [3; 3; 0] 0; nth 4 i 0])) /\
  slice_param_any [] [2; 3; 4] (IxMixed [MBasic (IInt 0); one; one; MArr (mkT [1] [0]%Z)]) p = Err IndexError.
Proof. cbv zeta. repeat split. Qed.
