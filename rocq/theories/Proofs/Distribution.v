From Coq Require Import List Reals ZArith Bool Lia Lra.
From Verif Require Import Base.Result Base.Sums Base.Tensor Base.Tree Base.XR Model.Distribution Spec.Distribution.
Import ListNotations.

Lemma fold_left_mul s : forall a, fold_left Nat.mul s a = a * prodl s.
Proof. induction s as [|x s IH]; intros a; cbn; [lia|]. rewrite IH. cbn. unfold prodl. lia. Qed.
Lemma reshape_leading_ok {A} (d : A) ss x rest :
  wf x -> shp x = prodl ss :: rest ->
  exists y, reshape_leading ss x = Ok y /\ rows_arranged d ss x y.
Proof.
  intros W E. unfold reshape_leading, treshape. rewrite E. cbn [tl].
  rewrite prodl_app. change (prodl (prodl ss :: rest)) with (prodl ss * prodl rest). rewrite Nat.eqb_refl.
  eexists; split; [reflexivity|]. unfold rows_arranged. rewrite E. cbn [tl shp].
  split; [|split; [auto|]].
  - unfold wf in *. cbn. rewrite W, E, prodl_app. reflexivity.
  - intros idx j Hi Hj. unfold tget. cbn [shp dat]. rewrite E. rewrite ravel_app by (apply inb_length; auto). reflexivity.
Qed.
Lemma sample_ok {K A} (d : A) (prng : Z -> K) sn seed ss raw bs es :
  let '(k, s) := convert_seed_and_sample_shape prng seed ss in
  sn k (prodl s) = Ok raw -> draws_of_shape (prodl s) bs es raw ->
  exists t, sample prng sn seed ss = Ok t /\ tree_rel (rows_arranged d s) raw t /\
            Forall2 (fun y e => shp y = s ++ bs ++ e) (leaves t) es.
Proof.
  destruct (convert_seed_and_sample_shape prng seed ss) as [k s] eqn:E. intros Hsn Hd.
  unfold sample. rewrite E, fold_left_mul, Nat.mul_1_l, Hsn. cbn [rbind].
  destruct (tree_mapM_ok (reshape_leading s) (rows_arranged d s) raw) as (t & Et & Rt).
  { unfold draws_of_shape in Hd. revert Hd. generalize (leaves raw). intros l F. revert F.
    generalize es. clear. induction l as [|x l IH]; intros es F a Ha; [destruct Ha|].
    inversion F; subst. destruct Ha as [<-|Ha]; [|eapply IH; eauto].
    destruct H1 as [W Ex]. eapply reshape_leading_ok; eauto. }
  exists t. split; [auto|]. split; [auto|].
  apply tree_rel_leaves in Rt. unfold draws_of_shape in Hd.
  revert es Hd. induction Rt as [|x y l l' HR _ IH]; intros es F; inversion F; subst; constructor; auto.
  destruct H1 as [_ Ex]. destruct HR as (_ & -> & _). rewrite Ex. reflexivity.
Qed.
Lemma salp_ok {K A} (d : A) (prng : Z -> K) snlp seed ss raw lp bs es :
  let '(k, s) := convert_seed_and_sample_shape prng seed ss in
  snlp k (prodl s) = Ok (raw, lp) -> draws_of_shape (prodl s) bs es raw -> wf lp -> shp lp = prodl s :: bs ->
  exists t l, sample_and_log_prob prng snlp seed ss = Ok (t, l) /\ tree_rel (rows_arranged d s) raw t /\
            Forall2 (fun y e => shp y = s ++ bs ++ e) (leaves t) es /\ rows_arranged (Fin 0%R) s lp l.
Proof.
  destruct (convert_seed_and_sample_shape prng seed ss) as [k s] eqn:E. intros Hsn Hd W Sl.
  pose proof (sample_ok d prng (fun k n => rmap fst (snlp k n)) seed ss raw bs es) as HS.
  rewrite E in HS. rewrite Hsn in HS. destruct HS as (t & Et & R1 & R2); auto.
  unfold sample in Et. rewrite E, fold_left_mul, Nat.mul_1_l, Hsn in Et. cbn [rbind rmap fst] in Et.
  unfold sample_and_log_prob. rewrite E, fold_left_mul, Nat.mul_1_l, Hsn. cbn [rbind].
  rewrite Et. cbn [rbind]. destruct (reshape_leading_ok (Fin 0%R) s lp bs W Sl) as (l & El & Rl).
  rewrite El. cbn. eauto 10.
Qed.

Lemma default_batch_shape_ok {A} (x : tree (tensor A)) bs es :
  es <> [] -> Forall2 (fun y e => shp y = bs ++ e) (leaves x) es ->
  default_batch_shape (map shp (leaves x)) (Some es) = Ok bs.
Proof.
  intros Hne F. unfold default_batch_shape.
  match goal with |- context[map ?f (combine ?a ?b)] => assert (map f (combine a b) = repeat bs (length es)) as EQ end.
  { clear Hne. induction F as [|y e l es H _ IH]; [auto|]. cbn. rewrite IH, H, app_length.
    f_equal. replace (length bs + length e - length e) with (length bs + 0) by lia.
    rewrite firstn_app_2. cbn. apply app_nil_r. }
  cbv zeta. unfold shape in *.
  rewrite EQ. destruct es as [|e es]; [congruence|]. cbn [length repeat].
  assert (forallb (fun b' => if list_eq_dec Nat.eq_dec bs b' then true else false) (repeat bs (length es)) = true) as ->; [|auto].
  apply forallb_forall. intros y Hy. apply repeat_spec in Hy. subst y. destruct (list_eq_dec Nat.eq_dec bs bs); congruence.
Qed.

(** ** Indexing *)
Lemma slice_spec_inb n a b c st step cnt k :
  slice_spec n a b c = Ok (st, step, cnt) -> k < cnt -> (0 <= st + Z.of_nat k * step < Z.of_nat n)%Z.
Proof.
  unfold slice_spec. set (sp := match c with None => 1%Z | Some s => s end).
  destruct (Z.eqb_spec sp 0) as [|Hs]; [discriminate|].
  set (lo := if (0 <? sp)%Z then 0%Z else (-1)%Z). set (hi := if (0 <? sp)%Z then Z.of_nat n else (Z.of_nat n - 1)%Z).
  set (A := match a with None => _ | Some z => _ end). set (B := match b with None => _ | Some z => _ end).
  intros E Hk. injection E as <- <- <-.
  assert (HA : (lo <= A <= hi \/ hi < lo /\ A = lo)%Z).
  { subst A lo hi. destruct a as [z|]; destruct (Z.ltb_spec 0 sp); destruct (Z.eq_dec (Z.of_nat n) 0); try (destruct (Z.ltb_spec z 0)); lia. }
  assert (HB : (lo <= B <= hi \/ hi < lo /\ B = lo)%Z).
  { subst B lo hi. destruct b as [z|]; destruct (Z.ltb_spec 0 sp); destruct (Z.eq_dec (Z.of_nat n) 0); try (destruct (Z.ltb_spec z 0)); lia. }
  clearbody A B. subst lo hi. destruct (Z.ltb_spec 0 sp) as [Hp|Hp].
  - assert (Hq : (Z.of_nat k <= (B - A + sp - 1) / sp - 1)%Z) by lia.
    assert (Hd : (sp * ((B - A + sp - 1) / sp) <= B - A + sp - 1)%Z) by (apply Z.mul_div_le; lia).
    nia.
  - assert (Hq : (Z.of_nat k <= (A - B - sp - 1) / (- sp) - 1)%Z) by lia.
    assert (Hd : (- sp * ((A - B - sp - 1) / (- sp)) <= A - B - sp - 1)%Z) by (apply Z.mul_div_le; lia).
    nia.
Qed.
Lemma slice_spec_full n : slice_spec n None None None = Ok (0%Z, 1%Z, n).
Proof.
  unfold slice_spec. cbn. repeat f_equal. replace (Z.of_nat n - 0 + 1 - 1)%Z with (Z.of_nat n) by lia. rewrite Z.div_1_r. lia.
Qed.

Lemma no_ellipsis_expand m ix : filter is_ellipsis ix = [] -> expand_ellipsis m ix = ix.
Proof.
  induction ix as [|e ix IH]; intros H; [auto|]. cbn in H. destruct e; cbn in *; try discriminate; rewrite IH; auto.
Qed.
Lemma basic_index_full s1 s2 ix rs src :
  basic_index s2 ix = Ok (rs, src) ->
  exists src', basic_index (s1 ++ s2) (repeat full_slice (length s1) ++ ix) = Ok (s1 ++ rs, src') /\
    forall r1 r, inb s1 r1 -> src' (r1 ++ r) = r1 ++ src r.
Proof.
  intros E. induction s1 as [|d s1 IH].
  - exists src. split; [auto|]. intros r1 r H. inversion H; auto.
  - destruct IH as (src' & E' & H'). eexists. cbn [length repeat app basic_index].
    unfold full_slice at 1. rewrite slice_spec_full. cbn [rbind]. rewrite E'. cbn [rbind]. split; [reflexivity|].
    intros [|i r1] r H; [inversion H|]. apply inb_cons in H as [Hi H]. cbn [app hd tl]. rewrite H' by auto.
    f_equal. lia.
Qed.
Lemma basic_index_full_inv s m ix rs src :
  basic_index s (repeat full_slice m ++ ix) = Ok (rs, src) ->
  exists s1 s2 rs2 src2, s = s1 ++ s2 /\ length s1 = m /\ basic_index s2 ix = Ok (rs2, src2).
Proof.
  revert s rs src. induction m as [|m IH]; intros s rs src E.
  - exists [], s, rs, src. auto.
  - cbn [repeat app] in E. destruct s as [|d s]; [cbn in E; discriminate|]. cbn [basic_index full_slice] in E.
    rewrite slice_spec_full in E. cbn [rbind] in E.
    destruct (basic_index s (repeat full_slice m ++ ix)) as [[rs' src']|] eqn:E'; [|discriminate].
    destruct (IH _ _ _ E') as (s1 & s2 & rs2 & src2 & -> & L & E2). exists (d :: s1), s2, rs2, src2. cbn. auto.
Qed.
Lemma consumes_le s ix rs src : basic_index s ix = Ok (rs, src) -> length (filter consumes ix) <= length s.
Proof.
  revert s rs src; induction ix as [|e ix IH]; intros s rs src E; [cbn; lia|].
  destruct e; cbn [filter consumes length] in *.
  - destruct s; [discriminate|]. cbn in E. destruct (_ && _); [|discriminate].
    destruct (basic_index s ix) as [[rs' src']|] eqn:E'; [|discriminate]. apply IH in E'. cbn; lia.
  - destruct s; [discriminate|]. cbn [basic_index] in E. destruct (slice_spec _ _ _ _) as [[[? ?] ?]|]; [|discriminate]. cbn in E.
    destruct (basic_index s ix) as [[rs' src']|] eqn:E'; [|discriminate]. apply IH in E'. cbn; lia.
  - destruct s; discriminate.
  - destruct s; cbn in E; destruct (basic_index _ ix) as [[rs' src']|] eqn:E'; try discriminate; apply IH in E'; cbn in *; lia.
Qed.

Lemma index_addresses s ix rs src :
  length (filter is_ellipsis ix) <= 1 ->
  basic_index s (expand_ellipsis (length s - length (filter consumes ix)) ix) = Ok (rs, src) ->
  forall r, inb rs r -> addresses s ix rs r (src r).
Proof.
  revert s rs src; induction ix as [|e ix IH]; intros s rs src Hel E r Hr.
  - cbn in E. injection E as <- <-. constructor; auto.
  - destruct e as [z|a b c| |].
    + cbn [filter is_ellipsis consumes length expand_ellipsis] in *. destruct s as [|d s]; [cbn in E; discriminate|].
      cbn [basic_index length] in E. rewrite Nat.sub_succ in E.
      destruct ((- Z.of_nat d <=? z)%Z && (z <? Z.of_nat d)%Z) eqn:Ez; [|discriminate].
      apply andb_true_iff in Ez as [E1 E2]. apply Z.leb_le in E1. apply Z.ltb_lt in E2.
      destruct (basic_index s _) as [[rs' src']|] eqn:E'; [|discriminate]. injection E as <- <-.
      constructor; [| |apply IH; auto]; destruct (Z.ltb_spec z 0); lia.
    + cbn [filter is_ellipsis consumes length expand_ellipsis] in *. destruct s as [|d s]; [cbn in E; discriminate|].
      cbn [basic_index length] in E. rewrite Nat.sub_succ in E.
      destruct (slice_spec d a b c) as [[[st step] cnt]|] eqn:Es; [|discriminate]. cbn [rbind] in E.
      destruct (basic_index s _) as [[rs' src']|] eqn:E'; [|discriminate]. injection E as <- <-.
      destruct r as [|k r]; [inversion Hr|]. apply inb_cons in Hr as [Hk Hr].
      pose proof (slice_spec_inb _ _ _ _ _ _ _ _ Es Hk). cbn [hd tl].
      econstructor; eauto; lia.
    + cbn [filter is_ellipsis consumes length expand_ellipsis] in *.
      assert (filter is_ellipsis ix = []) as Hno by (destruct (filter is_ellipsis ix); [auto|cbn in Hel; lia]).
      rewrite no_ellipsis_expand in E by auto.
      destruct (basic_index_full_inv _ _ _ _ _ E) as (s1 & s2 & rs2 & src2 & -> & L & E2).
      rewrite <- L in E. destruct (basic_index_full s1 s2 ix rs2 src2 E2) as (src' & E3 & Hsrc).
      rewrite E3 in E. injection E as <- <-.
      apply inb_app_inv in Hr as (r1 & r2 & -> & H1 & H2). rewrite Hsrc by auto.
      pose proof (consumes_le _ _ _ _ E2). rewrite app_length in L.
      constructor; auto; [lia|]. apply IH; auto; [rewrite Hno; cbn; lia|].
      rewrite no_ellipsis_expand by auto. exact E2.
    + cbn [filter is_ellipsis consumes length expand_ellipsis] in *.
      destruct (basic_index s (expand_ellipsis (length s - length (filter consumes ix)) ix)) as [[rs' src']|] eqn:E';
        [|destruct s; cbn [basic_index] in E; rewrite E' in E; discriminate].
      assert ((rs, src) = (1 :: rs', fun r => src' (tl r))) as HE.
      { destruct s; cbn [basic_index] in E; rewrite E' in E; injection E as <- <-; auto. }
      injection HE as -> ->. destruct r as [|k r]; [inversion Hr|]. apply inb_cons in Hr as [Hk Hr].
      assert (k = 0) as -> by lia. cbn [tl]. constructor. apply IH; auto.
Qed.
Lemma addresses_inb s ix rs r p : addresses s ix rs r p -> inb s p /\ inb rs r.
Proof.
  induction 1 as [s r H|s ix rs r p H [IH1 IH2]|d s ix rs r p z i Hz Hi H [IH1 IH2]|d s ix rs r p a b c st sp cnt k q Hs Hk Hq Hd H [IH1 IH2]|s1 s2 ix rs r1 r p L Hr H [IH1 IH2]].
  - auto.
  - split; auto. apply inb_cons; auto.
  - split; auto. apply inb_cons; auto.
  - split; apply inb_cons; auto.
  - split; apply inb_app; auto.
Qed.

Lemma rmapM_ok_map {A B} (f : A -> result B) g l : (forall a, In a l -> f a = Ok (g a)) -> rmapM f l = Ok (map g l).
Proof. induction l as [|a l IH]; intros H; cbn; [auto|]. rewrite H by (left; auto). cbn. rewrite IH by (intros; apply H; right; auto). auto. Qed.
Lemma rmapM_err {A B} (f : A -> result B) a l e : f a = Err e -> rmapM f (a :: l) = Err e.
Proof. intros H; cbn; rewrite H; auto. Qed.

Lemma np_index_spec s ix rs src :
  np_index s ix = Ok (rs, src) -> forall r, inb rs r -> addresses s ix rs r (src r).
Proof.
  unfold np_index. destruct (Nat.ltb_spec 1 (length (filter is_ellipsis ix))); [discriminate|].
  apply index_addresses; lia.
Qed.
Lemma to_batch_ok bs ix rs src :
  np_index bs ix = Ok (rs, src) ->
  to_batch_shape_index bs ix = Ok (map (fun k => tgen rs (fun r => nth k (src r) 0)) (seq 0 (length bs))).
Proof.
  intros E. unfold to_batch_shape_index, np_indices.
  assert (forall l, rmapM (fun x => np_getitem 0 x ix) (map (fun k => tgen bs (fun idx => nth k idx 0)) l)
    = Ok (map (fun k => tgen rs (fun r => nth k (src r) 0)) l)) as H; [|apply H].
  induction l as [|k l IH]; [reflexivity|]. cbn [map rmapM]. unfold np_getitem at 1. cbn [shp tgen].
  rewrite E. cbn [rbind]. fold (@np_getitem nat). rewrite IH. cbn [rbind]. f_equal. f_equal. apply tgen_ext.
  intros r Hr. pose proof (np_index_spec _ _ _ _ E r Hr) as HA. apply addresses_inb in HA as [HA _].
  apply (tget_tgen 0 bs (fun idx => nth k idx 0)); auto.
Qed.
Lemma map_nth_seq (l : list nat) n : length l = n -> map (fun k => nth k l 0) (seq 0 n) = l.
Proof.
  intros <-. apply nth_ext with (d := 0) (d' := 0); [rewrite map_length, seq_length; auto|].
  intros k Hk. rewrite map_length, seq_length in Hk.
  rewrite (nth_indep _ 0 (nth 0 l 0)) by (rewrite map_length, seq_length; auto).
  rewrite (map_nth (fun k => nth k l 0) (seq 0 (length l)) 0 k), seq_nth; auto.
Qed.
Lemma slice_param_ok {A} (d : A) bs ev ix rs src p :
  bs <> [] -> np_index bs ix = Ok (rs, src) -> shp p = bs ++ ev ->
  exists q, slice_param d bs ix p = Ok q /\ wf q /\ shp q = rs ++ ev /\
    forall r e, inb rs r -> inb ev e -> tget d q (r ++ e) = tget d p (src r ++ e).
Proof.
  intros Hne E Sp. unfold slice_param. rewrite (to_batch_ok _ _ _ _ E). cbn [rbind].
  destruct bs as [|b bs]; [congruence|]. set (bb := b :: bs) in *.
  eexists; split; [reflexivity|]. unfold adv_getitem.
  remember (map (fun k : nat => tgen rs (fun r => nth k (src r) 0)) (seq 0 (length bb))) as ixs eqn:Eix.
  assert (Hix : ixs = tgen rs (fun r => nth 0 (src r) 0) :: map (fun k : nat => tgen rs (fun r => nth k (src r) 0)) (seq 1 (length bs))) by (rewrite Eix; reflexivity).
  assert (Li : length ixs = length bb) by (rewrite Eix, map_length, seq_length; auto).
  destruct ixs as [|i0 l0]; [discriminate|]. cbv beta iota zeta.
  assert (Hs0 : shp i0 = rs) by (injection Hix as -> _; reflexivity).
  set (ixs := i0 :: l0) in *. unfold rank. rewrite Hs0.
  assert (Hsk : skipn (length ixs) (shp p) = ev).
  { rewrite Li, Sp. rewrite skipn_app, skipn_all, Nat.sub_diag. reflexivity. }
  rewrite Hsk. split; [apply tgen_wf|]. split; [reflexivity|].
  intros r e Hr He. rewrite tget_tgen by (apply inb_app; auto).
  pose proof (inb_length _ _ Hr) as Lr. rewrite <- Lr.
  rewrite firstn_app, firstn_all, Nat.sub_diag. cbn [firstn]. rewrite app_nil_r.
  rewrite skipn_app, skipn_all, Nat.sub_diag. cbn [skipn app].
  f_equal. f_equal. transitivity (map (fun i : tensor nat => tget 0 i r) (map (fun k : nat => tgen rs (fun r => nth k (src r) 0)) (seq 0 (length bb)))); [f_equal; exact Eix|]. rewrite map_map.
  pose proof (np_index_spec _ _ _ _ E r Hr) as HA. apply addresses_inb in HA as [HA _].
  transitivity (map (fun k => nth k (src r) 0) (seq 0 (length bb))); [|apply map_nth_seq, inb_length; auto].
  apply map_ext. intros k. rewrite tget_tgen; auto.
Qed.
Lemma slice_param_err {A} (d : A) bs ix p e : bs <> [] -> np_index bs ix = Err e -> slice_param d bs ix p = Err e.
Proof.
  intros Hne E. unfold slice_param, to_batch_shape_index, np_indices. destruct bs as [|b bs]; [congruence|].
  cbn [length seq map]. rewrite rmapM_err with (e := e); [auto|]. unfold np_getitem. cbn [shp tgen]. rewrite E. auto.
Qed.
Lemma too_many_indices s ix : length s < length (filter consumes ix) -> filter is_ellipsis ix = [] ->
  exists e, basic_index s ix = Err e.
Proof.
  intros H Hn. destruct (basic_index s ix) as [[rs src]|e] eqn:E; [|eauto]. apply consumes_le in E. lia.
Qed.

Lemma app_split_len {A} (a b c d : list A) : a ++ b = c ++ d -> length a = length c -> a = c /\ b = d.
Proof.
  revert c; induction a as [|x a IH]; intros [|y c] E L; try discriminate L; cbn in *; auto.
  injection E as -> E. injection L as L. destruct (IH _ E L) as [-> ->]; auto.
Qed.
Lemma addresses_det s ix rs r p : addresses s ix rs r p -> forall rs' r' p', addresses s ix rs' r' p' ->
  rs = rs' /\ (r = r' -> p = p').
Proof.
  induction 1 as [s r H|s ix rs r p H IH|d s ix rs r p z i Hz Hi H IH|d s ix rs r p a b c st sp cnt k q Hs Hk Hq Hd H IH|s1 s2 ix rs r1 r p L Hr H IH];
    intros rs' r' p' H'.
  - inversion H'; subst; auto.
  - inversion H' as [|? ? ? ? ? H1| | |]; subst. destruct (IH _ _ _ H1) as [-> E]. split; auto. intros E'; injection E'; auto.
  - inversion H' as [| |? ? ? ? ? ? ? j Hj Hj' H1| |]; subst. destruct (IH _ _ _ H1) as [-> E]. split; auto. intros E'. rewrite (E E'). f_equal. lia.
  - inversion H' as [| | |? ? ? ? ? ? ? ? ? ? ? ? ? ? Hs' ? Hq' ? H1|]; subst. rewrite Hs in Hs'. injection Hs' as <- <- <-. destruct (IH _ _ _ H1) as [-> E]. split; auto.
    intros E'. injection E' as -> E'. rewrite (E E'). f_equal. lia.
  - inversion H' as [| | | |t1 t2 ? ? r2 ? ? L' Hr' H1 Es]; subst.
    destruct (app_split_len _ _ _ _ Es) as [-> ->].
    { apply (f_equal (@length nat)) in Es. rewrite !app_length in Es. lia. }
    destruct (IH _ _ _ H1) as [-> E]. split; auto. intros E'.
    destruct (app_split_len _ _ _ _ E') as [-> E'']; [rewrite (inb_length _ _ Hr), (inb_length _ _ Hr'); auto|].
    rewrite (E E''); auto.
Qed.

Lemma slice_spec_nz d a b c : c <> Some 0%Z -> exists x, slice_spec d a b c = Ok x.
Proof.
  intros H. unfold slice_spec. destruct c as [c|]; [|eexists; reflexivity].
  destruct (Z.eqb_spec c 0); [subst; congruence|]. eexists; reflexivity.
Qed.
Lemma not_in_filter ix : ~ In IEllipsis ix <-> filter is_ellipsis ix = [].
Proof.
  induction ix as [|e ix IH]; cbn; [tauto|]. destruct e; cbn; rewrite <- ?IH; split; intros; try discriminate; intuition (try discriminate; auto).
Qed.
Lemma fits_consumes s ix : fits s ix -> length (filter consumes ix) <= length s.
Proof. induction 1; cbn in *; try lia. rewrite app_length. lia. Qed.
Lemma nz_cons e ix : nonzero_steps (e :: ix) -> nonzero_steps ix.
Proof. intros H a b K. apply (H a b). right; auto. Qed.
Lemma nz_slice a b c ix : nonzero_steps (ISlice a b c :: ix) -> c <> Some 0%Z.
Proof. intros H ->. apply (H a b). left; auto. Qed.
Lemma basic_index_fits s ix : nonzero_steps ix ->
  match basic_index s ix with
  | Ok _ => fits s ix /\ ~ In IEllipsis ix
  | Err e => e = IndexError /\ ~ (fits s ix /\ ~ In IEllipsis ix)
  end.
Proof.
  revert s; induction ix as [|e ix IH]; intros s Hnz.
  - cbn. split; [constructor|auto].
  - pose proof (nz_cons _ _ Hnz) as Hnz'. destruct e as [z|a b c| |].
    + destruct s as [|d s]; cbn [basic_index]; [split; auto; intros [H _]; inversion H|].
      destruct (Z.leb_spec (- Z.of_nat d) z); cbn [andb]; [|split; auto; intros [H' _]; inversion H'; lia].
      destruct (Z.ltb_spec z (Z.of_nat d)); [|split; auto; intros [H' _]; inversion H'; lia].
      specialize (IH s Hnz'). destruct (basic_index s ix) as [[rs src]|e]; cbn [rbind].
      * destruct IH as [F N]. split; [constructor; auto|]. intros [H'|H']; [discriminate|auto].
      * destruct IH as [-> N]. split; auto. intros [H1 H2]. apply N. inversion H1; subst. split; auto. intros K; apply H2; right; auto.
    + destruct s as [|d s]; cbn [basic_index]; [split; auto; intros [H _]; inversion H|].
      destruct (slice_spec_nz d a b c (nz_slice _ _ _ _ Hnz)) as ([[st sp] cnt] & ->). cbn [rbind].
      specialize (IH s Hnz'). destruct (basic_index s ix) as [[rs src]|e]; cbn [rbind].
      * destruct IH as [F N]. split; [constructor; auto|]. intros [H'|H']; [discriminate|auto].
      * destruct IH as [-> N]. split; auto. intros [H1 H2]. apply N. inversion H1; subst. split; auto. intros K; apply H2; right; auto.
    + assert (basic_index s (IEllipsis :: ix) = Err IndexError) as -> by (destruct s; reflexivity).
      split; auto. intros [_ H]. apply H. left; auto.
    + assert (basic_index s (INewAxis :: ix) = (do (rs, src) <- basic_index s ix; Ok (1 :: rs, fun r => src (tl r)))) as -> by (destruct s; reflexivity).
      specialize (IH s Hnz'). destruct (basic_index s ix) as [[rs src]|e]; cbn [rbind].
      * destruct IH as [F N]. split; [constructor; auto|]. intros [H'|H']; [discriminate|auto].
      * destruct IH as [-> N]. split; auto. intros [H1 H2]. apply N. inversion H1; subst. split; auto. intros K; apply H2; right; auto.
Qed.
Lemma full_slices_nz m : nonzero_steps (repeat full_slice m).
Proof. intros a b H. apply repeat_spec in H. discriminate. Qed.
Lemma expand_nz m ix : nonzero_steps ix -> nonzero_steps (expand_ellipsis m ix).
Proof.
  intros H a b K. assert (In (ISlice a b (Some 0%Z)) ix); [|eapply H; eauto].
  clear H. induction ix as [|e ix IH]; [destruct K|]. destruct e; cbn [expand_ellipsis] in K.
  1,2,4: destruct K as [K|K]; [rewrite K; left; auto|right; auto].
  apply in_app_or in K as [K|K]; [apply repeat_spec in K; discriminate|right; auto].
Qed.
Lemma expand_no_ellipsis m ix : ~ In IEllipsis (expand_ellipsis m ix).
Proof.
  induction ix as [|e ix IH]; cbn; [auto|]. destruct e; cbn; try (intros [H|H]; [discriminate|auto]).
  intros H. apply in_app_or in H as [H|H]; [apply repeat_spec in H; discriminate|auto].
Qed.
Lemma fits_full s1 s2 ix : fits s2 ix -> fits (s1 ++ s2) (repeat full_slice (length s1) ++ ix).
Proof. intros H. induction s1; cbn; [auto|constructor; auto]. Qed.
Lemma fits_full_inv m s ix : fits s (repeat full_slice m ++ ix) -> exists s1 s2, s = s1 ++ s2 /\ length s1 = m /\ fits s2 ix.
Proof.
  revert s; induction m as [|m IH]; intros s H; cbn in H; [exists [], s; auto|].
  inversion H; subst. destruct (IH _ H2) as (s1 & s2 & -> & <- & F). exists (d :: s1), s2; auto.
Qed.
Lemma fits_expand s ix : length (filter is_ellipsis ix) <= 1 ->
  fits s (expand_ellipsis (length s - length (filter consumes ix)) ix) <-> fits s ix.
Proof.
  revert s; induction ix as [|e ix IH]; intros s Hl; [reflexivity|].
  destruct e as [z|a b c| |]; cbn [filter is_ellipsis consumes length expand_ellipsis] in *.
  - split; intros H; inversion H; subst; constructor; auto; cbn [length] in *; rewrite ?Nat.sub_succ in *; apply IH; auto.
  - split; intros H; inversion H; subst; constructor; auto; cbn [length] in *; rewrite ?Nat.sub_succ in *; apply IH; auto.
  - assert (Hno : filter is_ellipsis ix = []) by (destruct (filter is_ellipsis ix); [auto|cbn in Hl; lia]).
    rewrite no_ellipsis_expand by auto. split.
    + intros H. apply fits_full_inv in H as (s1 & s2 & -> & L & F). pose proof (fits_consumes _ _ F).
      rewrite app_length in L. constructor; auto; [lia|apply not_in_filter; auto].
    + intros H. inversion H as [| | | |? ? ? H3 ? ?]; subst. rewrite app_length, H3. replace (length s1 + _ - _) with (length s1) by lia.
      apply fits_full; auto.
  - split; intros H; inversion H; subst; constructor; apply IH; auto.
Qed.
Lemma fits_one_ellipsis s ix : fits s ix -> length (filter is_ellipsis ix) <= 1.
Proof. induction 1; cbn; auto. apply not_in_filter in H0. rewrite H0. cbn; auto. Qed.
Lemma np_index_fits s ix : nonzero_steps ix ->
  match np_index s ix with Ok _ => fits s ix | Err e => e = IndexError /\ ~ fits s ix end.
Proof.
  intros Hnz. unfold np_index. destruct (Nat.ltb_spec 1 (length (filter is_ellipsis ix))).
  - split; auto. intros F. apply fits_one_ellipsis in F. lia.
  - pose proof (basic_index_fits s (expand_ellipsis (length s - length (filter consumes ix)) ix)
      (expand_nz _ _ Hnz)) as HB.
    destruct (basic_index s _) as [[rs src]|e].
    + destruct HB as [F _]. apply fits_expand; auto.
    + destruct HB as [-> N]. split; auto. intros F. apply N. split; [apply fits_expand; auto|apply expand_no_ellipsis].
Qed.
