(** C77 for the Categorical family. *)
From Coq Require Import List Reals ZArith Bool Lia Lra.
From Verif Require Import Base.Result Base.Sums Base.Tensor Base.XR Base.Lift Model.Distribution Model.AdvIndex Model.MathUtils Model.ScalarDist Model.ArrayDist Model.Categorical Model.CatSlicing
  Spec.Distribution Spec.AdvIndex Spec.Slicing Spec.Categorical Spec.CatSlicing Proofs.Distribution Proofs.ArrayDist Proofs.MathUtils Proofs.Categorical Props.AdvIndex Props.Slicing.
Import ListNotations.

Lemma last_snoc (l : list nat) x : last (l ++ [x]) 0 = x. Proof. apply last_last. Qed.
Lemma removelast_snoc {A} (l : list A) x : removelast (l ++ [x]) = l. Proof. apply removelast_last. Qed.
Lemma snoc_inv s K idx : inb (s ++ [K]) idx -> exists i j, idx = i ++ [j] /\ inb s i /\ j < K.
Proof. intros H. apply inb_app_inv in H as (i & r & -> & H1 & H2). inversion H2 as [|j ? r' ? Hj Hr]; subst. inversion Hr; subst. eauto. Qed.
Lemma inb_snoc s K i j : inb s i -> j < K -> inb (s ++ [K]) (i ++ [j]).
Proof. intros. apply inb_app; [auto|]. constructor; [auto|constructor]. Qed.
Lemma vec_length t i : length (vec t i) = last_axis t.
Proof. unfold vec. rewrite map_length, seq_length. auto. Qed.
Lemma vec_nth t i j : j < last_axis t -> nth j (vec t i) NaN = tget NaN t (i ++ [j]).
Proof. intros H. unfold vec. rewrite nth_indep with (d' := tget NaN t (i ++ [0])) by (rewrite map_length, seq_length; auto). rewrite (map_nth (fun j => tget NaN t (i ++ [j])) (seq 0 (last_axis t)) 0 j). rewrite seq_nth by auto. reflexivity. Qed.
Lemma last_axis_snoc t s K : shp t = s ++ [K] -> last_axis t = K.
Proof. intros E. unfold last_axis. rewrite E. apply last_last. Qed.
Lemma along_last_vec f t s K i : shp t = s ++ [K] -> inb s i -> length (f (vec t i)) = K -> vec (along_last f t) i = f (vec t i).
Proof.
  intros St Hi Hl. apply nth_ext with (d := NaN) (d' := NaN); [rewrite vec_length, Hl; apply (last_axis_snoc _ s); exact St|].
  intros j Hj. rewrite vec_length in Hj. rewrite vec_nth by auto. rewrite (last_axis_snoc _ s K) in Hj by exact St. unfold along_last.
  rewrite tget_tgen by (rewrite St; apply inb_snoc; auto). rewrite last_last, removelast_last. reflexivity.
Qed.
Lemma vec_tgen_slice s K rs p q src r : shp p = s ++ [K] -> shp q = rs ++ [K] -> (forall r e, inb rs r -> inb [K] e -> tget NaN q (r ++ e) = tget NaN p (src r ++ e)) -> inb rs r ->
  vec q r = vec p (src r).
Proof.
  intros Sp Sq H Hr. unfold vec. rewrite (last_axis_snoc _ _ _ Sp), (last_axis_snoc _ _ _ Sq). apply map_ext_in. intros j Hj. apply in_seq in Hj. apply H; [auto|]. constructor; [lia|constructor].
Qed.

Lemma normalize_logits_twice l : legal_logits l -> normalize_logits (normalize_logits l) = normalize_logits l.
Proof.
  intros H. destruct (init_represents (Some l) None DInt (CLogits (normalize_logits l)) (map weight l)) as [[E|E] P]; [left; exists l; auto|reflexivity|discriminate E|].
  injection E as ->. apply log_softmax_rlog; auto.
Qed.
Lemma normalize_probs_twice w : legal_probs w -> normalize_probs (normalize_probs (map Fin w)) = normalize_probs (map Fin w).
Proof.
  intros H. rewrite normalize_probs_fin by apply H. pose proof (normalised_pmf w H) as [P S]. rewrite normalize_probs_fin by (rewrite S; lra). f_equal.
  unfold normalised at 1. rewrite S. rewrite <- (map_id (normalised w)) at 2. apply map_ext. intros a. field.
Qed.
Lemma normalize_logits_length l : length (normalize_logits l) = length l.
Proof. unfold normalize_logits, log_softmax. rewrite !map_length. auto. Qed.
Lemma normalize_probs_length l : length (normalize_probs l) = length l.
Proof. unfold normalize_probs. apply map_length. Qed.

Definition renorm (k : cat_kind) : list XR -> list XR := match k with KLogits => normalize_logits | KProbs => normalize_probs end.
Definition as_cat (k : cat_kind) (l : list XR) : categorical := match k with KLogits => CLogits l | KProbs => CProbs l end.
Lemma renorm_length k l : length (renorm k l) = length l.
Proof. destruct k; [apply normalize_logits_length|apply normalize_probs_length]. Qed.
Lemma construct_ok k t dt d : construct k t dt = Ok d -> d = mkCatb k (along_last (renorm k) t) dt /\ (dt = DInt \/ dt = DFloat).
Proof. destruct k; cbn; destruct dt; intros [= <-]; auto. Qed.
Lemma construct_dt k t dt : dt = DInt \/ dt = DFloat -> construct k t dt = Ok (mkCatb k (along_last (renorm k) t) dt).
Proof. destruct k; intros [-> | ->]; reflexivity. Qed.
Lemma cat_at_kind d i : cat_at d i = as_cat (cb_kind d) (vec (cb_param d) i).
Proof. unfold cat_at, as_cat. destruct (cb_kind d); auto. Qed.
Lemma item_construct d ix : catb_getitem d ix = do p <- slice_param_any NaN (catb_batch d) ix (cb_param d); construct (cb_kind d) p (cb_dtype d).
Proof. unfold catb_getitem, construct. destruct (cb_kind d); auto. Qed.
Lemma renorm_twice k t batch K i : legal_rows k t batch K -> inb batch i -> renorm k (renorm k (vec t i)) = renorm k (vec t i).
Proof. intros (_ & _ & H) Hi. specialize (H i Hi). destruct k; cbn; [apply normalize_logits_twice; auto|]. destruct H as (w & -> & Hw). apply normalize_probs_twice; auto. Qed.
Lemma removelast_shape (t : tensor XR) (s : shape) K : shp t = s ++ [K] -> removelast (shp t) = s.
Proof. intros ->. apply removelast_last. Qed.
Lemma catb_item k t dt d batch K ix rs src : legal_rows k t batch K -> construct k t dt = Ok d -> batch <> [] -> index_ok ix -> any_index batch ix = Ok (rs, src) ->
  catb_batch d = batch /\ exists d', catb_getitem d ix = Ok d' /\ catb_batch d' = rs /\ last_axis (cb_param d') = K /\ cb_dtype d' = dt /\
    forall r, inb rs r -> cat_at d' r = cat_at d (src r).
Proof.
  intros HL E Hne W Ei. pose proof HL as (Wt & St & _). apply construct_ok in E as (-> & Hd).
  assert (Sp : shp (along_last (renorm k) t) = batch ++ [K]) by exact St.
  assert (HB : catb_batch (mkCatb k (along_last (renorm k) t) dt) = batch) by (apply removelast_shape with (K := K); exact St).
  split; [exact HB|]. pose proof (any_index_inb _ _ _ _ W Ei) as Hin.
  rewrite item_construct, HB. cbn [cb_param cb_kind cb_dtype].
  destruct (slice_any_ok NaN batch [K] ix rs src _ Hne Ei Hin Sp) as (q & -> & Wq & Sq & Hq). cbn [rbind]. rewrite (construct_dt k q dt Hd).
  eexists. split; [reflexivity|]. split; [apply removelast_shape with (K := K); exact Sq|]. split; [apply last_axis_snoc with (s := rs); exact Sq|]. split; [reflexivity|].
  intros r Hr. rewrite !cat_at_kind. cbn [cb_kind cb_param]. f_equal. pose proof (vec_tgen_slice _ _ _ _ _ src r Sp Sq Hq Hr) as Ev.
  assert (E1 : vec (along_last (renorm k) t) (src r) = renorm k (vec t (src r))).
  { apply along_last_vec with (s := batch) (K := K); auto. rewrite renorm_length, vec_length. apply last_axis_snoc with (s := batch); auto. }
  rewrite (along_last_vec (renorm k) q rs K r Sq Hr) by (rewrite renorm_length, vec_length; apply last_axis_snoc with (s := rs); auto).
  rewrite Ev, E1. eapply renorm_twice; eauto.
Qed.
Lemma catb_item_err d batch K ix e : shp (cb_param d) = batch ++ [K] -> batch <> [] -> any_index batch ix = Err e -> catb_getitem d ix = Err e.
Proof.
  intros Sp Hne E. rewrite item_construct. unfold catb_batch. rewrite (removelast_shape _ _ _ Sp). rewrite (slice_any_err _ _ _ _ _ Hne E). reflexivity.
Qed.

(** The object that d[ix] holds at position r is the object that d holds at the position ix selects for r: log_prob, prob, cdf, entropy, mode,
    KL divergences and samples (given the same noise) are functions of it, for Categorical and for OneHotCategorical. *)
Theorem C77_categorical : forall k t dt d batch K ix rs, legal_rows k t batch K -> construct k t dt = Ok d -> batch <> [] -> index_ok ix ->
  (exists src, any_index batch ix = Ok (rs, src)) ->
  exists d', catb_getitem d ix = Ok d' /\ catb_batch d' = rs /\ last_axis (cb_param d') = K /\ cb_dtype d' = dt /\
    forall r c, picks batch ix rs r c -> cat_at d' r = cat_at d c.
Proof.
  intros k t dt d batch K ix rs HL E Hne W [src Ei]. destruct (catb_item k t dt d batch K ix rs src HL E Hne W Ei) as (HB & d' & E' & HB' & HK & HD & H).
  exists d'. repeat split; auto. intros r c (src' & E2 & Hr & ->). rewrite Ei in E2. injection E2 as <-. auto.
Qed.
Print Assumptions C77_categorical.
(** In terms of the methods. *)
Theorem C77_categorical_methods : forall k t dt d batch K ix x, legal_rows k t batch K -> construct k t dt = Ok d -> batch <> [] -> index_ok ix -> shp x = batch ->
  indexing_commutes (catb_getitem d ix) ix (catb_eval cat_log_prob d) (catb_eval cat_log_prob) x /\
  indexing_commutes (catb_getitem d ix) ix (catb_eval cat_prob d) (catb_eval cat_prob) x /\
  indexing_commutes (catb_getitem d ix) ix (catb_eval cat_cdf d) (catb_eval cat_cdf) x /\
  statistic_commutes (catb_getitem d ix) ix (catb_stat cat_entropy d) (catb_stat cat_entropy) /\
  statistic_commutes (catb_getitem d ix) ix (catb_stat cat_mode d) (catb_stat cat_mode).
Proof.
  intros k t dt d batch K ix x HL E Hne W Sx.
  assert (Sp : shp (cb_param d) = batch ++ [K]) by (apply construct_ok in E as (-> & _); apply HL).
  assert (HB : catb_batch d = batch) by (unfold catb_batch; apply removelast_shape with (K := K); auto).
  assert (G1 : forall f, indexing_commutes (catb_getitem d ix) ix (catb_eval f d) (catb_eval f) x).
  { intros f. unfold indexing_commutes. unfold catb_eval at 2. rewrite HB, Sx, bshape_refl. cbn [rbind]. destruct (any_index batch ix) as [[rs src]|e] eqn:Ei.
    - destruct (catb_item k t dt d batch K ix rs src HL E Hne W Ei) as (_ & d' & -> & HB' & _ & _ & H). cbn [rbind]. rewrite (item_value x batch ix rs src) by auto. cbn [rbind].
      rewrite (item_tgen _ batch ix rs src) by auto. unfold catb_eval. rewrite HB'. cbn [shp at_src tgen]. rewrite bshape_refl. f_equal. apply tgen_ext. intros r Hr.
      rewrite !bindex_refl by (auto; eapply any_index_inb; eauto). rewrite H by auto. f_equal. apply (xget_at_src rs src x r Hr).
    - rewrite (catb_item_err d batch K ix e) by auto. unfold any_getitem. cbn [shp tgen rbind]. rewrite Ei. reflexivity. }
  assert (G2 : forall f, statistic_commutes (catb_getitem d ix) ix (catb_stat f d) (catb_stat f)).
  { intros f. unfold statistic_commutes. unfold catb_stat at 2. rewrite HB. cbn [rbind]. destruct (any_index batch ix) as [[rs src]|e] eqn:Ei.
    - destruct (catb_item k t dt d batch K ix rs src HL E Hne W Ei) as (_ & d' & -> & HB' & _ & _ & H). cbn [rbind].
      rewrite (item_tgen _ batch ix rs src) by auto. unfold catb_stat. rewrite HB'. f_equal. apply tgen_ext. intros r Hr. rewrite H by auto. reflexivity.
    - rewrite (catb_item_err d batch K ix e) by auto. unfold any_getitem. cbn [shp tgen rbind]. rewrite Ei. reflexivity. }
  auto 10.
Qed.
Print Assumptions C77_categorical_methods.

(** ** Greedy, EpsilonGreedy, Softmax: the constructor is called again with the sliced argument. *)
Lemma tie_length l : length (tie_breaking l) = length l. Proof. unfold tie_breaking. rewrite !map_length. auto. Qed.
Lemma mix_length e l : length (mix_probs_with_uniform l e) = length l. Proof. unfold mix_probs_with_uniform. apply map_length. Qed.
Lemma vec_tmap f t s K i : wf t -> shp t = s ++ [K] -> inb s i -> vec (tmap f t) i = map f (vec t i).
Proof.
  intros Wt St Hi. unfold vec. change (last_axis (tmap f t)) with (last_axis t). rewrite (last_axis_snoc _ _ _ St). rewrite map_map. apply map_ext_in. intros j Hj. apply in_seq in Hj.
  apply tget_tmap; [auto|]. rewrite St. apply inb_snoc; [auto|lia].
Qed.
(** a constructor that works row by row *)
Definition row_wise (build : tensor XR -> result policy) (k : cat_kind) (F : list XR -> list XR) : Prop :=
  forall a s K, wf a -> shp a = s ++ [K] -> forall d, build a = Ok d ->
    po_arg d = a /\ shp (cb_param (po_cat d)) = s ++ [K] /\ forall i, inb s i -> cat_at (po_cat d) i = as_cat k (F (vec a i)).
Definition accepts (build : tensor XR -> result policy) : Prop := forall a b d, build a = Ok d -> exists d', build b = Ok d'.
Lemma policy_item build k F a d batch K ix rs src : row_wise build k F -> accepts build -> wf a -> shp a = batch ++ [K] -> build a = Ok d -> batch <> [] -> index_ok ix -> any_index batch ix = Ok (rs, src) ->
  exists d', policy_getitem build d ix = Ok d' /\ catb_batch (po_cat d') = rs /\ forall r, inb rs r -> cat_at (po_cat d') r = cat_at (po_cat d) (src r).
Proof.
  intros HR HA Wa Sa E Hne W Ei. destruct (HR a batch K Wa Sa d E) as (Ea & Sp & Hd). pose proof (any_index_inb _ _ _ _ W Ei) as Hin.
  unfold policy_getitem, catb_batch. rewrite (removelast_shape _ _ _ Sp), Ea.
  destruct (slice_any_ok NaN batch [K] ix rs src a Hne Ei Hin Sa) as (q & -> & Wq & Sq & Hq). cbn [rbind]. destruct (HA a q d E) as (d' & E'). destruct (HR q rs K Wq Sq d' E') as (_ & Sp' & Hd').
  exists d'. split; [auto|]. split; [eapply removelast_shape; eauto|]. intros r Hr. rewrite Hd', Hd by auto. do 2 f_equal. eapply vec_tgen_slice; eauto.
Qed.
Lemma greedy_rows dt : row_wise (greedy_build dt) KProbs (fun l => normalize_probs (tie_breaking l)) /\ accepts (greedy_build dt).
Proof.
  split.
  - intros a s K Wa Sa d E. unfold greedy_build in E. destruct dt; cbn in E; try discriminate E; injection E as <-; (split; [reflexivity|]; split; [exact Sa|]; intros i Hi; unfold cat_at; cbn [cb_kind cb_param po_cat as_cat]; f_equal;
      assert (La := last_axis_snoc _ _ _ Sa); assert (E1 : vec (along_last tie_breaking a) i = tie_breaking (vec a i)) by (apply along_last_vec with (s := s) (K := K); auto; rewrite tie_length, vec_length; auto);
      rewrite (along_last_vec normalize_probs (along_last tie_breaking a) s K i Sa Hi) by (rewrite normalize_probs_length, vec_length; exact La); rewrite E1; reflexivity).
  - intros a b d E. unfold greedy_build in *. destruct dt; cbn in *; try discriminate E; eauto.
Qed.
Lemma epsilon_greedy_rows eps dt : row_wise (epsilon_greedy_build eps dt) KProbs (fun l => normalize_probs (mix_probs_with_uniform (tie_breaking l) eps)) /\ accepts (epsilon_greedy_build eps dt).
Proof.
  split.
  - intros a s K Wa Sa d E. unfold epsilon_greedy_build in E.
    assert (La := last_axis_snoc _ _ _ Sa).
    assert (E1 : forall i, inb s i -> vec (along_last tie_breaking a) i = tie_breaking (vec a i)) by (intros i Hi; apply along_last_vec with (s := s) (K := K); auto; rewrite tie_length, vec_length; auto).
    assert (E2 : forall i, inb s i -> vec (along_last (fun p => mix_probs_with_uniform p eps) (along_last tie_breaking a)) i = mix_probs_with_uniform (tie_breaking (vec a i)) eps).
    { intros i Hi. rewrite <- E1 by auto. apply along_last_vec with (s := s) (K := K); auto. rewrite mix_length, vec_length. exact La. }
    destruct dt; cbn in E; try discriminate E; injection E as <-; (split; [reflexivity|]; split; [exact Sa|]; intros i Hi; unfold cat_at; cbn [cb_kind cb_param po_cat as_cat]; f_equal;
      rewrite (along_last_vec normalize_probs (along_last (fun p => mix_probs_with_uniform p eps) (along_last tie_breaking a)) s K i Sa Hi) by (rewrite normalize_probs_length, vec_length; exact La); rewrite E2 by auto; reflexivity).
  - intros a b d E. unfold epsilon_greedy_build in *. destruct dt; cbn in *; try discriminate E; eauto.
Qed.
Lemma softmax_rows tau dt : row_wise (softmax_build tau dt) KLogits (fun l => normalize_logits (map (fun x => xdiv x tau) l)) /\ accepts (softmax_build tau dt).
Proof.
  split.
  - intros a s K Wa Sa d E. unfold softmax_build in E. assert (La := last_axis_snoc _ _ _ Sa).
    destruct dt; cbn in E; try discriminate E; injection E as <-; (split; [reflexivity|]; split; [exact Sa|]; intros i Hi; unfold cat_at; cbn [cb_kind cb_param po_cat as_cat]; f_equal;
      rewrite (along_last_vec normalize_logits (tmap (fun l => xdiv l tau) a) s K i Sa Hi) by (rewrite normalize_logits_length, vec_length; exact La); rewrite (vec_tmap _ a s K i) by auto; reflexivity).
  - intros a b d E. unfold softmax_build in *. destruct dt; cbn in *; try discriminate E; eauto.
Qed.
Theorem C77_policies : forall a batch K ix rs, wf a -> shp a = batch ++ [K] -> batch <> [] -> index_ok ix -> (exists src, any_index batch ix = Ok (rs, src)) ->
  forall dt epsilon temperature build d, build = greedy_build dt \/ build = epsilon_greedy_build epsilon dt \/ build = softmax_build temperature dt -> build a = Ok d ->
  exists d', policy_getitem build d ix = Ok d' /\ catb_batch (po_cat d') = rs /\ forall r c, picks batch ix rs r c -> cat_at (po_cat d') r = cat_at (po_cat d) c.
Proof.
  intros a batch K ix rs Wa Sa Hne W [src Ei] dt eps tau build d HB E.
  assert (exists k F, row_wise build k F /\ accepts build) as (k & F & HR & HA).
  { destruct HB as [-> |[-> | ->]]; eexists _, _; [apply greedy_rows|apply epsilon_greedy_rows|apply softmax_rows]. }
  destruct (policy_item build k F a d batch K ix rs src HR HA Wa Sa E Hne W Ei) as (d' & E' & HB' & H). exists d'. repeat split; auto.
  intros r c (src' & E2 & Hr & ->). rewrite Ei in E2. injection E2 as <-. auto.
Qed.
Print Assumptions C77_policies.

(** ** Bernoulli *)
Theorem C77_bernoulli : forall d batch ix x, wf (bb_param d) -> shp (bb_param d) = batch -> batch <> [] -> index_ok ix -> shp x = batch ->
  indexing_commutes (bernb_getitem d ix) ix (bernb_eval bern_log_prob d) (bernb_eval bern_log_prob) x /\
  indexing_commutes (bernb_getitem d ix) ix (bernb_eval bern_prob d) (bernb_eval bern_prob) x /\
  indexing_commutes (bernb_getitem d ix) ix (bernb_eval bern_cdf d) (bernb_eval bern_cdf) x /\
  statistic_commutes (bernb_getitem d ix) ix (bernb_stat bern_mean d) (bernb_stat bern_mean) /\
  statistic_commutes (bernb_getitem d ix) ix (bernb_stat bern_variance d) (bernb_stat bern_variance) /\
  statistic_commutes (bernb_getitem d ix) ix (bernb_stat bern_mode d) (bernb_stat bern_mode) /\
  statistic_commutes (bernb_getitem d ix) ix (bernb_stat bern_entropy d) (bernb_stat bern_entropy).
Proof.
  intros [k p] batch ix x Wp Sp Hne W Sx. cbn [bb_param] in *.
  assert (EW : p = tgen batch (fun i => xget p i)).
  { rewrite <- (tgen_tget (Fin 0) p Wp) at 1. rewrite Sp. apply tgen_ext. intros i Hi. rewrite xget_same by (rewrite Sp; auto). auto. }
  assert (IT : forall rs src, any_index batch ix = Ok (rs, src) -> bernb_getitem (mkBernb k p) ix = Ok (mkBernb k (at_src rs src p))).
  { intros rs src E. unfold bernb_getitem. cbn [bb_param bb_kind]. rewrite Sp. rewrite EW at 1. rewrite (slice_full batch ix rs src p) by (auto; rewrite Sp; apply bshape_refl). reflexivity. }
  assert (IE : forall e, any_index batch ix = Err e -> bernb_getitem (mkBernb k p) ix = Err e).
  { intros e E. unfold bernb_getitem. cbn [bb_param]. rewrite Sp, (slice_any_err _ _ _ _ _ Hne E). reflexivity. }
  assert (AT : forall rs src r, inb rs r -> bern_at (mkBernb k (at_src rs src p)) r = bern_at (mkBernb k p) (src r)).
  { intros rs src r Hr. unfold bern_at. cbn [bb_kind bb_param]. rewrite xget_at_src by auto. reflexivity. }
  assert (G1 : forall f, indexing_commutes (bernb_getitem (mkBernb k p) ix) ix (bernb_eval f (mkBernb k p)) (bernb_eval f) x).
  { intros f. unfold indexing_commutes. unfold bernb_eval at 2. cbn [bb_param]. rewrite Sp, Sx, bshape_refl. cbn [rbind]. destruct (any_index batch ix) as [[rs src]|e] eqn:Ei.
    - rewrite (IT rs src) by auto. cbn [rbind]. rewrite (item_value x batch ix rs src) by auto. cbn [rbind]. rewrite (item_tgen _ batch ix rs src) by auto.
      unfold bernb_eval. cbn [bb_param]. cbn [shp at_src tgen]. rewrite bshape_refl. f_equal. apply tgen_ext. intros r Hr. f_equal; [apply (AT rs src r Hr)|apply (xget_at_src rs src x r Hr)].
    - rewrite IE with (e := e) by auto. unfold any_getitem. cbn [shp tgen rbind]. rewrite Ei. reflexivity. }
  assert (G2 : forall f, statistic_commutes (bernb_getitem (mkBernb k p) ix) ix (bernb_stat f (mkBernb k p)) (bernb_stat f)).
  { intros f. unfold statistic_commutes. unfold bernb_stat at 2. cbn [bb_param]. rewrite Sp. cbn [rbind]. destruct (any_index batch ix) as [[rs src]|e] eqn:Ei.
    - rewrite (IT rs src) by auto. cbn [rbind]. rewrite (item_tgen _ batch ix rs src) by auto. unfold bernb_stat. cbn [bb_param shp at_src tgen]. f_equal. apply tgen_ext. intros r Hr. f_equal. apply (AT rs src r Hr).
    - rewrite IE with (e := e) by auto. unfold any_getitem. cbn [shp tgen rbind]. rewrite Ei. reflexivity. }
  auto 10.
Qed.
Print Assumptions C77_bernoulli.

(** probs of shape (2, 3), batch (2,): the rows (1, 1, 2) and (0, 3, 1) are legal; indexing with [[1, 1, 0]] *)
Example C77_categorical_nonvacuous :
  let t := mkT [2; 3] (map Fin [1; 1; 2; 0; 3; 1]%R) in
  legal_rows KProbs t [2] 3 /\ (exists d, construct KProbs t DInt = Ok d) /\ index_ok (IxArrays [mkT [3] [1; 1; 0]%Z]) /\
  (exists src, any_index [2] (IxArrays [mkT [3] [1; 1; 0]%Z]) = Ok ([3], src)) /\ picks [2] (IxArrays [mkT [3] [1; 1; 0]%Z]) [3] [2] [0].
Proof.
  cbv zeta. split; [|split; [eexists; reflexivity|split; [repeat constructor|split; [eexists; reflexivity|eexists; split; [reflexivity|split; [repeat constructor|reflexivity]]]]]].
  split; [reflexivity|]. split; [reflexivity|]. intros i Hi. inversion Hi as [|a ? l ? Ha Hl]; subst. inversion Hl; subst.
  destruct a as [|[|a]]; [exists [1; 1; 2]%R|exists [0; 3; 1]%R|lia]; (split; [reflexivity|split; [intros y; cbn; intros [<-|[<-|[<-|[]]]]; lra|cbn; lra]]).
Qed.
