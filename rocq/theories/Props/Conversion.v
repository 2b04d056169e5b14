(** C67: conversions. *)
From Coq Require Import List Reals ZArith Bool Lia Lra.
From Verif Require Import Base.Result Base.Sums Base.Tensor Base.XR Model.Bijector Model.ScalarBij Model.Transformed Model.Categorical Model.Conversion
  Spec.Bijector Proofs.Bijector Proofs.Block Props.Combinators.
Import ListNotations.
Local Open Scope Z_scope.

(** ** Objects *)
Section Objects.
Context {B D TB TD F : Type} (sigmoid tanh : F) (same_fn : F -> F -> bool).
Notation object := (@object B D TB TD F).
Notation asb := (@as_bijector B D TB TD F sigmoid tanh same_fn).
(** what a conversion is given: a distrax object of the right kind *)
Definition is_distrax_bijector (o : object) : Prop := exists b, o = OBij b.
Definition is_distrax_distribution (o : object) : Prop := exists d, o = ODist d.

Theorem C67_as_bijector (o : object) :
  (is_distrax_bijector o -> asb o = Ok o) /\
  (forall r, asb o = Ok r -> is_distrax_bijector r /\ asb r = Ok r) /\
  (asb o = Err TypeError <-> ~ is_distrax_bijector o /\ (forall t, o <> OTfpBij t) /\ (forall f, o <> OFn f)) /\
  (forall e, asb o = Err e -> e = TypeError).
Proof.
  split; [intros [b ->]; reflexivity|]. split; [|split].
  - intros r H. assert (exists b, r = OBij b) as [b ->].
    { destruct o; cbn in H; try discriminate; try (injection H as <-; eexists; reflexivity).
      destruct (same_fn f sigmoid); [injection H as <-; eexists; reflexivity|]. destruct (same_fn f tanh); injection H as <-; eexists; reflexivity. }
    split; [eexists; reflexivity|reflexivity].
  - split.
    + intros H. split; [intros [b ->]; discriminate|]. split; [intros t ->; discriminate|].
      intros f ->. cbn in H. destruct (same_fn f sigmoid); [discriminate|]. destruct (same_fn f tanh); discriminate.
    + intros (H1 & H2 & H3). destruct o; cbn; try reflexivity; exfalso; [apply H1; eexists; reflexivity|eapply H2; reflexivity|eapply H3; reflexivity].
  - intros e H. destruct o; cbn in H; try congruence. destruct (same_fn f sigmoid); [discriminate|]. destruct (same_fn f tanh); discriminate.
Qed.
(** functions with an explicit implementation are recognised by identity *)
Theorem C67_as_bijector_functions (f : F) : (forall g h, same_fn g h = true <-> g = h) -> sigmoid <> tanh ->
  asb (OFn sigmoid) = Ok (OBij SigmoidBijector) /\ asb (OFn tanh) = Ok (OBij TanhBijector) /\
  (f <> sigmoid -> f <> tanh -> asb (OFn f) = Ok (OBij (LambdaBijector f))).
Proof.
  intros Hs Hn. assert (Hf : forall g h, g <> h -> same_fn g h = false).
  { intros g h N. destruct (same_fn g h) eqn:E; auto. apply Hs in E. congruence. }
  cbn. rewrite (proj2 (Hs sigmoid sigmoid) eq_refl), (Hf tanh sigmoid), (proj2 (Hs tanh tanh) eq_refl) by auto.
  split; [auto|]. split; [auto|]. intros H1 H2. rewrite !Hf by auto. auto.
Qed.
Notation asd := (@as_distribution B D TB TD F).
Theorem C67_as_distribution (o : object) :
  (is_distrax_distribution o -> asd o = Ok o) /\
  (forall r, asd o = Ok r -> is_distrax_distribution r /\ asd r = Ok r) /\
  (asd o = Err TypeError <-> ~ is_distrax_distribution o /\ (forall t, o <> OTfpDist t)) /\
  (forall e, asd o = Err e -> e = TypeError).
Proof.
  split; [intros [b ->]; reflexivity|]. split; [|split].
  - intros r H. destruct o; cbn in H; try discriminate; injection H as <-; split; try (eexists; reflexivity); reflexivity.
  - split.
    + intros H. split; [intros [b ->]; discriminate|intros t ->; discriminate].
    + intros (H1 & H2). destruct o; cbn; try reflexivity; exfalso; [apply H1; eexists; reflexivity|eapply H2; reflexivity].
  - intros e H. destruct o; cbn in H; congruence.
Qed.
Notation ttp := (@to_tfp B D TB TD F).
Theorem C67_to_tfp (o : object) name :
  ((exists t, o = OTfpBij t) \/ is_tfd o = true -> ttp o name = Ok o) /\
  (ttp o name = Err TypeError <-> (exists f, o = OFn f) \/ o = OOther) /\
  (forall e, ttp o name = Err e -> e = TypeError) /\
  (* what it returns can be converted back, to the same object *)
  (forall r, ttp o name = Ok r -> (exists t, r = OTfpBij t) \/ (exists t, r = OTfpDist t) \/ asb r = Ok r \/ asd r = Ok r) /\
  (* a TFP distribution made a distrax one is still a TFP distribution *)
  (forall t, asd (OTfpDist t) = Ok (ODist (DistFromTFP t)) /\ ttp (ODist (DistFromTFP t)) name = Ok (ODist (DistFromTFP t))).
Proof.
  split; [|split; [|split; [|split]]].
  - intros [[t ->]|H]; [reflexivity|]. destruct o; try discriminate; [|reflexivity]. cbn [to_tfp]. rewrite H. reflexivity.
  - split; [|intros [[f ->]| ->]; reflexivity].
    destruct o; cbn [to_tfp]; intros H; try discriminate; eauto. destruct (is_tfd (ODist d)); discriminate.
  - intros e. destruct o; cbn [to_tfp]; intros H; try congruence. destruct (is_tfd (ODist d)); discriminate.
  - intros r. destruct o; cbn [to_tfp]; intros H; try discriminate; try (injection H as <-; eauto).
    destruct (is_tfd (ODist d)); injection H as <-; right; right; right; reflexivity.
  - intros t. split; reflexivity.
Qed.
(** Converting a distrax bijector twice is not the same as converting it once: it is wrapped again (and named again). *)
Theorem C67_to_tfp_idempotent_refuted (b : B) name :
  exists r r', ttp (OBij (Native b)) name = Ok r /\ ttp r name = Ok r' /\ r' <> r.
Proof. do 2 eexists. split; [reflexivity|]. split; [reflexivity|]. intros H. injection H as H. discriminate. Qed.
End Objects.

(** ** TFP-compatible bijectors *)
(** The number of event dimensions changes by a constant, in both directions; too few are rejected. *)
Theorem C67_event_ndims (b : bij) n :
  (n < b_in b -> forward_event_ndims b n = Err ValueError) /\
  (b_in b <= n -> forward_event_ndims b n = Ok (b_out b + (n - b_in b)) /\ inverse_event_ndims b (b_out b + (n - b_in b)) = Ok n) /\
  (n < b_out b -> inverse_event_ndims b n = Err ValueError) /\
  (b_out b <= n -> inverse_event_ndims b n = Ok (b_in b + (n - b_out b)) /\ forward_event_ndims b (b_in b + (n - b_out b)) = Ok n).
Proof.
  unfold forward_event_ndims, inverse_event_ndims, check_ndims. split; [|split; [|split]]; intros H.
  - destruct (Z.ltb_spec n (b_in b)); [reflexivity|lia].
  - destruct (Z.ltb_spec n (b_in b)); [lia|]. cbn [rbind]. split; [reflexivity|].
    destruct (Z.ltb_spec (b_out b + (n - b_in b)) (b_out b)); [lia|]. cbn. f_equal. lia.
  - destruct (Z.ltb_spec n (b_out b)); [reflexivity|lia].
  - destruct (Z.ltb_spec n (b_out b)); [lia|]. cbn [rbind]. split; [reflexivity|].
    destruct (Z.ltb_spec (b_in b + (n - b_out b)) (b_in b)); [lia|]. cbn. f_equal. lia.
Qed.
(** The reported shapes are those of the results, for methods whose result shape depends on the argument's shape only. *)
Theorem C67_event_shape (b : bij) x :
  (forall y z, wf y -> wf z -> shp y = shp z -> rmap shp (b_fwd b y) = rmap shp (b_fwd b z)) ->
  wf x ->
  (Z.of_nat (rank x) < b_in b -> forward_event_shape b (shp x) = Err ValueError) /\
  (b_in b <= Z.of_nat (rank x) -> forward_event_shape b (shp x) = rmap shp (b_fwd b x)).
Proof.
  intros Hs Hx. unfold forward_event_shape, check_shape, rank. split; intros H.
  - destruct (Z.ltb_spec (Z.of_nat (length (shp x))) (b_in b)); [reflexivity|lia].
  - destruct (Z.ltb_spec (Z.of_nat (length (shp x))) (b_in b)); [lia|]. cbn [rbind].
    rewrite (Hs x (tzeros (shp x))); [|auto|apply tgen_wf|reflexivity]. destruct (b_fwd b (tzeros (shp x))); reflexivity.
Qed.
(** Asking for more event dimensions sums the log-det over them: it is the log-det of the block with those dimensions
    (C06).  Without [event_ndims], or with the minimal number, it is that of the bijector itself. *)
Theorem C67_log_det_event_ndims (b : bij) k c x :
  coherent b -> block_init b k = Ok c ->
  t_fld (tfp_compatible_bijector b) x None = b_fld b x /\ t_ild (tfp_compatible_bijector b) x None = b_ild b x /\
  t_fld (tfp_compatible_bijector b) x (Some (b_in b)) = b_fld b x /\ t_ild (tfp_compatible_bijector b) x (Some (b_out b)) = b_ild b x /\
  (k + b_in b <= Z.of_nat (rank x) -> t_fld (tfp_compatible_bijector b) x (Some (b_in b + k)) = b_fld c x) /\
  (k + b_out b <= Z.of_nat (rank x) -> t_ild (tfp_compatible_bijector b) x (Some (b_out b + k)) = b_ild c x) /\
  (forall n, n < b_in b -> t_fld (tfp_compatible_bijector b) x (Some n) = Err ValueError) /\
  (forall n, n < b_out b -> t_ild (tfp_compatible_bijector b) x (Some n) = Err ValueError).
Proof.
  intros Hc H. destruct (block_fields _ _ _ Hc H) as (Hk & _ & _ & _ & _ & _ & _ & F3 & F4 & _ & _).
  assert (S0 : forall r : result arr, (do l <- r; sum_last l 0) = r).
  { intros [l|e]; cbn [rbind]; [apply sum_last_nonpos; lia|reflexivity]. }
  cbn [t_fld t_ild tfp_compatible_bijector]. unfold check_ndims. rewrite !Z.ltb_irrefl, !Z.sub_diag. cbn [rbind]. rewrite !S0.
  split; [auto|]. split; [auto|]. split; [auto|]. split; [auto|]. split; [|split; [|split]].
  - intros Hr. destruct (Z.ltb_spec (b_in b + k) (b_in b)); [lia|]. cbn [rbind]. rewrite F3, check_ok by auto. cbn [rbind].
    replace (b_in b + k - b_in b) with k by lia. reflexivity.
  - intros Hr. destruct (Z.ltb_spec (b_out b + k) (b_out b)); [lia|]. cbn [rbind]. rewrite F4, check_ok by auto. cbn [rbind].
    replace (b_out b + k - b_out b) with k by lia. reflexivity.
  - intros n Hn. destruct (Z.ltb_spec n (b_in b)); [reflexivity|lia].
  - intros n Hn. destruct (Z.ltb_spec n (b_out b)); [reflexivity|lia].
Qed.

(** ** Wrapped TFP bijectors *)
(** the batch shape of a value with [k] event dimensions *)
Definition batch_of (s : shape) (k : Z) : shape := firstn (length s - Z.to_nat k) s.
(** TFP's contract at the argument [x]: the log-det is at least broadcastable to the batch shape, and has that shape unless
    the Jacobian is constant. *)
Definition tfp_log_det_ok (t : tfp_bij) (x y l : arr) : Prop :=
  t_fwd t x = Ok y /\ t_fld t x (Some (t_in t)) = Ok l /\ wf l /\
  bshape (shp l) (batch_of (shp y) (t_out t)) = Some (batch_of (shp y) (t_out t)) /\
  (t_cj t = false -> shp l = batch_of (shp y) (t_out t)).
Lemma batch_of_eq s k : 0 <= k -> (if k =? 0 then s else firstn (length s - Z.to_nat k) s) = batch_of s k.
Proof.
  intros H. unfold batch_of. destruct (Z.eqb_spec k 0) as [-> |N]; [|reflexivity]. cbn. rewrite Nat.sub_0_r, firstn_all. reflexivity.
Qed.
Lemma broadcast_arr_ok (l : arr) s : bshape (shp l) s = Some s -> broadcast_arr l s = Ok (tgen s (bget l)).
Proof. intros H. unfold broadcast_arr. rewrite H. destruct (list_eq_dec Nat.eq_dec s s); [auto|congruence]. Qed.
Lemma bget_same (l : arr) idx : inb (shp l) idx -> bget l idx = tget 0%R l idx.
Proof. intros H. unfold bget. rewrite bindex_refl by auto. reflexivity. Qed.
Lemma ensure_ok t l k f x y : 0 <= k -> f x = Ok y -> wf l -> bshape (shp l) (batch_of (shp y) k) = Some (batch_of (shp y) k) ->
  (t_cj t = false -> shp l = batch_of (shp y) k) ->
  ensure_batch_shape t l k f x = Ok (tgen (batch_of (shp y) k) (bget l)).
Proof.
  intros Hk Hf Wl Hb Hs. unfold ensure_batch_shape. destruct (t_cj t).
  - rewrite Hf. cbn [rbind]. rewrite batch_of_eq by auto. apply broadcast_arr_ok; auto.
  - rewrite <- Hs by auto. f_equal. apply (tensor_ext 0%R); [auto|apply tgen_wf|reflexivity|].
    intros idx Hi. rewrite tget_tgen by auto. rewrite bget_same; auto.
Qed.
(** The wrapper delegates the values and returns batch-shaped log-dets, with constant Jacobian declared as in TFP. *)
Theorem C67_from_tfp (t : tfp_bij) :
  0 <= t_in t -> 0 <= t_out t ->
  exists b, bijector_from_tfp t = Ok b /\ b_in b = t_in t /\ b_out b = t_out t /\ b_cj b = t_cj t /\ b_cl b = t_cj t /\
    (forall x, b_fwd b x = t_fwd t x) /\ (forall y, b_inv b y = t_inv t y) /\ methods_agree b /\
    (forall x y l, tfp_log_det_ok t x y l ->
       exists l', b_fal b x = Ok (y, l') /\ wf l' /\ shp l' = batch_of (shp y) (t_out t) /\
         forall idx, inb (batch_of (shp y) (t_out t)) idx -> tget 0%R l' idx = bget l idx).
Proof.
  intros Hi Ho. unfold bijector_from_tfp, base_init.
  destruct (Z.ltb_spec (t_in t) 0); [lia|]. destruct (Z.ltb_spec (t_out t) 0); [lia|]. rewrite andb_negb_r. cbn [rbind m_in m_out m_cj m_cl].
  eexists. split; [reflexivity|]. cbn [b_in b_out b_cj b_cl b_fwd b_inv b_fal b_ial b_fld b_ild].
  split; [auto|]. split; [auto|]. split; [auto|]. split; [auto|]. split; [auto|]. split; [auto|]. split.
  - split; cbn [b_fwd b_inv b_fal b_ial b_fld b_ild]; intros x y l Hx.
    + destruct (t_fwd t x); [|discriminate]. cbn [rbind] in Hx.
      destruct (t_fld t x (Some (t_in t))); [|discriminate]. cbn [rbind] in *.
      destruct (ensure_batch_shape t a0 (t_out t) (t_fwd t) x); [|discriminate]. cbn [rbind] in Hx. injection Hx as <- <-. auto.
    + destruct (t_inv t x); [|discriminate]. cbn [rbind] in Hx.
      destruct (t_ild t x (Some (t_out t))); [|discriminate]. cbn [rbind] in *.
      destruct (ensure_batch_shape t a0 (t_in t) (t_inv t) x); [|discriminate]. cbn [rbind] in Hx. injection Hx as <- <-. auto.
  - intros x y l (E1 & E2 & Wl & Hb & Hs). rewrite E2. cbn [rbind].
    rewrite (ensure_ok t l (t_out t) (t_fwd t) x y) by auto. rewrite E1. cbn [rbind].
    eexists. split; [reflexivity|]. split; [apply tgen_wf|]. split; [reflexivity|]. intros idx Hidx. rewrite tget_tgen by auto. reflexivity.
Qed.
(** A constant log-det that cannot be broadcast to the batch shape is an error, not a wrong array. *)
Theorem C67_from_tfp_bad_shape (t : tfp_bij) x y l :
  0 <= t_in t -> 0 <= t_out t -> t_cj t = true -> t_fwd t x = Ok y -> t_fld t x (Some (t_in t)) = Ok l ->
  bshape (shp l) (batch_of (shp y) (t_out t)) <> Some (batch_of (shp y) (t_out t)) ->
  exists b, bijector_from_tfp t = Ok b /\ b_fal b x = Err ValueError /\ b_fld b x = Err ValueError.
Proof.
  intros Hi Ho Cj E1 E2 Hb. unfold bijector_from_tfp, base_init.
  destruct (Z.ltb_spec (t_in t) 0); [lia|]. destruct (Z.ltb_spec (t_out t) 0); [lia|]. rewrite andb_negb_r. cbn [rbind m_in m_out m_cj m_cl].
  eexists. split; [reflexivity|]. cbn [b_fal b_fld]. rewrite E2. cbn [rbind]. unfold ensure_batch_shape. rewrite Cj, E1. cbn [rbind].
  rewrite batch_of_eq by auto. unfold broadcast_arr. destruct (bshape (shp l) (batch_of (shp y) (t_out t))) as [s'|]; [|split; reflexivity].
  destruct (list_eq_dec Nat.eq_dec s' (batch_of (shp y) (t_out t))) as [-> |]; [congruence|]. split; reflexivity.
Qed.
Example C67_bad_shape_example : bshape [2%nat] (batch_of [3%nat] 0) <> Some (batch_of [3%nat] 0). Proof. cbn. discriminate. Qed.
(** Converting to TFP and wrapping again preserves the behaviour wherever the log-det has the batch shape. *)
Theorem C67_round_trip (b : bij) :
  coherent b -> methods_agree b ->
  exists b', bijector_from_tfp (tfp_compatible_bijector b) = Ok b' /\ b_in b' = b_in b /\ b_out b' = b_out b /\ b_cj b' = b_cj b /\
    (forall x, b_fwd b' x = b_fwd b x) /\ (forall y, b_inv b' y = b_inv b y) /\
    (forall x y l, b_fal b x = Ok (y, l) -> wf l -> shp l = batch_of (shp y) (b_out b) -> b_fal b' x = Ok (y, l) /\ b_fld b' x = Ok l) /\
    (forall y x l, b_ial b y = Ok (x, l) -> wf l -> shp l = batch_of (shp x) (b_in b) -> b_ial b' y = Ok (x, l) /\ b_ild b' y = Ok l).
Proof.
  intros (H1 & H2 & H3) (Ma & Mi). unfold bijector_from_tfp, base_init. cbn [t_in t_out t_cj t_fwd t_inv t_fld t_ild tfp_compatible_bijector].
  destruct (Z.ltb_spec (b_in b) 0); [lia|]. destruct (Z.ltb_spec (b_out b) 0); [lia|]. rewrite andb_negb_r. cbn [rbind m_in m_out m_cj m_cl].
  eexists. split; [reflexivity|]. cbn [b_in b_out b_cj b_cl b_fwd b_inv b_fal b_ial b_fld b_ild].
  split; [auto|]. split; [auto|]. split; [auto|]. split; [auto|]. split; [auto|].
  assert (T : forall (l : arr) s, wf l -> shp l = s -> tgen s (bget l) = l).
  { intros l s W <-. apply (tensor_ext 0%R); [apply tgen_wf|auto|reflexivity|]. cbn [shp tgen]. intros idx Hi. rewrite tget_tgen by auto. apply bget_same; auto. }
  assert (R : forall s : shape, bshape s s = Some s) by (intros; apply bshape_refl).
  unfold check_ndims. rewrite !Z.ltb_irrefl, !Z.sub_diag. cbn [rbind]. split.
  - intros x y l E W S. destruct (Ma _ _ _ E) as [Ef El]. rewrite Ef, El. cbn [rbind]. rewrite sum_last_nonpos by lia. cbn [rbind].
    rewrite (ensure_ok _ l (b_out b) (b_fwd b) x y); auto; [|rewrite S; apply R].
    rewrite T by auto. auto.
  - intros y x l E W S. destruct (Mi _ _ _ E) as [Ef El]. rewrite Ef, El. cbn [rbind]. rewrite sum_last_nonpos by lia. cbn [rbind].
    rewrite (ensure_ok _ l (b_in b) (b_inv b) y x); auto; [|rewrite S; apply R].
    rewrite T by auto. auto.
Qed.

(** ** as_float_array *)
Theorem C67_as_float_array dt x :
  (forall dt' y, as_float_array dt x = Ok (dt', y) -> dt' = DFloat /\ y = x /\ as_float_array dt' y = Ok (dt', y)) /\
  (as_float_array dt x = Err ValueError <-> dt = DBool \/ dt = DOther).
Proof.
  split.
  - intros dt' y H. destruct dt; cbn in H; try discriminate; injection H as <- <-; auto.
  - destruct dt; cbn; split; intros H; auto; try discriminate; destruct H; discriminate.
Qed.

(** Non-vacuity: the tanh bijector round-trips at a concrete array. *)
Example C67_nonvacuous : coherent ex_tanh /\ methods_agree ex_tanh /\
  exists b', bijector_from_tfp (tfp_compatible_bijector ex_tanh) = Ok b' /\
    b_fal b' (tvec [1; 2]%R) = Ok (tvec [tanh 1; tanh 2]%R, tvec [tanh_fldj 1; tanh_fldj 2]%R).
Proof.
  assert (Hc : coherent ex_tanh) by (split; [cbn; lia|split; [cbn; lia|auto]]).
  assert (Hm : methods_agree ex_tanh) by apply elementwise_agrees.
  split; [auto|]. split; [auto|].
  destruct (C67_round_trip ex_tanh Hc Hm) as (b' & E & _ & _ & _ & _ & _ & Hf & _). exists b'. split; [auto|].
  apply (Hf (tvec [1; 2]%R)); reflexivity.
Qed.
