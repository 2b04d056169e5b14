(** C89, C90: the dtypes of samples and log probabilities, and the [dtype] property of nested
    distributions, for every dtype of the parameters, weak or not, with and without jax_enable_x64.
    JAX's promotion rules are in Base/JaxDtype.v, the vocabulary in Spec/Dtypes.v. *)
From Coq Require Import List Bool.
From Verif Require Import Base.Result Base.JaxDtype Spec.Dtypes Proofs.JaxDtype Model.Dtypes.
Import ListNotations.

(** ** The promotion used throughout is the least upper bound of the documented lattice. *)
Theorem C89_promotion_is_least_upper_bound a b : least_upper_bound a b (join a b).
Proof. apply join_lub. Qed.

(** ** Finite enumeration *)
Definition float_avals (x64 : bool) : list aval :=
  Aval (default_float x64) true :: map strong ([BF16; F16; F32] ++ if x64 then [F64] else []).
Definition int_avals (x64 : bool) : list aval :=
  Aval (default_int x64) true :: map strong ([U8; U16; U32; I8; I16; I32] ++ if x64 then [U64; I64] else []).
Definition families := [Normal; Laplace; Logistic; Gumbel; Uniform; Gamma; Beta; VonMises].

Lemma valid_float x64 a : valid x64 a -> is_floating (ty a) = true -> In a (float_avals x64).
Proof.
  destruct a as [d w]. unfold valid, available. cbn [ty weak]. intros [Hd W] Hf.
  destruct w.
  - destruct (W eq_refl) as [->| ->].
    + destruct x64; discriminate.
    + now left.
  - right. apply (in_map strong _ d). destruct x64; destruct d; cbn in *; try discriminate; try tauto;
      destruct Hd as [|(?&?&?)]; congruence.
Qed.
Lemma valid_int x64 a : valid x64 a -> is_integer (ty a) = true -> In a (int_avals x64).
Proof.
  destruct a as [d w]. unfold valid, available. cbn [ty weak]. intros [Hd W] Hf.
  destruct w.
  - destruct (W eq_refl) as [->| ->].
    + now left.
    + destruct x64; discriminate.
  - right. apply (in_map strong _ d). destruct x64; destruct d; cbn in *; try discriminate; try tauto;
      destruct Hd as [|(?&?&?)]; congruence.
Qed.
Lemma numeric_cases d : numeric d -> is_floating d = true \/ is_integer d = true.
Proof. destruct d; cbn; auto; intros H; now elim H. Qed.
Lemma valid_numeric x64 a : valid x64 a -> numeric (ty a) -> In a (float_avals x64 ++ int_avals x64).
Proof.
  intros Hv Hn. apply in_or_app. destruct (numeric_cases _ Hn) as [H|H].
  - left. now apply valid_float. - right. now apply valid_int.
Qed.

Definition wider_b (x y : jdtype) : bool :=
  jdtype_eqb x y || match x, y with BF16, F32 | BF16, F64 | F16, F32 | F16, F64 | F32, F64 => true | _, _ => false end.
Lemma wider_b_iff x y : wider_b x y = true <-> wider x y.
Proof.
  unfold wider. destruct x, y; cbn; split; intros H; try reflexivity; try discriminate; try tauto;
    repeat match goal with H : _ \/ _ |- _ => destruct H | H : _ /\ _ |- _ => destruct H end; discriminate.
Qed.
Definition asked (x64 : bool) (ps : list aval) : list jdtype :=
  flat_map (fun p => match asks x64 p with Some x => [x] | None => [] end) ps.
Lemma asked_In x64 ps x : In x (asked x64 ps) <-> exists p, In p ps /\ asks x64 p = Some x.
Proof.
  unfold asked. rewrite in_flat_map. split.
  - intros (p & Hp & H). destruct (asks x64 p) eqn:E; [|easy]. destruct H as [->|[]]. eauto.
  - intros (p & Hp & E). exists p. rewrite E. cbn. auto.
Qed.
Definition narrowest_b (x64 : bool) (ps : list aval) (d : jdtype) : bool :=
  is_floating d && forallb (fun x => wider_b x d) (asked x64 ps) &&
  match asked x64 ps with
  | [] => jdtype_eqb d (default_float x64)
  | _ => forallb (fun e => implb (forallb (fun x => wider_b x e) (asked x64 ps)) (wider_b d e)) [BF16; F16; F32; F64]
  end.
Lemma floating_iff d : floating d <-> is_floating d = true.
Proof. unfold floating. destruct d; cbn; split; intros H; try reflexivity; try discriminate; try tauto;
  repeat (destruct H as [H|H]; [discriminate|]); destruct H. Qed.
Lemma narrowest_sound x64 ps d : narrowest_b x64 ps d = true -> narrowest x64 ps d.
Proof.
  unfold narrowest_b. rewrite !andb_true_iff. intros [[Hf Hw] Hm]. repeat split.
  - now apply floating_iff.
  - intros p x Hp Hx. apply wider_b_iff. rewrite forallb_forall in Hw. apply Hw, asked_In. eauto.
  - intros e He Hall (p & x & Hp & Hx).
    assert (Hin : In x (asked x64 ps)) by (apply asked_In; eauto).
    destruct (asked x64 ps) as [|x0 l] eqn:E; [easy|]. rewrite <- E in Hm, Hin.
    rewrite forallb_forall in Hm. specialize (Hm e He). apply wider_b_iff.
    replace (forallb (fun x => wider_b x e) (asked x64 ps)) with true in Hm; [exact Hm|].
    symmetry. apply forallb_forall. intros y Hy. apply asked_In in Hy as (p' & Hp' & E').
    apply wider_b_iff. eauto.
  - intros Hn. destruct (asked x64 ps) as [|x l] eqn:E.
    + now apply jdtype_eqb_eq.
    + exfalso. assert (Hin : In x (asked x64 ps)) by (rewrite E; now left).
      apply asked_In in Hin as (p & Hp & Hx). rewrite (Hn p Hp) in Hx. discriminate.
Qed.
(** [narrowest] determines the dtype. *)
Lemma wider_antisym x y : wider x y -> wider y x -> x = y.
Proof. rewrite <- !wider_b_iff. destruct x, y; cbn; congruence. Qed.
Theorem C89_narrowest_unique x64 ps d e : narrowest x64 ps d -> narrowest x64 ps e -> d = e.
Proof.
  intros (F1 & U1 & L1 & N1) (F2 & U2 & L2 & N2).
  destruct (asked x64 ps) as [|x l] eqn:E.
  - assert (Hn : forall p, In p ps -> asks x64 p = None).
    { intros p Hp. destruct (asks x64 p) eqn:Ep; [|reflexivity].
      assert (In j (asked x64 ps)) by (apply asked_In; eauto). rewrite E in H. destruct H. }
    now rewrite N1, N2.
  - assert (Hex : exists p x, In p ps /\ asks x64 p = Some x).
    { assert (Hin : In x (asked x64 ps)) by (rewrite E; now left). apply asked_In in Hin as (p & ? & ?). eauto. }
    apply wider_antisym; [apply L1 | apply L2]; auto.
Qed.

(** ** C89: samples *)
Definition numerics x64 := float_avals x64 ++ int_avals x64.
Lemma all_ok (P : bool -> family -> aval -> aval -> bool) :
  forallb (fun x64 => forallb (fun f => forallb (fun p => forallb (fun q => P x64 f p q)
    (numerics x64)) (numerics x64)) families) [true; false] = true ->
  forall x64 f p q, valid x64 p -> valid x64 q -> numeric (ty p) -> numeric (ty q) -> P x64 f p q = true.
Proof.
  intros H x64 f p q Vp Vq Np Nq. rewrite forallb_forall in H.
  specialize (H x64 ltac:(destruct x64; cbn; tauto)). rewrite forallb_forall in H.
  specialize (H f ltac:(destruct f; cbn; tauto)). rewrite forallb_forall in H.
  specialize (H p (valid_numeric _ _ Vp Np)). rewrite forallb_forall in H.
  exact (H q (valid_numeric _ _ Vq Nq)).
Qed.

Definition sample_check x64 f p q : bool :=
  match construct x64 p q with
  | Ok (a, b) =>
      let d := result_type x64 a b in
      narrowest_b x64 [p; q] d &&
      match sample x64 f a b, f, d with
      | Err KeyError, VonMises, BF16 => true
      | Ok s, VonMises, BF16 => false
      | Ok s, _, _ => jdtype_eqb (ty s) d && negb (weak s)
      | _, _, _ => false
      end
  | Err _ => false
  end.
(** Every numeric parameter is accepted; the samples have the narrowest floating dtype that holds what
    the parameters ask for, and are not weakly typed, so they keep that dtype in later computations.
    VonMises cannot sample in bfloat16. *)
Theorem C89_sample_dtype x64 f p q :
  valid x64 p -> valid x64 q -> numeric (ty p) -> numeric (ty q) ->
  exists d, narrowest x64 [p; q] d /\
    (f = VonMises -> d = BF16 -> sample_of x64 (Scalar f p q) = Err KeyError) /\
    (f <> VonMises \/ d <> BF16 -> sample_of x64 (Scalar f p q) = Ok (strong d)
                                 /\ dtype_of x64 (Scalar f p q) = Ok d).
Proof.
  intros Vp Vq Np Nq.
  assert (H : sample_check x64 f p q = true).
  { apply (all_ok sample_check); [vm_compute; reflexivity | assumption..]. }
  unfold sample_check in H. destruct (construct x64 p q) as [[a b]|] eqn:E; [|discriminate].
  apply andb_true_iff in H as [Hn H]. exists (result_type x64 a b). split; [now apply narrowest_sound|].
  unfold sample_of, dtype_of. cbn [eval]. rewrite E. cbn [rbind fst snd].
  set (d := result_type x64 a b) in *. split.
  - intros -> Hd. rewrite Hd in H. destruct (sample x64 VonMises a b) as [s|[]]; cbn in *; congruence.
  - intros Hne. assert (Hs : exists s, sample x64 f a b = Ok s /\ ty s = d /\ weak s = false).
    { destruct (sample x64 f a b) as [s|e] eqn:Es.
      - exists s. split; [reflexivity|].
        assert (jdtype_eqb (ty s) d && negb (weak s) = true) as Hb
          by (destruct f; destruct d; try exact H; destruct Hne as [Hx|Hx]; now elim Hx).
        apply andb_true_iff in Hb as [H1 H2]. apply jdtype_eqb_eq in H1. split; [auto|]. now destruct (weak s).
      - exfalso. destruct e, f; try discriminate; destruct d; try discriminate; destruct Hne as [Hx|Hx]; now elim Hx. }
    destruct Hs as (s & -> & Ht & Hw). cbn. destruct s as [ts ws]. cbn in *. subst. split; reflexivity.
Qed.
(** Boolean parameters are rejected. *)
Theorem C89_bool_rejected x64 f p q :
  ty p = Bool \/ (ty q = Bool /\ numeric (ty p)) -> sample_of x64 (Scalar f p q) = Err ValueError.
Proof.
  destruct p as [tp wp], q as [tq wq]. cbn [ty]. intros H. unfold sample_of. cbn.
  unfold construct, as_float_array. destruct H as [->|[-> Hn]].
  - reflexivity.
  - cbn. destruct (numeric_cases _ Hn) as [E|E]; cbn; rewrite E; [reflexivity|].
    destruct tp; try discriminate; reflexivity.
Qed.

(** ** C89: log_prob *)
Definition lp_check x64 f p q : bool :=
  match construct x64 p q with
  | Ok (a, b) =>
      forallb (fun v => narrowest_b x64 [v; p; q] (ty (log_prob x64 f v a b))) (float_avals x64) &&
      forallb (fun v => is_floating (ty (log_prob x64 f v a b))) (int_avals x64) &&
      match sample x64 f a b, sample_log_prob x64 f a b with
      | Ok s, Ok l => jdtype_eqb (ty l) (ty s) && jdtype_eqb (ty (log_prob x64 f s a b)) (ty s)
                      && negb (weak (log_prob x64 f s a b))
      | Err e1, Err e2 => true
      | _, _ => false
      end
  | Err _ => false
  end.
Lemma lp_checked x64 f p q : valid x64 p -> valid x64 q -> numeric (ty p) -> numeric (ty q) -> lp_check x64 f p q = true.
Proof. apply (all_ok lp_check). vm_compute. reflexivity. Qed.

(** [log_prob] of a floating value (or Python float): the narrowest dtype that holds the value and both
    parameters.  Of an integer value: some floating dtype. *)
Theorem C89_log_prob_dtype x64 f p q v :
  valid x64 p -> valid x64 q -> valid x64 v -> numeric (ty p) -> numeric (ty q) -> numeric (ty v) ->
  exists a b, construct x64 p q = Ok (a, b) /\
    floating (ty (log_prob x64 f v a b)) /\
    (floating (ty v) -> narrowest x64 [v; p; q] (ty (log_prob x64 f v a b))).
Proof.
  intros Vp Vq Vv Np Nq Nv. pose proof (lp_checked x64 f p q Vp Vq Np Nq) as H. unfold lp_check in H.
  destruct (construct x64 p q) as [[a b]|]; [|discriminate]. exists a, b. split; [reflexivity|].
  apply andb_true_iff in H as [H _]. apply andb_true_iff in H as [Hf Hi].
  rewrite forallb_forall in Hf, Hi.
  assert (Hfl : is_floating (ty v) = true -> narrowest x64 [v; p; q] (ty (log_prob x64 f v a b))).
  { intros E. apply narrowest_sound, Hf, valid_float; auto. }
  split; [|intros E; apply Hfl; now apply floating_iff].
  destruct (numeric_cases _ Nv) as [E|E].
  - apply Hfl in E. apply E.
  - apply floating_iff, Hi, valid_int; auto.
Qed.

(** [sample_and_log_prob] and [log_prob(sample)] have the dtype of the samples. *)
Theorem C89_sample_and_log_prob_dtype x64 f p q a b s :
  valid x64 p -> valid x64 q -> numeric (ty p) -> numeric (ty q) ->
  construct x64 p q = Ok (a, b) -> sample x64 f a b = Ok s ->
  log_prob x64 f s a b = s /\ exists l, sample_log_prob x64 f a b = Ok l /\ ty l = ty s.
Proof.
  intros Vp Vq Np Nq Ec Es. pose proof (lp_checked x64 f p q Vp Vq Np Nq) as H. unfold lp_check in H.
  rewrite Ec, Es in H. apply andb_true_iff in H as [_ H].
  destruct (sample_log_prob x64 f a b) as [l|]; [|discriminate].
  rewrite !andb_true_iff in H. destruct H as [[H1 H2] H3]. apply jdtype_eqb_eq in H1, H2.
  destruct (C89_sample_dtype x64 f p q Vp Vq Np Nq) as (d & _ & K1 & K2).
  assert (Hs : s = strong d).
  { unfold sample_of in K1, K2. cbn [eval] in K1, K2. rewrite Ec in K1, K2. cbn [rbind fst snd] in K1, K2.
    rewrite Es in K1, K2. cbn in K1, K2.
    destruct (jdtype_eqb d BF16) eqn:Eb.
    - apply jdtype_eqb_eq in Eb. destruct f; try (destruct K2 as [K2 _]; [left; discriminate | congruence]).
      specialize (K1 eq_refl Eb). discriminate.
    - destruct K2 as [K2 _]; [right; intros ->; discriminate | congruence]. }
  split; [|eauto]. subst s. destruct (log_prob x64 f (strong d) a b) as [t w]. cbn in *. subst t.
  destruct w; [discriminate | reflexivity].
Qed.

(** ** C89: statistics *)
Definition stat_check x64 f p q : bool :=
  match construct x64 p q with
  | Ok (a, b) =>
      let d := result_type x64 a b in
      match asks x64 p, asks x64 q with
      | Some x, Some y =>
          negb (jdtype_eqb x y) || forallb (fun s => jdtype_eqb (ty s) d) [mean x64 f a b; variance x64 f a b; entropy x64 f a b]
      | None, None => forallb (fun s => jdtype_eqb (ty s) d) [mean x64 f a b; variance x64 f a b; entropy x64 f a b]
      | _, _ => true
      end && narrowest_b x64 [p; q] d
  | Err _ => false
  end.
(** mean, variance and entropy have the dtype of the samples when the two parameters ask for the same. *)
Theorem C89_statistics_dtype x64 f p q :
  valid x64 p -> valid x64 q -> numeric (ty p) -> numeric (ty q) -> asks x64 p = asks x64 q ->
  exists a b d, construct x64 p q = Ok (a, b) /\ narrowest x64 [p; q] d /\
    ty (mean x64 f a b) = d /\ ty (variance x64 f a b) = d /\ ty (entropy x64 f a b) = d.
Proof.
  intros Vp Vq Np Nq Ha.
  assert (H : stat_check x64 f p q = true) by (apply (all_ok stat_check); [vm_compute; reflexivity | assumption..]).
  unfold stat_check in H. destruct (construct x64 p q) as [[a b]|]; [|discriminate].
  apply andb_true_iff in H as [H Hn]. exists a, b, (result_type x64 a b).
  split; [reflexivity|]. split; [now apply narrowest_sound|].
  rewrite Ha in H.
  assert (K : forallb (fun s => jdtype_eqb (ty s) (result_type x64 a b)) [mean x64 f a b; variance x64 f a b; entropy x64 f a b] = true).
  { destruct (asks x64 q) as [y|]; [|exact H].
    replace (jdtype_eqb y y) with true in H by (symmetry; now apply jdtype_eqb_eq). exact H. }
  cbn [forallb] in K. rewrite !andb_true_iff, !jdtype_eqb_eq in K. tauto.
Qed.
(** With mixed parameters the mean does not have the dtype of the samples: a float16 location and a
    float32 scale give float32 samples around a float16 mean. *)
Theorem C89_mean_dtype_refuted :
  ~ forall x64 p q a b s, valid x64 p -> valid x64 q -> construct x64 p q = Ok (a, b) ->
      sample x64 Normal a b = Ok s -> ty (mean x64 Normal a b) = ty s.
Proof.
  intros H. specialize (H false (strong F16) (strong F32) (strong F16) (strong F32) (strong F32)).
  assert (V : forall d, available false d -> valid false (strong d)) by (intros d Hd; split; [exact Hd | discriminate]).
  specialize (H ltac:(apply V; right; repeat split; discriminate) ltac:(apply V; right; repeat split; discriminate)
                eq_refl eq_refl). discriminate.
Qed.
(** A Python [0] and a Python [0.] are different locations for a float16 scale. *)
Example C89_integer_literal :
  sample_of false (Scalar Normal (py_int false) (strong F16)) = Ok (strong F32) /\
  sample_of false (Scalar Normal (py_float false) (strong F16)) = Ok (strong F16).
Proof. split; vm_compute; reflexivity. Qed.
Example C89_bfloat16_von_mises :
  sample_of false (Scalar VonMises (py_float false) (strong BF16)) = Err KeyError /\
  sample_of false (Scalar Normal (py_float false) (strong BF16)) = Ok (strong BF16).
Proof. split; vm_compute; reflexivity. Qed.

(** ** C89: discrete families *)
Theorem C89_discrete_dtype x64 f r :
  (integral r \/ floating r \/ (f = Bernoulli /\ r = Bool) ->
     exists t, construct_discrete f r = Ok t /\ sample_discrete x64 f t = strong (canon x64 r) /\
       (f <> Multinomial -> mode_discrete x64 f t = Some (strong (canon x64 r)))) /\
  (f <> Bernoulli -> r = Bool -> construct_discrete f r = Err ValueError).
Proof.
  split.
  - intros H. exists r.
    assert (E : construct_discrete f r = Ok r).
    { destruct H as [H|[H|[-> ->]]]; [| |reflexivity]; cbn in H;
        repeat (destruct H as [<-|H]; [destruct f; reflexivity|]); destruct H. }
    split; [exact E|]. split; [|intros Hm; destruct f; auto; now elim Hm].
    destruct f; try reflexivity. unfold sample_discrete, astype, strong, promote. cbn.
    destruct x64, r; reflexivity.
  - intros Hf ->. destruct f; auto. now elim Hf.
Qed.

(** ** C89: Deterministic *)
(** Samples have the type of [loc]; [prob] and [log_prob] are default floats. *)
Theorem C89_deterministic_dtype x64 loc :
  sample_of x64 (Deterministic loc) = Ok loc /\ dtype_of x64 (Deterministic loc) = Ok (ty loc) /\
  ty (det_prob x64) = default_float x64 /\ ty (det_log_prob x64) = default_float x64.
Proof. destruct x64; repeat split. Qed.
(** But the log probability that [sample_and_log_prob] returns has the dtype of the samples: an integer
    array for an integer [loc]. *)
Theorem C89_deterministic_log_prob_refuted :
  ~ forall x64 loc, valid x64 loc -> floating (ty (det_sample_log_prob loc)).
Proof.
  intros H. specialize (H false (strong I32)).
  assert (V : valid false (strong I32)) by (split; [right; repeat split; discriminate | discriminate]).
  apply H in V. cbn in V. repeat (destruct V as [V|V]; [discriminate|]). destruct V.
Qed.

(** ** C90: the reported dtype of nested distributions *)
Fixpoint numeric_bij (x64 : bool) (b : dbij) : Prop :=
  match b with
  | ScalarAffine s c => valid x64 s /\ valid x64 c
  | Shift s => valid x64 s
  | Tanh => True
  | Matrix a => valid x64 a
  | Block b => numeric_bij x64 b
  | Chain bs => (fix go l := match l with [] => True | b :: l' => numeric_bij x64 b /\ go l' end) bs
  end.
(** Every array drawn at a leaf is a strongly typed float; the other parameters are any arrays or Python
    numbers. *)
Fixpoint float_leaves (x64 : bool) (d : ddist) : Prop :=
  match d with
  | Scalar _ p q => valid x64 p /\ valid x64 q /\ numeric (ty p) /\ numeric (ty q)
  | Discrete _ r => floating r
  | Deterministic loc => valid x64 loc /\ floating (ty loc) /\ weak loc = false
  | Independent d | MixtureSameFamily d => float_leaves x64 d
  | MixtureOfTwo a b => float_leaves x64 a /\ float_leaves x64 b
  | Clipped d mn mx => float_leaves x64 d /\ valid x64 mn /\ valid x64 mx
  | Transformed d b => float_leaves x64 d /\ numeric_bij x64 b
  | MvnFromBijector scale loc => valid x64 scale /\ valid x64 loc /\ floating (ty scale) /\ floating (ty loc)
  end.

Definition all_avals x64 := strong Bool :: numerics x64.
Lemma valid_all x64 a : valid x64 a -> In a (all_avals x64).
Proof.
  intros Hv. destruct (jdtype_eqb (ty a) Bool) eqn:E.
  - apply jdtype_eqb_eq in E. left. destruct a as [t w]. cbn in E. subst t. destruct w; [|reflexivity].
    destruct Hv as [_ W]. destruct (W eq_refl) as [W'|W']; destruct x64; discriminate.
  - right. apply valid_numeric; auto. intros H. rewrite H in E. discriminate.
Qed.
Definition strong_floats (x64 : bool) : list aval := map strong ([BF16; F16; F32] ++ if x64 then [F64] else []).
Definition sf (x64 : bool) (a : aval) : Prop := In a (strong_floats x64).
Definition sfb (x64 : bool) (a : aval) : bool :=
  existsb (fun s => jdtype_eqb (ty a) (ty s) && Bool.eqb (weak a) (weak s)) (strong_floats x64).
Lemma sfb_sound x64 a : sfb x64 a = true -> sf x64 a.
Proof.
  unfold sfb, sf. rewrite existsb_exists. intros (s & Hs & H). apply andb_true_iff in H as [H1 H2].
  apply jdtype_eqb_eq in H1. apply Bool.eqb_prop in H2. destruct a, s; cbn in *; subst. exact Hs.
Qed.
Lemma sf_strong x64 a : sf x64 a -> a = strong (ty a) /\ floating (ty a).
Proof. unfold sf. destruct x64; cbn; intros H; repeat (destruct H as [<-|H]; [cbn; tauto|]); destruct H. Qed.

Lemma sf_promote x64 a b : valid x64 a -> sf x64 b -> sf x64 (promote x64 a b) /\ sf x64 (promote x64 b a).
Proof.
  intros Ha Hb.
  assert (H : forallb (fun x64 => forallb (fun a => forallb (fun b =>
       sfb x64 (promote x64 a b) && sfb x64 (promote x64 b a)) (strong_floats x64)) (all_avals x64)) [true; false] = true)
    by (vm_compute; reflexivity).
  rewrite forallb_forall in H. specialize (H x64 ltac:(destruct x64; cbn; tauto)).
  rewrite forallb_forall in H. specialize (H a (valid_all _ _ Ha)). rewrite forallb_forall in H.
  specialize (H b Hb). apply andb_true_iff in H as [H1 H2]. split; now apply sfb_sound.
Qed.
Lemma sf_r x64 a b : valid x64 a -> sf x64 b -> sf x64 (promote x64 a b).
Proof. intros Ha Hb. exact (proj1 (sf_promote x64 a b Ha Hb)). Qed.
Lemma sf_l x64 a b : valid x64 a -> sf x64 b -> sf x64 (promote x64 b a).
Proof. intros Ha Hb. exact (proj2 (sf_promote x64 a b Ha Hb)). Qed.
Lemma sf_valid x64 a : sf x64 a -> valid x64 a.
Proof.
  unfold sf, valid, available. destruct x64; cbn; intros H;
    repeat (destruct H as [<-|H]; [cbn; split; [(left; reflexivity) || (right; repeat split; discriminate) | discriminate]|]); destruct H.
Qed.
Lemma sf_inexact x64 a : sf x64 a -> sf x64 (inexact x64 a).
Proof. unfold sf. destruct x64; cbn; intros H; repeat (destruct H as [<-|H]; [cbn; tauto|]); destruct H. Qed.

Fixpoint dbij_ind' (P : dbij -> Prop)
  (h1 : forall s c, P (ScalarAffine s c)) (h2 : forall s, P (Shift s)) (h3 : P Tanh) (h4 : forall a, P (Matrix a))
  (h5 : forall b, P b -> P (Block b)) (h6 : forall bs, Forall P bs -> P (Chain bs)) (b : dbij) : P b :=
  match b with
  | ScalarAffine s c => h1 s c | Shift s => h2 s | Tanh => h3 | Matrix a => h4 a
  | Block b => h5 b (dbij_ind' P h1 h2 h3 h4 h5 h6 b)
  | Chain bs => h6 bs ((fix go l : Forall P l := match l with [] => Forall_nil P
                          | b :: l' => Forall_cons b (dbij_ind' P h1 h2 h3 h4 h5 h6 b) (go l') end) bs)
  end.
Lemma sf_forward x64 b x : numeric_bij x64 b -> sf x64 x -> sf x64 (forward x64 b x).
Proof.
  revert x. induction b using dbij_ind'; intros x Hn Hx; cbn [forward numeric_bij] in *.
  - destruct Hn as [H1 H2]. apply sf_l; auto. apply sf_r; auto.
  - apply sf_l; auto.
  - now apply sf_inexact.
  - apply sf_r; auto.
  - auto.
  - induction H as [|b bs Hb Hbs IH]; [exact Hx|]. destruct Hn as [Hn1 Hn2]. apply Hb; auto.
Qed.

Lemma scalar_sf x64 f p q s : valid x64 p -> valid x64 q -> numeric (ty p) -> numeric (ty q) ->
  sample_of x64 (Scalar f p q) = Ok s -> sf x64 s.
Proof.
  intros Vp Vq Np Nq.
  assert (H : match sample_of x64 (Scalar f p q) with Ok s => sfb x64 s | Err _ => true end = true).
  { apply (all_ok (fun x64 f p q => match sample_of x64 (Scalar f p q) with Ok s => sfb x64 s | Err _ => true end));
      [vm_compute; reflexivity | assumption..]. }
  intros E. rewrite E in H. now apply sfb_sound.
Qed.
Lemma canon_sf x64 r : floating r -> sf x64 (strong (canon x64 r)).
Proof. intros H. apply floating_iff in H. unfold sf. destruct x64, r; try discriminate; cbn; tauto. Qed.

Lemma eval_sf x64 d : float_leaves x64 d -> forall s t, eval x64 d = Ok (s, t) -> sf x64 s /\ t = ty s.
Proof.
  induction d as [f p q|f r|loc|d IH|d IH|a IHa b IHb|d IH mn mx|d IH b|scale loc]; cbn [float_leaves]; intros HL s t HE.
  - destruct HL as (Vp & Vq & Np & Nq).
    assert (Es : sample_of x64 (Scalar f p q) = Ok s) by (unfold sample_of; rewrite HE; reflexivity).
    split; [exact (scalar_sf x64 f p q s Vp Vq Np Nq Es)|]. cbn in HE. destruct (construct x64 p q) as [[a b]|]; [|discriminate].
    cbn in HE. destruct (sample x64 f a b); [|discriminate]. cbn in HE. unfold default_dtype in HE. congruence.
  - cbn in HE. destruct (C89_discrete_dtype x64 f r) as [(t0 & E1 & E2 & _) _]; [auto|].
    rewrite E1 in HE. cbn in HE. rewrite E2 in HE. unfold default_dtype in HE. injection HE as <- <-.
    split; [now apply canon_sf | reflexivity].
  - cbn in HE. unfold default_dtype in HE. injection HE as <- <-. destruct HL as (V & F & W). split; [|reflexivity].
    destruct loc as [tl wl]. cbn [weak ty] in *. subst wl. apply floating_iff in F. destruct V as [V _]. cbn [ty] in V.
    unfold sf, strong_floats. unfold available in V. apply (in_map strong _ tl). destruct V as [->|(?&?&?)]; destruct tl; try discriminate; cbn; try tauto;
      try (destruct x64; cbn; tauto); congruence.
  - cbn in HE. destruct (eval x64 d) as [[s0 t0]|]; [|discriminate]. cbn in HE. unfold default_dtype in HE. injection HE as <- <-.
    destruct (IH HL _ _ eq_refl). auto.
  - cbn [eval] in HE. destruct (eval x64 d) as [[s0 t0]|]; [|discriminate]. cbn [rbind fst] in HE.
    unfold default_dtype in HE. injection HE as <- <-. destruct (IH HL _ _ eq_refl) as [H _]. split; [|reflexivity].
    apply sf_r; [now apply sf_valid | apply canon_sf; cbn; tauto].
  - destruct HL as [La Lb]. cbn [eval] in HE. destruct (eval x64 a) as [[sa ta]|]; [|discriminate].
    destruct (eval x64 b) as [[sb tb]|]; [|discriminate]. cbn [rbind fst snd] in HE.
    destruct (jdtype_eqb ta tb); [|discriminate]. unfold default_dtype in HE. injection HE as <- <-.
    destruct (IHa La _ _ eq_refl) as [Ha _]. destruct (IHb Lb _ _ eq_refl) as [Hb _]. split; [|reflexivity].
    apply sf_r; [now apply sf_valid | exact Hb].
  - destruct HL as (L & V1 & V2). cbn [eval] in HE. destruct (eval x64 d) as [[s0 t0]|]; [|discriminate].
    cbn [rbind fst] in HE. unfold default_dtype in HE. injection HE as <- <-. destruct (IH L _ _ eq_refl) as [H _].
    split; [|reflexivity]. apply sf_r; [exact V2|]. now apply sf_r.
  - destruct HL as (L & Nb). cbn [eval] in HE. destruct (eval x64 d) as [[s0 t0]|]; [|discriminate].
    cbn [rbind fst snd] in HE. injection HE as <- <-. destruct (IH L _ _ eq_refl) as [H ->].
    destruct (sf_strong _ _ H) as [E _]. rewrite <- E. split; [now apply sf_forward | reflexivity].
  - destruct HL as (V1 & V2 & F1 & F2).
    assert (H : forallb (fun x64 => forallb (fun p => forallb (fun q =>
        match eval x64 (MvnFromBijector p q) with Ok (s, t) => sfb x64 s && jdtype_eqb t (ty s) | Err _ => false end)
        (float_avals x64)) (float_avals x64)) [true; false] = true) by (vm_compute; reflexivity).
    rewrite forallb_forall in H. specialize (H x64 ltac:(destruct x64; cbn; tauto)).
    rewrite forallb_forall in H. specialize (H scale (valid_float _ _ V1 (proj1 (floating_iff _) F1))).
    rewrite forallb_forall in H. specialize (H loc (valid_float _ _ V2 (proj1 (floating_iff _) F2))).
    rewrite HE in H. apply andb_true_iff in H as [H1 H2]. apply jdtype_eqb_eq in H2. split; [now apply sfb_sound | exact H2].
Qed.

(** For every nesting of Independent, mixtures, Clipped, Transformed (with any chain of affine, shift,
    tanh and linear bijectors) and multivariate normals: the [dtype] property is the dtype of the samples,
    it is a floating dtype, and the samples are not weakly typed. *)
Theorem C90_reported_dtype_is_sample_dtype x64 d s t :
  float_leaves x64 d -> sample_of x64 d = Ok s -> dtype_of x64 d = Ok t -> s = strong t /\ floating t.
Proof.
  intros HL. unfold sample_of, dtype_of. destruct (eval x64 d) as [[s0 t0]|] eqn:E; cbn; [|discriminate].
  intros [= <-] [= <-]. destruct (eval_sf x64 d HL _ _ E) as [H ->]. destruct (sf_strong _ _ H) as [H1 H2]. auto.
Qed.
(** A mixture of the same family always samples the default float dtype, whatever the components. *)
Theorem C90_mixture_same_family_dtype x64 d s t :
  float_leaves x64 d -> sample_of x64 d = Ok s -> sample_of x64 (MixtureSameFamily d) = Ok t ->
  t = strong (default_float x64).
Proof.
  intros HL. unfold sample_of. cbn [eval]. destruct (eval x64 d) as [[s0 t0]|] eqn:E; cbn -[promote]; [|discriminate].
  intros [= <-] [= <-]. destruct (eval_sf x64 d HL _ _ E) as [H _]. unfold sf in H.
  destruct x64; cbn in H; repeat (destruct H as [<-|H]; [vm_compute; reflexivity|]); destruct H.
Qed.
Example C90_nested :
  let base := Scalar Normal (py_float false) (strong F16) in
  let flow := Transformed (Independent base) (Chain [Block (Shift (py_float false)); Matrix (strong F16); Block Tanh]) in
  let d := Transformed (MixtureOfTwo flow (Transformed (Independent base) (Block (ScalarAffine (py_int false) (strong F16)))))
             (ScalarAffine (strong I32) (strong BF16)) in
  float_leaves false d /\ sample_of false d = Ok (strong F32) /\ dtype_of false d = Ok F32
  /\ sample_of false flow = Ok (strong F16).
Proof.
  cbn zeta. split; [|repeat split; vm_compute; reflexivity].
  cbn. unfold valid, available, numeric, default_int, default_float. cbn.
  repeat split; try discriminate; try (right; repeat split; discriminate); auto.
Qed.

(** A mixture of float16 components does not have the dtype of its components. *)
Theorem C90_mixture_keeps_dtype_refuted :
  ~ forall x64 d t, dtype_of x64 d = Ok t -> dtype_of x64 (MixtureSameFamily d) = Ok t.
Proof.
  intros H. specialize (H false (Scalar Normal (strong F16) (strong F16)) F16 eq_refl). vm_compute in H. discriminate.
Qed.
(** A Deterministic built from a Python float is weakly typed: below a bijector with float16 parameters the
    samples are float16 but the property says float32. *)
Theorem C90_deterministic_refuted :
  ~ forall x64 d s t, sample_of x64 d = Ok s -> dtype_of x64 d = Ok t -> ty s = t.
Proof.
  intros H. specialize (H false (Transformed (Deterministic (py_float false)) (Shift (strong F16))) (strong F16) F32 eq_refl eq_refl).
  discriminate.
Qed.
(** A multivariate normal built from integer arrays reports an integer dtype for its float samples. *)
Theorem C90_mvn_integer_refuted :
  ~ forall x64 scale loc s t, valid x64 scale -> valid x64 loc -> sample_of x64 (MvnFromBijector scale loc) = Ok s ->
      dtype_of x64 (MvnFromBijector scale loc) = Ok t -> ty s = t.
Proof.
  intros H. specialize (H false (strong I32) (strong I32) (strong F32) I32).
  assert (V : valid false (strong I32)) by (split; [right; repeat split; discriminate | discriminate]).
  specialize (H V V eq_refl eq_refl). discriminate.
Qed.

Print Assumptions C89_sample_dtype.
Print Assumptions C89_log_prob_dtype.
Print Assumptions C90_reported_dtype_is_sample_dtype.
