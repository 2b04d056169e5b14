(** C73: wrapping a distribution for TFP. *)
From Coq Require Import List Reals Lra Lia ZArith Bool Arith FunctionalExtensionality.
From Verif Require Import Base.Result Base.Sums Base.Tensor Base.Tree Base.XR Model.Distribution Model.Jittable Model.TfpCompatible
  Spec.Distribution Proofs.Distribution.
Import ListNotations.

Lemma reshape_same {A} n (t : tensor A) rest : wf t -> shp t = n :: rest -> reshape_leading [n] t = Ok t.
Proof.
  intros W E. unfold reshape_leading, treshape. rewrite E. cbn [tl app]. rewrite Nat.eqb_refl.
  f_equal. destruct t as [s d]. cbn in *. subst s. reflexivity.
Qed.
Lemma tree_mapM_id {A} (f : A -> result A) (t : tree A) : Forall (fun x => f x = Ok x) (leaves t) -> tree_mapM f t = Ok t.
Proof.
  induction t as [x|l IH] using tree_ind'; intros H.
  - cbn in *. inversion H; subst. cbn. rewrite H2. reflexivity.
  - rewrite tree_mapM_node. rewrite leaves_node in H.
    assert (E : rmapM (tree_mapM f) l = Ok l).
    { induction IH as [|t l Ht _ IHl]; [reflexivity|]. cbn [flat_map] in H. apply Forall_app in H. destruct H as [H1 H2].
      cbn [rmapM]. rewrite (Ht H1), (IHl H2). reflexivity. }
    rewrite E. reflexivity.
Qed.

(** Premise on the wrapped distribution: [n] draws are arrays whose leading axis has length [n] (the contract of [_sample_n];
    it follows from [draws_of_shape], C28). *)
Definition good_draws {K A} (sample_n : K -> nat -> result (tree (tensor A))) : Prop :=
  forall key n t, sample_n key n = Ok t -> Forall (fun x => wf x /\ exists rest, shp x = n :: rest) (leaves t).

Section C73.
Context {K A At N : Type}.
Variable prng : Z -> K.
Variable default_name : N -> N.
Variable empty_name : N -> bool.
Variables (attrs : At) (batch event : shape) (name : N) (sample_n : K -> nat -> result (tree (tensor A)))
  (log_prob : tree (tensor A) -> result (tensor XR)).
Let base : self_view K A At N := base_self prng attrs batch event name sample_n log_prob.
Let wrap (n : option N) (b : self_view K A At N) := tfp_compatible default_name empty_name n b.

(** The wrapper draws what the wrapped distribution draws: the same events from the same key, for every count. *)
Theorem C73_sample_n nm key n : good_draws sample_n -> sv_sample_n (wrap nm base) key n = sample_n key n.
Proof.
  intros G. cbn [wrap tfp_compatible sv_sample_n sv_sample base base_self base_sample_shape rbind].
  unfold sample. cbn [convert_seed_and_sample_shape fold_left]. rewrite Nat.mul_1_l.
  destruct (sample_n key n) as [t|e] eqn:E; [|reflexivity]. cbn [rbind].
  apply tree_mapM_id. generalize (G key n t E). apply Forall_impl. intros x [W [rest S']]. exact (reshape_same _ _ _ W S').
Qed.
(** [sample] with any integer, tuple or list, and any seed, is the wrapped distribution's; a one-dimensional array of sizes is
    read as the list of its elements. *)
Theorem C73_sample nm seed : 
  (forall n, sv_sample (wrap nm base) seed (SizeScalar n) = sample prng sample_n seed (ShapeInt n)) /\
  (forall s, sv_sample (wrap nm base) seed (SizeSeq s) = sample prng sample_n seed (ShapeSeq s)) /\
  (forall s, sv_sample (wrap nm base) seed (SizeArray1 s) = sample prng sample_n seed (ShapeSeq s)).
Proof. repeat split. Qed.
(** The exception: a size given as a zero-dimensional array, which the wrapped distribution accepts, is a TypeError. *)
Theorem C73_array_size_refuted nm seed n :
  sv_sample base seed (SizeArray0 n) = sample prng sample_n seed (ShapeInt n) /\
  sv_sample (wrap nm base) seed (SizeArray0 n) = Err TypeError.
Proof. split; reflexivity. Qed.
(** Shapes, log density and local measure are the wrapped distribution's. *)
Theorem C73_shapes nm : dims (sv_batch (wrap nm base)) = batch /\ dims (sv_event (wrap nm base)) = event.
Proof. split; reflexivity. Qed.
Theorem C73_log_prob nm value : sv_log_prob (wrap nm base) value = log_prob value /\ local_measure (wrap nm base) value = log_prob value.
Proof. split; reflexivity. Qed.
(** The name is the requested one unless none (or the empty one) was given. *)
Theorem C73_name nm : 
  (forall x, nm = Some x -> empty_name x = false -> sv_name (wrap nm base) = x) /\
  (nm = None \/ (exists x, nm = Some x /\ empty_name x = true) -> sv_name (wrap nm base) = default_name name).
Proof.
  unfold wrap, tfp_compatible, compatible_name. cbn [sv_name]. split.
  - intros x -> ->. reflexivity.
  - intros [-> | (x & -> & ->)]; reflexivity.
Qed.

(** Every method the wrapper inherits from the class of the wrapped distribution, whatever code it is, computes on the wrapper what it
    computes on the wrapped distribution, provided the code depends on the shapes only through their dimensions and
    not on the name (and does not call [sample] back). *)
Theorem C73_inherited {X} nm (code : self_view K A At N -> X) :
  good_draws sample_n ->
  (forall s1 s2, sv_attrs s1 = sv_attrs s2 -> dims (sv_batch s1) = dims (sv_batch s2) -> dims (sv_event s1) = dims (sv_event s2) ->
     (forall key n, sv_sample_n s1 key n = sv_sample_n s2 key n) -> (forall v, sv_log_prob s1 v = sv_log_prob s2 v) -> code s1 = code s2) ->
  code (wrap nm base) = code base.
Proof.
  intros G H. apply H; try reflexivity. intros key n. rewrite C73_sample_n by exact G. reflexivity.
Qed.
(** In particular [sample_and_log_prob] of a class that uses the default of the base class. *)
Theorem C73_sample_and_log_prob nm seed ss : good_draws sample_n ->
  inherited_sample_and_log_prob prng inherited_sample_n_and_log_prob (wrap nm base) seed ss =
  inherited_sample_and_log_prob prng inherited_sample_n_and_log_prob base seed ss.
Proof.
  intros G. apply (C73_inherited nm (fun s => inherited_sample_and_log_prob prng inherited_sample_n_and_log_prob s seed ss) G).
  intros s1 s2 _ _ _ H1 H2. unfold inherited_sample_and_log_prob, inherited_sample_n_and_log_prob.
  replace (sv_sample_n s1) with (sv_sample_n s2) by (extensionality k; extensionality n; symmetry; apply H1).
  replace (sv_log_prob s1) with (sv_log_prob s2) by (extensionality v; symmetry; apply H2). reflexivity.
Qed.
(** Wrapping a wrapper gives the draws, densities and shapes of the original. *)
Theorem C73_twice nm nm' seed ss key n value : good_draws sample_n ->
  sv_sample (wrap nm' (wrap nm base)) seed ss = sv_sample (wrap nm base) seed ss /\
  sv_sample_n (wrap nm' (wrap nm base)) key n = sample_n key n /\
  sv_log_prob (wrap nm' (wrap nm base)) value = log_prob value /\
  sv_batch (wrap nm' (wrap nm base)) = sv_batch (wrap nm base) /\ sv_event (wrap nm' (wrap nm base)) = sv_event (wrap nm base).
Proof.
  intros G. split; [destruct ss; reflexivity|]. split; [exact (C73_sample_n nm key n G)|]. repeat split.
Qed.

(** ** The survival functions of the base class *)
(** They test the event shape for emptiness with [not]: the wrapper computes the wrapped distribution's survival functions
    of univariate distributions exactly if an empty TensorShape is falsy. *)
Theorem C73_survival nm truth (cdf : self_view K A At N -> tree (tensor A) -> result (tensor XR)) value c :
  event = [] -> truth [] = false -> cdf (wrap nm base) value = Ok c -> cdf base value = Ok c ->
  inherited_survival truth cdf (wrap nm base) value = inherited_survival truth cdf base value /\
  inherited_log_survival truth cdf (wrap nm base) value = inherited_log_survival truth cdf base value.
Proof.
  intros E T H1 H2. unfold inherited_survival, inherited_log_survival.
  cbn [wrap tfp_compatible sv_event py_bool base base_self dims]. rewrite E, T.
  fold base. fold (wrap nm base). rewrite H1, H2. split; reflexivity.
Qed.
(** But TensorShape documents itself as true whenever its rank is known, also for [()], and then both raise for every univariate distribution
    whose class relies on the base class, although the wrapped distribution computes them. *)
Theorem C73_survival_refuted nm truth (cdf : self_view K A At N -> tree (tensor A) -> result (tensor XR)) value c :
  event = [] -> truth [] = true -> cdf base value = Ok c ->
  inherited_survival truth cdf base value = Ok (tmap (fun x => xsub (Fin 1) x) c) /\
  inherited_log_survival truth cdf base value = Ok (tmap (fun x => xlog1p (xopp x)) c) /\
  inherited_survival truth cdf (wrap nm base) value = Err NotImplementedError /\
  inherited_log_survival truth cdf (wrap nm base) value = Err NotImplementedError.
Proof.
  intros E T H. unfold inherited_survival, inherited_log_survival.
  cbn [wrap tfp_compatible sv_event py_bool base base_self dims]. rewrite E, T. rewrite H. repeat split.
Qed.
End C73.

(** Indexing the wrapper is wrapping the indexed distribution, under the same requested name. *)
Theorem C73_getitem {K A At N} (default_name : N -> N) (empty_name : N -> bool) nm (index : result (self_view K A At N)) w :
  compatible_getitem default_name empty_name nm index = Ok w <-> exists b, index = Ok b /\ w = tfp_compatible default_name empty_name nm b.
Proof.
  unfold compatible_getitem. destruct index as [b|e]; cbn [rbind]; split.
  - intros [= <-]. exists b. auto.
  - intros (b' & [= <-] & ->). reflexivity.
  - discriminate.
  - intros (b' & [=] & _).
Qed.
(** The wrapper crosses jit as an object without arrays: no leaves, and rebuilt unchanged. *)
Theorem C73_pytree {X Y} cls :
  fst (flatten (wrapper_value cls : value X Y)) = [] /\
  tree_unflatten (snd (flatten (wrapper_value cls : value X Y))) [] = Ok (wrapper_value cls).
Proof. split; reflexivity. Qed.

(** Non-vacuity: a batch of two constant draws. *)
Example C73_nonvacuous :
  let sample_n := fun (k : Z) n => Ok (Leaf (tgen [n; 2]%list (fun i => (k + Z.of_nat (nth 1 i 0%nat))%Z))) in
  good_draws sample_n /\
  sv_sample (tfp_compatible (fun n : nat => n) (fun n => n =? 0) (Some 3)
    (base_self (fun z => z) tt [2] [] 7 sample_n (fun _ => Err NotImplementedError))) (SeedInt 5%Z) (SizeArray1 [2; 1]) =
  Ok (Leaf (mkT [2; 1; 2] [5; 6; 5; 6]%Z)).
Proof.
  split; [|reflexivity]. intros key n t [= <-]. repeat constructor; [apply tgen_wf|]. exists [2]. reflexivity.
Qed.
