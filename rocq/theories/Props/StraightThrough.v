(** C69: straight-through samples. *)
From Coq Require Import Reals List Arith Bool Lia Lra.
From Verif Require Import Base.Result Base.Sums Base.Tensor Base.XR Base.Lift Base.Axes Model.MathUtils Model.ArrayDist Model.Categorical
  Model.StraightThrough Spec.Univariate Spec.Categorical Proofs.ArrayDist Proofs.MathUtils Proofs.Univariate Proofs.Categorical.
Import ListNotations.
Local Open Scope R_scope.

Lemma pad_shape t n : shp (pad t n) = (repeat 1%nat (n - length (shp t)) ++ shp t)%list.
Proof.
  unfold pad. generalize (n - length (shp t))%nat. intros m. revert t. induction m as [|m IH]; intros t; [reflexivity|].
  cbn [pad_loop repeat]. rewrite IH. cbn [expand_first tgen shp]. rewrite (repeat_cons m 1%nat). rewrite <- app_assoc. reflexivity.
Qed.
Lemma pad_get t n z i : length z = (n - length (shp t))%nat -> Forall (fun k => k = O) z -> inb (shp t) i ->
  tget (Fin 0) (pad t n) (z ++ i) = tget (Fin 0) t i.
Proof.
  unfold pad. generalize (n - length (shp t))%nat. intros m. revert t z i. induction m as [|m IH]; intros t z i Hl Hz Hi.
  - destruct z; [reflexivity|discriminate].
  - destruct (exists_last (l := z)) as (z' & k & ->); [intros ->; discriminate|].
    rewrite app_length in Hl. cbn in Hl. apply Forall_app in Hz as [Hz Hk]. inversion Hk as [|? ? Hk0 _]; subst.
    rewrite <- app_assoc. cbn [app pad_loop]. rewrite IH; [|lia|auto|].
    + unfold expand_first. rewrite tget_tgen; [reflexivity|]. constructor; [lia|auto].
    + cbn [expand_first tgen shp]. constructor; [lia|auto].
Qed.
Lemma skipn_prefix {X} (a b : list X) n : length a = n -> skipn n (a ++ b) = b.
Proof. intros <-. rewrite skipn_app, skipn_all, Nat.sub_diag. reflexivity. Qed.
Lemma pad_reads t S B (v : list nat -> XR) : shp t = B -> (forall b, inb B b -> tget (Fin 0) t b = v b) ->
  reads (pad t (length (S ++ B))) (S ++ B) (fun idx => v (skipn (length S) idx)).
Proof.
  intros Hs Hv. assert (Hm : (length (S ++ B) - length (shp t) = length S)%nat) by (rewrite app_length, Hs; lia). split.
  - rewrite pad_shape, Hm, Hs. apply bshape_app; [reflexivity|apply bshape_ones|apply bshape_refl].
  - intros idx Hi. destruct (inb_app_len _ _ _ Hi) as (s & b & -> & Hs1 & Hb). unfold xget. rewrite pad_shape, Hm, Hs.
    pose proof (inb_length _ _ Hs1) as L1. pose proof (inb_length _ _ Hb) as L2.
    rewrite bindex_app by lia. rewrite bindex_ones by lia. rewrite (bindex_refl B b Hb).
    rewrite pad_get; [|rewrite repeat_length; lia|apply Forall_forall; intros x Hx; apply repeat_spec in Hx; auto|rewrite Hs; auto].
    rewrite Hv by auto. f_equal. symmetry. apply skipn_prefix; auto.
Qed.
Lemma recreate_legal logits probs dt d w : parametrises logits probs w -> cat_init logits probs dt = Ok d -> recreate d = d.
Proof.
  intros Hp Hi. destruct (init_represents _ _ _ _ _ Hp Hi) as [[->| ->] Hn]; unfold recreate; cbn [cat_init]; f_equal.
  - rewrite normalize_probs_fin by (rewrite (proj2 Hn); lra). f_equal. unfold normalised at 1. rewrite (proj2 Hn).
    rewrite <- (map_id (normalised w)) at 2. apply map_ext. intros x. field.
  - apply log_softmax_rlog; auto.
Qed.
Lemma one_hot_fin v K k : (k < K)%nat -> exists x, nth k (one_hot v K) NaN = Fin x.
Proof.
  intros H. unfold one_hot. rewrite (nth_indep _ NaN ((fun i => if xeqb v (Fin (INR i)) then Fin 1 else Fin 0) O)) by (rewrite map_length, seq_length; auto).
  rewrite (map_nth (fun i => if xeqb v (Fin (INR i)) then Fin 1 else Fin 0)). destruct (xeqb _ _); eauto.
Qed.
Lemma ohc_sample_fin g d k : (k < num_categories d)%nat -> exists x, nth k (ohc_sample g d) NaN = Fin x.
Proof.
  intros H. unfold ohc_sample. destruct (cat_is_valid d); [apply one_hot_fin; auto|].
  exists (-1). rewrite nth_indep with (d' := Fin (-1)) by (rewrite repeat_length; auto). apply nth_repeat.
Qed.
Lemma removelast_app1 {X} (l : list X) a : removelast (l ++ [a]) = l.
Proof. rewrite removelast_app by discriminate. apply app_nil_r. Qed.

(** One-hot samples keep their value, exactly, whatever the sample shape, the batch shape and the random draws; their
    tangent is the tangent of the probabilities of the corresponding batch element. *)
Theorem C69_one_hot (S B : shape) (K : nat) (logits probs : list nat -> option (list XR)) dt (w : list nat -> list R) d gumbel probs_dot :
  (forall b, inb B b -> parametrises (logits b) (probs b) (w b) /\ length (w b) = K /\ cat_init (logits b) (probs b) dt = Ok (d b)) ->
  exists value tangent, st_sample BOneHotCategorical S B K d gumbel probs_dot = Ok (value, tangent) /\
    value = ohc_sample_n S B K d gumbel /\
    holds tangent (S ++ B ++ [K]) (fun idx => Fin (probs_dot (skipn (length S) idx))).
Proof.
  intros H. unfold st_sample, straight_through. set (obj := fun b => recreate (d b)).
  assert (Ho : forall b, inb B b -> obj b = d b) by (intros b Hb; destruct (H b Hb) as (H1 & _ & H3); exact (recreate_legal _ _ _ _ _ H1 H3)).
  assert (Es : ohc_sample_n S B K obj gumbel = ohc_sample_n S B K d gumbel).
  { unfold ohc_sample_n. apply tgen_ext. intros idx Hi. rewrite app_assoc in Hi. destruct (inb_app_len _ _ _ Hi) as (sb & k & -> & Hsb & Hk).
    inversion Hk as [|k0 ? ? ? Hk0 Hn]; subst. inversion Hn; subst. cbv zeta. rewrite removelast_app1, last_app1.
    destruct (inb_app_len _ _ _ Hsb) as (s & b & -> & Hs & Hb). rewrite skipn_prefix by (apply inb_length in Hs; lia).
    rewrite Ho by auto. reflexivity. }
  rewrite Es. set (smp := ohc_sample_n S B K d gumbel). set (T := (S ++ B ++ [K])%list).
  set (P := fun i => Fin (nth (last i 0%nat) (normalised (w (removelast i))) 0)).
  assert (Hsmp : forall idx, inb T idx -> exists x, tget (Fin 0) smp idx = Fin x).
  { intros idx Hi. unfold smp, ohc_sample_n. rewrite tget_tgen by auto. cbv zeta.
    unfold T in Hi. rewrite app_assoc in Hi. destruct (inb_app_len _ _ _ Hi) as (sb & k & -> & Hsb & Hk).
    inversion Hk as [|k0 ? ? ? Hk0 Hn]; subst. inversion Hn; subst. rewrite removelast_app1, last_app1.
    destruct (inb_app_len _ _ _ Hsb) as (s & b & -> & Hs & Hb). rewrite skipn_prefix by (apply inb_length in Hs; lia).
    apply ohc_sample_fin.
    destruct (H b Hb) as (H1 & H2 & H3). rewrite (rep_num _ _ (init_represents _ _ _ _ _ H1 H3)). unfold normalised. rewrite map_length. lia. }
  assert (Hp : reads (pad (probs_arr B K obj) (length T)) T (fun idx => P (skipn (length S) idx))).
  { apply pad_reads; [reflexivity|]. intros i Hi. unfold probs_arr. rewrite tget_tgen by auto. unfold P.
    destruct (inb_app_len _ _ _ Hi) as (b & k & -> & Hb & Hk). inversion Hk as [|k0 ? ? ? Hk0 Hn]; subst. inversion Hn; subst.
    rewrite removelast_app1, last_app1, Ho by auto. destruct (H b Hb) as (H1 & H2 & H3).
    rewrite (rep_probs _ _ (init_represents _ _ _ _ _ H1 H3)). rewrite (nth_indep _ NaN (Fin 0)) by (unfold normalised; rewrite !map_length; lia).
    apply (map_nth Fin). }
  assert (Hd : reads (pad (tgen (B ++ [K]) (fun idx => Fin (probs_dot idx))) (length T)) T (fun idx => Fin (probs_dot (skipn (length S) idx)))).
  { apply (pad_reads _ S (B ++ [K]) (fun i => Fin (probs_dot i))); [reflexivity|]. intros i Hi. rewrite tget_tgen by auto. reflexivity. }
  change (length (shp smp)) with (length T).
  set (pp := pad (probs_arr B K obj) (length T)) in *. set (pd := pad (tgen (B ++ [K]) (fun idx => Fin (probs_dot idx))) (length T)) in *.
  assert (Es2 : shp pd = shp pp) by (unfold pd, pp; rewrite !pad_shape; reflexivity).
  rewrite (lift2_ok xsub pp pp (shp pp)) by apply bshape_refl. cbn [rbind].
  rewrite (lift2_ok xsub pd (zeros_like pp) (shp pp)) by (rewrite Es2; apply bshape_refl). cbn [rbind].
  set (diff := tgen (shp pp) _). set (ddiff := tgen (shp pp) _).
  assert (Hb : bshape (shp pp) T = Some T) by apply Hp.
  assert (R1 : reads diff T (fun _ => Fin 0)).
  { split; [exact Hb|]. intros idx Hi. unfold diff. rewrite (xget_tgen _ _ T) by auto.
    unfold xget at 1 2. rewrite (bindex_bindex _ (shp pp) (shp pp)) by apply bshape_refl. fold (xget pp idx). rewrite (proj2 Hp) by auto.
    unfold P. cbn. f_equal. ring. }
  assert (R2 : reads ddiff T (fun idx => Fin (probs_dot (skipn (length S) idx)))).
  { split; [exact Hb|]. intros idx Hi. unfold ddiff. rewrite (xget_tgen _ _ T) by auto.
    unfold xget at 1. rewrite (bindex_bindex _ (shp pp) (shp pp)) by (rewrite Es2; apply bshape_refl). fold (xget pd idx). rewrite (proj2 Hd) by auto.
    unfold zeros_like. rewrite (xget_tgen _ _ (shp pp)); [|apply bshape_refl|eapply bindex_inb; eauto]. cbn. f_equal. ring. }
  assert (HS : reads smp T (fun idx => tget (Fin 0) smp idx)).
  { split; [apply bshape_refl|]. intros idx Hi. apply xget_self. exact Hi. }
  destruct (lift2_holds xadd smp diff T _ _ HS R1 (or_introl eq_refl)) as (v & -> & Hv). cbn [rbind].
  assert (HZ : reads (zeros_like smp) T (fun _ => Fin 0)).
  { split; [apply bshape_refl|]. intros idx Hi. rewrite xget_self by exact Hi. unfold zeros_like. rewrite tget_tgen by exact Hi. reflexivity. }
  destruct (lift2_holds xadd (zeros_like smp) ddiff T _ _ HZ R2 (or_introl eq_refl)) as (t & -> & Ht). cbn [rbind].
  exists v, t. split; [reflexivity|]. split.
  - apply (holds_eq v smp T (fun idx => tget (Fin 0) smp idx)).
    + eapply holds_ext; [exact Hv|]. intros idx Hi. cbv beta. destruct (Hsmp idx Hi) as [x ->]. cbn. f_equal. ring.
    + split; [apply tgen_wf|]. split; [reflexivity|auto].
  - eapply holds_ext; [exact Ht|]. intros idx Hi. cbn. f_equal. ring.
Qed.

(** The other classes are rejected. *)
Theorem C69_other_classes S B K d gumbel probs_dot :
  st_sample BGreedy S B K d gumbel probs_dot = Err TypeError /\ st_sample BEpsilonGreedy S B K d gumbel probs_dot = Err TypeError /\
  st_sample BSoftmax S B K d gumbel probs_dot = Err TypeError /\ st_sample BBernoulli S B K d gumbel probs_dot = Err AssertionError.
Proof. repeat split. Qed.
(** A Categorical passes the class check, but its samples have no category axis: a scalar sample comes back as an array with
    one entry per category ... *)
Theorem C69_categorical_refuted (K : nat) logits probs dt (w : list R) d gumbel probs_dot :
  parametrises logits probs w -> length w = K -> cat_init logits probs dt = Ok d ->
  exists value tangent, st_sample BCategorical [] [] K (fun _ => d) gumbel probs_dot = Ok (value, tangent) /\
    shp (cat_sample_n [] [] (fun _ => d) gumbel) = [] /\ shp value = [K] /\ shp tangent = [K] /\
    value <> cat_sample_n [] [] (fun _ => d) gumbel.
Proof.
  intros Hp HK Hi. unfold st_sample, straight_through. set (smp := cat_sample_n _ _ _ _).
  change (length (shp smp)) with 0%nat. unfold pad. cbn [Nat.sub pad_loop].
  set (P := probs_arr _ _ _). set (D := tgen _ _). assert (EP : shp P = [K]) by reflexivity. assert (ED : shp D = [K]) by reflexivity.
  rewrite (lift2_ok xsub P P [K]) by apply bshape_refl. cbn [rbind].
  rewrite (lift2_ok xsub D (zeros_like P) [K]) by apply bshape_refl. cbn [rbind].
  rewrite (lift2_ok xadd smp _ [K]) by apply bshape_nil_l. cbn [rbind].
  rewrite (lift2_ok xadd (zeros_like smp) _ [K]) by apply bshape_nil_l. cbn [rbind].
  do 2 eexists. split; [reflexivity|]. split; [reflexivity|]. split; [reflexivity|]. split; [reflexivity|].
  intros E. apply (f_equal shp) in E. discriminate.
Qed.
(** ... and with a batch whose size is neither 1 nor the number of categories it is an error. *)
Theorem C69_categorical_batch_refuted (n K : nat) d gumbel probs_dot : n <> K -> n <> 1%nat -> K <> 1%nat ->
  st_sample BCategorical [] [n] K d gumbel probs_dot = Err ValueError.
Proof.
  intros H1 H2 H3. unfold st_sample, straight_through. set (smp := cat_sample_n _ _ _ _).
  change (length (shp smp)) with 1%nat. unfold pad. change (1 - length (shp (probs_arr [n] K (fun b => recreate (d b)))))%nat with O.
  change (1 - length (shp (tgen ([n] ++ [K]) (fun idx => Fin (probs_dot idx)))))%nat with O. cbn [pad_loop].
  set (P := probs_arr _ _ _). set (D := tgen _ _).
  rewrite (lift2_ok xsub P P [n; K]) by apply bshape_refl. cbn [rbind].
  rewrite (lift2_ok xsub D (zeros_like P) [n; K]) by apply bshape_refl. cbn [rbind].
  unfold lift2 at 1, lift. cbn [map]. rewrite bshapes_perm2. cbn [tgen shp].
  assert (E : bshape [n] [n; K] = None); [|change (shp smp) with [n]; rewrite E; reflexivity].
  unfold bshape. cbn [rev app bshape_rev]. unfold bdim. apply Nat.eqb_neq in H1, H2, H3. rewrite ?H1, ?H2, ?H3. reflexivity.
Qed.
(** Invalid parameters (an all-zero probability vector): the one-hot sample is -1 everywhere, the straight-through sample NaN. *)
Theorem C69_invalid_refuted gumbel probs_dot :
  let d := fun _ : list nat => CProbs (normalize_probs [Fin 0; Fin 0]) in
  exists value tangent, st_sample BOneHotCategorical [] [] 2 d gumbel probs_dot = Ok (value, tangent) /\
    dat (ohc_sample_n [] [] 2 d gumbel) = [Fin (-1); Fin (-1)] /\ dat value = [NaN; NaN].
Proof.
  cbv zeta. assert (E : normalize_probs [Fin 0; Fin 0] = [NaN; NaN]).
  { unfold normalize_probs. cbn [map xsum fold_right xadd xdiv]. unfold xdiv. assert (0 + (0 + 0) = 0) as -> by ring.
    unfold inf_times. repeat (destruct (Req_EM_T 0 0) as [_|]; [|congruence]). repeat (destruct (Rlt_dec 0 0) as [|_]; [lra|]). reflexivity. }
  rewrite E. assert (ER : recreate (CProbs [NaN; NaN]) = CProbs [NaN; NaN]) by reflexivity.
  unfold st_sample, straight_through. eexists. eexists. split; [reflexivity|]. split; [reflexivity|reflexivity].
Qed.

(** Non-vacuity: a 2 x 3 batch of one-hot distributions over four categories, with 5 samples. *)
Example C69_nonvacuous gumbel probs_dot :
  exists value tangent, st_sample BOneHotCategorical [5%nat] [2%nat; 3%nat] 4 (fun _ => CProbs (normalize_probs (map Fin [1; 0; 2; 1]))) gumbel probs_dot
    = Ok (value, tangent) /\ shp value = [5; 2; 3; 4]%nat.
Proof.
  destruct (C69_one_hot [5%nat] [2%nat; 3%nat] 4 (fun _ => None) (fun _ => Some (map Fin [1; 0; 2; 1])) DInt (fun _ => [1; 0; 2; 1])
     (fun _ => CProbs (normalize_probs (map Fin [1; 0; 2; 1]))) gumbel probs_dot) as (v & t & E & -> & _).
  - intros b _. split; [|auto]. right. split; [auto|]. split; [auto|]. split; [|unfold rsum; cbn; lra].
    intros x Hx. cbn in Hx. lra.
  - exists (ohc_sample_n [5%nat] [2%nat; 3%nat] 4 (fun _ => CProbs (normalize_probs (map Fin [1; 0; 2; 1]))) gumbel), t. auto.
Qed.
