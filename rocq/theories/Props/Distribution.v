(** C28, C29, C70: the distribution base class. *)
From Coq Require Import List Reals ZArith Bool Lia Lra.
From Verif Require Import Base.Result Base.Sums Base.Tensor Base.Tree Base.XR Model.Distribution Spec.Distribution
  Proofs.Distribution.
Import ListNotations.

(** ** C28 *)
(** What the two argument forms mean. *)
Definition key_of {K} (prng : Z -> K) (s : seed_arg K) : K := match s with SeedInt z => prng z | SeedKey k => k end.
Definition shape_of (s : shape_arg) : shape := match s with ShapeInt n => [n] | ShapeSeq l => l end.

(** If [_sample_n(key, n)] yields arrays of shape [(n,) + batch_shape + event_shape], then
    [sample(seed, sample_shape)] yields arrays of shape [sample_shape + batch_shape + event_shape]
    whose element at leading index [idx] is draw number [ravel(idx)] of one call of [_sample_n] for
    [prod(sample_shape)] draws. *)
Theorem C28_sample : forall K A (d : A) (prng : Z -> K) sample_n batch events,
  (forall k n, exists t, sample_n k n = Ok t /\ draws_of_shape n batch events t) ->
  forall seed ss, exists draws t,
    sample_n (key_of prng seed) (prodl (shape_of ss)) = Ok draws /\
    sample prng sample_n seed ss = Ok t /\
    tree_rel (rows_arranged d (shape_of ss)) draws t /\
    Forall2 (fun y e => shp y = shape_of ss ++ batch ++ e) (leaves t) events.
Proof.
  intros K A d prng sn bs es H seed ss. destruct (H (key_of prng seed) (prodl (shape_of ss))) as (t & E & D).
  pose proof (sample_ok d prng sn seed ss t bs es) as HS. unfold convert_seed_and_sample_shape in HS.
  destruct HS as (t' & E' & R & S'); auto. exists t, t'. auto.
Qed.
Print Assumptions C28_sample.

Theorem C28_sample_and_log_prob : forall K A (d : A) (prng : Z -> K) sample_n_and_log_prob batch events,
  (forall k n, exists t lp, sample_n_and_log_prob k n = Ok (t, lp) /\ draws_of_shape n batch events t /\
      wf lp /\ shp lp = n :: batch) ->
  forall seed ss, exists draws lps t lp,
    sample_n_and_log_prob (key_of prng seed) (prodl (shape_of ss)) = Ok (draws, lps) /\
    sample_and_log_prob prng sample_n_and_log_prob seed ss = Ok (t, lp) /\
    tree_rel (rows_arranged d (shape_of ss)) draws t /\
    Forall2 (fun y e => shp y = shape_of ss ++ batch ++ e) (leaves t) events /\
    rows_arranged (Fin 0%R) (shape_of ss) lps lp /\ shp lp = shape_of ss ++ batch.
Proof.
  intros K A d prng sn bs es H seed ss. destruct (H (key_of prng seed) (prodl (shape_of ss))) as (t & lp & E & D & W & S).
  pose proof (salp_ok d prng sn seed ss t lp bs es) as HS. unfold convert_seed_and_sample_shape in HS.
  destruct HS as (t' & l & E' & R & S' & Rl); auto. exists t, lp, t', l. repeat split; auto.
  - apply Rl.
  - apply Rl.
  - apply Rl.
  - destruct Rl as (_ & -> & _). rewrite S. reflexivity.
Qed.
Print Assumptions C28_sample_and_log_prob.

(** The default [batch_shape] property recovers the batch shape from one sample. *)
Theorem C28_batch_shape : forall K A (d : A) (prng : Z -> K) (sample_n : K -> nat -> result (tree (tensor A))) batch events,
  events <> [] ->
  (forall k n, exists t, sample_n k n = Ok t /\ draws_of_shape n batch events t) ->
  forall seed, exists t, sample prng sample_n seed (ShapeSeq []) = Ok t /\
    default_batch_shape (map shp (leaves t)) (Some events) = Ok batch /\
    (events = [[]] -> default_batch_shape (map shp (leaves t)) None = Ok batch).
Proof.
  intros K A d prng sn bs es Hne H seed.
  destruct (C28_sample K A d prng sn bs es H seed (ShapeSeq [])) as (_ & t & _ & E & _ & F). cbn in F.
  exists t. split; [auto|]. split; [apply default_batch_shape_ok; auto|].
  intros ->. inversion F as [|x ? l ? E1 F1]; subst. inversion F1; subst. cbn. rewrite E1, app_nil_r. reflexivity.
Qed.
Print Assumptions C28_batch_shape.

(** Two independent event components, of event shapes () and (2,), with batch shape (3,). *)
Example C28_nonvacuous :
  let sample_n (k : Z) (n : nat) := Ok (Node [Leaf (tgen [n; 3] (fun i => (k, i))); Leaf (tgen [n; 3; 2] (fun i => (k, i)))]) in
  (forall k n, exists t, sample_n k n = Ok t /\ draws_of_shape n [3] [[]; [2]] t) /\
  (exists a b, sample (fun z => z) sample_n (SeedInt 7%Z) (ShapeSeq [2; 2]) = Ok (Node [Leaf a; Leaf b]) /\
     tget (0%Z, []) b [1; 0; 2; 1] = (7%Z, [2; 2; 1])).
Proof.
  cbv zeta. split; [|do 2 eexists; split; reflexivity].
  intros k n. eexists; split; [reflexivity|]. unfold draws_of_shape. cbn [leaves app].
  repeat constructor; apply tgen_wf.
Qed.

(** ** C29 *)
(** A slice of a parameter array addresses the batch axes exactly as [index] addresses an array of
    shape [batch_shape], and keeps the event axes whole. *)
Theorem C29_slicing : forall A (d : A) batch event ix p q,
  batch <> [] -> shp p = batch ++ event -> slice_param d batch ix p = Ok q ->
  exists rs, wf q /\ shp q = rs ++ event /\
    (forall r, inb rs r -> exists b, addresses batch ix rs r b) /\
    (forall r b e, addresses batch ix rs r b -> inb event e ->
       inb batch b /\ tget d q (r ++ e) = tget d p (b ++ e)).
Proof.
  intros A d bs ev ix p q Hne Sp E. destruct (np_index bs ix) as [[rs src]|e] eqn:En.
  - destruct (slice_param_ok d bs ev ix rs src p Hne En Sp) as (q' & E' & W & Sq & Hq).
    rewrite E in E'. injection E' as <-. exists rs. split; [auto|]. split; [auto|]. split.
    + intros r Hr. exists (src r). apply (np_index_spec _ _ _ _ En); auto.
    + intros r b e HA He. destruct (addresses_inb _ _ _ _ _ HA) as [Hb Hr]. split; [auto|]. rewrite Hq by auto.
      destruct (addresses_det _ _ _ _ _ HA _ _ _ (np_index_spec _ _ _ _ En r Hr)) as [_ Heq]. rewrite (Heq eq_refl); auto.
  - rewrite (slice_param_err d bs ix p e Hne En) in E. discriminate.
Qed.
Print Assumptions C29_slicing.

(** The shape of the slice, also when it is empty. *)
Lemma index_shape s ix rs src :
  length (filter is_ellipsis ix) <= 1 ->
  basic_index s (expand_ellipsis (length s - length (filter consumes ix)) ix) = Ok (rs, src) -> indexed_shape s ix rs.
Proof.
  revert s rs src; induction ix as [|e ix IH]; intros s rs src Hel E.
  - cbn in E. injection E as <- <-. constructor; auto.
  - destruct e as [z|a b c| |].
    + cbn [filter is_ellipsis consumes length expand_ellipsis] in *. destruct s as [|d s]; [cbn in E; discriminate|].
      cbn [basic_index length] in E. rewrite Nat.sub_succ in E.
      destruct ((- Z.of_nat d <=? z)%Z && (z <? Z.of_nat d)%Z) eqn:Ez; [|discriminate].
      destruct (basic_index s _) as [[rs' src']|] eqn:E'; [|discriminate]. injection E as <- <-.
      constructor. eapply IH; eauto.
    + cbn [filter is_ellipsis consumes length expand_ellipsis] in *. destruct s as [|d s]; [cbn in E; discriminate|].
      cbn [basic_index length] in E. rewrite Nat.sub_succ in E.
      destruct (slice_spec d a b c) as [[[st step] cnt]|] eqn:Es; [|discriminate]. cbn [rbind] in E.
      destruct (basic_index s _) as [[rs' src']|] eqn:E'; [|discriminate]. injection E as <- <-.
      econstructor; eauto.
    + cbn [filter is_ellipsis consumes length expand_ellipsis] in *.
      assert (filter is_ellipsis ix = []) as Hno by (destruct (filter is_ellipsis ix); [auto|cbn in Hel; lia]).
      rewrite no_ellipsis_expand in E by auto.
      destruct (basic_index_full_inv _ _ _ _ _ E) as (s1 & s2 & rs2 & src2 & -> & L & E2).
      rewrite <- L in E. destruct (basic_index_full s1 s2 ix rs2 src2 E2) as (src' & E3 & Hsrc).
      rewrite E3 in E. injection E as <- <-. pose proof (consumes_le _ _ _ _ E2). rewrite app_length in L.
      constructor; [lia|]. eapply IH; [rewrite Hno; cbn; lia|]. rewrite no_ellipsis_expand by auto. exact E2.
    + cbn [filter is_ellipsis consumes length expand_ellipsis] in *.
      destruct (basic_index s (expand_ellipsis (length s - length (filter consumes ix)) ix)) as [[rs' src']|] eqn:E';
        [|destruct s; cbn [basic_index] in E; rewrite E' in E; discriminate].
      assert (rs = 1 :: rs') as -> by (destruct s; cbn [basic_index] in E; rewrite E' in E; injection E as <- <-; auto).
      constructor. eapply IH; eauto.
Qed.
Lemma np_index_shape s ix rs src : np_index s ix = Ok (rs, src) -> indexed_shape s ix rs.
Proof.
  unfold np_index. destruct (Nat.ltb_spec 1 (length (filter is_ellipsis ix))); [discriminate|].
  apply index_shape; lia.
Qed.
Theorem C29_slice_shape : forall A (d : A) batch event ix p q,
  batch <> [] -> shp p = batch ++ event -> slice_param d batch ix p = Ok q ->
  exists rs, indexed_shape batch ix rs /\ shp q = rs ++ event.
Proof.
  intros A d bs ev ix p q Hne Sp E. destruct (np_index bs ix) as [[rs src]|e] eqn:En.
  - destruct (slice_param_ok d bs ev ix rs src p Hne En Sp) as (q' & E' & W & Sq & Hq).
    rewrite E in E'. injection E' as <-. exists rs. split; [|auto]. exact (np_index_shape _ _ _ _ En).
  - rewrite (slice_param_err d bs ix p e Hne En) in E. discriminate.
Qed.
Print Assumptions C29_slice_shape.
(** A slice start:stop:step reads, in order, exactly the positions Python's rule selects. *)
Theorem C29_slice_positions : forall n a b c first step count,
  slice_spec n a b c = Ok (first, step, count) ->
  step = match c with Some s => s | None => 1%Z end /\ (step <> 0)%Z /\
  forall q, sliced n a b step q <-> exists k, k < count /\ (q = first + Z.of_nat k * step)%Z.
Proof.
  intros n a b c first step count. unfold slice_spec, sliced, from_end. set (st := match c with None => 1%Z | Some s => s end).
  destruct (Z.eqb_spec st 0) as [|Hst]; [discriminate|]. intros [= <- <- <-].
  split; [destruct c; reflexivity|]. split; [exact Hst|]. intros q.
  destruct (Z.ltb_spec 0 st) as [Hp|Hp].
  - set (A := match a with Some z => Z.max 0 (Z.min (Z.of_nat n) (if (z <? 0)%Z then (z + Z.of_nat n)%Z else z)) | None => 0%Z end).
    set (B := match b with Some z => Z.max 0 (Z.min (Z.of_nat n) (if (z <? 0)%Z then (z + Z.of_nat n)%Z else z)) | None => Z.of_nat n end).
    assert (HA : (0 <= q < Z.of_nat n)%Z -> match a with None => 0%Z | Some z => Z.max 0 (if (z <? 0)%Z then (z + Z.of_nat n)%Z else z) end = A \/
       ((q < A)%Z /\ (q < match a with None => 0%Z | Some z => Z.max 0 (if (z <? 0)%Z then (z + Z.of_nat n)%Z else z) end)%Z)).
    { intros. unfold A. destruct a as [z|]; [|left; lia]. destruct (z <? 0)%Z; lia. }
    assert (HB : (0 <= q < Z.of_nat n)%Z -> (forall z, b = Some z -> (q < if (z <? 0)%Z then z + Z.of_nat n else z)%Z) <-> (q < B)%Z).
    { intros. unfold B. destruct b as [z|].
      - split; [intros H1; specialize (H1 z eq_refl)|intros H1 z' [= <-]]; destruct (z <? 0)%Z; lia.
      - split; [lia|discriminate]. }
    assert (RA : (0 <= A <= Z.of_nat n)%Z) by (unfold A; destruct a as [z|]; lia).
    assert (RB : (0 <= B <= Z.of_nat n)%Z) by (unfold B; destruct b as [z|]; lia).
    clearbody A B. split.
    + intros (Hq & H1 & H2 & k & Hk). apply (HB Hq) in H2. destruct (HA Hq) as [E|[E1 E2]]; [|lia]. rewrite E in *.
      assert (K0 : (0 <= k)%Z) by nia. exists (Z.to_nat k). split; [|lia].
      apply Nat2Z.inj_lt. rewrite !Z2Nat.id by lia. apply Z.lt_le_trans with ((B - A + st - 1) / st)%Z; [|lia].
      apply Z.lt_le_trans with (k + 1)%Z; [lia|]. apply Z.div_le_lower_bound; nia.
    + intros (k & Hk & ->). apply Nat2Z.inj_lt in Hk. rewrite Z2Nat.id in Hk by lia.
      assert (Hk' : (Z.of_nat k < (B - A + st - 1) / st)%Z) by lia.
      assert (Hd : (st * ((B - A + st - 1) / st) <= B - A + st - 1)%Z) by (apply Z.mul_div_le; lia).
      assert (Hq : (0 <= A + Z.of_nat k * st < Z.of_nat n)%Z) by nia.
      split; [exact Hq|]. destruct (HA Hq) as [E|[E1 E2]]; [|nia]. rewrite E. split; [nia|]. split; [apply HB; [exact Hq|nia]|].
      exists (Z.of_nat k). lia.
  - assert (Hn : (st < 0)%Z) by lia.
    set (A := match a with Some z => Z.max (-1) (Z.min (Z.of_nat n - 1) (if (z <? 0)%Z then (z + Z.of_nat n)%Z else z)) | None => (Z.of_nat n - 1)%Z end).
    set (B := match b with Some z => Z.max (-1) (Z.min (Z.of_nat n - 1) (if (z <? 0)%Z then (z + Z.of_nat n)%Z else z)) | None => (-1)%Z end).
    assert (HA : (0 <= q < Z.of_nat n)%Z -> match a with None => (Z.of_nat n - 1)%Z | Some z => Z.min (Z.of_nat n - 1) (if (z <? 0)%Z then (z + Z.of_nat n)%Z else z) end = A \/
       ((A < q)%Z /\ (match a with None => (Z.of_nat n - 1)%Z | Some z => Z.min (Z.of_nat n - 1) (if (z <? 0)%Z then (z + Z.of_nat n)%Z else z) end < q)%Z)).
    { intros. unfold A. destruct a as [z|]; [|left; lia]. destruct (z <? 0)%Z; lia. }
    assert (HB : (0 <= q < Z.of_nat n)%Z -> (forall z, b = Some z -> ((if (z <? 0)%Z then z + Z.of_nat n else z) < q)%Z) <-> (B < q)%Z).
    { intros. unfold B. destruct b as [z|].
      - split; [intros H1; specialize (H1 z eq_refl)|intros H1 z' [= <-]]; destruct (z <? 0)%Z; lia.
      - split; [lia|discriminate]. }
    assert (RA : (-1 <= A <= Z.of_nat n - 1)%Z) by (unfold A; destruct a as [z|]; lia).
    assert (RB : (-1 <= B <= Z.of_nat n - 1)%Z) by (unfold B; destruct b as [z|]; lia).
    clearbody A B. split.
    + intros (Hq & H1 & H2 & k & Hk). apply (HB Hq) in H2. destruct (HA Hq) as [E|[E1 E2]]; [|lia]. rewrite E in *.
      assert (K0 : (0 <= k)%Z) by nia. exists (Z.to_nat k). split; [|lia].
      apply Nat2Z.inj_lt. rewrite !Z2Nat.id by lia. apply Z.lt_le_trans with ((A - B - st - 1) / - st)%Z; [|lia].
      apply Z.lt_le_trans with (k + 1)%Z; [lia|]. apply Z.div_le_lower_bound; nia.
    + intros (k & Hk & ->). apply Nat2Z.inj_lt in Hk. rewrite Z2Nat.id in Hk by lia.
      assert (Hk' : (Z.of_nat k < (A - B - st - 1) / - st)%Z) by lia.
      assert (Hd : (- st * ((A - B - st - 1) / - st) <= A - B - st - 1)%Z) by (apply Z.mul_div_le; lia).
      assert (Hq : (0 <= A + Z.of_nat k * st < Z.of_nat n)%Z) by nia.
      split; [exact Hq|]. destruct (HA Hq) as [E|[E1 E2]]; [|nia]. rewrite E. split; [nia|]. split; [apply HB; [exact Hq|nia]|].
      exists (Z.of_nat k). lia.
Qed.
Print Assumptions C29_slice_positions.

(** It succeeds exactly for the legal indices, and otherwise raises IndexError. *)
Theorem C29_legal_indices : forall A (d : A) batch ix p,
  batch <> [] -> nonzero_steps ix ->
  (fits batch ix -> exists q, slice_param d batch ix p = Ok q) /\
  (~ fits batch ix -> slice_param d batch ix p = Err IndexError).
Proof.
  intros A d bs ix p Hne Hnz. pose proof (np_index_fits bs ix Hnz) as HF.
  destruct (np_index bs ix) as [[rs src]|e] eqn:En.
  - split; [|contradiction]. intros _. unfold slice_param. rewrite (to_batch_ok _ _ _ _ En). cbn. eauto.
  - destruct HF as [-> N]. split; [contradiction|]. intros _. apply slice_param_err; auto.
Qed.
Print Assumptions C29_legal_indices.

(** For an unbatched distribution no index is ever rejected, and slicing is the identity: the
    claim "an index with too many entries raises" fails there. *)
Theorem C29_unbatched_refuted : forall A (d : A) ix p,
  slice_param d [] ix p = Ok p /\ ~ fits [] [IInt 5%Z].
Proof. intros. split; [reflexivity|]. intros H. inversion H. Qed.
Print Assumptions C29_unbatched_refuted.

(** Categorical logits of shape (2, 3, 4) (batch (2, 3)) indexed by [..., -1]. *)
Example C29_nonvacuous :
  let p := tgen [2; 3; 4] (fun i => i) in
  fits [2; 3] [IEllipsis; IInt (-1)%Z] /\ nonzero_steps [IEllipsis; IInt (-1)%Z] /\
  slice_param [] [2; 3] [IEllipsis; IInt (-1)%Z] p = Ok (tgen [2; 4] (fun i => [nth 0 i 0; 2; nth 1 i 0])) /\
  slice_param [] [2; 3] [IInt 0%Z; ISlice None None (Some (-2)%Z)] p = Ok (tgen [2; 4] (fun i => [0; 2 - 2 * nth 0 i 0; nth 1 i 0])).
Proof.
  cbv zeta. split; [|split; [|split; reflexivity]].
  - change [2; 3] with ([2] ++ [3]). constructor; [reflexivity|intros [H|H]; [discriminate|destruct H]|].
    constructor; [lia|constructor].
  - intros a b [H|[H|H]]; try discriminate. destruct H.
Qed.

(** ** C70 *)
Local Open Scope R_scope.
(** The derived quantities at one point, for a scalar-event distribution whose log-cdf there is the
    logarithm of a probability [F]. *)
Theorem C70_survival_functions : forall F, 0 <= F <= 1 ->
  let log_cdf := rlog F in
  default_cdf log_cdf = Fin F /\
  default_survival [] (default_cdf log_cdf) = Ok (Fin (1 - F)) /\
  default_log_survival [] (default_cdf log_cdf) = Ok (rlog (1 - F)) /\
  xexp (rlog (1 - F)) = Fin (1 - F).
Proof.
  intros F HF. cbv zeta. unfold default_cdf. rewrite xexp_rlog by lra. cbn. split; [auto|]. split; [auto|].
  split; [|apply xexp_rlog; lra]. unfold xlog1p. cbn. do 2 f_equal.
Qed.
Print Assumptions C70_survival_functions.
Theorem C70_survival_multivariate : forall d s cdf,
  default_survival (d :: s) cdf = Err NotImplementedError /\ default_log_survival (d :: s) cdf = Err NotImplementedError.
Proof. split; reflexivity. Qed.
Print Assumptions C70_survival_multivariate.
(** prob is exp(log_prob) and lies in [0, inf); a probability's log round-trips. *)
Theorem C70_prob : forall p, 0 <= p -> default_prob (rlog p) = Fin p.
Proof. intros; apply xexp_rlog; auto. Qed.
Print Assumptions C70_prob.
Theorem C70_stddev : forall v, 0 <= v -> exists s, default_stddev (Fin v) = Fin s /\ 0 <= s /\ s * s = v.
Proof.
  intros v H. exists (sqrt v). unfold default_stddev, xsqrt. destruct (Rle_dec 0 v); [|lra].
  split; [auto|]. split; [apply sqrt_pos|apply sqrt_sqrt; auto].
Qed.
Print Assumptions C70_stddev.
(** With KL and entropy of finitely supported distributions, the default is the cross entropy. *)
Theorem C70_cross_entropy : forall A (outcomes : list A) p q,
  default_cross_entropy (Fin (kl_of outcomes p q)) (Fin (entropy_of outcomes p))
    = Fin (cross_entropy_of outcomes p q).
Proof.
  intros. unfold default_cross_entropy, kl_of, entropy_of, cross_entropy_of. cbn. f_equal.
  rewrite <- !sumf_opp, <- sumf_plus. apply sumf_ext. intros. ring.
Qed.
Print Assumptions C70_cross_entropy.
Example C70_nonvacuous : 0 <= 1 / 4 <= 1 /\ default_log_survival [] (default_cdf (rlog 1)) = Ok NInf.
Proof.
  split; [lra|]. destruct (C70_survival_functions 1) as (_ & _ & H & _); [lra|]. cbv zeta in H. rewrite H.
  replace (1 - 1) with 0 by ring. rewrite rlog_0; auto.
Qed.
