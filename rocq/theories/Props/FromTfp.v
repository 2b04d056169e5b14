(** C75: a distribution wrapped from TFP. *)
From Coq Require Import List Reals Lra Lia ZArith Bool Arith.
From Verif Require Import Base.Result Base.Sums Base.Tensor Base.Tree Base.XR Model.Distribution Model.TfpCompatible Model.FromTfp
  Spec.Distribution Proofs.Distribution Props.Distribution Props.TfpCompatible.
Import ListNotations.

(** What TFP documents: [n] draws form an array of shape [(n,) + batch_shape + event_shape], and log_prob of it has shape [(n,) + batch_shape]. *)
Definition tfp_draws {K A N} (t : tfp_dist K A N) : Prop :=
  forall key n, exists x, t_sample t key [n] = Ok x /\ wf x /\ shp x = n :: t_batch t ++ t_event t.
Definition tfp_log_probs {K A N} (t : tfp_dist K A N) : Prop :=
  forall x n, wf x -> shp x = n :: t_batch t ++ t_event t -> exists l, t_log_prob t x = Ok l /\ wf l /\ shp l = n :: t_batch t.

Section C75.
Context {K A N : Type} (d : A) (prng : Z -> K).

(** [sample] returns, for any seed and sample shape, an array of shape sample_shape + batch_shape + event_shape holding at every
    leading index the corresponding one of the draws TFP makes from that seed in one call for all of them. *)
Theorem C75_sample (t : tfp_dist K A N) seed ss : tfp_draws t ->
  exists draws y, t_sample t (key_of prng seed) [prodl (shape_of ss)] = Ok draws /\
    from_tfp_sample prng t seed ss = Ok (Leaf y) /\ wf y /\
    shp y = shape_of ss ++ t_batch t ++ t_event t /\
    forall idx j, inb (shape_of ss) idx -> inb (t_batch t ++ t_event t) j ->
      tget d y (idx ++ j) = tget d draws (ravel (shape_of ss) idx :: j).
Proof.
  intros H.
  assert (H' : forall k n, exists x, from_tfp_sample_n t k n = Ok x /\ draws_of_shape n (t_batch t) [t_event t] x).
  { intros k n. destruct (H k n) as (x & E & W & Sx). exists (Leaf x). unfold from_tfp_sample_n. rewrite E. split; [reflexivity|].
    repeat constructor; auto. }
  destruct (C28_sample K A d prng _ _ _ H' seed ss) as (dr & y & E1 & E2 & R & F).
  unfold from_tfp_sample_n in E1. destruct (H (key_of prng seed) (prodl (shape_of ss))) as (x & E & W & Sx). rewrite E in E1. cbn [rbind] in E1. injection E1 as <-.
  inversion R as [x' y' Rxy|]; subst. exists x, y'. destruct Rxy as (Wy & Sy & Hy). rewrite Sx in Sy, Hy. cbn [tl] in Sy, Hy.
  split; [exact E|]. split; [exact E2|]. split; [exact Wy|]. split; [exact Sy|exact Hy].
Qed.

(** [sample_and_log_prob] returns that same sample, and at every leading and batch index TFP's log-probability of that draw. *)
Theorem C75_sample_and_log_prob (t : tfp_dist K A N) seed ss : tfp_draws t -> tfp_log_probs t ->
  exists draws lps y l, t_sample t (key_of prng seed) [prodl (shape_of ss)] = Ok draws /\ t_log_prob t draws = Ok lps /\
    from_tfp_sample prng t seed ss = Ok (Leaf y) /\
    from_tfp_sample_and_log_prob prng t seed ss = Ok (Leaf y, l) /\ shp l = shape_of ss ++ t_batch t /\
    forall idx j, inb (shape_of ss) idx -> inb (t_batch t) j ->
      tget (Fin 0%R) l (idx ++ j) = tget (Fin 0%R) lps (ravel (shape_of ss) idx :: j).
Proof.
  intros H HL.
  destruct (C75_sample t seed ss H) as (draws & y & Ed & Ey & _).
  set (snlp := default_sample_n_and_log_prob (from_tfp_sample_n t) (from_tfp_log_prob t)).
  assert (H' : forall k n, exists x lp, snlp k n = Ok (x, lp) /\ draws_of_shape n (t_batch t) [t_event t] x /\ wf lp /\ shp lp = n :: t_batch t).
  { intros k n. destruct (H k n) as (x & E & W & Sx). destruct (HL x n W Sx) as (l & El & Wl & Sl). exists (Leaf x), l.
    unfold snlp, default_sample_n_and_log_prob, from_tfp_sample_n. rewrite E. cbn [rbind from_tfp_log_prob]. rewrite El. split; [reflexivity|].
    split; [repeat constructor; auto|]. auto. }
  destruct (C28_sample_and_log_prob K A d prng snlp _ _ H' seed ss) as (dr & lps & t' & l & E1 & E2 & R & _ & Rl & Sl).
  unfold snlp, default_sample_n_and_log_prob, from_tfp_sample_n in E1. rewrite Ed in E1. cbn [rbind from_tfp_log_prob] in E1.
  destruct (t_log_prob t draws) as [lps'|] eqn:El; [|discriminate]. cbn [rbind] in E1. injection E1 as <- <-.
  exists draws, lps', y, l. split; [exact Ed|]. split; [exact El|]. split; [exact Ey|]. split.
  - assert (t' = Leaf y) as <-; [|exact E2].
    unfold from_tfp_sample_and_log_prob, sample_and_log_prob in E2. unfold from_tfp_sample, sample in Ey. fold snlp in E2.
    destruct (convert_seed_and_sample_shape prng seed ss) as [rng s] eqn:Ec.
    unfold snlp, default_sample_n_and_log_prob in E2.
    destruct (from_tfp_sample_n t rng (fold_left Nat.mul s 1)) as [q|]; [|discriminate]. cbn [rbind] in E2, Ey.
    destruct (from_tfp_log_prob t q) as [lq|]; [|discriminate]. cbn [rbind] in E2. rewrite Ey in E2. cbn [rbind] in E2.
    destruct (reshape_leading s lq); [|discriminate]. cbn [rbind] in E2. injection E2 as <- _. reflexivity.
  - split; [exact Sl|]. destruct Rl as (_ & _ & Hl).
    destruct (H (key_of prng seed) (prodl (shape_of ss))) as (x & E & W & Sx). rewrite Ed in E. injection E as <-.
    destruct (HL draws _ W Sx) as (l2 & El2 & _ & Sl2). rewrite El in El2. injection El2 as <-. rewrite Sl2 in Hl. exact Hl.
Qed.

(** The survival functions, which the wrapper does not take from TFP, complement TFP's cdf for a univariate distribution and refuse a multivariate one. *)
Theorem C75_survival (t : tfp_dist K A N) x :
  (t_event t = [] -> forall c, t_cdf t x = Ok c ->
     from_tfp_survival prng t (Leaf x) = Ok (tmap (fun p => xsub (Fin 1) p) c) /\
     from_tfp_log_survival prng t (Leaf x) = Ok (tmap (fun p => xlog1p (xopp p)) c)) /\
  (t_event t <> [] -> from_tfp_survival prng t (Leaf x) = Err NotImplementedError /\ from_tfp_log_survival prng t (Leaf x) = Err NotImplementedError).
Proof.
  unfold from_tfp_survival, from_tfp_log_survival, inherited_survival, inherited_log_survival, from_tfp. cbn [sv_event base_self py_bool].
  split.
  - intros -> c E. cbn [from_tfp_cdf]. rewrite E. split; reflexivity.
  - intros H. destruct (t_event t); [contradiction|]. split; reflexivity.
Qed.

(** Wrapping for TFP what was wrapped from TFP gives back TFP's shapes, log-probabilities and, for a one-dimensional sample shape, TFP's own draws. *)
Theorem C75_round_trip default_name empty_name nm (t : tfp_dist K A N) : tfp_draws t ->
  let w := tfp_compatible default_name empty_name nm (from_tfp prng t) in
  dims (sv_batch w) = t_batch t /\ dims (sv_event w) = t_event t /\
  (forall x, sv_log_prob w (Leaf x) = t_log_prob t x) /\
  (forall seed n x, t_sample t (key_of prng seed) [n] = Ok x -> sv_sample w seed (SizeSeq [n]) = Ok (Leaf x)) /\
  (forall key n x, t_sample t key [n] = Ok x -> sv_sample_n w key n = Ok (Leaf x)).
Proof.
  intros H w.
  assert (P : forall seed n x, t_sample t (key_of prng seed) [n] = Ok x -> sample prng (from_tfp_sample_n t) seed (ShapeSeq [n]) = Ok (Leaf x)).
  { intros seed n x E. unfold sample.
    replace (convert_seed_and_sample_shape prng seed (ShapeSeq [n])) with (key_of prng seed, [n]) by (destruct seed; reflexivity).
    cbn [fold_left]. rewrite Nat.mul_1_l.
    unfold from_tfp_sample_n. rewrite E. cbn [rbind tree_mapM]. destruct (H (key_of prng seed) n) as (x' & E' & W & Sx). rewrite E in E'. injection E' as <-.
    rewrite (reshape_same n x _ W Sx). reflexivity. }
  repeat split.
  - intros seed n x E. exact (P seed n x E).
  - intros key n x E. exact (P (SeedKey key) n x E).
Qed.
End C75.
Print Assumptions C75_sample.
Print Assumptions C75_sample_and_log_prob.
Print Assumptions C75_survival.
Print Assumptions C75_round_trip.

(** A TFP distribution with batch shape (2,) and scalar events. *)
Definition ex_tfp : tfp_dist Z Z nat :=
  mkTfp (fun k s => Ok (tgen (s ++ [2]) (fun i => (k + Z.of_nat (nth 0%nat i 0%nat))%Z)))
    (fun x => Ok (tmap (fun z => Fin (IZR z)) x)) (fun x => Ok (tmap (fun _ => Fin (1 / 2)) x)) [2] [] 0%nat.
Example C75_nonvacuous : tfp_draws ex_tfp /\ tfp_log_probs ex_tfp /\
  (exists y, from_tfp_sample (fun z => z) ex_tfp (SeedInt 5%Z) (ShapeSeq [2; 3]) = Ok (Leaf y) /\ shp y = [2; 3; 2] /\ tget 0%Z y [1; 2; 0] = 10%Z).
Proof.
  split; [|split].
  - intros k n. eexists. split; [reflexivity|]. split; [apply tgen_wf|reflexivity].
  - intros x n W Sx. eexists. split; [reflexivity|]. split; [|exact Sx].
    unfold wf, tmap in *. cbn [dat shp]. rewrite map_length. exact W.
  - eexists. split; [reflexivity|]. split; reflexivity.
Qed.
