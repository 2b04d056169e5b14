(** C97: Greedy and EpsilonGreedy in floating point. *)
From Coq Require Import Reals Lra Lia List Bool ZArith.
From Flocq Require Import Core.
From Verif Require Import Base.XR Base.Float Spec.Rounding Spec.Accuracy Proofs.FloatOrder Proofs.FloatLib
  Model.FloatDist Model.FloatPolicies Props.FloatNormalize Props.FloatSoftmax Props.FloatBij Props.FloatAccuracy Props.FixedDeterministic.
Import ListNotations.
Local Open Scope R_scope.

Section P.
Variables (dt host : dtype) (n : nat) (pref : nat -> XR).
Notation e := (eps dt).
(** [i] has a maximal preference *)
Definition best (i : nat) : Prop := forall j, (j < n)%nat -> fle (pref j) (pref i).
(** [ties] lists the actions of maximal preference *)
Definition lists_best (ties : list nat) : Prop := NoDup ties /\ forall i, In i ties <-> (i < n)%nat /\ best i.

(** a NaN among the preferences makes every probability NaN (so that samples are the marker -1) *)
Lemma amax_nan (l : list nat) (x : nat -> XR) : In NaN (map x l) -> fold_right xmax NInf (map x l) = NaN.
Proof.
  induction l as [|a l IH]; cbn [map fold_right]; intros H; [destruct H|]. destruct H as [-> | H]; [reflexivity|].
  rewrite (IH H). unfold xmax. destruct (xis_nan (x a)); reflexivity.
Qed.
Theorem C97_nan_preference : (exists i, (i < n)%nat /\ pref i = NaN) ->
  forall i epsilon, fl_greedy_probs dt n pref i = NaN /\ fl_epsilon_greedy_probs dt host n pref epsilon i = NaN.
Proof.
  intros (k & Hk & Ek) i epsilon.
  assert (A : fl_amax n pref = NaN) by (apply amax_nan; rewrite <- Ek; apply in_map, in_seq; lia).
  assert (O : forall j, fl_optimal n pref j = false) by (intros j; unfold fl_optimal; rewrite A; destruct (pref j); reflexivity).
  assert (G : fl_greedy_probs dt n pref i = NaN).
  { unfold fl_greedy_probs. rewrite O. assert (F : filter (fl_optimal n pref) (seq 0 n) = []).
    { induction (seq 0 n) as [|a l IH]; cbn [filter]; [auto|]. rewrite O. auto. }
    rewrite F. cbn [length INR]. rewrite fround_0. unfold fdiv, xdiv, inf_times. destruct (Req_EM_T 0 0); [|lra].
    repeat destruct (Rlt_dec _ _); try lra; reflexivity. }
  split; [auto|]. unfold fl_epsilon_greedy_probs. rewrite G.
  replace (fmul dt (fround dt (fsub host (Fin 1) epsilon)) NaN) with NaN; [reflexivity|].
  unfold fmul. destruct (fround dt (fsub host (Fin 1) epsilon)); reflexivity.
Qed.

Hypothesis no_nan : forall i, (i < n)%nat -> pref i <> NaN.
Hypothesis n_pos : (0 < n)%nat.
Hypothesis n_small : (Z.of_nat n <= 2 ^ mant dt)%Z.
Lemma optimal_iff i : (i < n)%nat -> (fl_optimal n pref i = true <-> best i).
Proof.
  intros Hi. destruct (amax_spec n pref no_nan) as (N & B & A). unfold fl_optimal, best. split.
  - intros Q j Hj. specialize (B j Hj). replace (pref i) with (fl_amax n pref); auto.
    pose proof (no_nan i Hi). destruct (pref i), (fl_amax n pref); try discriminate Q; try congruence. apply xeqb_fin in Q. congruence.
  - intros H. assert (Q : fle (fl_amax n pref) (pref i)).
    { destruct A as [-> |(k & Hk & ->)]; [|auto]. pose proof (no_nan i Hi). destruct (pref i); try reflexivity; congruence. }
    pose proof (fle_antisym _ _ (B i Hi) Q) as X. rewrite X. pose proof N. destruct (fl_amax n pref); try reflexivity; try congruence. apply xeqb_fin; auto.
Qed.
Lemma count_best ties : lists_best ties -> length (filter (fl_optimal n pref) (seq 0 n)) = length ties /\ (0 < length ties <= n)%nat.
Proof.
  intros (ND & I).
  assert (E : forall i, In i (filter (fl_optimal n pref) (seq 0 n)) <-> In i ties).
  { intros i. rewrite filter_In, in_seq, I. split; intros (A & B); (split; [lia|]); apply optimal_iff; auto; lia. }
  assert (L : length (filter (fl_optimal n pref) (seq 0 n)) = length ties).
  { apply Nat.le_antisymm; apply NoDup_incl_length; auto; try (intros i Hi; apply E; auto). apply NoDup_filter, seq_NoDup. }
  split; [auto|]. split.
  - destruct (amax_spec n pref no_nan) as (N & B & A).
    assert (X : exists k, (k < n)%nat /\ best k).
    { destruct A as [Q|(k & Hk & Q)].
      - exists 0%nat. split; [auto|]. intros j Hj. specialize (B j Hj). rewrite Q in B. pose proof (B_ := B).
        assert (pref j = NInf) by (destruct (pref j); try discriminate B; auto).
        pose proof (no_nan 0%nat n_pos). rewrite H. destruct (pref 0%nat); try reflexivity; congruence.
      - exists k. split; [auto|]. intros j Hj. rewrite <- Q. auto. }
    destruct X as (k & Hk). apply I in Hk. destruct ties; [destruct Hk|cbn; lia].
  - assert (incl ties (seq 0 n)) by (intros i Hi; apply I in Hi; apply in_seq; lia).
    pose proof (NoDup_incl_length ND H) as Y. rewrite seq_length in Y. auto.
Qed.
Lemma repr_count m : (m <= n)%nat -> repr dt (INR m).
Proof. intros H. rewrite INR_IZR_INZ. apply repr_IZR. rewrite Z.abs_eq by lia. lia. Qed.
Lemma inv_count m : (0 < m <= n)%nat -> exists u, fdiv dt (Fin 1) (fround dt (Fin (INR m))) = Fin u /\ repr dt u /\
  / (2 * INR m) <= u <= 1 /\ Rabs (u - / INR m) <= e * / INR m.
Proof.
  intros H. rewrite (fround_repr dt _ (repr_count m (proj2 H))). assert (M : 1 <= INR m) by (change 1 with (INR 1); apply le_INR; lia).
  unfold fdiv. rewrite xdiv_fin' by lra. replace (1 / INR m) with (/ INR m) by (unfold Rdiv; ring).
  assert (I0 : 0 < / INR m) by (apply Rinv_0_lt_compat; lra). assert (I1 : / INR m <= 1) by (rewrite <- Rinv_1; apply Rinv_le_contravar; lra).
  assert (T : tiny dt <= / INR m).
  { assert (B : INR m <= bpow radix2 (mant dt)).
    { rewrite INR_IZR_INZ. change 2%Z with (radix_val radix2) in n_small. rewrite <- IZR_Zpower by (pose proof (mant_ok dt); lia).
      apply IZR_le. lia. }
    apply Rle_trans with (/ bpow radix2 (mant dt)); [|apply Rinv_le_contravar; lra].
    rewrite <- bpow_opp. apply tiny_le_eps. }
  pose proof (rnd_err dt (/ INR m)) as R. rewrite (Rabs_pos_eq (/ INR m)) in R by lra. specialize (R T).
  destruct (fround_between dt (/ INR m) 0 1 (repr_0 dt) (repr_1 dt) ltac:(lra)) as (Q & B & Rr).
  exists (rnd dt (/ INR m)). split; [auto|]. split; [auto|]. split; [|auto]. split; [|lra].
  rewrite Rinv_mult. apply Rabs_le_inv in R. pose proof (eps_le dt). nra.
Qed.

(** Greedy: the actions of maximal preference share one positive probability, 1 over their number up to one
    rounding; the others have probability exactly 0. *)
Theorem C97_greedy ties : lists_best ties -> exists g, repr dt g /\ 0 < g <= 1 /\
  Rabs (g - / INR (length ties)) <= e * / INR (length ties) /\
  forall i, (i < n)%nat -> (best i -> fl_greedy_probs dt n pref i = Fin g) /\ (~ best i -> fl_greedy_probs dt n pref i = Fin 0).
Proof.
  intros LB. destruct (count_best ties LB) as (C & B). destruct (inv_count _ B) as (g & Eg & Rg & Bg & Hg).
  assert (M : 1 <= INR (length ties)) by (change 1 with (INR 1); apply le_INR; lia).
  exists g. split; [auto|]. split. { split; [|lra]. apply Rlt_le_trans with (2 := proj1 Bg). apply Rinv_0_lt_compat. lra. }
  split; [auto|]. intros i Hi. unfold fl_greedy_probs. rewrite C. split; intros H.
  - apply optimal_iff in H; auto. rewrite H. auto.
  - destruct (fl_optimal n pref i) eqn:Q; [exfalso; apply H, optimal_iff; auto|].
    rewrite (fround_repr dt _ (repr_count _ (proj2 B))). unfold fdiv. rewrite xdiv_fin' by lra. unfold Rdiv. rewrite Rmult_0_l. apply fround_0.
Qed.

(** EpsilonGreedy *)
Variable ep : R.
Hypothesis ep_range : 0 <= ep <= 1.
Lemma weights : exists a b u, fround dt (fsub host (Fin 1) (Fin ep)) = Fin a /\ fround dt (Fin ep) = Fin b /\ fdiv dt (Fin 1) (fround dt (Fin (INR n))) = Fin u /\
  repr dt a /\ repr dt b /\ repr dt u /\ 0 <= a <= 1 /\ 0 <= b <= 1 /\ / (2 * INR n) <= u <= 1 /\
  (eps host <= e -> Rabs (a - (1 - ep)) <= 4 * e) /\ Rabs (b - ep) <= 2 * e /\ Rabs (u - / INR n) <= e * / INR n /\ b = rnd dt ep.
Proof.
  destruct (fround_between host (1 - ep) 0 1 (repr_0 _) (repr_1 _) ltac:(lra)) as (Q1 & B1 & _).
  destruct (fround_between dt (rnd host (1 - ep)) 0 1 (repr_0 _) (repr_1 _) B1) as (Q2 & B2 & R2).
  destruct (fround_between dt ep 0 1 (repr_0 _) (repr_1 _) ep_range) as (Q3 & B3 & R3).
  destruct (inv_count n ltac:(lia)) as (u & Eu & Ru & Bu & Hu).
  exists (rnd dt (rnd host (1 - ep))), (rnd dt ep), u. unfold fsub. rewrite xsub_fin, Q1.
  repeat (split; [assumption|]). split; [|split; [|split; [assumption|reflexivity]]].
  - intros He. pose proof (rnd_error host (1 - ep)) as E1. pose proof (rnd_error dt (rnd host (1 - ep))) as E2.
    rewrite (Rabs_pos_eq (1 - ep)) in E1 by lra. rewrite (Rabs_pos_eq (rnd host (1 - ep))) in E2 by lra. pose proof (eps_pos dt). pose proof (eps_pos host).
    replace (rnd dt (rnd host (1 - ep)) - (1 - ep)) with ((rnd dt (rnd host (1 - ep)) - rnd host (1 - ep)) + (rnd host (1 - ep) - (1 - ep))) by ring.
    eapply Rle_trans; [apply Rabs_triang|].
    assert (eps host * (1 - ep + 1) <= eps host * 2) by (apply Rmult_le_compat_l; lra).
    assert (e * (rnd host (1 - ep) + 1) <= e * 2) by (apply Rmult_le_compat_l; lra). lra.
  - pose proof (rnd_error dt ep) as E1. rewrite (Rabs_pos_eq ep) in E1 by lra. pose proof (eps_pos dt). nra.
Qed.
(** Every probability is a number; the actions of maximal preference share the largest one, the others share
    another; and they are within 17 units of roundoff of (1 - ep) / ties + ep / n and ep / n. *)
Theorem C97_epsilon_greedy ties : lists_best ties -> exists hi lo, repr dt hi /\ repr dt lo /\ 0 <= lo <= hi /\ hi <= 2 /\
  (forall i, (i < n)%nat -> (best i -> fl_epsilon_greedy_probs dt host n pref (Fin ep) i = Fin hi) /\
                            (~ best i -> fl_epsilon_greedy_probs dt host n pref (Fin ep) i = Fin lo)) /\
  (eps host <= e -> Rabs (hi - ((1 - ep) * / INR (length ties) + ep * / INR n)) <= 17 * e /\ Rabs (lo - ep * / INR n) <= 17 * e).
Proof.
  intros LB. destruct (C97_greedy ties LB) as (g & Rg & Bg & Hg & G). destruct weights as (a & b & u & Ea & Eb & Eu & Ra & Rb & Ru & Ba & Bb & Bu & Ha & Hb & Hu & _).
  destruct (count_best ties LB) as (_ & Bm).
  assert (M : 1 <= INR (length ties)) by (change 1 with (INR 1); apply le_INR; lia).
  assert (N1 : 1 <= INR n) by (change 1 with (INR 1); apply le_INR; lia).
  assert (U0 : 0 < u) by (apply Rlt_le_trans with (2 := proj1 Bu); apply Rinv_0_lt_compat; lra).
  assert (R2 : repr dt 2) by (change 2 with (bpow radix2 1); apply repr_pow; [unfold emin|]; pose proof (mant_ok dt); pose proof (exp_ok dt); lia).
  assert (B1 : 0 <= a * g <= 1) by nra. assert (B2 : 0 <= b * u <= 1) by nra.
  destruct (fround_between dt (a * g) 0 1 (repr_0 _) (repr_1 _) B1) as (Q1 & C1 & R1).
  destruct (fround_between dt (b * u) 0 1 (repr_0 _) (repr_1 _) B2) as (Q2 & C2 & R2').
  destruct (fround_between dt (rnd dt (a * g) + rnd dt (b * u)) 0 2 (repr_0 _) R2 ltac:(lra)) as (Q3 & C3 & R3).
  exists (rnd dt (rnd dt (a * g) + rnd dt (b * u))), (rnd dt (b * u)).
  split; [auto|]. split; [auto|]. split. { split; [lra|]. apply rnd_ge_F; [apply R2'|lra]. }
  split; [lra|]. split.
  - intros i Hi. destruct (G i Hi) as (G1 & G2). unfold fl_epsilon_greedy_probs. rewrite Ea, Eb, Eu.
    unfold fmul. rewrite xmul_fin, Q2. split; intros H.
    + rewrite (G1 H). rewrite xmul_fin, Q1. unfold fadd. rewrite xadd_fin. auto.
    + rewrite (G2 H). rewrite xmul_fin, Rmult_0_r, fround_0. unfold fadd. rewrite xadd_fin, Rplus_0_l. apply fround_repr; auto.
  - intros He. specialize (Ha He). pose proof (eps_pos dt) as E0. pose proof (eps_le dt) as E4.
    assert (I0 : 0 < / INR (length ties) <= 1) by (split; [apply Rinv_0_lt_compat; lra|rewrite <- Rinv_1; apply Rinv_le_contravar; lra]).
    assert (J0 : 0 < / INR n <= 1) by (split; [apply Rinv_0_lt_compat; lra|rewrite <- Rinv_1; apply Rinv_le_contravar; lra]).
    set (w := / INR (length ties)) in *. clearbody w. set (v := / INR n) in *. clearbody v.
    pose proof (rnd_error dt (a * g)) as E1. pose proof (rnd_error dt (b * u)) as E2. pose proof (rnd_error dt (rnd dt (a * g) + rnd dt (b * u))) as E3.
    rewrite (Rabs_pos_eq (a * g)) in E1 by lra. rewrite (Rabs_pos_eq (b * u)) in E2 by lra. rewrite (Rabs_pos_eq (rnd dt (a * g) + rnd dt (b * u))) in E3 by lra.
    assert (D1 : Rabs (a * g - (1 - ep) * w) <= 5 * e).
    { replace (a * g - (1 - ep) * w) with ((a - (1 - ep)) * g + (1 - ep) * (g - w)) by ring. eapply Rle_trans; [apply Rabs_triang|].
      rewrite !Rabs_mult, (Rabs_pos_eq g), (Rabs_pos_eq (1 - ep)) by lra. pose proof (Rabs_pos (a - (1 - ep))). pose proof (Rabs_pos (g - w)).
      assert (Rabs (a - (1 - ep)) * g <= 4 * e) by nra. assert ((1 - ep) * Rabs (g - w) <= e) by nra. lra. }
    assert (D2 : Rabs (b * u - ep * v) <= 3 * e).
    { replace (b * u - ep * v) with ((b - ep) * u + ep * (u - v)) by ring. eapply Rle_trans; [apply Rabs_triang|].
      rewrite !Rabs_mult, (Rabs_pos_eq u), (Rabs_pos_eq ep) by lra. pose proof (Rabs_pos (b - ep)). pose proof (Rabs_pos (u - v)).
      assert (Rabs (b - ep) * u <= 2 * e) by nra. assert (ep * Rabs (u - v) <= e) by nra. lra. }
    assert (E1' : e * (a * g + 1) <= 2 * e) by nra. assert (E2' : e * (b * u + 1) <= 2 * e) by nra.
    assert (E3' : e * (rnd dt (a * g) + rnd dt (b * u) + 1) <= 3 * e) by nra.
    apply Rabs_le_inv in D1, D2, E1, E2, E3. split; apply Rabs_le; lra.
Qed.
(** Exploration: every action keeps a positive probability as long as [ep] is at least 4 n times the smallest
    positive number of the dtype ... *)
Theorem C97_exploration : 4 * INR n * bpow radix2 (emin dt) <= ep ->
  forall i, (i < n)%nat -> exists q, fl_epsilon_greedy_probs dt host n pref (Fin ep) i = Fin q /\ 0 < q.
Proof.
  intros Hep i Hi. destruct weights as (a & b & u & Ea & Eb & Eu & Ra & Rb & Ru & Ba & Bb & Bu & _ & _ & _ & Qb).
  assert (N1 : 1 <= INR n) by (change 1 with (INR 1); apply le_INR; lia).
  pose proof (bpow_gt_0 radix2 (emin dt)) as P. pose proof (eps_pos dt). pose proof (eps_le dt).
  set (m := bpow radix2 (emin dt)) in *.
  assert (E1 : m <= ep) by nra.
  assert (Hb : ep / 2 <= b).
  { rewrite Qb. destruct (Rle_lt_dec (tiny dt) (Rabs ep)) as [W|W].
    - pose proof (rnd_err dt _ W) as Q. rewrite (Rabs_pos_eq ep) in Q by lra. apply Rabs_le_inv in Q. nra.
    - pose proof (rnd_err_sub dt _ W) as Q. fold m in Q. apply Rabs_le_inv in Q. lra. }
  assert (Hbu : m <= b * u).
  { apply Rle_trans with (2 * INR n * m * / (2 * INR n)); [right; field; lra|].
    apply Rmult_le_compat; try lra; [nra|]. apply Rlt_le, Rinv_0_lt_compat; lra. }
  assert (U0 : 0 < u) by (apply Rlt_le_trans with (2 := proj1 Bu); apply Rinv_0_lt_compat; lra).
  assert (B2 : 0 <= b * u <= 1) by nra.
  destruct (fround_between dt (b * u) 0 1 (repr_0 _) (repr_1 _) B2) as (Q2 & C2 & R2').
  assert (L : m <= rnd dt (b * u)) by (apply rnd_ge_F; [apply F_bpow; lia|auto]).
  unfold fl_epsilon_greedy_probs. rewrite Ea, Eb, Eu. unfold fmul at 2. rewrite xmul_fin, Q2.
  assert (G : exists g, fl_greedy_probs dt n pref i = Fin g /\ 0 <= g <= 1).
  { set (ties := filter (fl_optimal n pref) (seq 0 n)).
    assert (LB : lists_best ties).
    { split; [apply NoDup_filter, seq_NoDup|]. intros j. unfold ties. rewrite filter_In, in_seq. split; intros (A & B); (split; [lia|]); apply optimal_iff; auto; lia. }
    destruct (C97_greedy ties LB) as (g & _ & Bg & _ & G). destruct (G i Hi) as (G1 & G2).
    destruct (fl_optimal n pref i) eqn:O; [exists g; split; [apply G1, optimal_iff; auto|lra]|].
    exists 0. split; [|lra]. apply G2. intros B. apply optimal_iff in B; auto. congruence. }
  destruct G as (g & -> & Bg). unfold fmul. rewrite xmul_fin.
  assert (B1 : 0 <= a * g <= 1) by nra.
  destruct (fround_between dt (a * g) 0 1 (repr_0 _) (repr_1 _) B1) as (Q1 & C1 & R1). rewrite Q1. unfold fadd. rewrite xadd_fin.
  assert (R2 : repr dt 2) by (change 2 with (bpow radix2 1); apply repr_pow; [unfold emin|]; pose proof (mant_ok dt); pose proof (exp_ok dt); lia).
  destruct (fround_between dt (rnd dt (a * g) + rnd dt (b * u)) 0 2 (repr_0 _) R2 ltac:(lra)) as (Q3 & C3 & R3).
  exists (rnd dt (rnd dt (a * g) + rnd dt (b * u))). split; [auto|].
  apply Rlt_le_trans with m; [auto|]. apply rnd_ge_F; [apply F_bpow; lia|lra].
Qed.
(** ... and after the normalisation of the Categorical the preferred actions are still the most likely ones. *)
Theorem C97_preferred_most_likely o S : (forall i, In i (visits o) -> (i < n)%nat) ->
  sum_in dt o (fl_epsilon_greedy_probs dt host n pref (Fin ep)) = Fin S -> 0 < S ->
  forall i j, In i (visits o) -> In j (visits o) -> best i ->
  fle (fl_normalize dt (Fin S) (fl_epsilon_greedy_probs dt host n pref (Fin ep) j))
      (fl_normalize dt (Fin S) (fl_epsilon_greedy_probs dt host n pref (Fin ep) i)).
Proof.
  intros V ES PS i j Hi Hj Bi.
  set (ties := filter (fl_optimal n pref) (seq 0 n)).
  assert (LB : lists_best ties).
  { split; [apply NoDup_filter, seq_NoDup|]. intros k. unfold ties. rewrite filter_In, in_seq. split; intros (A & B); (split; [lia|]); apply optimal_iff; auto; lia. }
  destruct (C97_epsilon_greedy ties LB) as (hi & lo & Rh & Rl & B & _ & Q & _).
  set (p k := if fl_optimal n pref k then hi else lo).
  assert (E : forall k, (k < n)%nat -> fl_epsilon_greedy_probs dt host n pref (Fin ep) k = Fin (p k)).
  { intros k Hk. destruct (Q k Hk) as (Q1 & Q2). unfold p. destruct (fl_optimal n pref k) eqn:O.
    - apply Q1, optimal_iff; auto.
    - apply Q2. intros H. apply optimal_iff in H; auto. congruence. }
  assert (ES' : sum_in dt o (fun k => Fin (p k)) = Fin S).
  { rewrite <- ES. clear - V E. induction o as [k|l IHl r IHr]; cbn [sum_in visits] in *.
    - symmetry. apply E, V. left; auto.
    - rewrite IHl, IHr; auto; intros k Hk; apply V, in_or_app; auto. }
  rewrite (E i), (E j) by auto.
  apply (C80_order_preserved dt p) with (o := o); auto.
  - intros k. unfold p. destruct (fl_optimal n pref k); auto.
  - intros k. unfold p. destruct (fl_optimal n pref k); lra.
  - unfold p. rewrite (proj2 (optimal_iff i (V i Hi)) Bi). destruct (fl_optimal n pref j); lra.
Qed.
End P.

(** ** Concrete cases *)
(** [epsilon > 0] does not by itself mean exploration: a Python epsilon of 2^-160 is 0 in float32, and every action
    but the preferred one has probability exactly 0 (log_prob -inf). *)
Theorem C97_any_epsilon_explores_refuted :
  let pref (i : nat) := if Nat.eqb i 0 then Fin 1 else Fin 0 in let ep := bpow radix2 (-160) in
  repr float64 ep /\ 0 < ep <= 1 /\ fl_epsilon_greedy_probs float32 float64 2 pref (Fin ep) 1 = Fin 0.
Proof.
  intros pref ep.
  assert (P : 0 < ep) by apply bpow_gt_0.
  assert (L : ep <= 1) by (change 1 with (bpow radix2 0); apply bpow_le; lia).
  assert (R : repr float64 ep) by (apply repr_pow; cbn; unfold emin; cbn; lia).
  split; [auto|]. split; [auto|].
  assert (Ez : rnd float32 ep = 0).
  { destruct (fround_between float32 ep 0 1 (repr_0 _) (repr_1 _) ltac:(lra)) as (_ & B & Rr).
    destruct (Rle_lt_dec (rnd float32 ep) 0); [lra|]. exfalso. pose proof (repr_min float32 _ Rr r) as M.
    assert (T : Rabs ep < tiny float32). { rewrite Rabs_pos_eq by lra. apply bpow_lt. cbn. unfold emin. cbn. lia. }
    pose proof (rnd_err_sub float32 ep T) as Q. apply Rabs_le_inv in Q.
    assert (ep < / 2 * bpow radix2 (emin float32)).
    { change (/ 2) with (bpow radix2 (-1)). rewrite <- bpow_plus. apply bpow_lt. cbn. lia. }
    lra. }
  assert (O1 : forall i, (i < 2)%nat -> pref i <> NaN) by (intros [|i] _; discriminate).
  assert (Nb : ~ best 2 pref 1).
  { intros B. specialize (B 0%nat ltac:(lia)). apply xleb_fin in B. lra. }
  destruct (C97_greedy float32 2 pref O1 ltac:(lia) ltac:(cbn; lia) [0%nat]) as (g & _ & _ & _ & G).
  { split; [repeat constructor; intros []|]. intros i. split.
    - intros [<- |[]]. split; [lia|]. intros [|j] _; apply xleb_fin; cbn; lra.
    - intros (Hi & B). destruct i as [|[|i]]; [left; auto|contradiction|lia]. }
  destruct (weights float32 float64 2 ltac:(lia) ltac:(cbn; lia) ep) as (a & b & u & Ea & Eb & Eu & _ & _ & _ & _ & _ & _ & _ & _ & _ & Qb); [lra|].
  unfold fl_epsilon_greedy_probs. rewrite Ea, Eb, Eu, (proj2 (G 1%nat ltac:(lia)) Nb). rewrite Qb, Ez.
  unfold fmul, fadd. rewrite !xmul_fin, Rmult_0_r, Rmult_0_l, fround_0, xadd_fin, Rplus_0_r. apply fround_0.
Qed.
(** float32, three actions of which two tie for the best, epsilon = 1/8: the hypotheses hold. *)
Example C97_example :
  let pref (i : nat) := if Nat.eqb i 2 then NInf else Fin 1 in
  exists hi lo, fl_epsilon_greedy_probs float32 float64 3 pref (Fin (/ 8)) 0 = Fin hi /\
    fl_epsilon_greedy_probs float32 float64 3 pref (Fin (/ 8)) 1 = Fin hi /\
    fl_epsilon_greedy_probs float32 float64 3 pref (Fin (/ 8)) 2 = Fin lo /\
    Rabs (hi - 23 / 48) <= 17 * eps float32 /\ Rabs (lo - 1 / 24) <= 17 * eps float32.
Proof.
  intros pref. assert (O1 : forall i, (i < 3)%nat -> pref i <> NaN) by (intros [|[|[|i]]] _; discriminate).
  assert (B0 : best 3 pref 0) by (intros [|[|[|j]]] _; try reflexivity; apply xleb_fin; lra).
  assert (B1 : best 3 pref 1) by (intros [|[|[|j]]] _; try reflexivity; apply xleb_fin; lra).
  assert (B2 : ~ best 3 pref 2) by (intros B; specialize (B 0%nat ltac:(lia)); discriminate B).
  assert (R : repr float64 (/ 8)) by (change (/ 8) with (bpow radix2 (-3)); apply repr_pow; cbn; unfold emin; cbn; lia).
  destruct (C97_epsilon_greedy float32 float64 3 pref O1 ltac:(lia) ltac:(cbn; lia) (/ 8) ltac:(lra) [0; 1]%nat) as (hi & lo & _ & _ & _ & _ & Q & A).
  { split; [repeat constructor; cbn; intuition lia|]. intros i. split.
    - intros [<- |[<- |[]]]; (split; [lia|auto]).
    - intros (Hi & B). destruct i as [|[|[|i]]]; [left; auto|right; left; auto|contradiction|lia]. }
  exists hi, lo. split; [apply Q; auto|]. split; [apply Q; auto|]. split; [apply Q; auto|].
  destruct A as (A1 & A2). { apply bpow_le. cbn. lia. }
  cbn [length INR] in A1, A2. replace ((1 - / 8) * / (1 + 1) + / 8 * / (1 + 1 + 1)) with (23 / 48) in A1 by field.
  replace (/ 8 * / (1 + 1 + 1)) with (1 / 24) in A2 by field. auto.
Qed.
Print Assumptions C97_nan_preference.
Print Assumptions C97_epsilon_greedy.
Print Assumptions C97_exploration.
Print Assumptions C97_preferred_most_likely.
Print Assumptions C97_any_epsilon_explores_refuted.
