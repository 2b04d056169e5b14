(** Lemmas behind C64: the Viterbi recursion in the probability domain *)
From Coq Require Import Reals List Arith Bool ZArith Lia Lra.
From Verif Require Import Base.Result Base.XR Base.Sums Model.MathUtils Model.Categorical Model.HMM
  Spec.Categorical Spec.HMM Proofs.MathUtils Proofs.HMM Proofs.Compose.
Import ListNotations.
Local Open Scope R_scope.

Lemma rlog_le_of x y : 0 <= x -> 0 <= y -> xltb (rlog y) (rlog x) = false -> x <= y.
Proof.
  intros [Hx| <-] [Hy| <-] H; try lra.
  - rewrite !rlog_pos in H by lra. apply xltb_fin_f in H.
    destruct (Rle_or_lt x y) as [|K]; [auto|]. apply ln_increasing in K; lra.
  - rewrite rlog_0, rlog_pos in H by lra. discriminate.
Qed.
Lemma rlog_nan x : 0 <= x -> rlog x <> NaN.
Proof. intros [H| <-]; [rewrite rlog_pos by auto|rewrite rlog_0]; discriminate. Qed.
Lemma argmax_rlog (f : nat -> R) n : (0 < n)%nat -> (forall i, (i < n)%nat -> 0 <= f i) ->
  let l := map (fun i => rlog (f i)) (seq 0 n) in
  (argmax l < n)%nat /\ (forall i, (i < n)%nat -> f i <= f (argmax l)) /\ xmaxl l = rlog (f (argmax l)).
Proof.
  intros Hn Hf l.
  assert (Hnan : forall b, In b l -> b <> NaN).
  { intros b Hb. apply in_map_iff in Hb as [i [<- Hi]]. apply in_seq in Hi. apply rlog_nan, Hf; lia. }
  assert (Hne : l <> []) by (unfold l; destruct n; [lia|discriminate]).
  destruct (argmax_spec l Hne Hnan) as [c [Hc Hmax]].
  assert (Hlt : (argmax l < n)%nat).
  { assert (argmax l < length l)%nat by (apply nth_error_Some; congruence). unfold l in H at 2.
    rewrite map_length, seq_length in H. auto. }
  assert (Ec : c = rlog (f (argmax l))).
  { apply nth_error_nth with (d := rlog (f O)) in Hc. rewrite <- Hc. unfold l at 2.
    rewrite (map_nth (fun i => rlog (f i))), seq_nth by auto. reflexivity. }
  assert (Hle : forall i, (i < n)%nat -> f i <= f (argmax l)).
  { intros i Hi. apply rlog_le_of; auto. rewrite <- Ec. apply Hmax. apply in_map_iff. exists i. split; auto. apply in_seq; lia. }
  repeat split; auto.
  destruct (xmaxl_spec l Hnan) as [_ [Hin Hm]]. specialize (Hin Hne).
  apply in_map_iff in Hin as [k [Ek Hk]]. apply in_seq in Hk. rewrite <- Ek.
  assert (f (argmax l) <= f k).
  { apply rlog_le_of; auto; [apply Hf; lia|]. rewrite Ek, <- Ec. apply Hm. apply nth_error_In with (1 := Hc). }
  assert (f k <= f (argmax l)) by (apply Hle; lia). f_equal. lra.
Qed.
Lemma scan_app {C X Y} (f : C -> X -> C * Y) xs ys : forall c,
  scan f c (xs ++ ys) = let '(c1, a) := scan f c xs in let '(c2, b) := scan f c1 ys in (c2, a ++ b).
Proof.
  induction xs as [|x xs IH]; intros c; cbn [app scan]; [destruct (scan f c ys); auto|].
  destruct (f c x) as [c1 y]. rewrite IH. destruct (scan f c1 xs) as [c2 a]. destruct (scan f c2 ys). auto.
Qed.
Lemma scan_reverse_cons {C X Y} (f : C -> X -> C * Y) c x xs :
  scan_reverse f c (x :: xs) = let '(c1, ys) := scan_reverse f c xs in let '(c2, y) := f c1 x in (c2, y :: ys).
Proof.
  unfold scan_reverse. cbn [rev]. rewrite scan_app. destruct (scan f c (rev xs)) as [c1 a]. cbn [scan].
  destruct (f c1 x) as [c2 y]. rewrite rev_app_distr. auto.
Qed.
Lemma one_hot_nat (f : nat -> nat) s n : forall k,
  fold_right Nat.add 0%nat (map2 Nat.mul (map f (seq k n)) (map (fun i => if Nat.eqb i s then 1%nat else 0%nat) (seq k n))) =
  if (k <=? s) && (s <? k + n) then f s else 0%nat.
Proof.
  induction n as [|n IH]; intros k; cbn [seq map map2 fold_right].
  - destruct (Nat.leb_spec k s), (Nat.ltb_spec s (k + 0)); auto; lia.
  - rewrite IH. destruct (Nat.eqb_spec k s) as [-> |Hk].
    + destruct (Nat.leb_spec (S s) s), (Nat.leb_spec s s), (Nat.ltb_spec s (s + S n)); cbn; lia.
    + rewrite Nat.mul_0_r. destruct (Nat.leb_spec (S k) s), (Nat.leb_spec k s), (Nat.ltb_spec s (S k + n)), (Nat.ltb_spec s (k + S n)); cbn; lia.
Qed.

Section Viterbi.
Context {E : Type}.
Variables (pi : list R) (A : list (list R)) (b : E -> list R) (h : hmm E).
Hypothesis Hd : describes h pi A b.
Notation N := (length pi).
Notation st := (start pi).
Notation tr := (step A).
Notation em := (emit b).
Notation cont := (continue_prob A b).

Lemma Hst : stochastic pi A b. Proof. apply Hd. Qed.
Lemma N_pos : (0 < N)%nat.
Proof. exact (pmf_length pi (proj1 Hst)). Qed.
Definition lvec (v : nat -> R) : list XR := map (fun j => rlog (v j)) (seq 0 N).
Definition src (v : nat -> R) (x : E) (j : nat) : nat := argmax (map (fun i => rlog (v i * tr i j * em j x)) (seq 0 N)).
Definition next (v : nat -> R) (x : E) (j : nat) : R := v (src v x j) * tr (src v x j) j * em j x.
Definition nonneg (v : nat -> R) : Prop := forall i, (i < N)%nat -> 0 <= v i.

Lemma cand_nonneg v x i j : nonneg v -> (i < N)%nat -> 0 <= v i * tr i j * em j x.
Proof.
  intros Hv Hi. repeat apply Rmult_le_pos; auto.
  - apply (step_nonneg pi A b Hst).
  - apply (emit_nonneg pi A b Hst).
Qed.
Lemma src_spec v x j : nonneg v -> (src v x j < N)%nat /\
  (forall i, (i < N)%nat -> v i * tr i j * em j x <= next v x j) /\
  xmaxl (map (fun i => rlog (v i * tr i j * em j x)) (seq 0 N)) = rlog (next v x j).
Proof.
  intros Hv. destruct (argmax_rlog (fun i => v i * tr i j * em j x) N N_pos) as [H1 [H2 H3]].
  - intros i Hi. apply cand_nonneg; auto.
  - repeat split; auto.
Qed.
Lemma next_nonneg v x : nonneg v -> nonneg (next v x).
Proof. intros Hv j Hj. apply cand_nonneg; auto. apply src_spec; auto. Qed.

Lemma trans_log : map (fun d => log_softmax (cat_logits d)) (h_trans h) = map (fun i => lvec (tr i)) (seq 0 N).
Proof.
  destruct Hd as (_ & _ & _ & _ & Hl & _ & _ & Hs). rewrite <- (map_map cat_logits log_softmax), Hl, map_map.
  destruct Hs as [_ [HA [Hrow _]]]. rewrite <- HA.
  apply (nth_ext _ _ [] []); [rewrite !map_length, seq_length; auto|].
  intros i Hi. rewrite map_length in Hi.
  rewrite (nth_indep _ [] (log_softmax (map rlog []))) by (rewrite map_length; auto).
  rewrite (map_nth (fun r => log_softmax (map rlog r))).
  destruct (Hrow _ (nth_In A [] Hi)) as [Hp Hlen]. rewrite log_softmax_rlog by auto.
  rewrite (nth_indep _ [] (lvec (tr O))) by (rewrite map_length, seq_length; auto).
  rewrite (map_nth (fun i => lvec (tr i))), seq_nth by auto. cbn [Nat.add]. unfold lvec.
  rewrite (list_tab (nth i A []) N Hlen) at 1. rewrite map_map. reflexivity.
Qed.
Lemma first_log x : map2 xadd (log_softmax (cat_logits (h_init h))) (ob_log_prob (h_obs h) x) = lvec (fun j => st j * em j x).
Proof.
  destruct Hd as (_ & _ & Hl & _ & _ & _ & Ho & Hs). rewrite Hl, Ho, log_softmax_rlog by exact (proj1 Hs).
  rewrite (list_tab pi N eq_refl) at 1. rewrite (list_tab (b x) N) by apply Hs.
  rewrite !map_map, map2_seq. unfold lvec. apply map_ext. intros j. apply rlog_mult; [apply (start_nonneg pi A b Hs)|apply (emit_nonneg pi A b Hs)].
Qed.
Lemma forward_step v x : nonneg v ->
  viterbi_forward h (map (fun i => lvec (tr i)) (seq 0 N)) (lvec v) x = (lvec (next v x), map (src v x) (seq 0 N)).
Proof.
  intros Hv. destruct Hd as (Hn & _ & _ & _ & _ & _ & Ho & Hs). unfold viterbi_forward. rewrite Hn, Ho.
  set (logp := map2 _ (lvec v) _).
  assert (Hc : forall j, (j < N)%nat -> column logp j = map (fun i => rlog (v i * tr i j * em j x)) (seq 0 N)).
  { intros j Hj. unfold column, logp. unfold lvec at 1.
    assert (E0 : forall l, (forall i, In i l -> (i < N)%nat) ->
      map (fun row => nth j row NaN) (map2 (fun p row => map2 (fun l o => xadd (xadd p l) o) row (map rlog (b x)))
        (map (fun j => rlog (v j)) l) (map (fun i => lvec (tr i)) l)) =
      map (fun i => rlog (v i * tr i j * em j x)) l).
    { induction l as [|i l IH]; intros Hl; [auto|]. cbn [map map2]. f_equal; [|apply IH; intros; apply Hl; right; auto].
      assert (Hi : (i < N)%nat) by (apply Hl; left; auto).
      rewrite (list_tab (b x) N) by apply Hs. unfold lvec. rewrite map_map, map2_seq.
      rewrite (nth_indep _ NaN (xadd (xadd (rlog (v i)) (rlog (tr i O))) (rlog (nth O (b x) 0)))) by (rewrite map_length, seq_length; auto).
      rewrite (map_nth (fun j => xadd (xadd (rlog (v i)) (rlog (tr i j))) (rlog (nth j (b x) 0)))), seq_nth by auto.
      cbn [Nat.add]. assert (0 <= v i) by auto. pose proof (step_nonneg pi A b Hs i j).
      pose proof (emit_nonneg pi A b Hs j x).
      rewrite !rlog_mult; auto. apply Rmult_le_pos; auto. }
    apply E0. intros i Hi. apply in_seq in Hi. lia. }
  f_equal.
  - apply map_ext_in. intros j Hj. apply in_seq in Hj. rewrite Hc by lia. apply src_spec; auto.
  - apply map_ext_in. intros j Hj. apply in_seq in Hj. rewrite Hc by lia. reflexivity.
Qed.
Lemma backward_step s (f : nat -> nat) : (s < N)%nat -> viterbi_backward h s (map f (seq 0 N)) = (f s, f s).
Proof.
  intros Hs. unfold viterbi_backward. replace (h_n h) with N by (symmetry; apply Hd). rewrite one_hot_nat.
  destruct (Nat.leb_spec 0 s), (Nat.ltb_spec s (0 + N)); cbn; auto; lia.
Qed.

Lemma viterbi_inv xs : forall v, nonneg v ->
  exists vf srcs, scan (viterbi_forward h (map (fun i => lvec (tr i)) (seq 0 N))) (lvec v) xs = (lvec vf, srcs) /\ nonneg vf /\
    (forall j, (j < N)%nat -> exists c ys rest, scan_reverse (viterbi_backward h) j srcs = (c, ys) /\ ys ++ [j] = c :: rest /\
       length rest = length xs /\ (forall s, In s (c :: rest) -> (s < N)%nat) /\ v c * cont c rest xs = vf j) /\
    (forall s p j, length p = length xs -> (forall q, In q (s :: p) -> (q < N)%nat) -> last p s = j -> v s * cont s p xs <= vf j).
Proof.
  induction xs as [|x xs IH]; intros v Hv.
  - exists v, []. repeat split; auto.
    + intros j Hj. exists j, [], []. repeat split; auto; [intros s [<-|[]]; auto|cbn; lra].
    + intros s p j Hp Hq Hl. destruct p; [|discriminate]. cbn in *. subst. lra.
  - destruct (IH (next v x) (next_nonneg v x Hv)) as (vf & srcs & Hs & Hnn & Hpath & Hopt).
    exists vf, (map (src v x) (seq 0 N) :: srcs). cbn [scan]. rewrite forward_step, Hs by auto.
    repeat split; auto.
    + intros j Hj. destruct (Hpath j Hj) as (c & ys & rest & Hb & Hy & Hl & Hin & Hval).
      assert (Hc : (c < N)%nat) by (apply Hin; left; auto).
      exists (src v x c), (src v x c :: ys), (c :: rest). rewrite scan_reverse_cons, Hb, backward_step by auto.
      repeat split; auto; [cbn [app]; rewrite Hy; auto|cbn; auto| |].
      * intros s [<-|H]; [apply src_spec; auto|auto].
      * cbn [continue_prob]. rewrite <- Hval. unfold next. ring.
    + intros s p j Hp Hq Hl. destruct p as [|s1 p]; [discriminate|]. cbn [continue_prob].
      assert (Hs1 : (s1 < N)%nat) by (apply Hq; right; left; auto).
      apply Rle_trans with (next v x s1 * cont s1 p xs).
      * replace (v s * (tr s s1 * em s1 x * cont s1 p xs)) with (v s * tr s s1 * em s1 x * cont s1 p xs) by ring.
        apply Rmult_le_compat_r; [apply (cont_nonneg pi A b Hst)|]. apply src_spec; auto. apply Hq; left; auto.
      * apply Hopt; [cbn in Hp; lia|intros; apply Hq; right; auto|]. rewrite <- Hl.
        destruct p as [|c p]; [auto|]. change (last (s1 :: c :: p) s) with (last (c :: p) s).
        clear. revert c; induction p as [|m p IH]; intros c; [auto|]. cbn in *. apply IH.
Qed.
End Viterbi.
