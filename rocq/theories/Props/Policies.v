(** C40: Greedy, EpsilonGreedy and Softmax. *)
From Coq Require Import Reals List Bool ZArith Lia Lra.
From Verif Require Import Base.Result Base.XR Base.Sums Model.MathUtils Model.ScalarDist Model.Categorical
  Spec.Categorical Proofs.MathUtils Proofs.Categorical.
Import ListNotations.
Local Open Scope R_scope.

Definition no_nan (l : list XR) : Prop := forall a, In a l -> a <> NaN.
(** the positions of maximal preference *)
Definition best_of (prefs : list XR) : list nat :=
  filter (fun i => xeqb (nth i prefs NaN) (xmaxl prefs)) (seq 0 (length prefs)).
Lemma pref_le_iff a b : a <> NaN -> b <> NaN -> (pref_le a b <-> xltb b a = false).
Proof.
  intros Ha Hb. destruct a as [x| | |], b as [y| | |]; cbn; try congruence; try (split; congruence); try tauto; try (split; [tauto|discriminate]).
  destruct (Rlt_dec y x); split; auto; try congruence; lra.
Qed.
Lemma xeqb_eq a b : a <> NaN -> (xeqb a b = true <-> a = b).
Proof.
  intros Ha. destruct a as [x| | |], b as [y| | |]; cbn; try congruence; try (split; congruence); try tauto.
  destruct (Req_EM_T x y); split; congruence.
Qed.
Lemma max_iff prefs i : no_nan prefs -> (i < length prefs)%nat ->
  (xeqb (nth i prefs NaN) (xmaxl prefs) = true <->
   forall j, (j < length prefs)%nat -> pref_le (nth j prefs NaN) (nth i prefs NaN)).
Proof.
  intros Hn Hi. destruct (xmaxl_spec prefs Hn) as [N [In_ Ge]].
  assert (Hne : prefs <> []) by (intros ->; cbn in Hi; lia). specialize (In_ Hne).
  assert (Hin : forall j, (j < length prefs)%nat -> In (nth j prefs NaN) prefs) by (intros; apply nth_In; auto).
  rewrite xeqb_eq by (apply Hn, Hin; auto). split.
  - intros -> j Hj. apply pref_le_iff; auto.
  - intros H. apply (In_nth _ _ NaN) in In_ as [m [Hm E]].
    specialize (H m Hm). rewrite E in H. pose proof (Ge _ (Hin i Hi)) as G.
    pose proof (Hn _ (Hin i Hi)) as Ni. destruct (nth i prefs NaN) as [x| | |], (xmaxl prefs) as [y| | |]; cbn in *; try congruence; try tauto.
    destruct (Rlt_dec y x); [discriminate|]. f_equal; lra.
Qed.
Lemma best_argmax prefs : no_nan prefs -> argmax_set prefs (best_of prefs).
Proof.
  intros Hn. split; [apply NoDup_filter, seq_NoDup|]. intros i. unfold best_of. rewrite filter_In, in_seq.
  split; [intros [H1 H2]|intros [H1 H2]].
  - split; [lia|]. apply max_iff; auto; lia.
  - split; [lia|]. apply max_iff; auto.
Qed.
Lemma best_nonempty prefs : no_nan prefs -> prefs <> [] -> (0 < length (best_of prefs))%nat.
Proof.
  intros Hn Hne. destruct (xmaxl_spec prefs Hn) as [N [Hin Ge]]. specialize (Hin Hne).
  apply (In_nth _ _ NaN) in Hin as [m [Hm E]].
  assert (In m (best_of prefs)).
  { unfold best_of. apply filter_In. split; [apply in_seq; lia|]. rewrite E. apply xeqb_eq; auto. }
  destruct (best_of prefs); [destruct H|cbn; lia].
Qed.
Lemma argmax_set_perm prefs b1 b2 : argmax_set prefs b1 -> argmax_set prefs b2 -> length b1 = length b2.
Proof.
  intros [N1 H1] [N2 H2]. apply Nat.le_antisymm; apply NoDup_incl_length; auto; intros i Hi.
  - apply H2, H1; auto.
  - apply H1, H2; auto.
Qed.
Definition greedy_vec (prefs : list XR) : list R :=
  map (fun i => if in_dec Nat.eq_dec i (best_of prefs) then / INR (length (best_of prefs)) else 0) (seq 0 (length prefs)).
Lemma sumf_filter (P : nat -> bool) c l : sumf (fun i => if P i then c else 0) l = INR (length (filter P l)) * c.
Proof.
  induction l as [|a l IH]; [unfold sumf; simpl; ring|]. rewrite sumf_cons, IH. cbn [filter].
  destruct (P a); cbn [length]; rewrite ?S_INR; ring.
Qed.
Lemma map_nth_seq {A B} (f : A -> B) (l : list A) d : map f l = map (fun i => f (nth i l d)) (seq 0 (length l)).
Proof.
  induction l as [|a l IH]; [reflexivity|]. cbn [map length seq nth]. f_equal.
  rewrite IH, <- seq_shift, map_map. reflexivity.
Qed.
Lemma tie_breaking_eq prefs : no_nan prefs -> prefs <> [] -> tie_breaking prefs = map Fin (greedy_vec prefs).
Proof.
  intros Hn Hne. pose proof (best_nonempty prefs Hn Hne) as Hb.
  assert (HI : 0 < INR (length (best_of prefs))) by (apply lt_0_INR; auto).
  unfold tie_breaking. set (opt := fun p => if xeqb p (xmaxl prefs) then Fin 1 else Fin 0).
  rewrite (map_nth_seq opt prefs NaN).
  rewrite (map_ext _ (fun i => Fin (if xeqb (nth i prefs NaN) (xmaxl prefs) then 1 else 0)))
    by (intros i; unfold opt; destruct (xeqb _ _); reflexivity).
  rewrite xsum_map_fin. rewrite (sumf_filter (fun i => xeqb (nth i prefs NaN) (xmaxl prefs)) 1).
  fold (best_of prefs). rewrite map_map. unfold greedy_vec. rewrite map_map. apply map_ext_in. intros i Hi.
  assert (E : xeqb (nth i prefs NaN) (xmaxl prefs) = if in_dec Nat.eq_dec i (best_of prefs) then true else false).
  { destruct (in_dec Nat.eq_dec i (best_of prefs)) as [K|K]; unfold best_of in K; rewrite filter_In in K.
    - apply K.
    - apply not_true_iff_false. intros E. apply K. split; auto. }
  rewrite E. cbn [xdiv]. rewrite Rmult_1_r. destruct (Req_EM_T _ 0); [lra|].
  destruct (in_dec Nat.eq_dec i (best_of prefs)); f_equal; field; lra.
Qed.
Lemma greedy_vec_pmf prefs : no_nan prefs -> prefs <> [] -> is_pmf (greedy_vec prefs).
Proof.
  intros Hn Hne. pose proof (best_nonempty prefs Hn Hne) as Hb.
  assert (HI : 0 < INR (length (best_of prefs))) by (apply lt_0_INR; auto). split.
  - intros x Hx. apply in_map_iff in Hx as [i [<- _]].
    destruct (in_dec Nat.eq_dec i (best_of prefs)); [left; apply Rinv_0_lt_compat; auto|lra].
  - unfold greedy_vec. change (sumf (fun i => if in_dec Nat.eq_dec i (best_of prefs) then / INR (length (best_of prefs)) else 0)
                                 (seq 0 (length prefs)) = 1).
    rewrite (sumf_ext _ (fun i => if xeqb (nth i prefs NaN) (xmaxl prefs) then / INR (length (best_of prefs)) else 0)).
    + rewrite sumf_filter. fold (best_of prefs). field. lra.
    + intros i Hi. destruct (in_dec Nat.eq_dec i (best_of prefs)) as [K|K]; unfold best_of in K; rewrite filter_In in K.
      * destruct K as [_ ->]. reflexivity.
      * destruct (xeqb _ _) eqn:E; auto. exfalso; apply K; auto.
Qed.
Lemma pmf_represents p dt d : is_pmf p -> cat_init None (Some (map Fin p)) dt = Ok d -> represents d p.
Proof.
  intros Hp Hd.
  assert (Hw : parametrises None (Some (map Fin p)) p).
  { right. repeat split; auto; [apply Hp|]. rewrite (proj2 Hp). lra. }
  pose proof (init_represents _ _ _ _ _ Hw Hd) as R.
  replace (normalised p) with p in R; auto. unfold normalised. rewrite (proj2 Hp), (map_ext _ (fun x => x)).
  - symmetry; apply map_id.
  - intros; field.
Qed.
Lemma greedy_vec_nth prefs i : (i < length prefs)%nat ->
  nth i (greedy_vec prefs) 0 = if in_dec Nat.eq_dec i (best_of prefs) then / INR (length (best_of prefs)) else 0.
Proof.
  intros Hi. unfold greedy_vec.
  erewrite (nth_indep _ 0) by (rewrite map_length, seq_length; auto).
  rewrite (map_nth (fun i => if in_dec Nat.eq_dec i (best_of prefs) then / INR (length (best_of prefs)) else 0) (seq 0 (length prefs)) 0%nat).
  rewrite seq_nth by auto. reflexivity.
Qed.

(** Greedy: uniform on exactly the set of positions of maximal preference (ties included, +-inf allowed). *)
Theorem C40_greedy prefs dt d best : no_nan prefs -> prefs <> [] -> argmax_set prefs best -> greedy_init prefs dt = Ok d ->
  num_categories d = length prefs /\ is_pmf (map toR (cat_probs d)) /\
  forall i, (i < length prefs)%nat ->
    nth i (cat_probs d) NaN = Fin (if in_dec Nat.eq_dec i best then 1 / INR (length best) else 0).
Proof.
  intros Hn Hne Hb Hd. unfold greedy_init in Hd. rewrite tie_breaking_eq in Hd by auto.
  pose proof (pmf_represents _ _ _ (greedy_vec_pmf prefs Hn Hne) Hd) as R.
  rewrite (rep_num _ _ R), (rep_probs _ _ R). split; [|split].
  - unfold greedy_vec. rewrite map_length, seq_length. reflexivity.
  - rewrite map_map. cbn. rewrite map_id. apply R.
  - intros i Hi. rewrite (nth_indep _ NaN (Fin 0)) by (unfold greedy_vec; rewrite !map_length, seq_length; auto).
    rewrite (map_nth Fin), greedy_vec_nth by auto.
    rewrite (argmax_set_perm prefs best (best_of prefs) Hb (best_argmax prefs Hn)).
    destruct (in_dec Nat.eq_dec i best) as [K|K], (in_dec Nat.eq_dec i (best_of prefs)) as [L|L]; f_equal; try (unfold Rdiv; ring).
    + exfalso. apply L. apply (best_argmax prefs Hn), Hb, K.
    + exfalso. apply K. apply Hb, (best_argmax prefs Hn), L.
Qed.
Theorem C40_epsilon_greedy prefs eps dt d best : no_nan prefs -> prefs <> [] -> argmax_set prefs best -> 0 <= eps <= 1 ->
  epsilon_greedy_init prefs (Fin eps) dt = Ok d ->
  num_categories d = length prefs /\ is_pmf (map toR (cat_probs d)) /\
  forall i, (i < length prefs)%nat ->
    nth i (cat_probs d) NaN =
      Fin ((1 - eps) * (if in_dec Nat.eq_dec i best then 1 / INR (length best) else 0) + eps / INR (length prefs)) /\
    eps / INR (length prefs) <= toR (nth i (cat_probs d) NaN).
Proof.
  intros Hn Hne Hb He Hd. unfold epsilon_greedy_init in Hd. rewrite tie_breaking_eq in Hd by auto.
  assert (HK : 0 < INR (length prefs)) by (apply lt_0_INR; destruct prefs; [congruence|cbn; lia]).
  set (K := length prefs) in *.
  assert (HL : length (greedy_vec prefs) = K) by (unfold greedy_vec; rewrite map_length, seq_length; auto).
  pose proof (greedy_vec_pmf prefs Hn Hne) as G.
  set (mixed := map (fun x => (1 - eps) * x + eps / INR K) (greedy_vec prefs)).
  assert (E : mix_probs_with_uniform (map Fin (greedy_vec prefs)) (Fin eps) = map Fin mixed).
  { unfold mix_probs_with_uniform, mixed. rewrite map_length, HL, !map_map. apply map_ext. intros x.
    cbn. destruct (Req_EM_T (INR K) 0); [lra|]. cbn. f_equal. unfold Rdiv. ring. }
  assert (Hm : is_pmf mixed).
  { split.
    - intros x Hx. apply in_map_iff in Hx as [y [<- Hy]].
      assert (0 <= (1 - eps) * y) by (apply Rmult_le_pos; [lra|apply G; auto]).
      assert (0 <= eps / INR K) by (apply Rdiv_nonneg; lra). lra.
    - unfold mixed. change (sumf (fun x => (1 - eps) * x + eps / INR K) (greedy_vec prefs) = 1).
      rewrite (sumf_plus (fun x => (1 - eps) * x)), (sumf_scal (1 - eps) (fun x => x)), sumf_const, <- rsum_sumf, (proj2 G), HL.
      field. lra. }
  rewrite E in Hd. pose proof (pmf_represents _ _ _ Hm Hd) as R.
  rewrite (rep_num _ _ R), (rep_probs _ _ R). split; [unfold mixed; rewrite map_length; auto|].
  split; [rewrite map_map; cbn; rewrite map_id; auto|].
  intros i Hi. rewrite (nth_indep _ NaN (Fin 0)) by (unfold mixed; rewrite !map_length, HL; auto).
  rewrite (map_nth Fin). unfold mixed.
  rewrite (nth_indep _ 0 ((1 - eps) * 0 + eps / INR K)) by (rewrite map_length, HL; auto).
  rewrite (map_nth (fun x => (1 - eps) * x + eps / INR K)), greedy_vec_nth by auto.
  rewrite (argmax_set_perm prefs best (best_of prefs) Hb (best_argmax prefs Hn)).
  assert (Hbp := best_nonempty prefs Hn Hne).
  assert (HI : 0 < / INR (length (best_of prefs))) by (apply Rinv_0_lt_compat, lt_0_INR; auto).
  split.
  - destruct (in_dec Nat.eq_dec i best) as [A|A], (in_dec Nat.eq_dec i (best_of prefs)) as [L|L]; f_equal; try (unfold Rdiv; ring).
    + exfalso. apply L. apply (best_argmax prefs Hn), Hb, A.
    + exfalso. apply A. apply Hb, (best_argmax prefs Hn), L.
  - cbn [toR]. destruct (in_dec Nat.eq_dec i (best_of prefs)); [|lra].
    assert (0 <= (1 - eps) * / INR (length (best_of prefs))) by (apply Rmult_le_pos; lra). lra.
Qed.
(** Softmax: the Categorical with logits preferences/temperature, i.e. probabilities proportional to
    exp(logit/temperature); strictly monotone in the logits and unchanged by a common shift of all of them. *)
Lemma softmax_scaled (l : list R) tau : 0 < tau ->
  map (fun a => xdiv a (Fin tau)) (map Fin l) = map Fin (map (fun x => x / tau) l).
Proof.
  intros Ht. rewrite !map_map. apply map_ext. intros x. cbn. destruct (Req_EM_T tau 0); [lra|reflexivity].
Qed.
Lemma legal_fin (l : list R) : l <> [] -> legal_logits (map Fin l).
Proof.
  intros H. split.
  - intros a Ha. apply in_map_iff in Ha as [x [<- _]]. eauto.
  - destruct l as [|x l]; [congruence|]. exists x. simpl; auto.
Qed.
Theorem C40_softmax (l : list R) tau dt d : l <> [] -> 0 < tau -> softmax_init (map Fin l) (Fin tau) dt = Ok d ->
  let Z := rsum (map (fun x => exp (x / tau)) l) in
  cat_init (Some (map Fin (map (fun x => x / tau) l))) None dt = Ok d /\
  is_pmf (map toR (cat_probs d)) /\ num_categories d = length l /\
  (forall i, (i < length l)%nat -> nth i (cat_probs d) NaN = Fin (exp (nth i l 0 / tau) / Z)) /\
  (forall i j, (i < length l)%nat -> (j < length l)%nat ->
     (nth i l 0 < nth j l 0 <-> toR (nth i (cat_probs d) NaN) < toR (nth j (cat_probs d) NaN))).
Proof.
  intros Hne Ht Hd Z. unfold softmax_init in Hd. rewrite softmax_scaled in Hd by auto.
  assert (Hw : parametrises (Some (map Fin (map (fun x => x / tau) l))) None (map (fun x => exp (x / tau)) l)).
  { left. eexists; repeat split; [apply legal_fin; destruct l; [congruence|discriminate]..|]. rewrite !map_map. reflexivity. }
  pose proof (init_represents _ _ _ _ _ Hw Hd) as R. set (p := normalised _) in *.
  assert (HZ : 0 < Z) by (apply (sumf_pos (fun x => exp (x / tau)) l Hne); intros; apply exp_pos).
  assert (Hp : p = map (fun x => exp (x / tau) / Z) l).
  { unfold p, normalised. fold Z. rewrite map_map. reflexivity. }
  assert (Hnth : forall i, (i < length l)%nat -> nth i (cat_probs d) NaN = Fin (exp (nth i l 0 / tau) / Z)).
  { intros i Hi. rewrite (rep_probs _ _ R), (nth_indep _ NaN (Fin 0)) by (rewrite Hp, !map_length; auto).
    rewrite (map_nth Fin), Hp. f_equal.
    rewrite (nth_indep _ 0 (exp (0 / tau) / Z)) by (rewrite map_length; auto).
    apply (map_nth (fun x => exp (x / tau) / Z)). }
  split; [auto|]. split; [rewrite (rep_probs _ _ R), map_map; cbn; rewrite map_id; apply R|].
  split; [rewrite (rep_num _ _ R), Hp; apply map_length|]. split; [auto|].
  intros i j Hi Hj. rewrite !Hnth by auto. cbn [toR]. split; intros H.
  - apply Rmult_lt_compat_r; [apply Rinv_0_lt_compat; auto|]. apply exp_increasing.
    apply Rmult_lt_compat_r; [apply Rinv_0_lt_compat; auto|auto].
  - apply Rmult_lt_reg_r in H; [|apply Rinv_0_lt_compat; auto]. apply exp_lt_inv in H.
    apply Rmult_lt_reg_r in H; [auto|apply Rinv_0_lt_compat; auto].
Qed.
Theorem C40_softmax_shift (l : list R) tau c dt : l <> [] -> 0 < tau ->
  softmax_init (map Fin (map (fun x => x + c) l)) (Fin tau) dt = softmax_init (map Fin l) (Fin tau) dt.
Proof.
  intros Hne Ht. unfold softmax_init. rewrite !softmax_scaled by auto.
  assert (E : normalize_logits (map Fin (map (fun x => x / tau) (map (fun x => x + c) l))) =
              normalize_logits (map Fin (map (fun x => x / tau) l))).
  { unfold normalize_logits. rewrite !log_softmax_legal by (apply legal_fin; destruct l; [congruence|discriminate]).
    rewrite !map_map. cbn [weight].
    set (W := rsum (map (fun x => exp (x / tau)) l)).
    assert (HW : 0 < W) by (apply (sumf_pos (fun x => exp (x / tau)) l Hne); intros; apply exp_pos).
    assert (EW : rsum (map (fun x => exp ((x + c) / tau)) l) = W * exp (c / tau)).
    { unfold W. rewrite (map_ext _ (fun x => exp (x / tau) * exp (c / tau))).
      - apply (sumf_scal_r (exp (c / tau)) (fun x => exp (x / tau)) l).
      - intros x. rewrite <- exp_plus. f_equal. unfold Rdiv; ring. }
    rewrite EW. apply map_ext. intros x. f_equal. pose proof (exp_pos (c / tau)).
    replace ((x + c) / tau) with (x / tau + c / tau) by (unfold Rdiv; ring). rewrite exp_plus. field. lra. }
  destruct dt; cbn; rewrite ?E; reflexivity.
Qed.

(** non-vacuity: preferences with a tie *)
Example C40_nonvacuous : no_nan [Fin 1; PInf; NInf; PInf] /\ argmax_set [Fin 1; PInf; NInf; PInf] [1; 3]%nat.
Proof.
  split; [intros a [<-|[<-|[<-|[<-|[]]]]]; discriminate|]. split; [repeat constructor; cbn; intuition discriminate|].
  intros i. split.
  - intros [<-|[<-|[]]]; (split; [cbn; lia|]); intros [|[|[|[|j]]]] Hj; cbn in *; auto; lia.
  - intros [Hi H]. destruct i as [|[|[|[|i]]]]; cbn in Hi; try lia; simpl; auto; exfalso.
    + apply (H 1%nat). cbn; lia.
    + apply (H 1%nat). cbn; lia.
Qed.
Print Assumptions C40_greedy. Print Assumptions C40_epsilon_greedy. Print Assumptions C40_softmax. Print Assumptions C40_softmax_shift.
