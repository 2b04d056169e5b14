(** Lemmas about the vector operations of Model/MathUtils.v *)
From Coq Require Import Reals List Bool ZArith Lia Lra.
From Verif Require Import Base.XR Base.Sums Model.MathUtils Spec.Categorical.
Import ListNotations.
Local Open Scope R_scope.

Lemma xsum_cons a l : xsum (a :: l) = xadd a (xsum l). Proof. reflexivity. Qed.
Lemma xsum_map_fin {A} (f : A -> R) l : xsum (map (fun a => Fin (f a)) l) = Fin (sumf f l).
Proof. rewrite <- (map_map f Fin), xsum_fin. reflexivity. Qed.
Lemma map2_length {A B C} (f : A -> B -> C) l m : length l = length m -> length (map2 f l m) = length l.
Proof. revert m; induction l as [|a l IH]; intros [|b m] H; cbn in *; auto; try discriminate. Qed.
Lemma map2_nth {A B C} (f : A -> B -> C) l m i da db dc : length l = length m -> (i < length l)%nat ->
  nth i (map2 f l m) dc = f (nth i l da) (nth i m db).
Proof.
  revert m i; induction l as [|a l IH]; intros [|b m] [|i] H Hi; cbn in *; try discriminate; try lia; auto.
  apply IH; lia.
Qed.
Lemma map2_map {A B C D E} (f : C -> D -> E) (g : A -> C) (h : B -> D) l m :
  map2 f (map g l) (map h m) = map2 (fun a b => f (g a) (h b)) l m.
Proof. revert m; induction l as [|a l IH]; intros [|b m]; cbn; auto. rewrite IH; auto. Qed.
Lemma map2_same {A C} (f : A -> A -> C) l : map2 f l l = map (fun a => f a a) l.
Proof. induction l as [|a l IH]; cbn; auto. rewrite IH; auto. Qed.
Lemma map2_combine {A B C} (f : A -> B -> C) l m : map2 f l m = map (fun ab => f (fst ab) (snd ab)) (combine l m).
Proof. revert m; induction l as [|a l IH]; intros [|b m]; cbn; auto. rewrite IH; auto. Qed.

Lemma xeqb_refl_fin x : xeqb (Fin x) (Fin x) = true.
Proof. apply xeqb_fin; auto. Qed.
Lemma mnn_0 x : multiply_no_nan x (Fin 0) = Fin 0.
Proof. unfold multiply_no_nan. rewrite xeqb_refl_fin; auto. Qed.
Lemma mnn_1 x : multiply_no_nan x (Fin 1) = x.
Proof.
  unfold multiply_no_nan. destruct (xeqb (Fin 1) (Fin 0)) eqn:E; [apply xeqb_fin in E; lra|].
  rewrite xmul_comm; apply xmul_1_l.
Qed.
Lemma mnn_fin x y : multiply_no_nan (Fin x) (Fin y) = Fin (x * y).
Proof.
  unfold multiply_no_nan. destruct (xeqb (Fin y) (Fin 0)) eqn:E; [apply xeqb_fin in E; subst|reflexivity].
  f_equal; ring.
Qed.
Lemma mul_exp_rlog_zero x : mul_exp x (rlog 0) = Fin 0.
Proof. unfold mul_exp. rewrite rlog_0. cbn. destruct (Req_EM_T 0 0); [|lra]. cbn. f_equal; ring. Qed.
Lemma mul_exp_fin x p : 0 < p -> mul_exp (Fin x) (rlog p) = Fin (x * p).
Proof.
  intros H. unfold mul_exp. rewrite rlog_pos by auto. cbn. rewrite exp_ln by auto.
  destruct (Req_EM_T p 0); [lra|]. reflexivity.
Qed.
Lemma mul_exp_pinf p : 0 < p -> mul_exp PInf (rlog p) = PInf.
Proof.
  intros H. unfold mul_exp. rewrite rlog_pos by auto. cbn. rewrite exp_ln by auto.
  destruct (Req_EM_T p 0); [lra|]. cbn. unfold inf_times. destruct (Rlt_dec 0 p); [auto|lra].
Qed.

Lemma ln_quot x y : 0 < x -> 0 < y -> ln (x / y) = ln x - ln y.
Proof. intros Hx Hy. unfold Rdiv. rewrite ln_mult, ln_Rinv; auto using Rinv_0_lt_compat; try lra. Qed.
Lemma Rdiv_nonneg x y : 0 <= x -> 0 < y -> 0 <= x / y.
Proof. intros Hx Hy. apply Rmult_le_pos; auto. left; apply Rinv_0_lt_compat; auto. Qed.
(** *** log_softmax *)
Lemma xmaxl_legal l : (forall a, In a l -> a = NInf \/ exists x, a = Fin x) ->
  (xmaxl l = NInf \/ exists m, xmaxl l = Fin m) /\ ((exists x, In (Fin x) l) -> exists m, xmaxl l = Fin m).
Proof.
  induction l as [|a l IH]; intros H; [split; [left; reflexivity|intros [x []]]|].
  destruct IH as [IH1 IH2]; [intros; apply H; simpl; auto|].
  change (xmaxl (a :: l)) with (xmax a (xmaxl l)).
  destruct (H a) as [-> |[x ->]]; [simpl; auto| |].
  - assert (E : xmax NInf (xmaxl l) = xmaxl l)
      by (destruct IH1 as [-> |[m ->]]; reflexivity).
    rewrite E. split; [exact IH1|]. intros [y [K|K]]; [discriminate|apply IH2; eauto].
  - assert (E : exists m, xmax (Fin x) (xmaxl l) = Fin m).
    { destruct IH1 as [-> |[m ->]]; [cbn; eauto|]. unfold xmax; cbn [xis_nan orb].
      destruct (xltb (Fin x) (Fin m)); eauto. }
    split; [right|]; auto.
Qed.
Lemma weight_nonneg a : 0 <= weight a.
Proof. destruct a; cbn; try lra. left; apply exp_pos. Qed.
Lemma legal_total l : legal_logits l -> 0 < rsum (map weight l).
Proof.
  intros [_ [x H]]. apply (sumf_pos_ex weight l (Fin x)); auto; [intros; apply weight_nonneg|apply exp_pos].
Qed.
Lemma weight_rlog p : 0 <= p -> weight (rlog p) = p.
Proof. intros [H|<-]; [rewrite rlog_pos by auto; apply exp_ln; auto|rewrite rlog_0; reflexivity]. Qed.
Lemma legal_shifted_sum l m : legal_logits l ->
  xsum (map xexp (map (fun x => xsub x (Fin m)) l)) = Fin (rsum (map weight l) / exp m).
Proof.
  intros [H _]. rewrite map_map.
  rewrite (map_ext_in _ (fun a => Fin (weight a / exp m))).
  - rewrite xsum_map_fin. f_equal. unfold Rdiv. rewrite sumf_scal_r. reflexivity.
  - intros a Ha. destruct (H a Ha) as [-> |[x ->]]; cbn; f_equal.
    + unfold Rdiv; ring.
    + rewrite exp_plus, exp_Ropp. reflexivity.
Qed.
Lemma log_softmax_legal l : legal_logits l ->
  log_softmax l = map (fun a => rlog (weight a / rsum (map weight l))) l.
Proof.
  intros H. pose proof (legal_total l H) as HW. destruct (proj2 (xmaxl_legal l (proj1 H)) (proj2 H)) as [m Hm].
  unfold log_softmax. rewrite Hm, legal_shifted_sum by auto. cbn [xlog].
  set (W := rsum (map weight l)) in *.
  assert (HWm : 0 < W / exp m) by (apply Rdiv_lt_0_compat; [auto|apply exp_pos]).
  rewrite rlog_pos by auto. rewrite map_map. apply map_ext_in. intros a Ha.
  destruct (proj1 H a Ha) as [-> |[x ->]]; cbn [weight].
  - replace (0 / W) with 0 by (unfold Rdiv; ring). rewrite rlog_0. reflexivity.
  - rewrite rlog_pos by (apply Rdiv_lt_0_compat; [apply exp_pos|auto]). cbn. f_equal.
    rewrite !ln_quot, !ln_exp by (auto using exp_pos). ring.
Qed.
Lemma softmax_legal l : legal_logits l ->
  softmax l = map (fun a => Fin (weight a / rsum (map weight l))) l.
Proof.
  intros H. pose proof (legal_total l H) as HW. destruct (proj2 (xmaxl_legal l (proj1 H)) (proj2 H)) as [m Hm].
  unfold softmax. rewrite Hm.
  pose proof (legal_shifted_sum l m H) as HS. rewrite map_map in HS. rewrite HS.
  set (W := rsum (map weight l)) in *. rewrite map_map. apply map_ext_in. intros a Ha.
  assert (He := exp_pos m).
  assert (HWm : 0 < W / exp m) by (apply Rdiv_lt_0_compat; auto).
  destruct (proj1 H a Ha) as [-> |[x ->]]; cbn; destruct (Req_EM_T (W / exp m) 0); try lra; f_equal.
  - unfold Rdiv; ring.
  - rewrite exp_plus, exp_Ropp. field. lra.
Qed.
Lemma pmf_nonempty p : is_pmf p -> exists x, In x p /\ 0 < x.
Proof.
  intros [H S]. induction p as [|a p IH]; [cbn in S; lra|].
  destruct (H a (or_introl eq_refl)) as [Ha|Ha]; [exists a; simpl; auto|].
  destruct IH as [x [Hx Hp]]; [intros; apply H; simpl; auto|change (a + rsum p = 1) in S; lra|]. exists x; simpl; auto.
Qed.
Lemma pmf_length p : is_pmf p -> (0 < length p)%nat.
Proof. intros H. destruct (pmf_nonempty p H) as [x [Hx _]]. destruct p; [destruct Hx|cbn; lia]. Qed.
Lemma legal_rlog p : is_pmf p -> legal_logits (map rlog p).
Proof.
  intros H. destruct (pmf_nonempty p H) as [x [Hx Hp]]. split.
  - intros a Ha. apply in_map_iff in Ha as [y [<- Hy]]. destruct (proj1 H y Hy) as [K|<-].
    + right. rewrite rlog_pos by auto. eauto.
    + left; apply rlog_0.
  - exists (ln x). apply in_map_iff. exists x. split; [apply rlog_pos; auto|auto].
Qed.
Lemma weights_rlog p : (forall x, In x p -> 0 <= x) -> map weight (map rlog p) = p.
Proof.
  intros H. rewrite map_map. rewrite (map_ext_in _ (fun x => x)); [apply map_id|].
  intros a Ha. apply weight_rlog; auto.
Qed.
Lemma log_softmax_rlog p : is_pmf p -> log_softmax (map rlog p) = map rlog p.
Proof.
  intros H. rewrite log_softmax_legal by (apply legal_rlog; auto). rewrite weights_rlog by apply H.
  rewrite (proj2 H), map_map. apply map_ext_in. intros a Ha. rewrite weight_rlog by (apply H; auto).
  f_equal. field.
Qed.
Lemma softmax_rlog p : is_pmf p -> softmax (map rlog p) = map Fin p.
Proof.
  intros H. rewrite softmax_legal by (apply legal_rlog; auto). rewrite weights_rlog by apply H.
  rewrite (proj2 H), map_map. apply map_ext_in. intros a Ha. rewrite weight_rlog by (apply H; auto).
  f_equal. field.
Qed.
Lemma normalised_pmf w : legal_probs w -> is_pmf (normalised w).
Proof.
  intros [H S]. split.
  - intros x Hx. apply in_map_iff in Hx as [y [<- Hy]]. apply Rdiv_nonneg; auto.
  - unfold normalised. change (sumf (fun x => x / rsum w) w = 1). unfold Rdiv.
    rewrite sumf_scal_r, <- rsum_sumf. field; lra.
Qed.
Lemma normalize_probs_fin w : 0 < rsum w -> normalize_probs (map Fin w) = map Fin (normalised w).
Proof.
  intros H. unfold normalize_probs, normalised. rewrite xsum_fin, !map_map. apply map_ext. intros a.
  cbn. destruct (Req_EM_T (fold_right Rplus 0 w) 0) as [E|E]; [unfold rsum in H; lra|reflexivity].
Qed.

(** *** one-hot selection *)
Lemma select_from (xs : list XR) v s K : length xs = K ->
  xsum (map2 multiply_no_nan xs (map (fun i => if xeqb v (Fin (INR i)) then Fin 1 else Fin 0) (seq s K))) =
  match v with
  | Fin r => match find (fun i => if Req_EM_T r (INR i) then true else false) (seq s K) with
             | Some i => nth (i - s) xs (Fin 0) | None => Fin 0 end
  | _ => Fin 0
  end.
Proof.
  revert s K. induction xs as [|x xs IH]; intros s K HK.
  { subst K. cbn. destruct v; reflexivity. }
  subst K. cbn [length seq map map2]. rewrite xsum_cons, IH by reflexivity.
  destruct v as [r| | |]; [|cbn [xeqb]; rewrite mnn_0; apply xadd_0_l..].
  cbn [find xeqb]. destruct (Req_EM_T r (INR s)) as [->|Hr].
  - rewrite mnn_1, Nat.sub_diag. cbn [nth].
    destruct (find _ (seq (S s) _)) as [i|] eqn:E.
    + apply find_some in E as [Hin Hi]. apply in_seq in Hin.
      destruct (Req_EM_T (INR s) (INR i)) as [K|]; [apply INR_eq in K; lia|discriminate].
    + apply xadd_0_r.
  - rewrite mnn_0, xadd_0_l. destruct (find _ (seq (S s) _)) as [i|] eqn:E; [|reflexivity].
    apply find_some in E as [Hin _]. apply in_seq in Hin.
    replace (i - s)%nat with (S (i - S s)) by lia. reflexivity.
Qed.
Lemma one_hot_select_nat (xs : list XR) k : (k < length xs)%nat ->
  xsum (map2 multiply_no_nan xs (one_hot (Fin (INR k)) (length xs))) = nth k xs (Fin 0).
Proof.
  intros H. unfold one_hot. rewrite select_from by reflexivity.
  destruct (find _ _) as [i|] eqn:E.
  - apply find_some in E as [_ Hi]. destruct (Req_EM_T (INR k) (INR i)) as [K|]; [|discriminate].
    apply INR_eq in K. subst. rewrite Nat.sub_0_r. reflexivity.
  - exfalso. apply (find_none _ _) with (x := k) in E; [|apply in_seq; lia].
    cbn in E. destruct (Req_EM_T (INR k) (INR k)); [discriminate|congruence].
Qed.
Lemma one_hot_select_none (xs : list XR) v : (forall k, (k < length xs)%nat -> v <> Fin (INR k)) ->
  xsum (map2 multiply_no_nan xs (one_hot v (length xs))) = Fin 0.
Proof.
  intros H. unfold one_hot. rewrite select_from by reflexivity. destruct v as [r| | |]; auto.
  destruct (find _ _) as [i|] eqn:E; [|reflexivity].
  apply find_some in E as [Hin Hi]. apply in_seq in Hin.
  destruct (Req_EM_T r (INR i)) as [->|]; [|discriminate]. exfalso. apply (H i); [lia|reflexivity].
Qed.
Lemma one_hot_indicator k K : one_hot (Fin (INR k)) K = indicator k K.
Proof.
  unfold one_hot, indicator. apply map_ext. intros i. cbn.
  destruct (Req_EM_T (INR k) (INR i)) as [E|E]; destruct (Nat.eqb_spec i k); auto.
  - apply INR_eq in E. congruence.
  - subst; congruence.
Qed.

(** *** argmax *)
Lemma argmax_from_spec l : forall (pre : list XR) best a,
  nth_error pre best = Some a -> a <> NaN -> (forall b, In b l -> b <> NaN) ->
  (forall b, In b pre -> xltb a b = false) ->
  let full := pre ++ l in
  let r := argmax_from best a (length pre) l in
  exists c, nth_error full r = Some c /\ c <> NaN /\ forall b, In b full -> xltb c b = false.
Proof.
  induction l as [|b l IH]; intros pre best a Hn Ha Hl Hmax; cbn zeta.
  - cbn. rewrite app_nil_r. eauto.
  - cbn [argmax_from]. assert (Hb : b <> NaN) by (apply Hl; simpl; auto).
    replace (pre ++ b :: l) with ((pre ++ [b]) ++ l) by (rewrite <- app_assoc; reflexivity).
    replace (S (length pre)) with (length (pre ++ [b])) by (rewrite app_length; cbn; lia).
    assert (Hab : xabove b a = xltb a b) by (unfold xabove; destruct b; auto; congruence).
    rewrite Hab. destruct (xltb a b) eqn:E; apply IH; auto; try (intros; apply Hl; simpl; auto; fail).
    + rewrite nth_error_app2, Nat.sub_diag by lia. reflexivity.
    + intros c Hc. apply in_app_or in Hc as [Hc|[<-|[]]].
      * specialize (Hmax c Hc). destruct a, b, c; cbn in *; try congruence;
          repeat (destruct (Rlt_dec _ _)); try congruence; lra.
      * destruct b; cbn; auto. destruct (Rlt_dec r r); [lra|auto].
    + rewrite nth_error_app1; auto. apply nth_error_Some; congruence.
    + intros c Hc. apply in_app_or in Hc as [Hc|[<-|[]]]; auto.
Qed.
Lemma argmax_spec l : l <> [] -> (forall b, In b l -> b <> NaN) ->
  exists c, nth_error l (argmax l) = Some c /\ forall b, In b l -> xltb c b = false.
Proof.
  destruct l as [|a l]; [congruence|]. intros _ H.
  destruct (argmax_from_spec l [a] 0 a) as [c [H1 [_ H2]]]; auto; try (intros; apply H; simpl; auto).
  - intros b [<-|[]]. assert (a <> NaN) by (apply H; simpl; auto). destruct a; auto. cbn. destruct (Rlt_dec r r); [lra|auto].
  - exists c. split; auto.
Qed.
Lemma xmaxl_spec l : (forall b, In b l -> b <> NaN) ->
  xmaxl l <> NaN /\ (l <> [] -> In (xmaxl l) l) /\ forall b, In b l -> xltb (xmaxl l) b = false.
Proof.
  induction l as [|a l IH]; intros H; [repeat split; [discriminate|congruence|intros ? []]|].
  destruct IH as [I1 [I2 I3]]; [intros; apply H; simpl; auto|].
  assert (Ha : a <> NaN) by (apply H; simpl; auto).
  change (xmaxl (a :: l)) with (xmax a (xmaxl l)).
  assert (E : xmax a (xmaxl l) = if xltb a (xmaxl l) then xmaxl l else a)
    by (unfold xmax; destruct a, (xmaxl l); cbn [xis_nan orb]; congruence).
  rewrite E. destruct (xltb a (xmaxl l)) eqn:L.
  - repeat split; auto.
    + intros _. right. apply I2. intros ->. destruct a; cbn in L; congruence.
    + intros b [<-|Hb]; auto. destruct a, (xmaxl l); cbn in *; try congruence.
      repeat (destruct (Rlt_dec _ _)); try congruence; lra.
  - repeat split; auto; [intros _; simpl; auto|].
    intros b [<-|Hb]; [destruct a; cbn; auto; destruct (Rlt_dec r r); [lra|auto]|].
    specialize (I3 b Hb). assert (b <> NaN) by (apply H; simpl; auto).
    destruct a, (xmaxl l), b; cbn in *; try congruence;
      repeat (destruct (Rlt_dec _ _)); try congruence; lra.
Qed.

(** *** cumsum *)
Lemma cumsum_from_length acc l : length (cumsum_from acc l) = length l.
Proof. revert acc; induction l as [|a l IH]; intros acc; cbn; auto. Qed.
Lemma cumsum_from_nth l : forall s k, (k < length l)%nat ->
  nth k (cumsum_from (Fin s) (map Fin l)) (Fin 0) = Fin (s + rsum (firstn (S k) l)).
Proof.
  induction l as [|a l IH]; intros s k Hk; [cbn in Hk; lia|].
  cbn [map cumsum_from xadd]. destruct k as [|k]; cbn [nth].
  - cbn. f_equal; ring.
  - rewrite IH by (cbn in Hk; lia). cbn [firstn rsum fold_right]. f_equal. unfold rsum. ring.
Qed.
Lemma rsum_firstn (l : list R) k : (k <= length l)%nat -> rsum (firstn k l) = sumf (fun j => nth j l 0) (seq 0 k).
Proof.
  revert k; induction l as [|a l IH]; intros [|k] Hk; cbn in Hk; try lia; auto.
  cbn [firstn seq]. rewrite sumf_cons, sumf_seq_shift. cbn [nth].
  change (rsum (a :: firstn k l)) with (a + rsum (firstn k l)). rewrite IH by lia. reflexivity.
Qed.
