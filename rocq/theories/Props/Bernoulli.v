(** C38 (and the Bernoulli part of C36): Bernoulli. *)
From Coq Require Import Reals List Bool ZArith Lia Lra.
From Verif Require Import Base.Result Base.XR Base.Sums Model.MathUtils Model.ScalarDist Model.Categorical
  Spec.Categorical Proofs.MathUtils Proofs.Categorical.
Import ListNotations.
Local Open Scope R_scope.

(** the probability of 1 given by a logit (any float but NaN) or by probs in [0,1] *)
Definition success_probability (logits probs : option XR) (p : R) : Prop :=
  (probs = None /\ ((exists x, logits = Some (Fin x) /\ p = 1 / (1 + exp (- x))) \/
                    (logits = Some PInf /\ p = 1) \/ (logits = Some NInf /\ p = 0))) \/
  (logits = None /\ probs = Some (Fin p) /\ 0 <= p <= 1).

Lemma xsigmoid_fin x : xsigmoid (Fin x) = Fin (1 / (1 + exp (- x))).
Proof. unfold xsigmoid; cbn. pose proof (exp_pos (- x)). destruct (Req_EM_T (1 + exp (- x)) 0); [lra|reflexivity]. Qed.
Lemma xsigmoid_pinf : xsigmoid PInf = Fin 1.
Proof. unfold xsigmoid; cbn. destruct (Req_EM_T (1 + 0) 0); [lra|f_equal; field]. Qed.
Lemma xsigmoid_ninf : xsigmoid NInf = Fin 0. Proof. reflexivity. Qed.
Lemma xsoftplus_fin x : xsoftplus (Fin x) = Fin (ln (exp x + 1)).
Proof. unfold xsoftplus, xlogaddexp. cbn [xexp xadd xlog]. rewrite exp_0. pose proof (exp_pos x). rewrite rlog_pos by lra. reflexivity. Qed.
Lemma bern_core logits probs dt d p : success_probability logits probs p -> bern_init logits probs dt = Ok d ->
  0 <= p <= 1 /\ bern_probs d = Fin p /\ bern_log_probs_parameter d = (rlog (1 - p), rlog p) /\
  probs_and_log_probs d = (Fin (1 - p), Fin p, rlog (1 - p), rlog p).
Proof.
  intros [[-> [[x [-> ->]]|[[-> ->]|[-> ->]]]]|[-> [-> Hp]]] H;
    (match type of H with bern_init ?a ?b _ = _ =>
       assert (E : d = match a, b with Some l, _ => BLogits l | _, Some p => BProbs p | _, _ => d end)
         by (destruct dt; cbn in H; congruence) end); cbn in E; subst d; clear H.
  - assert (He := exp_pos x). assert (He' := exp_pos (- x)).
    assert (Hq : 1 - 1 / (1 + exp (- x)) = 1 / (1 + exp x)).
    { rewrite exp_Ropp. field. lra. }
    assert (H0 : 0 < 1 / (1 + exp (- x))) by (apply Rdiv_lt_0_compat; lra).
    assert (H1 : 0 < 1 / (1 + exp x)) by (apply Rdiv_lt_0_compat; lra).
    split; [lra|]. cbn [bern_probs bern_log_probs_parameter probs_and_log_probs xmul].
    replace (-1 * x) with (- x) by ring.
    rewrite !xsigmoid_fin, !xsoftplus_fin, Ropp_involutive, Hq. cbn [xopp].
    rewrite !rlog_pos by auto. rewrite !ln_quot, ln_1 by lra.
    replace (1 + exp x) with (exp x + 1) by ring. replace (1 + exp (- x)) with (exp (- x) + 1) by ring.
    repeat split; repeat f_equal; ring.
  - assert (Es : xsoftplus PInf = PInf) by reflexivity.
    cbn [bern_probs bern_log_probs_parameter probs_and_log_probs].
    assert (E1 : xmul (Fin (-1)) PInf = NInf).
    { cbn. unfold inf_times. destruct (Rlt_dec 0 (-1)); [lra|]. destruct (Rlt_dec (-1) 0); [auto|lra]. }
    assert (E2 : xsoftplus NInf = Fin 0).
    { unfold xsoftplus, xlogaddexp. cbn [xexp xadd xlog]. rewrite exp_0, Rplus_0_l, rlog_pos, ln_1 by lra. reflexivity. }
    rewrite E1, Es, E2, xsigmoid_pinf, xsigmoid_ninf. cbn [xopp].
    replace (1 - 1) with 0 by ring. rewrite rlog_0, rlog_pos, ln_1 by lra.
    repeat split; try lra; repeat f_equal; ring.
  - assert (Es : xsoftplus PInf = PInf) by reflexivity.
    cbn [bern_probs bern_log_probs_parameter probs_and_log_probs].
    assert (E1 : xmul (Fin (-1)) NInf = PInf).
    { cbn. unfold inf_times. destruct (Rlt_dec 0 (- -1)); [auto|lra]. }
    assert (E2 : xsoftplus NInf = Fin 0).
    { unfold xsoftplus, xlogaddexp. cbn [xexp xadd xlog]. rewrite exp_0, Rplus_0_l, rlog_pos, ln_1 by lra. reflexivity. }
    rewrite E1, Es, E2, xsigmoid_pinf, xsigmoid_ninf. cbn [xopp].
    replace (1 - 0) with 1 by ring. rewrite rlog_0, rlog_pos, ln_1 by lra.
    repeat split; try lra; repeat f_equal; ring.
  - cbn [bern_probs bern_log_probs_parameter probs_and_log_probs xmul xsub xopp xadd xlog].
    unfold xlog1p. cbn [xadd xlog]. replace (1 + -1 * p) with (1 - p) by ring.
    repeat split; try lra; repeat f_equal; ring.
Qed.

Theorem C38_constructor logits probs dt :
  ((exists d, bern_init logits probs dt = Ok d) <->
   ((logits = None <-> probs <> None) /\ dt <> DOther)) /\
  (forall e, bern_init logits probs dt = Err e -> e = ValueError).
Proof.
  split; [|intros e; destruct logits, probs, dt; cbn; congruence].
  split.
  - intros [d H]. destruct logits, probs, dt; cbn in H; try discriminate; repeat split; intros; auto; congruence.
  - intros [[H1 H2] Hd]. destruct logits as [l|], probs as [p|];
      [exfalso; assert (Some l = None) by (apply H2; discriminate); discriminate| | |exfalso; apply H1; auto];
      destruct dt; cbn; eauto; congruence.
Qed.
(** [logits] are the log-odds of 1, infinite at p = 0 and p = 1, and describe the same distribution. *)
Theorem C38_logits logits probs dt d p : success_probability logits probs p -> bern_init logits probs dt = Ok d ->
  (0 < p < 1 -> bern_logits d = Fin (ln (p / (1 - p)))) /\ (p = 0 -> bern_logits d = NInf) /\ (p = 1 -> bern_logits d = PInf) /\
  success_probability (Some (bern_logits d)) None p.
Proof.
  intros Hp Hd. destruct (bern_core _ _ _ _ _ Hp Hd) as [[B1 B2] _].
  assert (G : (0 < p < 1 -> bern_logits d = Fin (ln (p / (1 - p)))) /\ (p = 0 -> bern_logits d = NInf) /\ (p = 1 -> bern_logits d = PInf)).
  { destruct Hp as [[-> [[x [-> ->]]|[[-> ->]|[-> ->]]]]|[-> [-> _]]];
      (match type of Hd with bern_init ?a ?b _ = _ =>
         assert (E : d = match a, b with Some l, _ => BLogits l | _, Some p => BProbs p | _, _ => d end)
           by (destruct dt; cbn in Hd; congruence) end); cbn in E; subst d; clear Hd; cbn [bern_logits].
    - assert (He := exp_pos x). assert (He' := exp_pos (- x)).
      assert (Q : 1 / (1 + exp (- x)) / (1 - 1 / (1 + exp (- x))) = exp x).
      { assert (I : exp x * exp (- x) = 1) by (rewrite <- exp_plus, Rplus_opp_r; apply exp_0).
        replace (1 - 1 / (1 + exp (- x))) with (exp (- x) / (1 + exp (- x))) by (field; lra).
        unfold Rdiv. rewrite Rinv_mult, Rinv_inv. replace (exp x) with (/ exp (- x)); [field; lra|].
        apply (Rmult_eq_reg_r (exp (- x))); [|lra]. rewrite Rinv_l; lra. }
      assert (P : 0 < 1 / (1 + exp (- x)) < 1).
      { split; [apply Rdiv_lt_0_compat; lra|]. apply (Rmult_lt_reg_r (1 + exp (- x))); [lra|]. unfold Rdiv. rewrite Rmult_1_l, Rinv_l; lra. }
      repeat split; intros; try lra. rewrite Q, ln_exp. reflexivity.
    - repeat split; intros; try lra.
    - repeat split; intros; try lra.
    - change (xsub (Fin 1) (Fin p)) with (Fin (1 - p)). cbn [xlog]. repeat split; intros H.
      + rewrite !rlog_pos by lra. unfold xsub. cbn [xopp xadd]. rewrite ln_quot by lra. reflexivity.
      + subst p. rewrite rlog_0. replace (1 - 0) with 1 by ring. rewrite rlog_pos by lra. reflexivity.
      + subst p. replace (1 - 1) with 0 by ring. rewrite rlog_0, rlog_pos by lra. reflexivity. }
  destruct G as (G1 & G2 & G3). split; [auto|]. split; [auto|]. split; [auto|]. left. split; auto.
  destruct (Req_EM_T p 0) as [Z|Z]; [right; right; rewrite G2; auto|].
  destruct (Req_EM_T p 1) as [O|O]; [right; left; rewrite G3; auto|].
  left. exists (ln (p / (1 - p))). rewrite G1 by lra. split; auto.
  rewrite <- ln_Rinv by (apply Rdiv_lt_0_compat; lra). rewrite exp_ln by (apply Rinv_0_lt_compat, Rdiv_lt_0_compat; lra).
  field. lra.
Qed.
(** prob and log_prob on the support, whatever the parametrisation *)
Theorem C38_prob logits probs dt d p : success_probability logits probs p -> bern_init logits probs dt = Ok d ->
  0 <= p <= 1 /\ bern_probs d = Fin p /\
  bern_prob d (Fin 1) = Fin p /\ bern_prob d (Fin 0) = Fin (1 - p) /\
  bern_log_prob d (Fin 1) = rlog p /\ bern_log_prob d (Fin 0) = rlog (1 - p).
Proof.
  intros Hp Hd. destruct (bern_core _ _ _ _ _ Hp Hd) as [H1 [H2 [H3 _]]].
  split; [auto|]. split; [auto|]. unfold bern_prob, bern_log_prob. rewrite H2, H3.
  replace (xsub (Fin 1) (Fin 1)) with (Fin 0) by (cbn; f_equal; ring).
  replace (xsub (Fin 1) (Fin 0)) with (Fin 1) by (cbn; f_equal; ring).
  rewrite !mnn_0, !mnn_1, !xadd_0_l, !xadd_0_r. repeat split.
Qed.
(** the cdf is the step function on the whole line; log_cdf its log *)
Theorem C38_cdf logits probs dt d p v : success_probability logits probs p -> bern_init logits probs dt = Ok d ->
  bern_cdf d (Fin v) = Fin (if Rlt_dec v 0 then 0 else if Rle_dec 1 v then 1 else 1 - p) /\
  bern_log_cdf d (Fin v) = xlog (bern_cdf d (Fin v)).
Proof.
  intros Hp Hd. destruct (bern_core _ _ _ _ _ Hp Hd) as [H1 [H2 _]]. split; [|reflexivity].
  unfold bern_cdf. rewrite H2. destruct (Rlt_dec v 0) as [L|L].
  - apply xltb_fin in L. rewrite L. reflexivity.
  - apply Rnot_lt_le, xltb_fin_f in L. rewrite L. destruct (Rle_dec 1 v) as [K|K].
    + apply xleb_fin in K. rewrite K. reflexivity.
    + apply Rnot_le_lt, xleb_fin_f in K. rewrite K. reflexivity.
Qed.
(** mean, variance (of the variable that is 1 with probability p), mode *)
Theorem C38_moments logits probs dt d p : success_probability logits probs p -> bern_init logits probs dt = Ok d ->
  bern_mean d = Fin (0 * (1 - p) + 1 * p) /\
  bern_variance d = Fin ((0 - p) ^ 2 * (1 - p) + (1 - p) ^ 2 * p) /\
  bern_mode d = Fin (if Rlt_dec (1 / 2) p then 1 else 0).
Proof.
  intros Hp Hd. destruct (bern_core _ _ _ _ _ Hp Hd) as [H1 [H2 _]].
  unfold bern_mean, bern_variance, bern_mode. rewrite H2. repeat split.
  - f_equal; ring.
  - cbn. f_equal; ring.
  - cbn [xltb]. destruct (Rlt_dec (1 / 2) p); reflexivity.
Qed.
(** a uniform draw u in [0,1) below p gives 1: samples lie in {0,1} and impossible values never occur *)
Theorem C38_sample logits probs dt d p u : success_probability logits probs p -> bern_init logits probs dt = Ok d ->
  0 <= u < 1 ->
  bern_sample (Fin u) d = Fin (if Rlt_dec u p then 1 else 0) /\
  (p = 0 -> bern_sample (Fin u) d = Fin 0) /\ (p = 1 -> bern_sample (Fin u) d = Fin 1).
Proof.
  intros Hp Hd Hu. destruct (bern_core _ _ _ _ _ Hp Hd) as [H1 [H2 _]].
  unfold bern_sample. rewrite H2. cbn [xltb]. destruct (Rlt_dec u p); repeat split; auto; intros; lra.
Qed.
Lemma bern_entropy_core logits probs dt d p : success_probability logits probs p -> bern_init logits probs dt = Ok d ->
  bern_entropy d = Fin (shannon_entropy [1 - p; p]).
Proof.
  intros Hp Hd. destruct (bern_core _ _ _ _ _ Hp Hd) as [H1 [_ [_ H4]]]. unfold bern_entropy. rewrite H4.
  assert (T : forall x, 0 <= x -> multiply_no_nan (rlog x) (Fin x) = Fin (xlnx x)).
  { intros x Hx. unfold xlnx. destruct (Req_EM_T x 0) as [->|]; [apply mnn_0|].
    rewrite rlog_pos by lra. rewrite mnn_fin. f_equal; ring. }
  rewrite !T by lra. cbn [xadd xmul]. unfold shannon_entropy, rsum. cbn [map fold_right]. f_equal. ring.
Qed.
Lemma bern_pmf p : 0 <= p <= 1 -> is_pmf [1 - p; p].
Proof. intros H. split; [intros x [<-|[<-|[]]]; lra|unfold rsum; cbn; ring]. Qed.
Theorem C38_entropy logits probs dt d p : success_probability logits probs p -> bern_init logits probs dt = Ok d ->
  bern_entropy d = Fin (- xlnx p - xlnx (1 - p)) /\ 0 <= - xlnx p - xlnx (1 - p) <= ln 2.
Proof.
  intros Hp Hd. destruct (bern_core _ _ _ _ _ Hp Hd) as [H1 _].
  assert (E : shannon_entropy [1 - p; p] = - xlnx p - xlnx (1 - p))
    by (unfold shannon_entropy, rsum; cbn [map fold_right]; ring).
  rewrite <- E. split; [eapply bern_entropy_core; eauto|].
  split; [apply entropy_nonneg, bern_pmf; auto|]. exact (entropy_le_log _ (bern_pmf p H1)).
Qed.
Definition bern_kl_value (p q : R) : R := kullback_leibler [1 - p; p] [1 - q; q].
Lemma bern_kl_core l1 p1 dt1 d1 p l2 p2 dt2 d2 q :
  success_probability l1 p1 p -> bern_init l1 p1 dt1 = Ok d1 -> success_probability l2 p2 q -> bern_init l2 p2 dt2 = Ok d2 ->
  (absolutely_continuous [1 - p; p] [1 - q; q] -> bern_kl d1 d2 = Fin (kullback_leibler [1 - p; p] [1 - q; q])) /\
  (~ absolutely_continuous [1 - p; p] [1 - q; q] -> bern_kl d1 d2 = PInf).
Proof.
  intros Hp Hd1 Hq Hd2. destruct (bern_core _ _ _ _ _ Hp Hd1) as [H1 [_ [_ E1]]].
  destruct (bern_core _ _ _ _ _ Hq Hd2) as [H2 [_ [_ E2]]]. unfold bern_kl. rewrite E1, E2.
  assert (T : forall x, 0 <= x -> multiply_no_nan (rlog x) (Fin x) = Fin (x * ln x)).
  { intros x [Hx|<-]; [rewrite rlog_pos by lra; rewrite mnn_fin; f_equal; ring|rewrite mnn_0; f_equal; ring]. }
  assert (C : forall x y, 0 <= x -> 0 <= y -> (0 < x -> 0 < y) -> multiply_no_nan (rlog y) (Fin x) = Fin (x * ln y)).
  { intros x y [Hx|<-] Hy Hc; [|rewrite mnn_0; f_equal; ring]. rewrite rlog_pos by auto. rewrite mnn_fin. f_equal; ring. }
  assert (N : forall x, 0 < x -> multiply_no_nan (rlog 0) (Fin x) = NInf).
  { intros x Hx. rewrite rlog_0. unfold multiply_no_nan. cbn. destruct (Req_EM_T x 0); [lra|].
    unfold inf_times. destruct (Rlt_dec 0 (- x)); [lra|]. destruct (Rlt_dec (- x) 0); [auto|lra]. }
  assert (K : forall x y, 0 <= x -> 0 <= y -> (0 < x -> 0 < y) -> kl_term (x, y) = x * ln x - x * ln y).
  { intros x y [Hx|<-] Hy Hc; unfold kl_term; [|destruct (Req_EM_T 0 0); [ring|lra]].
    destruct (Req_EM_T x 0); [lra|]. rewrite ln_quot by auto. ring. }
  split; intros Hac.
  - assert (A0 : 0 < 1 - p -> 0 < 1 - q) by (intros H; apply (Hac 0%nat); auto).
    assert (A1 : 0 < p -> 0 < q) by (intros H; apply (Hac 1%nat); auto).
    rewrite !T, !C by (auto; lra). unfold kullback_leibler, rsum. cbn [combine map fold_right xsub xopp xadd].
    rewrite !K by (auto; lra). f_equal. ring.
  - assert (D : (0 < 1 - p /\ q = 1) \/ (0 < p /\ q = 0)).
    { destruct (Rlt_dec 0 (1 - p)) as [P0|P0].
      - destruct (Req_dec q 1) as [Q1|Q1]; [left; auto|].
        destruct (Rlt_dec 0 p) as [P1|P1]; [destruct (Req_dec q 0) as [Q0|Q0]; [right; auto|]|].
        + exfalso; apply Hac. intros [|[|[|k]]] H; cbn in *; lra.
        + exfalso; apply Hac. intros [|[|[|k]]] H; cbn in *; lra.
      - destruct (Req_dec q 0) as [Q0|Q0]; [right; split; auto; lra|].
        exfalso; apply Hac. intros [|[|[|k]]] H; cbn in *; lra. }
    rewrite !T by lra.
    assert (F : forall x y, 0 <= x -> 0 <= y -> multiply_no_nan (rlog y) (Fin x) = NInf \/ exists z, multiply_no_nan (rlog y) (Fin x) = Fin z).
    { intros x y [Hx|<-] Hy; [|right; eexists; apply mnn_0]. destruct Hy as [Hy|<-]; [|left; auto].
      right. rewrite rlog_pos by auto. eexists; apply mnn_fin. }
    destruct D as [[P0 ->]|[P1 ->]].
    + replace (1 - 1) with 0 by ring. rewrite (N (1 - p)) by auto.
      destruct (F p 1) as [-> |[z ->]]; try lra; reflexivity.
    + rewrite (N p) by auto. destruct (F (1 - p) (1 - 0)) as [-> |[z ->]]; try lra; reflexivity.
Qed.
Theorem C38_kl l1 p1 dt1 d1 p l2 p2 dt2 d2 q :
  success_probability l1 p1 p -> bern_init l1 p1 dt1 = Ok d1 -> success_probability l2 p2 q -> bern_init l2 p2 dt2 = Ok d2 ->
  let kl := kl_term (p, q) + kl_term (1 - p, 1 - q) in
  (((0 < p /\ q = 0) \/ (p < 1 /\ q = 1)) -> bern_kl d1 d2 = PInf) /\
  (~ ((0 < p /\ q = 0) \/ (p < 1 /\ q = 1)) -> bern_kl d1 d2 = Fin kl /\ 0 <= kl /\ (kl = 0 <-> p = q)).
Proof.
  intros Hp Hd1 Hq Hd2 kl. destruct (bern_core _ _ _ _ _ Hp Hd1) as [H1 _].
  destruct (bern_core _ _ _ _ _ Hq Hd2) as [H2 _].
  destruct (bern_kl_core _ _ _ _ _ _ _ _ _ _ Hp Hd1 Hq Hd2) as [F I].
  assert (E : kl = kullback_leibler [1 - p; p] [1 - q; q])
    by (unfold kullback_leibler, rsum, kl; cbn [combine map fold_right]; ring).
  split; intros H.
  - apply I. intros Hac. destruct H as [[A B]|[A B]].
    + specialize (Hac 1%nat). cbn in Hac. lra.
    + specialize (Hac 0%nat). cbn in Hac. lra.
  - assert (Hac : absolutely_continuous [1 - p; p] [1 - q; q]).
    { intros [|[|[|k]]] K; cbn in K |- *; try lra. }
    rewrite E. pose proof (bern_pmf p H1) as P. pose proof (bern_pmf q H2) as Q.
    split; [auto|]. split; [apply gibbs; auto|].
    rewrite gibbs_eq by auto. split; [intros K; injection K; auto|intros ->; auto].
Qed.
(** Bernoulli and Categorical agree: the Categorical over {0,1} with probs [1-p, p] has the same probabilities,
    entropy and KL divergence. *)
Lemma bern_cat p dt d : 0 <= p <= 1 -> cat_init None (Some [Fin (1 - p); Fin p]) dt = Ok d -> represents d [1 - p; p].
Proof.
  intros Hp Hd.
  assert (Hw : parametrises None (Some [Fin (1 - p); Fin p]) [1 - p; p]).
  { right. repeat split; auto; [intros x [<-|[<-|[]]]; lra|unfold rsum; cbn; lra]. }
  pose proof (init_represents _ _ _ _ _ Hw Hd) as R. unfold normalised, rsum in R. cbn in R.
  replace ((1 - p) / (1 - p + (p + 0))) with (1 - p) in R by (field; lra).
  replace (p / (1 - p + (p + 0))) with p in R by (field; lra). exact R.
Qed.
Theorem C36_bernoulli_categorical_agree l1 p1 dt1 b1 p l2 p2 dt2 b2 q dc1 dc2 c1 c2 :
  success_probability l1 p1 p -> bern_init l1 p1 dt1 = Ok b1 -> success_probability l2 p2 q -> bern_init l2 p2 dt2 = Ok b2 ->
  cat_init None (Some [Fin (1 - p); Fin p]) dc1 = Ok c1 -> cat_init None (Some [Fin (1 - q); Fin q]) dc2 = Ok c2 ->
  bern_entropy b1 = cat_entropy c1 /\ cat_kl c1 c2 = Ok (bern_kl b1 b2) /\
  (forall v, v = 0%Z \/ v = 1%Z ->
     bern_prob b1 (Fin (IZR v)) = cat_prob c1 (Fin (IZR v)) /\ bern_log_prob b1 (Fin (IZR v)) = cat_log_prob c1 (Fin (IZR v)) /\
     bern_cdf b1 (Fin (IZR v)) = cat_cdf c1 (Fin (IZR v))).
Proof.
  intros Hp Hb1 Hq Hb2 Hc1 Hc2. destruct (bern_core _ _ _ _ _ Hp Hb1) as [H1 _].
  destruct (bern_core _ _ _ _ _ Hq Hb2) as [H2 _].
  pose proof (bern_cat p dc1 c1 H1 Hc1) as R1. pose proof (bern_cat q dc2 c2 H2 Hc2) as R2.
  split; [|split].
  - rewrite (rep_entropy _ _ R1). eapply bern_entropy_core; eauto.
  - destruct (bern_kl_core _ _ _ _ _ _ _ _ _ _ Hp Hb1 Hq Hb2) as [F I].
    destruct (rep_kl c1 c2 _ _ R1 R2 eq_refl) as [F' I'].
    destruct (Rlt_dec 0 (1 - p)) as [P0|P0], (Rlt_dec 0 (1 - q)) as [Q0|Q0], (Rlt_dec 0 p) as [P1|P1], (Rlt_dec 0 q) as [Q1|Q1];
      try lra;
      try (assert (Hac : absolutely_continuous [1 - p; p] [1 - q; q]) by (intros [|[|[|k]]] K; cbn in *; lra);
           rewrite F, F' by auto; reflexivity);
      (assert (Hac : ~ absolutely_continuous [1 - p; p] [1 - q; q])
         by (intros K; first [assert (0 < 1 - q) by (apply (K 0%nat); cbn; lra); lra | assert (0 < q) by (apply (K 1%nat); cbn; lra); lra]);
       rewrite I, I' by auto; reflexivity).
  - destruct (C38_prob _ _ _ _ _ Hp Hb1) as [_ [_ [A1 [A0 [B1 B0]]]]].
    intros v Hv. rewrite (rep_prob _ _ R1), (rep_log_prob _ _ R1), (rep_cdf _ _ R1).
    destruct (C38_cdf _ _ _ _ _ (IZR v) Hp Hb1) as [-> _].
    destruct Hv as [-> | ->].
    + change (IZR 0) with 0. rewrite A0, B0. split; [reflexivity|]. split; [reflexivity|].
      change (cumulative [1 - p; p] 0) with (1 - p + 0).
      destruct (Rlt_dec 0 0); [lra|]. destruct (Rle_dec 1 0); [lra|]. f_equal; ring.
    + change (IZR 1) with 1. rewrite A1, B1. split; [reflexivity|]. split; [reflexivity|].
      change (cumulative [1 - p; p] 1) with (1 - p + (p + 0)).
      destruct (Rlt_dec 1 0); [lra|]. destruct (Rle_dec 1 1); [|lra]. f_equal; ring.
Qed.
(** Outside {0,1} prob is not a probability: at 2 it is 3p - 1, negative for every p < 1/3. *)
Theorem C38_outside_support logits probs dt d p : success_probability logits probs p -> bern_init logits probs dt = Ok d ->
  bern_prob d (Fin 2) = Fin (3 * p - 1).
Proof.
  intros Hp Hd. destruct (bern_core _ _ _ _ _ Hp Hd) as [H1 [H2 _]].
  unfold bern_prob. rewrite H2. cbn [xsub xopp xadd]. rewrite !mnn_fin. cbn. f_equal; ring.
Qed.
Example C38_nonvacuous_logits : success_probability (Some (Fin 0)) None (1 / 2).
Proof. left. split; auto. left. exists 0. split; auto. rewrite Ropp_0, exp_0. reflexivity. Qed.
Example C38_nonvacuous_inf : success_probability (Some NInf) None 0. Proof. left; auto. Qed.
Example C38_nonvacuous_probs : success_probability None (Some (Fin (3 / 4))) (3 / 4). Proof. right; repeat split; auto; lra. Qed.

Print Assumptions C38_constructor. Print Assumptions C38_prob. Print Assumptions C38_cdf. Print Assumptions C38_moments.
Print Assumptions C38_sample. Print Assumptions C38_entropy. Print Assumptions C38_kl. Print Assumptions C36_bernoulli_categorical_agree.
Print Assumptions C38_outside_support.
