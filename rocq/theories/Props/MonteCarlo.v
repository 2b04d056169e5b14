(** C66: importance sampling ratios and Monte Carlo estimators. *)
From Coq Require Import Reals List Arith Bool Lia Lra ZArith.
From Verif Require Import Base.Result Base.XR Base.Sums Base.Tensor Base.Lift Model.ArrayDist Model.MathUtils Model.Compose Model.MonteCarlo
  Spec.FiniteLaw Spec.Univariate Spec.MonteCarlo Proofs.MathUtils Proofs.FiniteLaw Proofs.Univariate.
Import ListNotations.
Local Open Scope R_scope.

(** ** Lemmas *)
Lemma full_holds t s : wf t -> shp t = s -> holds t s (tget (Fin 0) t).
Proof. intros W E. split; [auto|]. split; auto. Qed.
Lemma mean_axis0_ok t n s v : holds t (n :: s) v ->
  exists r, mean_axis0 t = Ok r /\ holds r s (fun b => xdiv (xsum (map (fun i => v (i :: b)) (seq 0 n))) (Fin (INR n))).
Proof.
  intros (W & E & H). unfold mean_axis0. rewrite E. eexists. split; [reflexivity|]. apply holds_tgen. intros b Hb.
  do 2 f_equal. apply map_ext_in. intros i Hi. apply in_seq in Hi. apply H. apply inb_cons. split; [lia|auto].
Qed.
Lemma map_seq_nth {X Y} (l : list X) (f : nat -> Y) (g : X -> Y) :
  (forall i x, nth_error l i = Some x -> f i = g x) -> map f (seq 0 (length l)) = map g l.
Proof.
  revert f. induction l as [|x l IH]; intros f H; [reflexivity|]. cbn [length seq map]. f_equal; [apply (H O); reflexivity|].
  rewrite <- seq_shift, map_map. apply IH. intros i y Hy. apply (H (S i)). exact Hy.
Qed.
Lemma expect_iid_sum {X} (f : X -> R) (q : law X) n : is_law q -> expect (fun l => sumf f l) (iid n q) = INR n * expect f q.
Proof.
  intros Hq. unfold iid. induction n as [|n IH].
  - cbn [repeat]. rewrite expect_nil. unfold sumf; cbn. lra.
  - cbn [repeat]. rewrite expect_cons.
    rewrite (expect_ext _ (fun a => f a + INR n * expect f q)).
    + rewrite expect_plus, (expect_const _ q Hq), S_INR. ring.
    + intros a w _. rewrite <- IH. rewrite <- (expect_const (f a) (independent (repeat q n))) at 1
        by (apply independent_is_law; intros m' Hm'; apply repeat_spec in Hm'; subst; auto).
      rewrite <- expect_plus. apply expect_ext. intros l u _. reflexivity.
Qed.
Lemma sumf_xsum {X} (f : X -> R) (l : list X) : xsum (map (fun x => Fin (f x)) l) = Fin (sumf f l).
Proof. rewrite <- (map_map f Fin), xsum_fin. reflexivity. Qed.
Lemma xsum_nan l : In NaN l -> xsum l = NaN.
Proof.
  induction l as [|a l IH]; intros H; [destruct H|]. cbn. fold (xsum l). destruct H as [->|H]; [reflexivity|]. rewrite IH by auto.
  destruct a; reflexivity.
Qed.

Section Est.
Context {K X : Type}.
Notation dist := (pdist K (tensor XR)).

(** the arrays a key produces: samples, and log-probabilities of shape n :: bs *)
Definition produces (q a b : dist) (key : K) (n : nat) (bs : shape) (lq la lb : tensor XR) : Prop :=
  exists s, p_salp q key n = Ok (s, lq) /\ p_log_prob a s = Ok la /\ p_log_prob b s = Ok lb /\
    (wf lq /\ shp lq = n :: bs) /\ (wf la /\ shp la = n :: bs) /\ (wf lb /\ shp lb = n :: bs).

Lemma kl_entry (q a b : dist) key n bs lq la lb : produces q a b key n bs lq la lb ->
  exists r, mc_estimate_kl a b key n (Some q) = Ok r /\ holds r bs (fun idx =>
    xdiv (xsum (map (fun i => xmul (xopp (xexp (xsub (tget (Fin 0) la (i :: idx)) (tget (Fin 0) lq (i :: idx)))))
                               (xsub (tget (Fin 0) lb (i :: idx)) (tget (Fin 0) la (i :: idx)))) (seq 0 n))) (Fin (INR n))).
Proof.
  intros (s & E1 & E2 & E3 & (Wq & Sq) & (Wa & Sa) & (Wb & Sb)). unfold mc_estimate_kl. rewrite E1. cbn [rbind]. rewrite E2. cbn [rbind]. rewrite E3. cbn [rbind].
  pose proof (full_holds _ _ Wq Sq) as Hq. pose proof (full_holds _ _ Wa Sa) as Ha. pose proof (full_holds _ _ Wb Sb) as Hb.
  destruct (lift2_holds xsub la lq _ _ _ (holds_reads _ _ _ Ha) (holds_reads _ _ _ Hq) (or_introl Sa)) as (d & -> & Hd). cbn [rbind].
  destruct (lift1_holds xexp _ _ _ Hd) as (w & -> & Hw). cbn [rbind].
  destruct (lift2_holds xsub lb la _ _ _ (holds_reads _ _ _ Hb) (holds_reads _ _ _ Ha) (or_introl Sb)) as (lr & -> & Hlr). cbn [rbind].
  destruct (lift1_holds xopp _ _ _ Hw) as (mw & -> & Hmw). cbn [rbind].
  destruct (lift2_holds xmul mw lr _ _ _ (holds_reads _ _ _ Hmw) (holds_reads _ _ _ Hlr) (or_introl (proj1 (proj2 Hmw)))) as (k & -> & Hk). cbn [rbind].
  destruct (mean_axis0_ok _ _ _ _ Hk) as (r & -> & Hr). exists r. split; [auto|exact Hr].
Qed.

(** ** The weights *)
(** Ratios of the two masses, one per draw *)
Theorem C66_ratios (target sampling : dist) event s lp lm (p q : list nat -> R) :
  p_log_prob target event = Ok lp -> p_log_prob sampling event = Ok lm ->
  holds lp s (fun i => rlog (p i)) -> holds lm s (fun i => rlog (q i)) ->
  (forall i, inb s i -> 0 <= p i /\ 0 < q i) ->
  exists r, importance_sampling_ratios target sampling event = Ok r /\ holds r s (fun i => Fin (p i / q i)).
Proof.
  intros E1 E2 Hp Hq Hpos. unfold importance_sampling_ratios. rewrite E1. cbn [rbind]. rewrite E2. cbn [rbind].
  destruct (lift2_holds xsub lp lm _ _ _ (holds_reads _ _ _ Hp) (holds_reads _ _ _ Hq) (or_introl (proj1 (proj2 Hp)))) as (d & -> & Hd). cbn [rbind].
  destruct (lift1_holds xexp _ _ _ Hd) as (r & -> & Hr). exists r. split; [auto|]. apply (holds_ext _ _ _ _ Hr).
  intros i Hi. destruct (Hpos i Hi) as [[P|P] Q]; cbv beta.
  - rewrite !rlog_pos by auto. cbn. unfold Rminus. rewrite exp_plus, exp_Ropp, !exp_ln by auto. reflexivity.
  - rewrite <- P. rewrite rlog_0, rlog_pos by auto. cbn. f_equal. unfold Rdiv. ring.
Qed.
(** A zero-probability sampling event gives an infinite weight, or NaN when the target cannot produce it either. *)
Theorem C66_ratios_edge (target sampling : dist) event s lp lm (p : list nat -> R) :
  p_log_prob target event = Ok lp -> p_log_prob sampling event = Ok lm ->
  holds lp s (fun i => rlog (p i)) -> holds lm s (fun _ => NInf) -> (forall i, inb s i -> 0 <= p i) ->
  exists r, importance_sampling_ratios target sampling event = Ok r /\
    holds r s (fun i => if Rlt_dec 0 (p i) then PInf else NaN).
Proof.
  intros E1 E2 Hp Hq Hpos. unfold importance_sampling_ratios. rewrite E1. cbn [rbind]. rewrite E2. cbn [rbind].
  destruct (lift2_holds xsub lp lm _ _ _ (holds_reads _ _ _ Hp) (holds_reads _ _ _ Hq) (or_introl (proj1 (proj2 Hp)))) as (d & -> & Hd). cbn [rbind].
  destruct (lift1_holds xexp _ _ _ Hd) as (r & -> & Hr). exists r. split; [auto|]. apply (holds_ext _ _ _ _ Hr).
  intros i Hi. pose proof (Hpos i Hi). cbv beta. destruct (Rlt_dec 0 (p i)).
  - rewrite rlog_pos by auto. reflexivity.
  - replace (p i) with 0 by lra. rewrite rlog_0. reflexivity.
Qed.
(** Weighting by the ratios turns expectations under the sampling law into expectations under the target law. *)
Theorem C66_ratios_unbiased (xs : list X) (p q g : X -> R) :
  (forall x, In x xs -> 0 < q x) ->
  expect (fun x => p x / q x * g x) (mass_law xs q) = expect g (mass_law xs p).
Proof.
  intros Hq. unfold expect, mass_law. rewrite !sumf_map. apply sumf_ext. intros x Hx. cbn. pose proof (Hq x Hx). field. lra.
Qed.

(** ** The KL estimators *)
Section KL.
Variables (q a b : dist) (n : nat) (bs : shape) (idx : list nat).
Variables (xs : list X) (fq fa fb : X -> R) (m : law K) (draw : K -> list X).
Hypothesis Hn : (0 < n)%nat.
Hypothesis Hidx : inb bs idx.
Hypothesis Hlaw : is_law (mass_law xs fq).
Hypothesis Hdraw : draws_iid m draw n (mass_law xs fq).
Hypothesis Hfb : forall x, In x xs -> 0 < fb x.

Lemma INRn : 0 < INR n. Proof. apply lt_0_INR; auto. Qed.
Lemma in_mass (f : X -> R) x u : In (x, u) (mass_law xs f) -> In x xs.
Proof. intros H. apply in_map_iff in H as [y [E Hy]]. injection E as <- _. auto. Qed.
Lemma draws_in key w x : In (key, w) m -> In x (draw key) -> In x xs.
Proof. intros Hk Hx. destruct Hdraw as [H _]. destruct (H key w Hk) as [_ H']. destruct (H' x Hx) as [u Hu]. apply (in_mass _ _ _ Hu). Qed.
Lemma expect_mean (f : X -> R) (F : K -> R) :
  (forall key w, In (key, w) m -> F key = sumf f (draw key) / INR n) -> expect F m = expect f (mass_law xs fq).
Proof.
  intros H. rewrite (expect_ext _ (fun key => / INR n * sumf f (draw key))).
  - rewrite expect_scal. destruct Hdraw as [_ Hd]. rewrite (Hd (fun l => sumf f l)), expect_iid_sum by auto.
    pose proof INRn. field. lra.
  - intros key w Hk. rewrite (H key w Hk). unfold Rdiv. ring.
Qed.

(** the DiCE term of a draw *)
Definition dice x := fa x / fq x * ln (fa x / fb x).
Lemma dice_term x : 0 < fq x -> 0 < fa x -> 0 < fb x ->
  xmul (xopp (xexp (xsub (rlog (fa x)) (rlog (fq x))))) (xsub (rlog (fb x)) (rlog (fa x))) = Fin (dice x).
Proof.
  intros Q A B. rewrite !rlog_pos by auto. cbn. unfold dice. f_equal.
  rewrite exp_plus, exp_Ropp, !exp_ln by auto. unfold Rdiv. rewrite ln_mult by (auto; apply Rinv_0_lt_compat; auto).
  rewrite ln_Rinv by auto. ring.
Qed.
Hypothesis Hfq : forall x, In x xs -> 0 < fq x.

(** The full claim allows outcomes of the proposal that [distribution_a] never produces; missing here: [fa x = 0]
    (refuted below). *)
Theorem C66_kl_proposal_partial :
  (forall x, In x xs -> 0 < fa x) ->
  (forall key w, In (key, w) m -> exists lq la lb, produces q a b key n bs lq la lb /\
     log_masses lq n idx (draw key) fq /\ log_masses la n idx (draw key) fa /\ log_masses lb n idx (draw key) fb) ->
  (forall key w, In (key, w) m -> finite (entry (mc_estimate_kl a b key n (Some q)) idx)) /\
  expect (fun key => toR (entry (mc_estimate_kl a b key n (Some q)) idx)) m = kl_finite xs fa fb.
Proof.
  intros Hfa Hprod.
  assert (E : forall key w, In (key, w) m -> entry (mc_estimate_kl a b key n (Some q)) idx = Fin (sumf dice (draw key) / INR n)).
  { intros key w Hk. destruct (Hprod key w Hk) as (lq & la & lb & Hp & Lq & La & Lb).
    destruct (kl_entry _ _ _ _ _ _ _ _ _ Hp) as (r & -> & (_ & _ & Hr)). cbn [entry]. rewrite Hr by auto.
    destruct Hdraw as [Hd _]. destruct (Hd key w Hk) as [Hlen _].
    rewrite <- Hlen at 1. rewrite (map_seq_nth _ _ (fun x => Fin (dice x))).
    - rewrite sumf_xsum. cbn. pose proof INRn. destruct (Req_EM_T (INR n) 0); [lra|]. reflexivity.
    - intros i x Hx. rewrite (Lq _ _ Hx), (La _ _ Hx), (Lb _ _ Hx).
      assert (In x xs) by (apply (draws_in key w); auto; apply nth_error_In in Hx; auto). apply dice_term; auto. }
  split; [intros key w Hk; rewrite (E key w Hk); eexists; reflexivity|].
  rewrite (expect_mean dice); [|intros key w Hk; rewrite (E key w Hk); reflexivity].
  unfold expect, mass_law, kl_finite. rewrite sumf_map. apply sumf_ext. intros x Hx. cbn. unfold dice.
  pose proof (Hfq x Hx). pose proof (Hfa x Hx). pose proof (Hfb x Hx). generalize (ln (fa x / fb x)). intros l. field. lra.
Qed.
(** One draw that [distribution_a] cannot produce spoils the estimate: the weight is 0 but the log-ratio infinite. *)
Theorem C66_kl_proposal_refuted key w lq la lb x :
  In (key, w) m -> produces q a b key n bs lq la lb ->
  log_masses lq n idx (draw key) fq -> log_masses la n idx (draw key) fa -> log_masses lb n idx (draw key) fb ->
  In x (draw key) -> fa x = 0 ->
  entry (mc_estimate_kl a b key n (Some q)) idx = NaN.
Proof.
  intros Hk Hp Lq La Lb Hx Hz. destruct (kl_entry _ _ _ _ _ _ _ _ _ Hp) as (r & -> & (_ & _ & Hr)). cbn [entry]. rewrite Hr by auto.
  rewrite xsum_nan; [reflexivity|]. apply In_nth_error in Hx as [i Hi]. apply in_map_iff. exists i.
  assert (In x xs) by (apply (draws_in key w); auto; apply nth_error_In in Hi; auto).
  destruct Hdraw as [Hd _]. destruct (Hd key w Hk) as [Hlen _].
  split; [|apply in_seq; split; [lia|]; rewrite <- Hlen; cbn; apply nth_error_Some; congruence].
  rewrite (Lq _ _ Hi), (La _ _ Hi), (Lb _ _ Hi), Hz, rlog_0, (rlog_pos (fq x)), (rlog_pos (fb x)) by auto. cbn.
  unfold inf_times. replace (- 0) with 0 by ring. destruct (Rlt_dec 0 0); [lra|]. reflexivity.
Qed.
End KL.

(** With [distribution_a]'s own samples (the default) the estimator is unbiased for every finite-support law whose
    outcomes [distribution_b] can produce. *)
Theorem C66_kl_unbiased (a b : dist) n bs idx (xs : list X) (fa fb : X -> R) (m : law K) (draw : K -> list X) :
  (0 < n)%nat -> inb bs idx -> is_law (mass_law xs fa) -> draws_iid m draw n (mass_law xs fa) ->
  (forall x, In x xs -> 0 < fa x) -> (forall x, In x xs -> 0 < fb x) ->
  (forall key w, In (key, w) m -> exists lq la lb, produces a a b key n bs lq la lb /\
     log_masses lq n idx (draw key) fa /\ log_masses la n idx (draw key) fa /\ log_masses lb n idx (draw key) fb) ->
  (forall key w, In (key, w) m -> finite (entry (mc_estimate_kl a b key n None) idx)) /\
  expect (fun key => toR (entry (mc_estimate_kl a b key n None) idx)) m = kl_finite xs fa fb.
Proof. intros Hn Hidx Hl Hd Ha Hb Hp. apply (C66_kl_proposal_partial a a b n bs idx xs fa fa fb m draw); auto. Qed.

Lemma reparam_entry (a b : dist) key n bs lq la lb : produces a a b key n bs lq la lb ->
  exists r, mc_estimate_kl_with_reparameterized false a b key n = Ok r /\ holds r bs (fun idx =>
    xdiv (xsum (map (fun i => xopp (xsub (tget (Fin 0) lb (i :: idx)) (tget (Fin 0) lq (i :: idx)))) (seq 0 n))) (Fin (INR n))).
Proof.
  intros (s & E1 & E2 & E3 & (Wq & Sq) & (Wa & Sa) & (Wb & Sb)). unfold mc_estimate_kl_with_reparameterized. rewrite E1. cbn [rbind]. rewrite E3. cbn [rbind].
  pose proof (full_holds _ _ Wq Sq) as Hq. pose proof (full_holds _ _ Wb Sb) as Hb.
  destruct (lift2_holds xsub lb lq _ _ _ (holds_reads _ _ _ Hb) (holds_reads _ _ _ Hq) (or_introl Sb)) as (lr & -> & Hlr). cbn [rbind].
  destruct (lift1_holds xopp _ _ _ Hlr) as (k & -> & Hk). cbn [rbind].
  destruct (mean_axis0_ok _ _ _ _ Hk) as (r & -> & Hr). exists r. split; [auto|exact Hr].
Qed.
Theorem C66_kl_reparameterized_unbiased (a b : dist) n bs idx (xs : list X) (fa fb : X -> R) (m : law K) (draw : K -> list X) :
  (0 < n)%nat -> inb bs idx -> is_law (mass_law xs fa) -> draws_iid m draw n (mass_law xs fa) ->
  (forall x, In x xs -> 0 < fa x) -> (forall x, In x xs -> 0 < fb x) ->
  (forall key w, In (key, w) m -> exists lq la lb, produces a a b key n bs lq la lb /\
     log_masses lq n idx (draw key) fa /\ log_masses la n idx (draw key) fa /\ log_masses lb n idx (draw key) fb) ->
  (forall key w, In (key, w) m -> finite (entry (mc_estimate_kl_with_reparameterized false a b key n) idx)) /\
  expect (fun key => toR (entry (mc_estimate_kl_with_reparameterized false a b key n) idx)) m = kl_finite xs fa fb.
Proof.
  intros Hn Hidx Hl Hd Ha Hb Hprod.
  assert (E : forall key w, In (key, w) m -> entry (mc_estimate_kl_with_reparameterized false a b key n) idx
              = Fin (sumf (fun x => ln (fa x / fb x)) (draw key) / INR n)).
  { intros key w Hk. destruct (Hprod key w Hk) as (lq & la & lb & Hp & Lq & La & Lb).
    destruct (reparam_entry _ _ _ _ _ _ _ _ Hp) as (r & -> & (_ & _ & Hr)). cbn [entry]. rewrite Hr by auto.
    destruct (proj1 Hd key w Hk) as [Hlen _].
    rewrite <- Hlen at 1. rewrite (map_seq_nth _ _ (fun x => Fin (ln (fa x / fb x)))).
    - rewrite sumf_xsum. cbn. pose proof (lt_0_INR n Hn). destruct (Req_EM_T (INR n) 0); [lra|]. reflexivity.
    - intros i x Hx. rewrite (Lq _ _ Hx), (Lb _ _ Hx).
      assert (Ix : In x xs) by (apply (draws_in n xs fa m draw Hd key w); auto; apply nth_error_In in Hx; auto).
      rewrite !rlog_pos by auto. cbn. f_equal. unfold Rdiv. rewrite ln_mult by (auto; apply Rinv_0_lt_compat; auto).
      rewrite ln_Rinv by auto. ring. }
  split; [intros key w Hk; rewrite (E key w Hk); eexists; reflexivity|].
  rewrite (expect_mean n xs fa m draw Hn Hl Hd (fun x => ln (fa x / fb x))); [|intros key w Hk; rewrite (E key w Hk); reflexivity].
  unfold expect, mass_law, kl_finite. rewrite sumf_map. apply sumf_ext. intros; reflexivity.
Qed.
(** TFP distributions that cannot be reparameterized are rejected. *)
Theorem C66_reparameterized_check (a b : dist) key n : mc_estimate_kl_with_reparameterized true a b key n = Err ValueError.
Proof. reflexivity. Qed.

(** The gradient.  The samples and the proposal's log-probabilities are constants (stop_gradient); along every
    differentiable family of laws the derivative of the estimate is an unbiased estimate of the derivative of the
    divergence, although the samples are not differentiated. *)
Theorem C66_kl_gradient (q : dist) (a b : R -> dist) n bs idx (xs : list X) (fq : X -> R) (fa fb : R -> X -> R)
  (da db : X -> R) (m : law K) (draw : K -> list X) theta :
  (0 < n)%nat -> inb bs idx -> is_law (mass_law xs fq) -> draws_iid m draw n (mass_law xs fq) ->
  (forall x, In x xs -> 0 < fq x) -> (forall t x, In x xs -> 0 < fa t x) -> (forall t x, In x xs -> 0 < fb t x) ->
  (forall x, In x xs -> derivable_pt_lim (fun t => fa t x) theta (da x)) ->
  (forall x, In x xs -> derivable_pt_lim (fun t => fb t x) theta (db x)) ->
  (forall t key w, In (key, w) m -> exists lq la lb, produces q (a t) (b t) key n bs lq la lb /\
     log_masses lq n idx (draw key) fq /\ log_masses la n idx (draw key) (fa t) /\ log_masses lb n idx (draw key) (fb t)) ->
  exists grad : K -> R,
    (forall key w, In (key, w) m ->
       derivable_pt_lim (fun t => toR (entry (mc_estimate_kl (a t) (b t) key n (Some q)) idx)) theta (grad key)) /\
    derivable_pt_lim (fun t => kl_finite xs (fa t) (fb t)) theta (expect grad m).
Proof.
  intros Hn Hidx Hl Hd Hfq Hfa Hfb Dfa Dfb Hprod.
  set (d := fun x => da x * ln (fa theta x / fb theta x) + (da x - fa theta x * db x / fb theta x)).
  assert (Dterm : forall x, In x xs -> derivable_pt_lim (fun t => fa t x * ln (fa t x / fb t x)) theta (d x)).
  { intros x Hx. pose proof (Hfa theta x Hx). pose proof (Hfb theta x Hx).
    assert (Dq : derivable_pt_lim (fun t => fa t x / fb t x) theta ((da x * fb theta x - db x * fa theta x) / Rsqr (fb theta x))).
    { apply (derivable_pt_lim_div (fun t => fa t x) (fun t => fb t x)); auto. lra. }
    assert (Dl : derivable_pt_lim (fun t => ln (fa t x / fb t x)) theta
              (/ (fa theta x / fb theta x) * ((da x * fb theta x - db x * fa theta x) / Rsqr (fb theta x)))).
    { apply (derivable_pt_lim_comp (fun t => fa t x / fb t x) ln); auto. apply derivable_pt_lim_ln. apply Rdiv_lt_0_compat; auto. }
    pose proof (derivable_pt_lim_mult _ _ _ _ _ (Dfa x Hx) Dl) as D. cbv beta in D. unfold mult_fct in D.
    unfold d. match goal with |- derivable_pt_lim _ _ ?r => match type of D with derivable_pt_lim _ _ ?r' => replace r with r'; [exact D|] end end.
    unfold Rsqr. field. lra. }
  assert (Dsum : forall (F : R -> X -> R) (G : X -> R) l, (forall x, In x l -> derivable_pt_lim (fun t => F t x) theta (G x)) ->
            derivable_pt_lim (fun t => sumf (F t) l) theta (sumf G l)).
  { intros F G l. induction l as [|x l IH]; intros H; [apply derivable_pt_lim_const|].
    apply (derivable_pt_lim_plus (fun t => F t x) (fun t => sumf (F t) l)); [apply H; left; auto|apply IH; intros; apply H; right; auto]. }
  exists (fun key => sumf (fun x => d x / fq x) (draw key) / INR n). split.
  - intros key w Hk.
    assert (E : forall t, toR (entry (mc_estimate_kl (a t) (b t) key n (Some q)) idx) = / INR n * sumf (dice fq (fa t) (fb t)) (draw key)).
    { intros t. destruct (Hprod t key w Hk) as (lq & la & lb & Hp & Lq & La & Lb).
      destruct (kl_entry _ _ _ _ _ _ _ _ _ Hp) as (r & -> & (_ & _ & Hr)). cbn [entry]. rewrite Hr by auto.
      destruct (proj1 Hd key w Hk) as [Hlen _].
      rewrite <- Hlen at 1. rewrite (map_seq_nth _ _ (fun x => Fin (dice fq (fa t) (fb t) x))).
      - rewrite sumf_xsum. cbn. pose proof (lt_0_INR n Hn). destruct (Req_EM_T (INR n) 0); [lra|]. cbn. field. lra.
      - intros i x Hx. rewrite (Lq _ _ Hx), (La _ _ Hx), (Lb _ _ Hx).
        assert (In x xs) by (apply (draws_in n xs fq m draw Hd key w); auto; apply nth_error_In in Hx; auto). apply dice_term; auto. }
    intros eps He.
    assert (D : derivable_pt_lim (fun t => / INR n * sumf (dice fq (fa t) (fb t)) (draw key)) theta (/ INR n * sumf (fun x => d x / fq x) (draw key))).
    { apply (derivable_pt_lim_scal (fun t => sumf (dice fq (fa t) (fb t)) (draw key))). apply (Dsum (fun t x => dice fq (fa t) (fb t) x)).
      intros x Hx. assert (Ix : In x xs) by (apply (draws_in n xs fq m draw Hd key w); auto).
      pose proof (derivable_pt_lim_scal _ (/ fq x) _ _ (Dterm x Ix)) as D. unfold mult_real_fct in D.
      replace (d x / fq x) with (/ fq x * d x) by (unfold Rdiv; ring).
      intros e Hep. destruct (D e Hep) as [del Hdel]. exists del. intros h H1 H2. unfold dice, Rdiv in *.
      replace (fa (theta + h) x * / fq x * ln (fa (theta + h) x * / fb (theta + h) x) - fa theta x * / fq x * ln (fa theta x * / fb theta x))
        with (/ fq x * (fa (theta + h) x * ln (fa (theta + h) x * / fb (theta + h) x)) - / fq x * (fa theta x * ln (fa theta x * / fb theta x))) by ring.
      apply Hdel; auto. }
    destruct (D eps He) as [del Hdel]. exists del. intros h H1 H2. rewrite !E.
    replace (sumf (fun x => d x / fq x) (draw key) / INR n) with (/ INR n * sumf (fun x => d x / fq x) (draw key)) by (unfold Rdiv; ring).
    apply Hdel; auto.
  - replace (expect (fun key => sumf (fun x => d x / fq x) (draw key) / INR n) m) with (sumf d xs).
    + apply (Dsum (fun t x => fa t x * ln (fa t x / fb t x))). auto.
    + rewrite (expect_mean n xs fq m draw Hn Hl Hd (fun x => d x / fq x)); [|reflexivity].
      unfold expect, mass_law. rewrite sumf_map. apply sumf_ext. intros x Hx. cbn. pose proof (Hfq x Hx). field. lra.
Qed.

(** The exact formula is used whenever it exists; only NotImplementedError leads to the estimate. *)
Theorem C66_best_effort (exact : dist -> dist -> result (tensor XR)) (a b : dist) key n p :
  (forall v, exact a b = Ok v -> estimate_kl_best_effort exact a b key n p = Ok v) /\
  (exact a b = Err NotImplementedError -> estimate_kl_best_effort exact a b key n p = mc_estimate_kl a b key n p) /\
  (forall e, e <> NotImplementedError -> exact a b = Err e -> estimate_kl_best_effort exact a b key n p = Err e).
Proof.
  unfold estimate_kl_best_effort. split; [|split].
  - intros v ->. reflexivity.
  - intros ->. reflexivity.
  - intros e He ->. destruct e; try reflexivity. congruence.
Qed.
End Est.

(** ** The mode estimate: at every batch position it is one whole drawn event, of highest log-probability among the draws. *)
Theorem C66_mode {K} (d : pdist K (tensor XR)) key n bs ev samples lp :
  (0 < n)%nat -> p_salp d key n = Ok (samples, lp) ->
  wf samples -> shp samples = n :: bs ++ ev -> wf lp -> shp lp = n :: bs ->
  (forall i b, (i < n)%nat -> inb bs b -> tget (Fin 0) lp (i :: b) <> NaN) ->
  exists r, mc_estimate_mode d key n = Ok r /\ shp r = bs ++ ev /\
    forall b, inb bs b -> exists i, (i < n)%nat /\
      (forall e, inb ev e -> tget (Fin 0) r (b ++ e) = tget (Fin 0) samples (i :: b ++ e)) /\
      (forall j, (j < n)%nat -> xltb (tget (Fin 0) lp (i :: b)) (tget (Fin 0) lp (j :: b)) = false).
Proof.
  intros Hn E Ws Ss Wl Sl Hnan. unfold mc_estimate_mode. rewrite E. cbn [rbind]. unfold argmax_axis0. rewrite Sl.
  destruct n as [|n]; [lia|]. set (N := S n) in *. cbn [rbind].
  set (am := tgen bs _). cbv zeta. unfold rank. cbn [shp]. rewrite Ss. cbn [length].
  assert (Sam : shp am = bs) by reflexivity. rewrite Sam. rewrite app_length.
  destruct (Nat.ltb_spec (S (length bs + length ev)) (S (length bs))) as [L|L]; [lia|]. clear L.
  replace (S (length bs + length ev) - S (length bs))%nat with (length ev) by lia.
  unfold take_along_axis0. rewrite Ss. cbn [shp app].
  assert (Hb : bshape (bs ++ ev) (bs ++ repeat 1%nat (length ev)) = Some (bs ++ ev)).
  { unfold bshape. rewrite !rev_app_distr.
    assert (R1 : rev (repeat 1%nat (length ev)) = repeat 1%nat (length (rev ev))).
    { rewrite rev_length. clear. induction (length ev) as [|k IH]; [reflexivity|]. cbn [repeat rev]. rewrite IH, <- repeat_cons. reflexivity. }
    rewrite R1. replace (bshape_rev (rev ev ++ rev bs) (repeat 1%nat (length (rev ev)) ++ rev bs)) with (Some (rev ev ++ rev bs)).
    - cbn. rewrite rev_app_distr, !rev_involutive. reflexivity.
    - generalize (rev ev) as u. induction u as [|x u IH]; [cbn; rewrite bshape_rev_refl; reflexivity|].
      cbn [length repeat app bshape_rev]. rewrite <- IH. unfold bdim. destruct (Nat.eqb_spec x 1) as [->|]; reflexivity. }
  rewrite Hb. eexists. split; [reflexivity|]. split; [reflexivity|].
  intros b Ib.
  set (col := map (fun i => tget (Fin 0) lp (i :: b)) (seq 0 N)).
  destruct (argmax_spec col) as (c & Hc & Hmax).
  { unfold col, N. cbn. discriminate. }
  { intros y Hy. apply in_map_iff in Hy as [i [<- Hi]]. apply in_seq in Hi. apply Hnan; [lia|auto]. }
  assert (Hlt : (argmax col < N)%nat).
  { assert (argmax col < length col)%nat by (apply nth_error_Some; congruence). unfold col in H at 2. rewrite map_length, seq_length in H. exact H. }
  exists (argmax col). split; [exact Hlt|].
  assert (Ec : c = tget (Fin 0) lp (argmax col :: b)).
  { unfold col in Hc at 1. rewrite nth_error_map in Hc. destruct (nth_error (seq 0 N) (argmax col)) as [k|] eqn:Ek; [|discriminate].
    cbn in Hc. injection Hc as <-. assert (Ek' := nth_error_nth _ _ 0%nat Ek). rewrite seq_nth in Ek' by auto. subst k. reflexivity. }
  split.
  - intros e Ie. assert (Ibe : inb (bs ++ ev) (b ++ e)) by (apply inb_app; auto).
    rewrite tget_tgen by auto. rewrite (bindex_refl (bs ++ ev) (b ++ e) Ibe). f_equal. f_equal.
    (* the index array read at b ++ e *)
    assert (Bi : bindex (bs ++ repeat 1%nat (length ev)) (b ++ e) = b ++ repeat 0%nat (length ev)).
    { unfold bindex. rewrite !rev_app_distr.
      assert (R1 : rev (repeat 1%nat (length ev)) = repeat 1%nat (length (rev ev))).
      { rewrite rev_length. clear. induction (length ev) as [|k IH]; [reflexivity|]. cbn [repeat rev]. rewrite IH, <- repeat_cons. reflexivity. }
      rewrite R1. assert (Le : length (rev ev) = length (rev e)) by (rewrite !rev_length; symmetry; apply inb_length; auto).
      rewrite Le.
      assert (G : forall u v s, bz (repeat 1%nat (length u) ++ s) (u ++ v) = repeat 0%nat (length u) ++ bz s v).
      { induction u as [|x u IH]; intros v s; [reflexivity|]. cbn [length repeat app bz]. rewrite IH. reflexivity. }
      rewrite G. rewrite (bz_refl (rev bs) (rev b)) by (apply (proj1 (inb_rev bs b)); exact Ib). rewrite rev_app_distr, rev_involutive. f_equal.
      rewrite <- Le, rev_length. clear. induction (length ev) as [|k IH]; [reflexivity|]. cbn [repeat rev]. rewrite IH, <- repeat_cons. reflexivity. }
    rewrite Bi. unfold tget at 1. cbn [shp dat].
    assert (Rv : ravel (1%nat :: bs ++ repeat 1%nat (length ev)) (0%nat :: b ++ repeat 0%nat (length ev)) = ravel bs b).
    { change (ravel (1%nat :: bs ++ repeat 1%nat (length ev)) (0%nat :: b ++ repeat 0%nat (length ev)))
        with (0 * prodl (bs ++ repeat 1%nat (length ev)) + ravel (bs ++ repeat 1%nat (length ev)) (b ++ repeat 0%nat (length ev)))%nat.
      cbn [Nat.mul Nat.add]. rewrite ravel_app by (exact (inb_length _ _ Ib)).
      assert (P1 : prodl (repeat 1%nat (length ev)) = 1%nat) by (clear; induction (length ev) as [|k IH]; cbn; [auto|]; unfold prodl in IH; rewrite IH; auto).
      assert (R0 : ravel (repeat 1%nat (length ev)) (repeat 0%nat (length ev)) = 0%nat).
      { clear. induction (length ev) as [|k IH]; cbn [repeat ravel]; [auto|]. rewrite IH. lia. }
      rewrite P1, R0. lia. }
    rewrite Rv. change (nth (ravel bs b) (dat am) 0%nat) with (tget 0%nat am b). unfold am. rewrite tget_tgen by auto. reflexivity.
  - intros j Hj. rewrite <- Ec. apply Hmax. unfold col. apply in_map_iff. exists j. split; [auto|]. apply in_seq. lia.
Qed.

(** ** Non-vacuity: two tosses of a coin, seeds [bool * bool] *)
Section Coin.
Definition face (x : bool) : XR := if x then Fin 1 else Fin 0.
Definition coin (f : bool -> R) : pdist (bool * bool) (tensor XR) :=
  let lp (s : tensor XR) := tmap (fun v => if xeqb v (Fin 1) then rlog (f true) else rlog (f false)) s in
  let sample (key : bool * bool) := tvec [face (fst key); face (snd key)] in
  mkPdist [] (Some []) (fun s => Ok (lp s)) (fun _ => Err NotImplementedError) (Err NotImplementedError)
    (fun key _ => Ok (sample key)) (fun key _ => Ok (sample key, lp (sample key))) (Err NotImplementedError)
    (Err NotImplementedError) (Err NotImplementedError) (Err NotImplementedError) (Err NotImplementedError).
Definition fair (x : bool) : R := 1 / 2.
Definition biased (x : bool) : R := if x then 1 / 4 else 3 / 4.
Definition seeds : law (bool * bool) := [((true, true), 1 / 4); ((true, false), 1 / 4); ((false, true), 1 / 4); ((false, false), 1 / 4)].
Definition tosses (key : bool * bool) : list bool := [fst key; snd key].
Lemma tosses_iid : draws_iid seeds tosses 2 (mass_law [true; false] fair).
Proof.
  split.
  - intros [x y] w _. split; [reflexivity|]. intros z _. exists (1 / 2). destruct z; cbn; auto.
  - intros g. unfold expect, sumf, seeds, tosses, iid, mass_law, fair. cbn. lra.
Qed.
Lemma lp_face (f : bool -> R) x : (if xeqb (face x) (Fin 1) then rlog (f true) else rlog (f false)) = rlog (f x).
Proof.
  destruct x; cbn [face].
  - assert (E : xeqb (Fin 1) (Fin 1) = true) by (apply xeqb_fin; auto). rewrite E. reflexivity.
  - cbn. destruct (Req_EM_T 0 1); [lra|reflexivity].
Qed.
Lemma coin_produces key : exists lq la lb, produces (coin fair) (coin fair) (coin biased) key 2 [] lq la lb /\
  log_masses lq 2 [] (tosses key) fair /\ log_masses la 2 [] (tosses key) fair /\ log_masses lb 2 [] (tosses key) biased.
Proof.
  destruct key as [x y]. do 3 eexists. split.
  - eexists. split; [reflexivity|]. split; [reflexivity|]. split; [reflexivity|]. repeat split.
  - assert (G : forall f, log_masses (tmap (fun v => if xeqb v (Fin 1) then rlog (f true) else rlog (f false)) (tvec [face x; face y])) 2 [] (tosses (x, y)) f).
    { intros f i z Hz. destruct i as [|[|[]]]; cbn in Hz; try discriminate; injection Hz as <-; cbn; apply lp_face. }
    split; [apply G|]. split; apply G.
Qed.
Example C66_nonvacuous :
  expect (fun key => toR (entry (mc_estimate_kl (coin fair) (coin biased) key 2 None) [])) seeds = 1 / 2 * ln (4 / 3).
Proof.
  assert (Hfair : forall x : bool, 0 < fair x) by (intros; unfold fair; lra).
  assert (Hb : forall x : bool, 0 < biased x) by (intros []; unfold biased; lra).
  destruct (C66_kl_unbiased (coin fair) (coin biased) 2 [] [] [true; false] fair biased seeds tosses) as [_ H].
  - lia.
  - constructor.
  - split; [intros aw [<-|[<-|[]]]; cbn; unfold fair; lra|]. unfold sumf, fair; cbn. lra.
  - exact tosses_iid.
  - auto.
  - auto.
  - intros key w _. apply coin_produces.
  - rewrite H. unfold kl_finite, sumf, rsum, fair, biased. cbn [map fold_right].
    replace (1 / 2 / (1 / 4)) with 2 by field. replace (1 / 2 / (3 / 4)) with (2 * / 3) by field.
    replace (4 / 3) with (2 * (2 * / 3)) by field. rewrite !ln_mult by lra. lra.
Qed.
(** an importance proposal that can produce an outcome the target cannot *)
Example C66_refuted_nonvacuous :
  entry (mc_estimate_kl (coin (fun x : bool => if x then 1 else 0)) (coin biased) (true, false) 2 (Some (coin fair))) [] = NaN.
Proof.
  set (det := fun x : bool => if x then 1 else 0).
  assert (G : forall f x y, log_masses (tmap (fun v => if xeqb v (Fin 1) then rlog (f true) else rlog (f false)) (tvec [face x; face y])) 2 [] (tosses (x, y)) f).
  { intros f x y i z Hz. destruct i as [|[|[]]]; cbn in Hz; try discriminate; injection Hz as <-; cbn; apply lp_face. }
  eapply (C66_kl_proposal_refuted (coin fair) (coin det) (coin biased) 2 [] [] [true; false] fair det biased seeds tosses) with (w := 1 / 4) (x := false).
  - lia.
  - constructor.
  - exact tosses_iid.
  - intros [] _; unfold biased; lra.
  - intros [] _; unfold fair; lra.
  - cbn; auto.
  - eexists. split; [reflexivity|]. split; [reflexivity|]. split; [reflexivity|]. repeat split.
  - apply G.
  - apply G.
  - apply G.
  - cbn; auto.
  - reflexivity.
Qed.
End Coin.
