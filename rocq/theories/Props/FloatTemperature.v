(** C112: Softmax's temperature in floating point. *)
From Coq Require Import Reals List Bool Lra Lia ZArith Permutation.
From Flocq Require Import Core.
From Verif Require Import Base.XR Base.Float Model.FloatDist Model.FloatTemperature Spec.Rounding Spec.CatInfo Proofs.FloatOrder Proofs.FloatLib Props.FloatBij Props.FloatSoftmax.
Import ListNotations.
Local Open Scope R_scope.

Lemma sum_over_le n f g c : (forall i, (i < n)%nat -> f i <= c * g i) -> sum_over n f <= c * sum_over n g.
Proof.
  intros H. unfold sum_over. assert (G : forall l, (forall i, In i l -> f i <= c * g i) -> fold_right Rplus 0 (map f l) <= c * fold_right Rplus 0 (map g l)).
  { induction l as [|a l IH]; intros Hl; cbn [map fold_right]; [lra|]. pose proof (Hl a (or_introl eq_refl)). specialize (IH (fun i Hi => Hl i (or_intror Hi))). lra. }
  apply G. intros i Hi. apply in_seq in Hi. apply H. lia.
Qed.

Section Scaled.
Variables (dt : dtype) (n : nat) (a : nat -> XR) (t : R).
Hypothesis Pt : 0 < t.
(** no logit is NaN or +inf *)
Hypothesis Va : forall i, (i < n)%nat -> a i = NInf \/ exists r, a i = Fin r /\ repr dt r.
Lemma scaled_ninf : fdiv dt NInf (Fin t) = NInf.
Proof. unfold fdiv. cbn. unfold inf_times. repeat destruct (Rlt_dec _ _); repeat destruct (Req_EM_T _ _); try lra; reflexivity. Qed.
(** Dividing keeps -inf and the order of the logits. *)
Theorem C112_scaled :
  (forall i, (i < n)%nat -> a i = NInf -> fl_scaled_logits dt (Fin t) a i = NInf) /\
  (forall i j, (i < n)%nat -> (j < n)%nat -> fle (a i) (a j) -> fle (fl_scaled_logits dt (Fin t) a i) (fl_scaled_logits dt (Fin t) a j)).
Proof.
  unfold fl_scaled_logits. split; [intros i _ ->; apply scaled_ninf|]. intros i j Hi Hj H. unfold fdiv. apply fround_mono, xdiv_mono; auto.
Qed.
(** The stored logits keep the order too, are at most 0, and the largest logit is the largest stored one: the mode does not depend on the
    temperature, as long as no quotient overflows. *)
Theorem C112_mode L E o : log_fn dt L -> exp_fn dt E -> Permutation (visits o) (seq 0 n) -> (exists k, (k < n)%nat /\ fl_scaled_logits dt (Fin t) a k <> NInf) ->
  (forall i, (i < n)%nat -> fl_scaled_logits dt (Fin t) a i <> PInf) ->
  forall i, (i < n)%nat -> fle (fl_softmax_logits dt L E o n (Fin t) a i) (Fin 0) /\
    (a i = NInf -> fl_softmax_logits dt L E o n (Fin t) a i = NInf) /\
    (forall j, (j < n)%nat -> fle (a i) (a j) -> fle (fl_softmax_logits dt L E o n (Fin t) a i) (fl_softmax_logits dt L E o n (Fin t) a j)).
Proof.
  intros HL HE Ho (k & Hk & Ek) No i Hi. destruct C112_scaled as (S1 & S2).
  assert (V : forall j, (j < n)%nat -> value dt (fl_scaled_logits dt (Fin t) a j) /\ fl_scaled_logits dt (Fin t) a j <> NaN /\ fl_scaled_logits dt (Fin t) a j <> PInf).
  { intros j Hj. pose proof (No j Hj) as N. destruct (Va j Hj) as [E0|(r & E0 & Rr)]; [rewrite (S1 j Hj E0); repeat split; discriminate|].
    unfold fl_scaled_logits in *. rewrite E0 in *. unfold fdiv in *. rewrite xdiv_fin' in * by lra. split; [|split; auto; apply fround_nan; discriminate].
    destruct (fround dt (Fin (r / t))) eqn:Q; try exact I. apply fround_value in Q. exact Q. }
  destruct (C85_log_softmax dt L E HL HE n (fl_scaled_logits dt (Fin t) a) o Ho V k (conj Hk Ek)) as (Q1 & Q2 & _). unfold fl_softmax_logits. split; [apply Q1; auto|]. split; [intros A; apply Q1; auto|]. intros j Hj H. apply Q2; auto.
Qed.
(** The rounding of the quotients changes every probability by a factor of at most [exp (2 delta)], [delta] being the largest error of a quotient. *)
Theorem C112_probabilities B : (exists k r, (k < n)%nat /\ a k = Fin r) -> B <= maxpow dt / 2 -> (forall i r, (i < n)%nat -> a i = Fin r -> Rabs (r / t) <= B) ->
  let delta := eps dt * B + tiny dt in let exact := fun i => match a i with Fin r => Fin (r / t) | v => v end in
  forall i, (i < n)%nat -> exp (- (2 * delta)) * category_prob n exact i <= category_prob n (fl_scaled_logits dt (Fin t) a) i <= exp (2 * delta) * category_prob n exact i.
Proof.
  intros (k & rk & Hk & Ek) HB Ha delta exact i Hi. set (s := fl_scaled_logits dt (Fin t) a).
  assert (W : forall j, (j < n)%nat -> 0 <= logit_weight (exact j) /\ exp (- delta) * logit_weight (exact j) <= logit_weight (s j) <= exp delta * logit_weight (exact j)).
  { intros j Hj. unfold s, exact, fl_scaled_logits. destruct (Va j Hj) as [->|(r & Er & Rr)].
    - rewrite scaled_ninf. cbn [logit_weight]. lra.
    - rewrite Er. unfold fdiv. rewrite xdiv_fin' by lra. pose proof (Ha j r Hj Er) as Hq. destruct (round_fin dt (r / t)) as (q & -> & _ & _ & Q); [lra|]. cbn [logit_weight]. split; [left; apply exp_pos|]. rewrite <- !exp_plus.
      assert (D : Rabs (q - r / t) <= delta). { unfold delta. subst q. pose proof (eps_pos dt). pose proof (tiny_pos dt). pose proof (Rabs_pos (r / t)). assert (eps dt * Rabs (r / t) <= eps dt * B) by (apply Rmult_le_compat_l; lra). destruct (Rle_lt_dec (tiny dt) (Rabs (r / t))) as [Hs|Hs]; [pose proof (rnd_err dt _ Hs); lra|]. pose proof (rnd_err_sub dt _ Hs). pose proof (sub_le_tiny dt). assert (0 <= eps dt * Rabs (r / t)) by (apply Rmult_le_pos; lra). lra. }
      apply Rabs_le_inv in D. assert (Mo : forall x y, x <= y -> exp x <= exp y) by (intros x y [L| ->]; [left; apply exp_increasing; auto|lra]). split; apply Mo; lra. }
  assert (P0 : forall (l : list nat) (f : nat -> R), (forall j, In j l -> 0 <= f j) -> 0 <= fold_right Rplus 0 (map f l)) by (induction l as [|b l IH]; intros f Hf; cbn [map fold_right]; [lra|]; pose proof (Hf b (or_introl eq_refl)); specialize (IH f (fun j Hj => Hf j (or_intror Hj))); lra).
  assert (Pos : 0 < sum_over n (fun j => logit_weight (exact j))).
  { unfold sum_over. assert (G : forall l, In k l -> (forall j, In j l -> (j < n)%nat) -> 0 < fold_right Rplus 0 (map (fun j => logit_weight (exact j)) l)).
    { induction l as [|b l IH]; intros Hin Hl; [destruct Hin|]. cbn [map fold_right]. pose proof (proj1 (W b (Hl b (or_introl eq_refl)))) as Wb. destruct Hin as [->|Hin].
      - assert (0 < logit_weight (exact k)) by (unfold exact; rewrite Ek; cbn [logit_weight]; apply exp_pos). pose proof (P0 l (fun j => logit_weight (exact j)) (fun j Hj => proj1 (W j (Hl j (or_intror Hj))))). cbn beta in *. lra.
      - specialize (IH Hin (fun j Hj => Hl j (or_intror Hj))). lra. }
    apply G; [apply in_seq; lia|intros j Hj; apply in_seq in Hj; lia]. }
  assert (U1 : sum_over n (fun j => logit_weight (s j)) <= exp delta * sum_over n (fun j => logit_weight (exact j))) by (apply sum_over_le; intros j Hj; apply W; auto).
  assert (U2 : sum_over n (fun j => logit_weight (exact j)) <= exp delta * sum_over n (fun j => logit_weight (s j))).
  { apply sum_over_le. intros j Hj. destruct (W j Hj) as (_ & Q & _). apply Rmult_le_compat_l with (r := exp delta) in Q; [|left; apply exp_pos]. rewrite <- Rmult_assoc, <- exp_plus, Rplus_opp_r, exp_0, Rmult_1_l in Q. exact Q. }
  destruct (W i Hi) as (W0 & W1 & W2). unfold category_prob. fold s. set (v := logit_weight (exact i)) in *. set (w := logit_weight (s i)) in *. set (Sv := sum_over n (fun j => logit_weight (exact j))) in *. set (Sw := sum_over n (fun j => logit_weight (s j))) in *. clearbody v w Sv Sw.
  pose proof (exp_pos delta) as p0. assert (Sw0 : 0 < Sw) by (apply Rmult_lt_reg_l with (exp delta); [auto|lra]).
  assert (E2 : exp (2 * delta) = exp delta * exp delta) by (rewrite <- exp_plus; f_equal; ring). assert (E2' : exp (- (2 * delta)) = exp (- delta) * exp (- delta)) by (rewrite <- exp_plus; f_equal; ring). assert (Ei : exp (- delta) * exp delta = 1) by (rewrite <- exp_plus, Rplus_opp_l; apply exp_0). pose proof (exp_pos (- delta)) as p1.
  rewrite E2, E2'. set (x := exp delta) in *. set (y := exp (- delta)) in *. clearbody x y.
  split.
  - apply Rmult_le_reg_r with Sw; [auto|]. replace (w / Sw * Sw) with w by (field; lra). apply Rle_trans with (y * v); [|lra]. replace (y * y * (v / Sv) * Sw) with (y * v * (y * (Sw / Sv))) by (field; lra). assert (y * (Sw / Sv) <= 1).
    { apply Rmult_le_reg_r with Sv; [auto|]. replace (y * (Sw / Sv) * Sv) with (y * Sw) by (field; lra). assert (y * Sw <= y * (x * Sv)) by (apply Rmult_le_compat_l; lra). replace (y * (x * Sv)) with (y * x * Sv) in H by ring. rewrite Ei in H. lra. }
    assert (0 <= y * v) by (apply Rmult_le_pos; lra). assert (y * v * (y * (Sw / Sv)) <= y * v * 1) by (apply Rmult_le_compat_l; lra). lra.
  - apply Rmult_le_reg_r with Sw; [auto|]. replace (w / Sw * Sw) with w by (field; lra). apply Rle_trans with (x * v); [lra|]. replace (x * x * (v / Sv) * Sw) with (x * v * (x * Sw / Sv)) by (field; lra). assert (1 <= x * Sw / Sv).
    { apply Rmult_le_reg_r with Sv; [auto|]. replace (x * Sw / Sv * Sv) with (x * Sw) by (field; lra). lra. }
    assert (0 <= x * v) by (apply Rmult_le_pos; lra). assert (x * v * 1 <= x * v * (x * Sw / Sv)) by (apply Rmult_le_compat_l; lra). lra.
Qed.
End Scaled.

(** With a small enough temperature the distribution is not greedy: the quotient overflows and every log-probability is NaN. *)
Theorem C112_greedy_limit_refuted dt L E : E NaN = NaN -> L NaN = NaN -> repr dt 4 ->
  exists t, repr dt t /\ 0 < t /\ forall i, (i < 2)%nat -> fl_softmax_logits dt L E (Plus (At 0) (At 1)) 2 (Fin t) (fun i => nth i [Fin 0; Fin 4] NaN) i = NaN.
Proof.
  intros HE HL R4. exists (bpow radix2 (emin dt)). split.
  - apply repr_pow; [lia|]. pose proof (emin_lt dt). pose proof (mant_ok dt). lia.
  - split; [apply bpow_gt_0|]. intros i Hi. refine (C85_undefined dt L E 2 _ (Plus (At 0) (At 1)) _ _ _ HE HL i Hi); [apply Permutation_refl|lia|]. right. exists 1%nat. split; [lia|]. pose proof (bpow_gt_0 radix2 (emin dt)) as P. split.
    + unfold fl_scaled_logits. cbn [nth]. unfold fdiv. rewrite xdiv_fin' by lra.
      assert (B : maxpow dt <= 4 / bpow radix2 (emin dt)).
      { change 4 with (bpow radix2 2). unfold Rdiv. rewrite <- bpow_opp, <- bpow_plus. apply bpow_le. unfold emin. pose proof (mant_ok dt). lia. }
      unfold fround. assert (Q : maxpow dt <= rnd dt (4 / bpow radix2 (emin dt))).
      { replace (maxpow dt) with (rnd dt (maxpow dt)); [apply rnd_le; auto|]. apply round_generic; [apply valid_rnd_N|]. apply F_bpow. pose proof (emin_lt dt). pose proof (mant_ok dt). lia. }
      pose proof (maxpow_pos dt). destruct (Rlt_dec _ _) as [C|C]; [rewrite Rabs_pos_eq in C by lra; lra|]. destruct (Rlt_dec _ _); [lra|reflexivity].
    + intros j Hj. unfold fl_scaled_logits. destruct j as [|[|j]]; [| |lia]; cbn [nth]; unfold fdiv; rewrite xdiv_fin' by lra; apply fround_nan; discriminate.
Qed.
Print Assumptions C112_scaled.
Print Assumptions C112_mode.
Print Assumptions C112_probabilities.
Print Assumptions C112_greedy_limit_refuted.
(** A concrete case in float32: logits (0, 1, -inf) at temperature 2. *)
Example C112_float32 : let a := fun i => nth i [Fin 0; Fin 1; NInf] NInf in let o := Plus (Plus (At 0) (At 1)) (At 2) in
  let L := fun x => fround float32 (xlog x) in let E := fun x => fround float32 (xexp x) in let ls := fl_softmax_logits float32 L E o 3 (Fin 2) a in
  ls 2%nat = NInf /\ fle (ls 0%nat) (ls 1%nat) /\ fle (ls 1%nat) (Fin 0) /\
  let exact := fun i => match a i with Fin r => Fin (r / 2) | v => v end in
  category_prob 3 (fl_scaled_logits float32 (Fin 2) a) 1 <= exp (2 * (eps float32 * 1 + tiny float32)) * category_prob 3 exact 1.
Proof.
  intros a o L E ls. assert (Va : forall i, (i < 3)%nat -> a i = NInf \/ exists r, a i = Fin r /\ repr float32 r).
  { intros i Hi. destruct i as [|[|[|i]]]; [right; exists 0; split; [auto|apply repr_0]|right; exists 1; split; [auto|apply repr_1]|left; auto|lia]. }
  pose proof (maxpow_ge_32 float32) as M.
  assert (F : forall i, (i < 3)%nat -> fl_scaled_logits float32 (Fin 2) a i <> PInf).
  { intros i Hi H. unfold fl_scaled_logits in H. destruct (Va i Hi) as [Q|(r & Q & _)].
    - rewrite Q, (scaled_ninf float32 2) in H by lra. discriminate.
    - assert (B : Rabs (r / 2) <= 1). { destruct i as [|[|[|i]]]; [| | |lia]; cbn [a nth] in Q; try discriminate; injection Q as <-; apply Rabs_le; lra. }
      rewrite Q in H. unfold fdiv in H. rewrite xdiv_fin' in H by lra. destruct (round_fin float32 (r / 2)) as (x & Ex & _); [lra|]. rewrite Ex in H. discriminate. }
  assert (K : exists k, (k < 3)%nat /\ fl_scaled_logits float32 (Fin 2) a k <> NInf).
  { exists 0%nat. split; [lia|]. unfold fl_scaled_logits, fdiv. cbn [a nth]. rewrite xdiv_fin' by lra. replace (0 / 2) with 0 by field. rewrite fround_0. discriminate. }
  pose proof (C112_mode float32 3 a 2 ltac:(lra) Va L E o (log_rounded float32) (exp_rounded float32) (Permutation_refl _) K F) as Q.
  split; [apply (Q 2%nat); auto|]. split; [apply (Q 0%nat); [lia|lia|apply fle_fin; lra]|]. split; [apply (Q 1%nat); lia|].
  apply (C112_probabilities float32 3 a 2 ltac:(lra) Va 1); [exists 0%nat, 0; split; [lia|auto]|lra| |lia].
  intros i r Hi Q'. destruct i as [|[|[|i]]]; [| | |lia]; cbn [a nth] in Q'; try discriminate; injection Q' as <-; apply Rabs_le; lra.
Qed.
Print Assumptions C112_float32.
