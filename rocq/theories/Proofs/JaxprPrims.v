From Coq Require Import List Reals ZArith Bool Lia Lra ClassicalEpsilon.
From Coquelicot Require Import Coquelicot.
From Verif Require Import Base.Result Model.Jaxpr Spec.Jaxpr Model.ScalarBij Proofs.ScalarBij.
Import ListNotations.
Local Open Scope R_scope.

Lemma ex_gauss a b : ex_RInt (fun t => exp (- t ^ 2)) a b.
Proof.
  apply (@ex_RInt_continuous R_CompleteNormedModule). intros z _.
  apply (@ex_derive_continuous R_AbsRing R_NormedModule). auto_derive. auto.
Qed.
Lemma erf_lt x y : x < y -> r_erf x < r_erf y.
Proof.
  intros H. unfold r_erf. assert (0 < 2 / sqrt PI).
  { apply Rdiv_lt_0_compat; [lra|]. apply sqrt_lt_R0, PI_RGT_0. }
  apply Rmult_lt_compat_l; [auto|].
  rewrite <- (RInt_Chasles (fun t => exp (- t ^ 2)) 0 x y) by apply ex_gauss.
  assert (0 < RInt (fun t => exp (- t ^ 2)) x y).
  { apply RInt_gt_0; auto; [intros; apply exp_pos|].
    intros z _. apply (@ex_derive_continuous R_AbsRing R_NormedModule). auto_derive. auto. }
  change (plus ?a ?b) with (a + b). lra.
Qed.
Lemma erf_inj x y : r_erf x = r_erf y -> x = y.
Proof.
  intros H. destruct (Rtotal_order x y) as [L|[E|L]]; auto; apply erf_lt in L; lra.
Qed.
Lemma erf_inv_erf x : r_erf_inv (r_erf x) = Some x.
Proof.
  unfold r_erf_inv. destruct (excluded_middle_informative _) as [H|H].
  - f_equal. apply erf_inj. exact (proj2_sig (constructive_indefinite_description _ H)).
  - exfalso; apply H; exists x; auto.
Qed.
Lemma erf_erf_inv x y : r_erf_inv x = Some y -> r_erf y = x.
Proof.
  unfold r_erf_inv. destruct (excluded_middle_informative _) as [H|H]; [|discriminate].
  intros E; injection E as <-. exact (proj2_sig (constructive_indefinite_description _ H)).
Qed.
Lemma r_pow_inv x c y : (0 < x /\ c <> 0) \/ (x = 0 /\ 0 < c) ->
  r_pow x c = Some y -> vbind (r_div 1 c) (r_pow y) = Some x.
Proof.
  intros [[Hx Hc]|[Hx Hc]] H; unfold r_pow in H; unfold r_div; (destruct (Req_EM_T c 0) as [|Nc]; [lra|]); cbn.
  - destruct (Rlt_dec 0 x); [|lra]. injection H as <-. unfold r_pow.
    destruct (Rlt_dec 0 (Rpower x c)) as [_|n0]; [|exfalso; apply n0; unfold Rpower; apply exp_pos].
    rewrite Rpower_mult. replace (c * (1 / c)) with 1 by (field; auto). rewrite Rpower_1; auto.
  - destruct (Rlt_dec 0 x); [lra|]. destruct (Req_EM_T x 0); [|lra]. destruct (Rlt_dec 0 c); [|lra].
    injection H as <-. unfold r_pow. destruct (Rlt_dec 0 0); [lra|]. destruct (Req_EM_T 0 0); [|lra].
    destruct (Rlt_dec 0 (1 / c)) as [_|Nq]; [congruence|]. exfalso; apply Nq. apply Rdiv_lt_0_compat; lra.
Qed.
Lemma frac_IZR n : frac_part (IZR n) = 0 /\ Int_part (IZR n) = n.
Proof.
  assert (E : Int_part (IZR n) = n).
  { unfold Int_part. assert (U : up (IZR n) = (n + 1)%Z).
    { symmetry. apply tech_up; rewrite plus_IZR; lra. } lia. }
  split; auto. unfold frac_part. rewrite E. lra.
Qed.
Lemma r_int_pow_inv x n y : int_pow_invertible n x -> r_int_pow x n = Some y ->
  n <> 0%Z /\ r_pow y (1 / IZR n) = Some x.
Proof.
  intros D H. unfold r_int_pow in H.
  assert (Hn : n <> 0%Z) by (destruct D as [[? ?]|[[? ?]|[?|[? ?]]]]; lia).
  split; auto. assert (Hz : IZR n <> 0) by (apply not_0_IZR; auto).
  assert (Ey : y = powerRZ x n).
  { destruct (n <? 0)%Z; [destruct (Req_EM_T x 0); [discriminate|]|]; injection H; auto. }
  destruct (Rlt_dec 0 x) as [Hx|Hx].
  - subst y. assert (P : powerRZ x n = Rpower x (IZR n)) by (apply powerRZ_Rpower; auto).
    rewrite P. assert (Q : r_pow x (IZR n) = Some (Rpower x (IZR n))).
    { unfold r_pow. destruct (Rlt_dec 0 x); [auto|lra]. }
    pose proof (r_pow_inv x (IZR n) _ (or_introl (conj Hx Hz)) Q) as K. unfold r_div in K.
    destruct (Req_EM_T (IZR n) 0); [lra|]. exact K.
  - destruct D as [[? ?]|[[Hx0 Hp]|D]]; [lra| |].
    + subst x. assert (y = 0). { subst y. destruct n; [lia| |lia]. cbn. apply pow_i. lia. }
      subst y. unfold r_pow. rewrite H0. destruct (Rlt_dec 0 0); [lra|]. destruct (Req_EM_T 0 0); [|lra].
      destruct (Rlt_dec 0 (1 / IZR n)) as [_|Nq]; [auto|]. exfalso; apply Nq.
      apply Rdiv_lt_0_compat; [lra|]. apply (IZR_lt 0). lia.
    + destruct D as [->|[-> Hx0]].
      * replace (1 / 1) with (IZR 1) by lra. simpl in Ey. rewrite Rmult_1_r in Ey. subst y.
        unfold r_pow. destruct (Rlt_dec 0 x); [lra|]. destruct (frac_IZR 1) as [F1 F2]. rewrite F1, F2.
        destruct (Req_EM_T x 0) as [->|_].
        { destruct (Rlt_dec 0 1); [auto|lra]. }
        destruct (Req_EM_T 0 0); [|lra]. simpl. rewrite Rmult_1_r; auto.
      * replace (1 / -1) with (IZR (-1)) by lra. simpl in Ey. rewrite Rmult_1_r in Ey. subst y.
        assert (/ x < 0) by (apply Rinv_lt_0_compat; lra).
        unfold r_pow. destruct (Rlt_dec 0 (/ x)); [lra|]. destruct (frac_IZR (-1)) as [F1 F2]. rewrite F1, F2.
        destruct (Req_EM_T (/ x) 0); [lra|]. destruct (Req_EM_T 0 0); [|lra]. simpl. rewrite Rmult_1_r, Rinv_inv; auto.
Qed.
Lemma acosh_cosh x : 0 <= x -> ln (cosh x + sqrt (cosh x ^ 2 - 1)) = x.
Proof.
  intros H. assert (E : cosh x ^ 2 - 1 = sinh x ^ 2).
  { unfold cosh, sinh. assert (exp x * exp (- x) = 1) by (rewrite <- exp_plus, Rplus_opp_r, exp_0; auto). nra. }
  assert (S : 0 <= sinh x).
  { unfold sinh. assert (exp (- x) <= exp x). { destruct (Req_dec x 0) as [->|]; [rewrite Ropp_0; lra|left; apply exp_increasing; lra]. } lra. }
  rewrite E, sqrt_pow2 by auto. unfold cosh, sinh.
  replace ((exp x + exp (- x)) / 2 + (exp x - exp (- x)) / 2) with (exp x) by lra. apply ln_exp.
Qed.
Lemma cosh_acosh x : 1 <= x -> cosh (ln (x + sqrt (x ^ 2 - 1))) = x.
Proof.
  intros H. set (s := sqrt (x ^ 2 - 1)). assert (0 <= s) by apply sqrt_pos.
  assert (s * s = x ^ 2 - 1) by (apply sqrt_sqrt; nra).
  unfold cosh. rewrite exp_Ropp, exp_ln by lra.
  assert (I : / (x + s) = x - s).
  { apply (Rmult_eq_reg_l (x + s)); [|lra]. rewrite Rinv_r by lra. nra. }
  rewrite I. lra.
Qed.

Section P.
  Variable other1 : nat -> R -> val.
  Variable other2 : nat -> R -> R -> val.

  Lemma un_inv hs p x y f : un other1 p x = Some y -> un_invertible p x ->
    inv_un other1 hs p = Some f -> f y = Some x.
  Proof.
    intros H D E. destruct p; cbn in *; try discriminate;
      repeat match type of H with context [if ?b then _ else _] => destruct b eqn:? end; try discriminate;
      try (injection H as <-); try (injection E as <-); cbn.
    - pose proof (tanh_range x) as [T1 T2]. destruct (Rlt_dec (-1) (tanh x)); [|lra].
      destruct (Rlt_dec (tanh x) 1); [|lra]. f_equal. apply arctanh_tanh.
    - f_equal. apply (tanh_arctanh x). lra.
    - rewrite arcsinh_sinh; auto.
    - rewrite sinh_arcsinh; auto.
    - destruct (Rle_dec 1 (cosh x)) as [_|n].
      + f_equal. apply acosh_cosh; auto.
      + exfalso; apply n. unfold cosh. assert (exp x * exp (- x) = 1) by (rewrite <- exp_plus, Rplus_opp_r, exp_0; auto).
        pose proof (exp_pos x). pose proof (exp_pos (-x)). pose proof (Rle_0_sqr (exp x - exp (- x))) as Q; unfold Rsqr in Q. nra.
    - f_equal. apply cosh_acosh; auto.
    - destruct (Rlt_dec 0 (exp x)) as [_|n]; [rewrite ln_exp; auto|exfalso; apply n, exp_pos].
    - f_equal. apply exp_ln; auto.
    - destruct hs; cbn; [rewrite sqrt_sqrt; auto|].
      destruct (Req_dec x 0) as [->|Hx].
      + rewrite sqrt_0. unfold r_pow. destruct (Rlt_dec 0 0); [lra|]. destruct (Req_EM_T 0 0); [|lra].
        destruct (Rlt_dec 0 2); [auto|lra].
      + unfold r_pow. assert (0 < sqrt x) by (apply sqrt_lt_R0; lra). destruct (Rlt_dec 0 (sqrt x)); [|lra].
        f_equal. change 2 with (INR 2). rewrite Rpower_pow by auto. cbn. rewrite Rmult_1_r, sqrt_sqrt; auto.
    - assert (0 < sqrt x) by (apply sqrt_lt_R0; lra). assert (0 < / sqrt x) by (apply Rinv_0_lt_compat; auto).
      assert (K : r_div 1 (/ sqrt x * / sqrt x) = Some x).
      { unfold r_div. destruct (Req_EM_T _ 0) as [e|_]; [exfalso; nra|]. f_equal.
        rewrite <- Rinv_mult, sqrt_sqrt by lra. field. lra. }
      destruct hs; cbn; [exact K|].
      unfold r_pow. destruct (Rlt_dec 0 (/ sqrt x)); [|lra]. cbn.
      change 2 with (INR 2). rewrite Rpower_pow by auto. cbn. rewrite Rmult_1_r. exact K.
    - f_equal; lra.
    - rewrite exp_ln by lra. f_equal; lra.
    - destruct (Rlt_dec (-1) (exp x - 1)) as [_|n].
      + f_equal. replace (1 + (exp x - 1)) with (exp x) by lra. apply ln_exp.
      + exfalso; apply n. pose proof (exp_pos x); lra.
    - apply erf_inv_erf.
    - f_equal. apply erf_erf_inv; auto.
    - auto.
    - destruct hs; [|discriminate]. injection E as <-. cbn. destruct (Rle_dec 0 (x * x)) as [_|n]; [|exfalso; apply n; nra].
      f_equal. apply sqrt_square; auto.
  Qed.
  Lemma bin_left_inv p x c y f : bin other2 p x c = Some y -> left_invertible p x c ->
    inv_bin_left other2 p = Some f -> f y c = Some x.
  Proof.
    intros H D E. destruct p; cbn in *; try discriminate; injection E as <-; cbn.
    - injection H as <-. unfold r_div. destruct (Req_EM_T c 0); [lra|]. f_equal; field; auto.
    - unfold r_div in H. destruct (Req_EM_T c 0); [lra|]. injection H as <-. f_equal; field; auto.
    - injection H as <-. f_equal; lra.
    - injection H as <-. f_equal; lra.
    - apply r_pow_inv; auto.
  Qed.
  Lemma bin_right_inv p x c y f : bin other2 p c x = Some y -> right_invertible p c x ->
    inv_bin_right other2 p = Some f -> f c y = Some x.
  Proof.
    intros H D E. destruct p; cbn in *; try discriminate; try contradiction; injection E as <-; cbn.
    - injection H as <-. unfold r_div. destruct (Req_EM_T c 0); [lra|]. f_equal; field; auto.
    - unfold r_div in H. destruct (Req_EM_T x 0); [discriminate|]. injection H as <-.
      unfold r_div. destruct (Req_EM_T (c / x) 0) as [e|_].
      + exfalso. apply D. replace c with (c / x * x) by (field; auto). rewrite e; lra.
      + f_equal; field; auto.
    - injection H as <-. f_equal; lra.
    - injection H as <-. f_equal; lra.
  Qed.
End P.
