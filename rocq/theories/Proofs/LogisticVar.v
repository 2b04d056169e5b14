(** The second moment of the standard logistic law is pi^2/3. *)
From Coq Require Import Reals Lra Lia.
From Coquelicot Require Import Coquelicot.
From Verif Require Import Base.XR Base.Integral Base.Improper Base.Mellin Base.GammaFn Base.Basel Spec.Density Spec.GammaFamily Proofs.Density Proofs.Logistic Proofs.GammaFamily.
Local Open Scope R_scope.

Fixpoint eta (n : nat) : R := match n with O => 0 | S m => eta m + (-1) ^ m / INR (S m) ^ 2 end.
Fixpoint lgP (n : nat) (q : R) : R := match n with O => 0 | S m => lgP m q + (-1) ^ m * (INR (S m) * q ^ S m) end.
Lemma pow_m1 n : (-1) ^ n = 1 \/ (-1) ^ n = -1.
Proof. induction n as [|n [E|E]]; [left; reflexivity| |]; cbn; rewrite E; [right|left]; ring. Qed.
Lemma lgP_rem n q : q - (1 + q) ^ 2 * lgP n q = (-1) ^ n * (INR (S n) * q ^ S n + INR n * q ^ S (S n)).
Proof.
  induction n as [|n IH]; [cbn; ring|]. cbn [lgP]. rewrite Rmult_plus_distr_l.
  replace (q - ((1 + q) ^ 2 * lgP n q + (1 + q) ^ 2 * ((-1) ^ n * (INR (S n) * q ^ S n)))) with ((q - (1 + q) ^ 2 * lgP n q) - (1 + q) ^ 2 * ((-1) ^ n * (INR (S n) * q ^ S n))) by ring.
  rewrite IH, !S_INR. cbn [pow]. ring.
Qed.
Lemma lgP_bound n q : 0 < q <= 1 -> Rabs (q / (1 + q) ^ 2 - lgP n q) <= 2 * (INR (S n) * q ^ S n).
Proof.
  intros Hq. assert (Hd : 1 <= (1 + q) ^ 2) by nra.
  replace (q / (1 + q) ^ 2 - lgP n q) with ((q - (1 + q) ^ 2 * lgP n q) / (1 + q) ^ 2) by (field; lra).
  rewrite lgP_rem. pose proof (pos_INR n) as Hn. assert (Hp : 0 < q ^ S n) by (apply pow_lt; lra).
  set (A := INR (S n) * q ^ S n + INR n * q ^ S (S n)).
  assert (HA : 0 <= A <= 2 * (INR (S n) * q ^ S n)).
  { unfold A. rewrite S_INR. change (q ^ S (S n)) with (q * q ^ S n). set (w := q ^ S n) in *.
    assert (0 <= INR n * w) by (apply Rmult_le_pos; lra). assert (INR n * (q * w) = INR n * w * q) by ring. rewrite H0. split; [assert (0 <= INR n * w * q) by (apply Rmult_le_pos; lra); lra|].
    assert (INR n * w * q <= INR n * w * 1) by (apply Rmult_le_compat_l; lra). lra. }
  unfold Rdiv. rewrite !Rabs_mult, (Rabs_right A) by lra. rewrite (Rabs_right (/ _)) by (apply Rle_ge, Rlt_le, Rinv_0_lt_compat; lra).
  assert (E : Rabs ((-1) ^ n) = 1). { destruct (pow_m1 n) as [-> | ->]; unfold Rabs; destruct (Rcase_abs _); lra. }
  rewrite E, Rmult_1_l. apply Rle_trans with (A * 1); [|lra]. apply Rmult_le_compat_l; [lra|]. rewrite <- Rinv_1. apply Rinv_le_contravar; lra.
Qed.
(** int_0^inf x^2 k e^(-kx) dx = 2/k^2 *)
Lemma exp_second k : 0 < k -> integral_on 0 p_infty (fun x => x ^ 2 * (k * exp (- (k * x)))) (2 / k ^ 2).
Proof.
  intros Hk. pose proof (gd_second 1 k Rlt_0_1 Hk) as H. replace (1 * (1 + 1) / k ^ 2) with (2 / k ^ 2) in H by (field; lra).
  eapply integral_on_ext; [exact I| |exact H]. intros x [Hx _]. cbn in Hx. cbn beta. unfold gamma_density.
  change (Gamma_fn 1) with (Gam 1). rewrite Gam_1, Rpower_1 by auto. replace (1 - 1) with 0 by ring. rewrite Rpower_O by auto. field.
Qed.
Lemma pow_exp_neg n x : exp (- x) ^ n = exp (- (INR n * x)).
Proof. induction n as [|n IH]; [cbn; rewrite Rmult_0_l, Ropp_0, exp_0; reflexivity|]. cbn [pow]. rewrite IH, S_INR, <- exp_plus. f_equal. ring. Qed.
Lemma lgP_int n : integral_on 0 p_infty (fun x => x ^ 2 * lgP n (exp (- x))) (2 * eta n).
Proof.
  induction n as [|n IH].
  - cbn [lgP eta]. rewrite Rmult_0_r. eapply integral_on_ext; [exact I| |apply (integral_on_zero 0 p_infty I)]. intros; cbn beta; ring.
  - cbn [lgP eta]. replace (2 * (eta n + (-1) ^ n / INR (S n) ^ 2)) with (2 * eta n + (-1) ^ n * (2 / INR (S n) ^ 2)) by (field; apply not_0_INR; lia).
    eapply integral_on_ext; [exact I| |apply integral_on_plus; [exact I|exact IH|apply integral_on_scal; [exact I|apply (exp_second (INR (S n))); apply lt_0_INR; lia]]].
    intros x _. cbn beta. rewrite pow_exp_neg. ring.
Qed.
Lemma eta_even m : eta (2 * m) = inv_squares (2 * m) - / 2 * inv_squares m.
Proof.
  induction m as [|m IH]; [cbn; ring|]. replace (2 * S m)%nat with (S (S (2 * m))) by lia. cbn [eta inv_squares]. rewrite IH.
  assert (E1 : (-1) ^ (2 * m) = 1) by (rewrite pow_mult; replace ((-1) ^ 2) with 1 by ring; apply pow1).
  replace ((-1) ^ S (2 * m)) with (-1) by (cbn [pow]; rewrite E1; ring). rewrite E1.
  rewrite !S_INR, mult_INR. pose proof (pos_INR m). cbn [INR]. field. lra.
Qed.
Lemma lg_half_second v : integral_on 0 p_infty (fun x => x ^ 2 * (exp (- x) / (1 + exp (- x)) ^ 2)) v -> v = PI ^ 2 / 6.
Proof.
  intros H.
  assert (B : forall m, Rabs (v - 2 * eta m) <= 4 / INR (S m) ^ 2).
  { intros m. assert (Hm : 0 < INR (S m)) by (apply lt_0_INR; lia).
    assert (D : integral_on 0 p_infty (fun x => x ^ 2 * (exp (- x) / (1 + exp (- x)) ^ 2) - x ^ 2 * lgP m (exp (- x))) (v - 2 * eta m)).
    { apply integral_on_minus; [exact I|exact H|apply lgP_int]. }
    assert (U : integral_on 0 p_infty (fun x => 2 * (x ^ 2 * (INR (S m) * exp (- (INR (S m) * x))))) (4 / INR (S m) ^ 2)).
    { replace (4 / INR (S m) ^ 2) with (2 * (2 / INR (S m) ^ 2)) by (field; lra). apply integral_on_scal; [exact I|apply exp_second; auto]. }
    assert (L : integral_on 0 p_infty (fun x => -1 * (2 * (x ^ 2 * (INR (S m) * exp (- (INR (S m) * x)))))) (-1 * (4 / INR (S m) ^ 2))) by (apply integral_on_scal; [exact I|exact U]).
    assert (P : forall x, inside 0 p_infty x -> Rabs (x ^ 2 * (exp (- x) / (1 + exp (- x)) ^ 2) - x ^ 2 * lgP m (exp (- x))) <= 2 * (x ^ 2 * (INR (S m) * exp (- (INR (S m) * x))))).
    { intros x [Hx _]. cbn in Hx. rewrite <- Rmult_minus_distr_l, Rabs_mult, (Rabs_right (x ^ 2)) by (apply Rle_ge, pow2_ge_0).
      assert (Hq : 0 < exp (- x) <= 1). { split; [apply exp_pos|]. rewrite <- exp_0. left. apply exp_increasing. lra. }
      pose proof (lgP_bound m (exp (- x)) Hq) as K. rewrite pow_exp_neg in K.
      apply (Rmult_le_compat_l (x ^ 2)) in K; [|apply pow2_ge_0]. lra. }
    apply Rabs_le. split.
    - replace (- (4 / INR (S m) ^ 2)) with (-1 * (4 / INR (S m) ^ 2)) by ring.
      apply (integral_on_le' 0 p_infty _ _ _ _ I) with (2 := L) (3 := D). intros x Ix. specialize (P x Ix). apply Rabs_le_between in P. lra.
    - apply (integral_on_le' 0 p_infty _ _ _ _ I) with (2 := D) (3 := U). intros x Ix. specialize (P x Ix). apply Rabs_le_between in P. lra. }
  assert (L1 : is_lim_seq (fun m => 2 * eta (2 * m)) (PI ^ 2 / 6)).
  { apply (is_lim_seq_ext (fun m => 2 * inv_squares (2 * m) - inv_squares m)); [intros m; rewrite eta_even; field|].
    replace (Finite (PI ^ 2 / 6)) with (Finite (2 * (PI ^ 2 / 6) - PI ^ 2 / 6)) by (f_equal; field).
    apply is_lim_seq_minus'; [|apply basel]. apply (is_lim_seq_scal_l (fun m => inv_squares (2 * m)) 2 (PI ^ 2 / 6)).
    apply (is_lim_seq_subseq inv_squares (PI ^ 2 / 6) (fun m => 2 * m)%nat); [|apply basel]. apply eventually_subseq. intros; lia. }
  assert (L2 : is_lim_seq (fun m => 2 * eta (2 * m)) v).
  { apply (is_lim_seq_le_le (fun m => v - 8 / (2 * INR m + 2)) _ (fun m => v + 8 / (2 * INR m + 2))).
    - intros m. specialize (B (2 * m)%nat). apply Rabs_le_between in B. rewrite S_INR, mult_INR in B. change (INR 2) with 2 in B. pose proof (pos_INR m) as Hm.
      assert (K : 4 / (2 * INR m + 1) ^ 2 <= 8 / (2 * INR m + 2)).
      { generalize dependent (INR m). intros w _ Hw. apply Rle_div_l; [nra|]. replace (8 / (2 * w + 2) * (2 * w + 1) ^ 2) with (4 * (2 * w + 1) ^ 2 / (w + 1)) by (field; lra). apply (proj1 (Rle_div_r 4 (4 * (2 * w + 1) ^ 2) (w + 1) ltac:(lra))). nra. }
      lra.
    - replace (Finite v) with (Finite (v - 0)) by (f_equal; ring). apply is_lim_seq_minus'; [apply is_lim_seq_const|apply inv_INR_lim].
    - replace (Finite v) with (Finite (v + 0)) by (f_equal; ring). apply is_lim_seq_plus'; [apply is_lim_seq_const|apply inv_INR_lim]. }
  pose proof (is_lim_seq_unique _ _ L1) as E1. rewrite (is_lim_seq_unique _ _ L2) in E1. congruence.
Qed.

Lemma lg_pdf_alt z : lg_pdf z = exp (- z) / (1 + exp (- z)) ^ 2.
Proof. unfold lg_pdf, lg. pose proof (lg_den z). field. lra. Qed.
Definition lg2 (z : R) : R := lg_pdf z * z ^ 2.
Lemma lg2_cont z : continuous lg2 z.
Proof. apply (continuous_mult lg_pdf (fun z => z ^ 2)); [apply lg_pdf_cont|]. apply (@ex_derive_continuous R_AbsRing R_NormedModule). auto_derive; auto. Qed.
Lemma lg2_even z : lg2 (- z) = lg2 z.
Proof. unfold lg2, lg_pdf. rewrite lg_opp. ring. Qed.
Lemma lg2_half : integral_on 0 p_infty lg2 (PI ^ 2 / 6).
Proof.
  destruct (integral_on_dominated 0 p_infty I lg2 (fun x => x ^ 2 * (1 * exp (- (1 * x)))) (2 / 1 ^ 2)) as [v Hv].
  - intros; apply lg2_cont.
  - intros x _. apply (@ex_derive_continuous R_AbsRing R_NormedModule). auto_derive; auto.
  - intros x [Hx _]. cbn in Hx. unfold lg2. rewrite lg_pdf_alt. rewrite !Rmult_1_l. pose proof (exp_pos (- x)) as P. pose proof (pow2_ge_0 x) as X.
    assert (1 <= (1 + exp (- x)) ^ 2) by nra. assert (0 < exp (- x) / (1 + exp (- x)) ^ 2) by (apply Rdiv_lt_0_compat; lra).
    assert (exp (- x) / (1 + exp (- x)) ^ 2 <= exp (- x)) by (apply Rle_div_l; nra). split; [apply Rmult_le_pos; lra|]. rewrite Rmult_comm. apply Rmult_le_compat_l; auto.
  - apply exp_second; lra.
  - replace (PI ^ 2 / 6) with v; auto. apply lg_half_second. eapply integral_on_ext; [exact I| |exact Hv]. intros x _. unfold lg2. rewrite lg_pdf_alt. ring.
Qed.
(** an even function's integral is twice that of its half *)
Lemma even_integral (h : R -> R) v : (forall x, continuous h x) -> (forall x, h (- x) = h x) -> integral_on 0 p_infty h v -> integral h (2 * v).
Proof.
  intros C Ev H. destruct (integral_on_inv 0 p_infty I h v ltac:(intros; apply C) H) as (F & HF & F0 & Fv).
  assert (ex : forall a b, ex_RInt h a b) by (intros; apply (@ex_RInt_continuous R_CompleteNormedModule); intros; apply C).
  assert (D : forall x, is_derive (fun x => RInt h 0 x) x (h x)).
  { intros x. apply (is_derive_RInt h _ 0 x); [|apply C]. exists (mkposreal 1 Rlt_0_1). intros y _. apply (@RInt_correct R_CompleteNormedModule); auto. }
  assert (Odd : forall x, RInt h 0 (- x) = - RInt h 0 x).
  { intros x. apply is_RInt_unique. pose proof (@RInt_correct R_CompleteNormedModule h 0 x (ex 0 x)) as K.
    pose proof (is_RInt_comp_opp h 0 (- x) (RInt h 0 x)) as Co. rewrite Ropp_0, Ropp_involutive in Co. specialize (Co K).
    apply (is_RInt_opp (V := R_NormedModule)) in Co. eapply is_RInt_ext; [|exact Co]. intros z _. unfold opp; cbn. rewrite Ropp_involutive. apply Ev. }
  assert (R0 : filterlim (fun x => RInt h 0 x) (at_right 0) (locally 0)).
  { pose proof (lim_cont (fun x => RInt h 0 x) 0 (at_right 0) (at_right_le 0)) as K. rewrite RInt_point in K. apply K. apply (ex_derive_continuous (fun x => RInt h 0 x)). eexists. apply D. }
  assert (Ii : forall x, 0 < x -> integral_on 0 x h (RInt h 0 x)).
  { intros x Hx. pose proof (integral_on_anti 0 x Hx h (fun y => RInt h 0 y) 0 (RInt h 0 x)) as K. rewrite Rminus_0_r in K. apply K; auto.
    apply (lim_cont (fun y => RInt h 0 y) x (at_left x) (at_left_le x)). apply (ex_derive_continuous (fun x => RInt h 0 x)). eexists. apply D. }
  assert (E : forall x, 0 < x -> RInt h 0 x = F x).
  { intros x Hx. apply (integral_on_unique 0 x Hx h); [apply Ii; auto|]. replace (F x) with (F x - 0) by ring.
    apply (integral_on_anti 0 x Hx h F 0 (F x)); auto.
    - intros y [Hy _]. apply HF. split; [auto|exact Logic.I].
    - apply (lim_cont F x (at_left x) (at_left_le x)). apply (ex_derive_continuous F). eexists. apply HF. split; [auto|exact Logic.I]. }
  assert (Lp : is_lim (fun x => RInt h 0 x) p_infty v). { apply (is_lim_tail_p F _ 0); [intros; symmetry; apply E; auto|exact Fv]. }
  replace (2 * v) with (v - - v) by ring. apply (integral_of_antiderivative (fun x => RInt h 0 x)); auto.
  apply (is_lim_ext (fun x => - (RInt h 0 (- x)))); [intros x; rewrite Odd; ring|].
  apply (is_lim_opp (fun x => RInt h 0 (- x)) m_infty v). apply (is_lim_opp_pm (fun x => RInt h 0 x)). exact Lp.
Qed.
Lemma lg_second : expectation lg_pdf (fun z => z ^ 2) (PI ^ 2 / 3).
Proof.
  unfold expectation. replace (PI ^ 2 / 3) with (2 * (PI ^ 2 / 6)) by field. apply (even_integral lg2); [apply lg2_cont|apply lg2_even|apply lg2_half].
Qed.
