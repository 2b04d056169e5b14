(** C105: entropy and KL divergence of Categorical in floating point. *)
From Coq Require Import Reals Lra Lia List Bool Arith ZArith Permutation.
From Flocq Require Import Core.
From Verif Require Import Base.XR Base.Float Spec.Rounding Spec.Accuracy Spec.CatInfo Proofs.FloatOrder Proofs.FloatLib
  Props.FloatNormalize Props.FloatBij Props.FloatCategorical Props.FloatSoftmax Props.FloatAccuracy.
From Verif Require Import Model.FloatDist Model.FloatReduce Model.FloatCatInfo Props.FloatReduce Props.FloatViterbi Props.FloatMixture.
From Verif Require Props.FixedDeterministic.
Import ListNotations.
Local Open Scope R_scope.

Lemma rnd_rel dt v : Rabs (rnd dt v - v) <= eps dt * Rabs v + tiny dt.
Proof.
  pose proof (eps_pos dt) as E0. pose proof (Rabs_pos v) as V. pose proof (tiny_pos dt) as T0. destruct (Rle_dec (tiny dt) (Rabs v)) as [H|H].
  - pose proof (rnd_err dt v H). lra.
  - pose proof (rnd_err_sub dt v ltac:(lra)) as Q. pose proof (sub_le_tiny dt). assert (0 <= eps dt * Rabs v) by (apply Rmult_le_pos; lra). lra.
Qed.
Lemma mul_exp_zero dt E x lp : E lp = Fin 0 -> fl_mul_exp dt E x lp = Fin 0.
Proof. intros H. unfold fl_mul_exp. rewrite H, (proj2 (xeqb_fin 0 0) eq_refl). unfold fmul. rewrite xmul_fin, Rmult_0_l. apply fround_0. Qed.
Lemma mul_exp_fin dt E r lp q : E lp = Fin q -> fl_mul_exp dt E (Fin r) lp = fround dt (Fin (r * q)).
Proof.
  intros H. unfold fl_mul_exp. rewrite H. destruct (xeqb (Fin q) (Fin 0)) eqn:Q; [|reflexivity]. apply xeqb_fin in Q as ->. unfold fmul. rewrite xmul_fin, Rmult_0_l, Rmult_0_r. auto.
Qed.

Lemma le_total n f : (forall i, (i < n)%nat -> 0 <= f i) -> forall i, (i < n)%nat -> f i <= total f (seq 0 n).
Proof.
  intros H i Hi. assert (I : In i (seq 0 n)) by (apply in_seq; lia). assert (G : forall j, In j (seq 0 n) -> 0 <= f j) by (intros j Hj; apply in_seq in Hj; apply H; lia).
  revert I G. generalize (seq 0 n). intros l. induction l as [|b l IH]; intros I G; [destruct I|]. rewrite total_cons. pose proof (total_nonneg f l ltac:(intros; apply G; right; auto)). pose proof (G b ltac:(left; auto)).
  destruct I as [-> |I]; [lra|]. specialize (IH I ltac:(intros; apply G; right; auto)). lra.
Qed.

(** ** A sum of [p t], each computed from a logarithm of [p] and a value near [t] *)
Section Weighted.
Variables (dt : dtype) (k delta alpha T : R) (E : XR -> XR) (o : order) (n : nat) (lp x : nat -> XR) (p t : nat -> R).
Notation e := (eps dt).
Notation d := (INR (depth o)).
Notation c := (2 * k * e + 2 * delta).
Hypothesis k_pos : 0 <= k.
Hypothesis HE : accurate dt k E exp (fun x => x <= 0).
Hypothesis E_ninf : E NInf = Fin 0.
Hypothesis d_pos : 0 <= delta.
Hypothesis a_rng : 0 <= alpha <= / 4.
Hypothesis c_max : c <= / 2.
Hypothesis T_pos : 0 <= T.
Definition term_tol (i : nat) : R := 5 / 4 * ((5 / 4 * c + alpha) * (p i * Rabs (t i)) + (c / 4 + alpha) * p i + (2 * T + 1) * tiny dt) + e * (p i * Rabs (t i)) + tiny dt.
Definition entry (i : nat) : Prop :=
  exists l r, lp i = Fin l /\ repr dt l /\ l <= 0 /\ 0 < p i /\ Rabs (l - ln (p i)) <= delta /\ x i = Fin r /\ Rabs (r - t i) <= alpha * (1 + Rabs (t i)) /\ Rabs (t i) <= T.
Lemma term_close i : entry i -> p i * Rabs (t i) <= maxpow dt / 32 -> p i <= 1 -> T * tiny dt <= 1 -> 
  close (fl_mul_exp dt E (x i) (lp i)) (p i * t i) (term_tol i) /\ value dt (fl_mul_exp dt E (x i) (lp i)).
Proof.
  intros (l & r & -> & Rl & L0 & P0 & Hl & -> & Hr & HT) HW HP HTt. pose proof (eps_pos dt) as E0. pose proof (eps_le dt) as E1. pose proof (tiny_pos dt) as T0. pose proof (tiny_le_eps dt) as T1.
  destruct (HE l Rl L0) as (q & Eq & Rq & Bq). rewrite (mul_exp_fin _ _ _ _ _ Eq).
  set (h := l - ln (p i)) in *. assert (El : exp l = p i * exp h). { unfold h. rewrite <- (exp_ln (p i)) at 1 by auto. rewrite <- exp_plus. f_equal. ring. }
  pose proof (Rabs_pos h) as H0. assert (KE : 0 <= k * e) by (apply Rmult_le_pos; lra). pose proof (exp_near h ltac:(lra)) as Xh. pose proof (exp_pos l) as Xl. rewrite (Rabs_pos_eq (exp l)) in Bq by lra.
  assert (D1 : Rabs (exp l - p i) <= 2 * delta * p i).
  { rewrite El. replace (p i * exp h - p i) with (p i * (exp h - 1)) by ring. rewrite Rabs_mult, (Rabs_pos_eq (p i)) by lra. nra. }
  assert (D2 : exp l <= 2 * p i). { apply Rabs_le_inv in D1. nra. }
  assert (D3 : Rabs (q - p i) <= c * p i + tiny dt).
  { replace (q - p i) with ((q - exp l) + (exp l - p i)) by ring. eapply Rle_trans; [apply Rabs_triang|].
    assert (k * e * exp l <= k * e * (2 * p i)) by (apply Rmult_le_compat_l; auto). lra. }
  assert (R1 : Rabs r <= Rabs (t i) + alpha * (1 + Rabs (t i))). { replace r with ((r - t i) + t i) by ring. eapply Rle_trans; [apply Rabs_triang|]. lra. }
  unfold term_tol. set (b := Rabs (t i)) in *. assert (A0 : 0 <= b) by apply Rabs_pos. set (w := p i * b) in *. assert (W0 : 0 <= w) by (apply Rmult_le_pos; lra).
  set (u := (5 / 4 * c + alpha) * w + (c / 4 + alpha) * p i + (2 * T + 1) * tiny dt).
  assert (Hv : Rabs (r * q - p i * t i) <= u).
  { replace (r * q - p i * t i) with (r * (q - p i) + p i * (r - t i)) by ring. eapply Rle_trans; [apply Rabs_triang|]. rewrite !Rabs_mult, (Rabs_pos_eq (p i)) by lra.
    assert (Q1 : Rabs r * Rabs (q - p i) <= (b + alpha * (1 + b)) * (c * p i + tiny dt)) by (apply Rmult_le_compat; auto using Rabs_pos).
    assert (Q2 : p i * Rabs (r - t i) <= p i * (alpha * (1 + b))) by (apply Rmult_le_compat_l; lra).
    assert (CC : 0 <= c) by lra.
    assert (Q3 : (b + alpha * (1 + b)) * (c * p i) <= 5 / 4 * c * w + c / 4 * p i).
    { replace (5 / 4 * c * w + c / 4 * p i) with ((5 / 4 * b + / 4) * (c * p i)) by (unfold w; field). apply Rmult_le_compat_r; [apply Rmult_le_pos; lra|]. nra. }
    assert (Q4 : (b + alpha * (1 + b)) * tiny dt <= (2 * T + 1) * tiny dt) by (apply Rmult_le_compat_r; [lra|nra]).
    replace (p i * (alpha * (1 + b))) with (alpha * p i + alpha * w) in Q2 by (unfold w; ring). unfold u. lra. }
  assert (Uu : 0 <= u). { eapply Rle_trans; [apply Rabs_pos|exact Hv]. }
  assert (Wt : Rabs (p i * t i) = w) by (rewrite Rabs_mult, (Rabs_pos_eq (p i)) by lra; reflexivity).
  assert (Vb : Rabs (r * q) <= w + u). { replace (r * q) with ((r * q - p i * t i) + p i * t i) by ring. eapply Rle_trans; [apply Rabs_triang|]. lra. }
  assert (Ub : u <= 7 / 8 * w + 3).
  { unfold u. assert (C1 : (5 / 4 * c + alpha) * w <= 7 / 8 * w) by (apply Rmult_le_compat_r; lra). assert (C2 : (c / 4 + alpha) * p i <= 3 / 8 * 1) by (apply Rmult_le_compat; lra). lra. }
  pose proof (maxpow_ge_32 dt) as M32. destruct (round_fin dt (r * q)) as (v & -> & Rv & _ & Ev); [lra|].
  split; [|exact Rv]. exists v. split; [auto|]. rewrite Ev. pose proof (rnd_rel dt (r * q)) as Q.
  replace (rnd dt (r * q) - p i * t i) with ((rnd dt (r * q) - r * q) + (r * q - p i * t i)) by ring. eapply Rle_trans; [apply Rabs_triang|].
  assert (e * Rabs (r * q) <= e * (w + u)) by (apply Rmult_le_compat_l; lra). assert (e * u <= / 4 * u) by (apply Rmult_le_compat_r; lra). fold u. lra.
Qed.
Hypothesis Ho : adds_all o n.
Hypothesis deep : 2 * d * e <= 1.
(** every category is impossible, or has a logarithm and a value near the exact ones *)
Hypothesis entries : forall i, (i < n)%nat -> (lp i = NInf /\ p i = 0) \/ entry i.
Hypothesis p_sum : total p (seq 0 n) = 1.
Notation W := (total (fun i => p i * Rabs (t i)) (seq 0 n)).
Hypothesis W_max : W <= maxpow dt / 32.
Hypothesis n_tiny : INR n * (4 * T + 3) * tiny dt <= e.
Lemma p_nonneg i : (i < n)%nat -> 0 <= p i.
Proof. intros H. destruct (entries i H) as [[_ ->]|(l & r & _ & _ & _ & P & _)]; lra. Qed.
Lemma some_n : 1 <= INR n.
Proof. destruct n as [|m] eqn:E'; [cbn in p_sum; lra|]. rewrite S_INR. pose proof (pos_INR m). lra. Qed.
Lemma tiny_share : T * tiny dt <= 1 /\ INR n * (5 / 4 * (2 * T + 1) + 1) * tiny dt <= e.
Proof.
  pose proof some_n. pose proof (tiny_pos dt) as T0. pose proof (eps_le dt). assert (0 <= T * tiny dt) by (apply Rmult_le_pos; lra). split.
  - assert (1 * (T * tiny dt) <= INR n * (T * tiny dt)) by (apply Rmult_le_compat_r; lra). assert (0 <= INR n * tiny dt) by (apply Rmult_le_pos; lra). nra.
  - eapply Rle_trans; [|exact n_tiny]. apply Rmult_le_compat_r; [lra|]. apply Rmult_le_compat_l; lra.
Qed.
Lemma each_close i : (i < n)%nat -> close (fl_mul_exp dt E (x i) (lp i)) (p i * t i) (term_tol i) /\ value dt (fl_mul_exp dt E (x i) (lp i)).
Proof.
  intros Hi. destruct tiny_share as (S1 & _). destruct (entries i Hi) as [[El Ep]|Q].
  - assert (E (lp i) = Fin 0) as Z by (rewrite El; auto). rewrite mul_exp_zero by auto. split; [|apply repr_0]. exists 0. split; [auto|]. unfold term_tol. rewrite Ep, !Rmult_0_l, !Rmult_0_r, Rminus_0_r, Rabs_R0.
    pose proof (tiny_pos dt). assert (0 <= (2 * T + 1) * tiny dt) by (apply Rmult_le_pos; lra). lra.
  - apply term_close; auto.
    + eapply Rle_trans; [|exact W_max]. apply (le_total n (fun i => p i * Rabs (t i))); [|auto]. intros j Hj. apply Rmult_le_pos; [apply p_nonneg; auto|apply Rabs_pos].
    + rewrite <- p_sum. apply le_total; [apply p_nonneg|auto].
Qed.
Lemma W_nonneg : 0 <= W.
Proof. apply total_nonneg. intros i Hi. apply in_seq in Hi. apply Rmult_le_pos; [apply p_nonneg; lia|apply Rabs_pos]. Qed.
Lemma tol_total : total term_tol (seq 0 n) <= (25 / 16 * c + 5 / 4 * alpha + 2 * e) * (1 + W) /\ total (fun i => Rabs (p i * t i) + term_tol i) (seq 0 n) = W + total term_tol (seq 0 n).
Proof.
  pose proof (eps_pos dt) as E0. pose proof W_nonneg as W0. destruct tiny_share as (_ & S2). assert (KE : 0 <= k * e) by (apply Rmult_le_pos; lra). split.
  - assert (Eq : total term_tol (seq 0 n) = (5 / 4 * (5 / 4 * c + alpha) + e) * W + 5 / 4 * (c / 4 + alpha) * total p (seq 0 n) + INR n * (5 / 4 * (2 * T + 1) + 1) * tiny dt).
    { replace (INR n) with (INR (length (seq 0 n))) by (rewrite seq_length; auto). generalize (seq 0 n). intros l0. induction l0 as [|b l IH]; [rewrite !total_nil; cbn; ring|]. cbn [length]. rewrite S_INR, !total_cons, IH. unfold term_tol. ring. }
    rewrite Eq, p_sum. assert (0 <= c * W) by (apply Rmult_le_pos; lra). assert (0 <= alpha * W) by (apply Rmult_le_pos; lra). assert (0 <= e * W) by (apply Rmult_le_pos; lra). lra.
  - rewrite total_plus. f_equal. apply total_ext_in. intros i Hi. apply in_seq in Hi. rewrite Rabs_mult, (Rabs_pos_eq (p i)) by (apply p_nonneg; lia). auto.
Qed.
Lemma weighted_sum : close (sum_in dt o (fun i => fl_mul_exp dt E (x i) (lp i))) (total (fun i => p i * t i) (seq 0 n)) ((2 * c + 2 * alpha + (6 * d + 2) * e) * (1 + W)).
Proof.
  pose proof (eps_pos dt) as E0. pose proof (eps_le dt) as E1. pose proof W_nonneg as W0. pose proof (maxpow_ge_32 dt) as M32. pose proof (pos_INR (depth o)) as D0. destruct tol_total as (Q1 & Q2). assert (KE : 0 <= k * e) by (apply Rmult_le_pos; lra).
  assert (Q3 : total term_tol (seq 0 n) <= 7 / 4 * (1 + W)) by (eapply Rle_trans; [exact Q1|]; apply Rmult_le_compat_r; lra).
  pose proof (C101_sum dt o n (fun i => fl_mul_exp dt E (x i) (lp i)) Ho deep (fun i => p i * t i) term_tol each_close) as C. cbv beta in C. rewrite Q2 in C. specialize (C ltac:(lra)).
  eapply close_weaken; [exact C|]. assert (2 * d * e * (W + total term_tol (seq 0 n)) <= 2 * d * e * (11 / 4 * (1 + W))) by (apply Rmult_le_compat_l; [nra|lra]).
  assert (0 <= c * (1 + W)) by (apply Rmult_le_pos; lra). assert (0 <= alpha * (1 + W)) by (apply Rmult_le_pos; lra). assert (0 <= d * e * (1 + W)) by (apply Rmult_le_pos; [nra|lra]).
  lra.
Qed.
End Weighted.

Lemma sum_over_total n f : sum_over n f = total f (seq 0 n).
Proof. unfold sum_over. generalize (seq 0 n). intros l. induction l as [|a l IH]; cbn; [auto|]. f_equal. exact IH. Qed.

(** ** The normalised logits *)
Section LogSoftmax.
Variables (dt : dtype) (k B : R) (L E : XR -> XR) (o : order) (n : nat) (a : nat -> XR).
Notation e := (eps dt).
Notation d := (INR (depth o)).
Notation lam := (ln (INR n)).
Hypothesis k_pos : 0 <= k.
Hypothesis FL : log_fn dt L.
Hypothesis FE : exp_fn dt E.
Hypothesis HL : accurate dt k L ln (fun c => 0 < c).
Hypothesis HE : accurate dt k E exp (fun x => x <= 0).
Hypothesis Ho : adds_all o n.
Hypothesis B_pos : 0 <= B.
Hypothesis a_ok : forall i, (i < n)%nat -> a i = NInf \/ exists r, a i = Fin r /\ repr dt r /\ Rabs r <= B.
Hypothesis some : exists i, (i < n)%nat /\ a i <> NInf.
Definition ls_units : R := 5 * k + k * lam + 12 * B + 10 * d + lam + 6.
Hypothesis units_ok : ls_units * e <= / 16.
Hypothesis n_max : 16 * INR n <= maxpow dt.
Hypothesis n_tiny : INR n * tiny dt <= e.
Notation P := (category_prob n a).
Lemma ls_facts : 0 <= lam /\ 0 <= k * lam /\ 0 < e <= / 96 /\ 0 <= k * e <= / 80 /\ 0 <= d * e <= / 160 /\ (12 * B + lam) * e <= / 16.
Proof.
  pose proof (eps_pos dt) as E0. pose proof (pos_INR (depth o)) as D0. destruct some as (i & Hi & _). assert (N1 : 1 <= INR n) by (change 1 with (INR 1); apply le_INR; lia).
  assert (L0 : 0 <= lam). { rewrite <- ln_1. destruct N1 as [N1|<-]; [left; apply ln_increasing; lra|lra]. }
  assert (KL : 0 <= k * lam) by (apply Rmult_le_pos; lra). unfold ls_units in units_ok.
  assert (0 <= k * e) by (apply Rmult_le_pos; lra). assert (0 <= k * lam * e) by (apply Rmult_le_pos; lra). assert (0 <= B * e) by (apply Rmult_le_pos; lra). assert (0 <= d * e) by (apply Rmult_le_pos; lra).
  assert (0 <= lam * e) by (apply Rmult_le_pos; lra). repeat split; lra.
Qed.
Lemma log_softmax_close i : (i < n)%nat ->
  (a i = NInf /\ fl_log_softmax dt L E o n a i = NInf /\ P i = 0) \/
  (exists l, a i <> NInf /\ fl_log_softmax dt L E o n a i = Fin l /\ repr dt l /\ l <= 0 /\ Rabs (l - ln (P i)) <= ls_units * e /\ 0 < P i <= 1 /\ Rabs (ln (P i)) <= 2 * B + lam).
Proof.
  intros Hi. destruct ls_facts as (L0 & KL & (E0 & E1) & Ke & De & Bl). pose proof (pos_INR (depth o)) as D0.
  assert (U : lse_units k B o n * e <= 1).
  { unfold lse_units, ls_units in *. nra. }
  destruct (log_sum dt k B L E o n a k_pos HL HE (exp_fn_ninf _ _ FE) Ho B_pos a_ok U n_max n_tiny some) as (m & Em & Rm & Bm & Le & M0 & LP & Ct & _ & _ & MB).
  assert (MS : sum_over n (fun j => logit_weight (a j)) = mass n a) by apply sum_over_total.
  assert (Av : forall j, (j < n)%nat -> value dt (a j) /\ a j <> NaN /\ a j <> PInf).
  { intros j Hj. destruct (a_ok j Hj) as [-> |(r & -> & Rr & _)]; (split; [first [exact I|exact Rr]|split; discriminate]). }
  destruct some as (k0 & K0). destruct (C85_log_softmax dt L E FL FE n a o Ho Av k0 K0) as (Q & _). destruct (Q i Hi) as (Q0 & Qi). unfold category_prob. rewrite MS.
  destruct (a_ok i Hi) as [Ei|(r & Ei & Rr & Br)].
  - left. split; [auto|]. split; [auto|]. rewrite Ei. cbn [logit_weight]. apply Rmult_0_l.
  - right. pose proof (Le i r Hi Ei) as Lr. apply Rabs_le_inv in Br as Br'. apply Rabs_le_inv in Bm as Bm'.
    rewrite Ei. cbn [logit_weight]. assert (LnP : ln (exp r / mass n a) = r - ln (mass n a)) by (rewrite ln_div, ln_exp by (auto using exp_pos); auto). rewrite LnP.
    assert (S : close (fl_shifted dt n a i) (r - m) (2 * B * e)).
    { unfold fl_shifted. rewrite Em, Ei. unfold fsub. rewrite xsub_fin. destruct (round_fin dt (r - m)) as (s & -> & Rs & _ & Es); [apply Rabs_le; lra|]. exists s. split; [auto|]. rewrite Es.
      eapply Rle_trans; [apply sub_rel; auto|]. assert (Rabs (r - m) <= 2 * B) by (apply Rabs_le; lra). nra. }
    assert (T1 : tau dt k B o n <= / 16). { unfold tau, ls_units in *. nra. }
    assert (T0 : 0 <= tau dt k B o n). { destruct Ct as (v & _ & Cv). eapply Rle_trans; [apply Rabs_pos|exact Cv]. }
    assert (Xs : fl_exp_sum dt E o n a = sum_in dt o (fun i => E (fsub dt (a i) (Fin m)))) by (unfold fl_exp_sum, fl_shifted; rewrite Em; auto).
    assert (F : close (fl_log_softmax dt L E o n a i) (r - m - (ln (mass n a) - m)) (2 * B * e + tau dt k B o n + e * (2 * B + lam + 1 + 1))).
    { unfold fl_log_softmax. rewrite Xs. apply close_sub; auto.
      - rewrite (Rabs_pos_eq (ln _ - m)) by lra. assert (Rabs (r - m) <= 2 * B) by (apply Rabs_le; lra). nra.
      - apply Rmult_le_reg_r with e; [auto|]. pose proof (maxpow_eps dt). nra. }
    destruct F as (l & El & Bl'). exists l. split; [discriminate|]. split; [auto|]. split; [|split; [|split; [|split]]].
    + unfold fl_log_softmax in El. apply fround_value in El. exact El.
    + rewrite El in Q0. apply fle_fin in Q0. auto.
    + replace (l - (r - ln (mass n a))) with (l - (r - m - (ln (mass n a) - m))) by ring. eapply Rle_trans; [exact Bl'|]. unfold tau, ls_units. lra.
    + split; [apply Rdiv_lt_0_compat; auto using exp_pos|]. rewrite <- exp_0. rewrite <- (exp_ln (exp r / mass n a)) by (apply Rdiv_lt_0_compat; auto using exp_pos).
      rewrite LnP. apply Raux.exp_le. lra.
    + apply Rabs_le. lra.
Qed.
Lemma prob_total : total P (seq 0 n) = 1.
Proof.
  assert (M0 : mass n a <> 0).
  { destruct some as (i & Hi & Ni). pose proof (le_total n (fun j => xexp0 (a j))) as Q. assert (0 < mass n a); [|lra]. eapply Rlt_le_trans; [|apply (Q ltac:(intros j _; unfold xexp0; destruct (a j); try lra; left; apply exp_pos) i Hi)].
    destruct (a_ok i Hi) as [|(r & -> & _)]; [contradiction|]. apply exp_pos. }
  assert (MS : sum_over n (fun j => logit_weight (a j)) = mass n a) by apply sum_over_total.
  transitivity (total (fun i => / mass n a * xexp0 (a i)) (seq 0 n)).
  - apply total_ext_in. intros i _. unfold category_prob. rewrite MS. apply Rmult_comm.
  - rewrite total_scale. fold (mass n a). apply Rinv_l. auto.
Qed.
End LogSoftmax.

(** ** Entropy *)
Section Entropy.
Variables (dt : dtype) (k B : R) (L E : XR -> XR) (o1 o : order) (n : nat) (a : nat -> XR).
Notation e := (eps dt).
Hypothesis k_pos : 0 <= k.
Hypothesis FL : log_fn dt L.
Hypothesis FE : exp_fn dt E.
Hypothesis HL : accurate dt k L ln (fun c => 0 < c).
Hypothesis HE : accurate dt k E exp (fun x => x <= 0).
Hypothesis Ho1 : adds_all o1 n.
Hypothesis Ho : adds_all o n.
Hypothesis deep : 2 * INR (depth o) * e <= 1.
Hypothesis B_pos : 0 <= B.
(** every logit is -inf or at most [B] in size, and one is finite *)
Hypothesis a_ok : forall i, (i < n)%nat -> a i = NInf \/ exists r, a i = Fin r /\ repr dt r /\ Rabs r <= B.
Hypothesis some : exists i, (i < n)%nat /\ a i <> NInf.
Hypothesis units_ok : ls_units k B o1 n * e <= / 16.
Hypothesis n_max : 16 * INR n <= maxpow dt.
Hypothesis n_tiny : INR n * (8 * B + 4 * ln (INR n) + 3) * tiny dt <= e.
Theorem C105_entropy : let H := shannon_entropy n (category_prob n a) in
  0 <= H /\ close (fl_cat_entropy_logits dt L E o1 o n a) H ((6 * ls_units k B o1 n + 4 * k + 6 * INR (depth o) + 2) * e * (1 + H)).
Proof.
  destruct (ls_facts dt k B o1 n a k_pos B_pos some units_ok) as (L0 & KL & (E0 & E1) & Ke & De & Bl). pose proof (tiny_pos dt) as T0. pose proof (pos_INR n) as N0.
  assert (n_tiny1 : INR n * tiny dt <= e). { eapply Rle_trans; [|exact n_tiny]. apply Rmult_le_compat_r; [lra|]. rewrite <- (Rmult_1_r (INR n)) at 1. apply Rmult_le_compat_l; lra. }
  pose proof (log_softmax_close dt k B L E o1 n a k_pos FL FE HL HE Ho1 B_pos a_ok some units_ok n_max n_tiny1) as LS. pose proof (prob_total dt B n a a_ok some) as PT.
  set (P := category_prob n a) in *. pose proof (maxpow_eps dt) as ME.
  assert (Ab : forall i, (i < n)%nat -> P i * Rabs (ln (P i)) = - (P i * ln (P i))).
  { intros i Hi. destruct (LS i Hi) as [(_ & _ & ->)|(l & _ & _ & _ & _ & _ & P1 & _)]; [ring|]. rewrite Rabs_left1; [ring|]. rewrite <- ln_1. destruct P1 as [P0 [P1|P1]]; [left; apply ln_increasing; lra|rewrite P1; lra]. }
  assert (WH : total (fun i => P i * Rabs (ln (P i))) (seq 0 n) = shannon_entropy n P).
  { unfold shannon_entropy. rewrite sum_over_total. replace (- total (fun i => if Rlt_dec 0 (P i) then P i * ln (P i) else 0) (seq 0 n)) with (-1 * total (fun i => if Rlt_dec 0 (P i) then P i * ln (P i) else 0) (seq 0 n)) by ring.
    rewrite <- total_scale. apply total_ext_in. intros i Hi. apply in_seq in Hi. rewrite Ab by lia. destruct (Rlt_dec 0 (P i)); [ring|]. destruct (LS i ltac:(lia)) as [(_ & _ & Z)|(l & _ & _ & _ & _ & _ & P1 & _)]; [rewrite Z; ring|lra]. }
  assert (SH : total (fun i => P i * ln (P i)) (seq 0 n) = - shannon_entropy n P).
  { rewrite <- WH. replace (- total (fun i => P i * Rabs (ln (P i))) (seq 0 n)) with (-1 * total (fun i => P i * Rabs (ln (P i))) (seq 0 n)) by ring. rewrite <- total_scale. apply total_ext_in. intros i Hi. apply in_seq in Hi. rewrite Ab by lia. ring. }
  assert (Wm : shannon_entropy n P <= 2 * B + ln (INR n)).
  { rewrite <- WH. apply Rle_trans with (total (fun i => (2 * B + ln (INR n)) * P i) (seq 0 n)); [|rewrite total_scale, PT; lra]. apply total_le. intros i Hi. apply in_seq in Hi.
    destruct (LS i ltac:(lia)) as [(_ & _ & ->)|(l & _ & _ & _ & _ & _ & P1 & P2)]; [lra|]. rewrite (Rmult_comm (2 * B + ln (INR n))). apply Rmult_le_compat_l; lra. }
  cbv zeta. split.
  { rewrite <- WH. apply total_nonneg. intros i Hi. apply in_seq in Hi. apply Rmult_le_pos; [|apply Rabs_pos]. destruct (LS i ltac:(lia)) as [(_ & _ & ->)|(l & _ & _ & _ & _ & _ & P1 & _)]; lra. }
  assert (Dp : 0 <= ls_units k B o1 n * e). { unfold ls_units. pose proof (pos_INR (depth o1)). apply Rmult_le_pos; lra. }
  pose proof (weighted_sum dt k (ls_units k B o1 n * e) (ls_units k B o1 n * e) (2 * B + ln (INR n)) E o n (fl_log_softmax dt L E o1 n a) (fl_log_softmax dt L E o1 n a) P (fun i => ln (P i))) as C.
  cbv beta in C. rewrite WH, SH in C. unfold fl_cat_entropy_logits, fl_cat_entropy. rewrite <- (Ropp_involutive (shannon_entropy n P)) at 1. apply close_opp. eapply close_weaken; [apply C|].
  - exact k_pos. - exact HE. - apply (exp_fn_ninf _ _ FE). - exact Dp. - lra. - lra. - lra. - exact Ho. - exact deep.
  - intros i Hi. destruct (LS i Hi) as [(_ & Q & Z)|(l & _ & El & Rl & Ll & Bl' & P1 & P2)]; [left; auto|]. right. exists l, l. do 6 (split; [auto; lra|]). split; [|auto].
    eapply Rle_trans; [exact Bl'|]. pose proof (Rabs_pos (ln (P i))). rewrite <- (Rmult_1_r (ls_units k B o1 n * e)) at 1. apply Rmult_le_compat_l; lra.
  - exact PT.
  - eapply Rle_trans; [exact Wm|]. apply Rmult_le_reg_r with e; [auto|]. assert (0 <= B * e) by (apply Rmult_le_pos; lra). lra.
  - eapply Rle_trans; [|exact n_tiny]. right. ring.
  - right. ring.
Qed.
End Entropy.
Print Assumptions C105_entropy.

(** ** KL divergence *)
Lemma log_ratio_le p q : 0 < p -> 0 < q -> p * ln (q / p) <= q - p.
Proof.
  intros Hp Hq. pose proof (exp_ineq1_le (ln (q / p))) as X. rewrite exp_ln in X by (apply Rdiv_lt_0_compat; auto). apply Rmult_le_compat_l with (r := p) in X; [|lra].
  replace (p * (q / p)) with q in X by (field; lra). lra.
Qed.
Section KL.
Variables (dt : dtype) (k B U : R) (L E : XR -> XR) (o1 o2 o : order) (n : nat) (a1 a2 : nat -> XR).
Notation e := (eps dt).
Notation lam := (ln (INR n)).
Hypothesis k_pos : 0 <= k.
Hypothesis FL : log_fn dt L.
Hypothesis FE : exp_fn dt E.
Hypothesis HL : accurate dt k L ln (fun c => 0 < c).
Hypothesis HE : accurate dt k E exp (fun x => x <= 0).
Hypothesis Ho1 : adds_all o1 n.
Hypothesis Ho2 : adds_all o2 n.
Hypothesis Ho : adds_all o n.
Hypothesis deep : 2 * INR (depth o) * e <= 1.
Hypothesis B_pos : 0 <= B.
Hypothesis a1_ok : forall i, (i < n)%nat -> a1 i = NInf \/ exists r, a1 i = Fin r /\ repr dt r /\ Rabs r <= B.
Hypothesis a2_ok : forall i, (i < n)%nat -> a2 i = NInf \/ exists r, a2 i = Fin r /\ repr dt r /\ Rabs r <= B.
Hypothesis some1 : exists i, (i < n)%nat /\ a1 i <> NInf.
Hypothesis some2 : exists i, (i < n)%nat /\ a2 i <> NInf.
Hypothesis U1 : ls_units k B o1 n <= U.
Hypothesis U2 : ls_units k B o2 n <= U.
Hypothesis units_ok : U * e <= / 16.
Hypothesis n_max : 16 * INR n <= maxpow dt.
Hypothesis n_tiny : INR n * (16 * B + 8 * lam + 3) * tiny dt <= e.
Notation P := (category_prob n a1).
Notation Q := (category_prob n a2).
Notation lp1 := (fl_log_softmax dt L E o1 n a1).
Notation lp2 := (fl_log_softmax dt L E o2 n a2).
(** the log-ratio where the second distribution allows the category *)
Definition kl_t (i : nat) : R := match a2 i with NInf => 0 | _ => ln (P i) - ln (Q i) end.
Definition kl_x (i : nat) : XR := match a2 i with NInf => Fin 0 | _ => fsub dt (lp1 i) (lp2 i) end.
Lemma kl_units1 : ls_units k B o1 n * e <= / 16 /\ ls_units k B o2 n * e <= / 16.
Proof. pose proof (eps_pos dt). split; eapply Rle_trans; [| exact units_ok | | exact units_ok]; apply Rmult_le_compat_r; lra. Qed.
Lemma kl_tiny1 : INR n * tiny dt <= e.
Proof.
  destruct (ls_facts dt k B o1 n a1 k_pos B_pos some1 (proj1 kl_units1)) as (L0 & _). pose proof (tiny_pos dt). pose proof (pos_INR n).
  eapply Rle_trans; [|exact n_tiny]. apply Rmult_le_compat_r; [lra|]. rewrite <- (Rmult_1_r (INR n)) at 1. apply Rmult_le_compat_l; lra.
Qed.
Lemma kl_lp1 i : (i < n)%nat -> (a1 i = NInf /\ lp1 i = NInf /\ P i = 0) \/
  (exists l, a1 i <> NInf /\ lp1 i = Fin l /\ repr dt l /\ l <= 0 /\ Rabs (l - ln (P i)) <= U * e /\ 0 < P i <= 1 /\ Rabs (ln (P i)) <= 2 * B + lam).
Proof.
  intros Hi. pose proof (eps_pos dt). destruct (log_softmax_close dt k B L E o1 n a1 k_pos FL FE HL HE Ho1 B_pos a1_ok some1 (proj1 kl_units1) n_max kl_tiny1 i Hi) as [?|(l & ? & ? & ? & ? & Bl & ?)]; [auto|].
  right. exists l. do 4 (split; [auto|]). split; [|auto]. eapply Rle_trans; [exact Bl|]. apply Rmult_le_compat_r; lra.
Qed.
Lemma kl_lp2 i : (i < n)%nat -> (a2 i = NInf /\ lp2 i = NInf /\ Q i = 0) \/
  (exists l, a2 i <> NInf /\ lp2 i = Fin l /\ repr dt l /\ l <= 0 /\ Rabs (l - ln (Q i)) <= U * e /\ 0 < Q i <= 1 /\ Rabs (ln (Q i)) <= 2 * B + lam).
Proof.
  intros Hi. pose proof (eps_pos dt). destruct (log_softmax_close dt k B L E o2 n a2 k_pos FL FE HL HE Ho2 B_pos a2_ok some2 (proj2 kl_units1) n_max kl_tiny1 i Hi) as [?|(l & ? & ? & ? & ? & Bl & ?)]; [auto|].
  right. exists l. do 4 (split; [auto|]). split; [|auto]. eapply Rle_trans; [exact Bl|]. apply Rmult_le_compat_r; lra.
Qed.
Lemma kl_numbers : 0 <= lam /\ 0 < e <= / 96 /\ 0 <= k * e <= / 80 /\ 0 <= U * e /\ 0 <= B * e /\ 2 * (2 * B + lam) <= maxpow dt / 32.
Proof.
  destruct (ls_facts dt k B o1 n a1 k_pos B_pos some1 (proj1 kl_units1)) as (L0 & KL & (E0 & E1) & Ke & De & Bl). pose proof (maxpow_eps dt) as ME.
  assert (0 <= B * e) by (apply Rmult_le_pos; lra). assert (0 <= lam * e) by (apply Rmult_le_pos; lra).
  assert (Up : 0 <= U). { eapply Rle_trans; [|exact U1]. unfold ls_units. pose proof (pos_INR (depth o1)). lra. }
  assert (0 <= U * e) by (apply Rmult_le_pos; lra).
  assert (Q1 : (12 * B + lam) * e <= / 16) by exact Bl. repeat split; auto; try lra. apply Rmult_le_reg_r with e; [auto|].
  assert (12 * B + lam + 5 * B <= 12 * B + lam + 5 * B) by lra. 
  assert (Q2 : ls_units k B o1 n * e <= / 16) by apply kl_units1. unfold ls_units in Q2.
  assert (0 <= k * lam * e) by (apply Rmult_le_pos; lra). pose proof (pos_INR (depth o1)). assert (0 <= INR (depth o1) * e) by (apply Rmult_le_pos; lra). lra.
Qed.
Lemma kl_entry i : (i < n)%nat -> (lp1 i = NInf /\ P i = 0) \/ entry dt (U * e) (3 * (U * e) + e) (2 * (2 * B + lam)) lp1 kl_x P kl_t i.
Proof.
  intros Hi. destruct kl_numbers as (L0 & (E0 & E1) & Ke & Up & Be & Tm). destruct (kl_lp1 i Hi) as [(_ & ? & ?)|(l & _ & El & Rl & Ll & Bl & P1 & P2)]; [auto|]. right.
  unfold entry, kl_x, kl_t. rewrite El. destruct (kl_lp2 i Hi) as [(Ea & _)|(l2 & Na & El2 & Rl2 & Ll2 & Bl2 & Q1 & Q2)].
  - rewrite Ea. exists l, 0. repeat (split; [auto; lra|]). split; [rewrite Rminus_0_r, Rabs_R0; apply Rmult_le_pos; lra|rewrite Rabs_R0; lra].
  - rewrite El2. unfold fsub. rewrite xsub_fin. pose proof (sub_rel dt l l2 Rl Rl2) as S.
    set (t := ln (P i) - ln (Q i)) in *. assert (Tt : Rabs t <= 2 * (2 * B + lam)). { unfold t. apply Rabs_le. apply Rabs_le_inv in P2, Q2. lra. }
    assert (Lt : Rabs (l - l2 - t) <= 2 * (U * e)). { unfold t. replace (l - l2 - (ln (P i) - ln (Q i))) with ((l - ln (P i)) - (l2 - ln (Q i))) by ring. eapply Rle_trans; [apply Rabs_triang|]. rewrite Rabs_Ropp. lra. }
    assert (Lb : Rabs (l - l2) <= Rabs t + 2 * (U * e)). { replace (l - l2) with ((l - l2 - t) + t) by ring. eapply Rle_trans; [apply Rabs_triang|]. lra. }
    pose proof (maxpow_ge_32 dt). destruct (round_fin dt (l - l2)) as (s & Es & Rs & _ & Ers); [lra|]. rewrite Es.
    assert (Sx : Rabs (s - t) <= (3 * (U * e) + e) * (1 + Rabs t)).
    { rewrite Ers. replace (rnd dt (l - l2) - t) with ((rnd dt (l - l2) - (l - l2)) + (l - l2 - t)) by ring. eapply Rle_trans; [apply Rabs_triang|].
      assert (e * Rabs (l - l2) <= e * (Rabs t + 2 * (U * e))) by (apply Rmult_le_compat_l; lra). pose proof (Rabs_pos t). assert (0 <= U * e * Rabs t) by (apply Rmult_le_pos; lra). assert (e * (U * e) <= / 96 * (U * e)) by (apply Rmult_le_compat_r; lra). lra. }
    exists l, s. destruct (a2 i) eqn:Ea; try contradiction; repeat (split; [auto; lra|]); auto.
Qed.
Lemma kl_weighted : total (fun i => P i * Rabs (kl_t i)) (seq 0 n) <= 2 * (2 * B + lam).
Proof.
  destruct kl_numbers as (L0 & (E0 & E1) & Ke & Up & Be & Tm). apply Rle_trans with (total (fun i => 2 * (2 * B + lam) * P i) (seq 0 n)).
  - apply total_le. intros i Hi. apply in_seq in Hi. destruct (kl_entry i ltac:(lia)) as [[_ ->]|(l & r & _ & _ & _ & P0 & _ & _ & _ & Ht)]; [lra|]. rewrite (Rmult_comm (2 * (2 * B + lam))). apply Rmult_le_compat_l; lra.
  - rewrite total_scale, (prob_total dt B n a1 a1_ok some1). lra.
Qed.
Ltac kl_facts := intros; first [exact k_pos | exact HE | exact (exp_fn_ninf _ _ FE) | exact Ho | exact deep | apply kl_entry; assumption | exact (prob_total dt B n a1 a1_ok some1)
  | lra | pose proof kl_weighted; lra | eapply Rle_trans; [|exact n_tiny]; right; ring].
(** The float KL is near the exact one, which is never negative. *)
Theorem C105_kl : (forall i, (i < n)%nat -> a1 i <> NInf -> a2 i <> NInf) ->
  let D := relative_entropy n P Q in 0 <= D /\ close (fl_cat_kl dt L E o1 o2 o n a1 a2) D ((10 * U + 4 * k + 6 * INR (depth o) + 4) * e * (3 + D)).
Proof.
  intros Sub D. destruct kl_numbers as (L0 & (E0 & E1) & Ke & Up & Be & Tm). pose proof (prob_total dt B n a1 a1_ok some1) as PT. pose proof (prob_total dt B n a2 a2_ok some2) as QT.
  assert (Tv : forall i, (i < n)%nat -> (P i = 0 \/ 0 < P i /\ 0 < Q i /\ kl_t i = ln (P i) - ln (Q i)) /\ 0 <= Q i).
  { intros i Hi. destruct (kl_lp2 i Hi) as [(Ea & _ & Q0)|(l2 & Na & _ & _ & _ & _ & Q1 & _)].
    - split; [|lra]. left. destruct (kl_lp1 i Hi) as [(_ & _ & ?)|(l & N1 & _)]; [auto|]. exfalso. apply (Sub i Hi N1 Ea).
    - split; [|lra]. destruct (kl_lp1 i Hi) as [(_ & _ & ?)|(l & N1 & _ & _ & _ & _ & P1 & _)]; [auto|]. right. split; [lra|]. split; [lra|]. unfold kl_t. destruct (a2 i); auto. contradiction. }
  assert (DT : D = total (fun i => P i * kl_t i) (seq 0 n)).
  { unfold D, relative_entropy. rewrite sum_over_total. apply total_ext_in. intros i Hi. apply in_seq in Hi. destruct (Tv i ltac:(lia)) as [[Z|(P0 & Q0 & T0)] _].
    - rewrite Z. destruct (Rlt_dec 0 0); lra. - destruct (Rlt_dec 0 (P i)); [|contradiction]. rewrite T0, ln_div by auto. auto. }
  assert (Gb : forall i, (i < n)%nat -> P i * kl_t i >= P i - Q i /\ P i * Rabs (kl_t i) <= P i * kl_t i + 2 * Q i).
  { intros i Hi. destruct (Tv i Hi) as [[Z|(P0 & Q0 & T0)] Qp]; [rewrite Z; lra|]. pose proof (log_ratio_le (P i) (Q i) P0 Q0) as X. rewrite ln_div in X by auto. rewrite T0 in *. split; [lra|].
    unfold Rabs. destruct (Rcase_abs _) as [N|N]; [lra|]. lra. }
  assert (D0 : 0 <= D).
  { rewrite DT. assert (G : total (fun i => P i + -1 * Q i) (seq 0 n) <= total (fun i => P i * kl_t i) (seq 0 n)) by (apply total_le; intros i Hi; apply in_seq in Hi; destruct (Gb i ltac:(lia)); lra).
    rewrite total_plus, total_scale, PT, QT in G. lra. }
  split; [auto|].
  assert (WD : total (fun i => P i * Rabs (kl_t i)) (seq 0 n) <= D + 2).
  { rewrite DT. eapply Rle_trans; [apply total_le; intros i Hi; apply in_seq in Hi; apply (Gb i ltac:(lia))|]. rewrite total_plus, total_scale, QT. lra. }
  assert (C : close (sum_in dt o (fun i => fl_mul_exp dt E (kl_x i) (lp1 i))) (total (fun i => P i * kl_t i) (seq 0 n))
    ((2 * (2 * k * e + 2 * (U * e)) + 2 * (3 * (U * e) + e) + (6 * INR (depth o) + 2) * e) * (1 + total (fun i => P i * Rabs (kl_t i)) (seq 0 n)))).
  { apply (weighted_sum dt k (U * e) (3 * (U * e) + e) (2 * (2 * B + lam)) E o n lp1 kl_x P kl_t); kl_facts. }
  assert (Ex : fl_cat_kl dt L E o1 o2 o n a1 a2 = sum_in dt o (fun i => fl_mul_exp dt E (kl_x i) (lp1 i))).
  { unfold fl_cat_kl. apply sum_in_ext. intros i Hi. apply (adds_all_in o n Ho) in Hi. destruct (kl_lp1 i Hi) as [(_ & El & _)|(l & N1 & _)].
    - rewrite El, !mul_exp_zero by (apply (exp_fn_ninf _ _ FE)). auto.
    - unfold kl_x. pose proof (Sub i Hi N1). destruct (a2 i); auto. contradiction. }
  rewrite Ex, DT. eapply close_weaken; [exact C|].
  - rewrite <- DT. pose proof (pos_INR (depth o)) as Dp. assert (0 <= INR (depth o) * e) by (apply Rmult_le_pos; lra).
    match goal with |- ?c * (1 + ?w) <= _ => apply Rle_trans with (c * (3 + D)); [apply Rmult_le_compat_l; lra|] end. apply Rmult_le_compat_r; lra.
Qed.
(** A category whose float probability under the first distribution is not 0, impossible under the second: exactly +inf. *)
Theorem C105_kl_infinite i0 : (i0 < n)%nat -> a2 i0 = NInf -> E (lp1 i0) <> Fin 0 -> fl_cat_kl dt L E o1 o2 o n a1 a2 = PInf.
Proof.
  intros Hi0 Ea0 Nz. destruct kl_numbers as (L0 & (E0 & E1) & Ke & Up & Be & Tm). pose proof (prob_total dt B n a1 a1_ok some1) as PT. pose proof (maxpow_ge_32 dt) as M32.
  set (x := fun i => fl_mul_exp dt E (fsub dt (lp1 i) (lp2 i)) (lp1 i)). set (y := fun i => fl_mul_exp dt E (kl_x i) (lp1 i)).
  assert (Eq : forall i, (i < n)%nat -> exists q, E (lp1 i) = Fin q /\ 0 <= q).
  { intros i Hi. destruct (kl_lp1 i Hi) as [(_ & -> & _)|(l & _ & -> & Rl & Ll & _)]; [exists 0; rewrite (exp_fn_ninf _ _ FE); split; [auto|lra]|].
    destruct (HE l Rl Ll) as (q & Q1 & _). exists q. split; [auto|]. assert (G : fle (Fin 0) (E (Fin l))). { rewrite <- (exp_fn_ninf _ _ FE). apply (exp_fn_mono _ _ FE); [exact I|exact Rl|reflexivity]. }
    rewrite Q1 in G. apply fle_fin in G. auto. }
  assert (Cl : forall i, (i < n)%nat -> close (y i) (P i * kl_t i) (term_tol dt k (U * e) (3 * (U * e) + e) (2 * (2 * B + lam)) P kl_t i) /\ value dt (y i)).
  { apply (each_close dt k (U * e) (3 * (U * e) + e) (2 * (2 * B + lam)) E o n lp1 kl_x P kl_t); kl_facts. }
  assert (TT : total (term_tol dt k (U * e) (3 * (U * e) + e) (2 * (2 * B + lam)) P kl_t) (seq 0 n) <=
      (25 / 16 * (2 * k * e + 2 * (U * e)) + 5 / 4 * (3 * (U * e) + e) + 2 * e) * (1 + total (fun i => P i * Rabs (kl_t i)) (seq 0 n)) /\
    total (fun i => Rabs (P i * kl_t i) + term_tol dt k (U * e) (3 * (U * e) + e) (2 * (2 * B + lam)) P kl_t i) (seq 0 n) =
      total (fun i => P i * Rabs (kl_t i)) (seq 0 n) + total (term_tol dt k (U * e) (3 * (U * e) + e) (2 * (2 * B + lam)) P kl_t) (seq 0 n)).
  { apply (tol_total dt k (U * e) (3 * (U * e) + e) (2 * (2 * B + lam)) o n lp1 kl_x P kl_t); kl_facts. }
  destruct TT as (TT & TA).
  assert (Cases : forall i, (i < n)%nat -> x i = y i \/ x i = PInf).
  { intros i Hi. unfold x, y, kl_x. destruct (kl_lp1 i Hi) as [(_ & El & _)|(l & N1 & El & _)].
    - left. rewrite El, !mul_exp_zero by (apply (exp_fn_ninf _ _ FE)). auto.
    - destruct (kl_lp2 i Hi) as [(Ea & El2 & _)|(l2 & Na & _)]; [|left; destruct (a2 i); auto; contradiction]. rewrite Ea, El2, El. change (fsub dt (Fin l) NInf) with PInf.
      destruct (Eq i Hi) as (q & Q1 & Q0). rewrite El in Q1. destruct (Req_dec q 0) as [->|Nq]; [left; rewrite !mul_exp_zero by auto; auto|]. right.
      unfold fl_mul_exp. rewrite Q1. destruct (xeqb (Fin q) (Fin 0)) eqn:X; [apply xeqb_fin in X; contradiction|]. unfold fmul. cbn [xmul]. unfold inf_times. destruct (Rlt_dec 0 q); [reflexivity|lra]. }
  assert (X0 : x i0 = PInf).
  { destruct (Cases i0 Hi0) as [X|X]; [|auto]. exfalso. revert X. unfold x, y, kl_x. rewrite Ea0. destruct (kl_lp2 i0 Hi0) as [(_ & El2 & _)|(l2 & Na & _)]; [|contradiction].
    destruct (kl_lp1 i0 Hi0) as [(_ & El & _)|(l & N1 & El & _)]; [rewrite El, (exp_fn_ninf _ _ FE) in Nz; contradiction|]. rewrite El2. destruct (Eq i0 Hi0) as (q & Q1 & Q0). rewrite El in *. change (fsub dt (Fin l) NInf) with PInf.
    rewrite (mul_exp_fin dt E 0 (Fin l) q Q1), Rmult_0_l, fround_0. unfold fl_mul_exp. rewrite Q1 in *. destruct (xeqb (Fin q) (Fin 0)) eqn:X; [apply xeqb_fin in X; exfalso; apply Nz; congruence|].
    unfold fmul. cbn [xmul]. unfold inf_times. destruct (Rlt_dec 0 q); [discriminate|exfalso; apply Nz; f_equal; lra]. }
  assert (Neg : sum_in dt o (fun i => xopp (x i)) = NInf).
  { apply (C101_impossible dt o n (fun i => xopp (x i)) Ho deep i0 Hi0); [rewrite X0; auto| |].
    - intros i Hi. destruct (Cases i Hi) as [->| ->]; [right|left; auto]. destruct (Cl i Hi) as ((r & Er & _) & V). rewrite Er in *. exists (- r). split; [auto|]. apply repr_opp, V.
    - eapply Rle_trans; [apply (total_le _ (fun i => Rabs (P i * kl_t i) + term_tol dt k (U * e) (3 * (U * e) + e) (2 * (2 * B + lam)) P kl_t i))|].
      + intros i Hi. apply in_seq in Hi. destruct (Cl i ltac:(lia)) as ((r & Er & Br) & _). assert (0 <= Rabs (P i * kl_t i)) by apply Rabs_pos. assert (0 <= Rabs (r - P i * kl_t i)) by apply Rabs_pos.
        destruct (Cases i ltac:(lia)) as [->| ->]; [rewrite Er; cbn [xopp]; rewrite Rabs_Ropp|cbn [xopp]; lra].
        replace r with ((r - P i * kl_t i) + P i * kl_t i) at 1 by ring. eapply Rle_trans; [apply Rabs_triang|]. lra.
      + rewrite TA. pose proof kl_weighted as KW. pose proof (W_nonneg dt (U * e) (3 * (U * e) + e) (2 * (2 * B + lam)) n lp1 kl_x P kl_t kl_entry) as W0.
        assert (QQ : total (term_tol dt k (U * e) (3 * (U * e) + e) (2 * (2 * B + lam)) P kl_t) (seq 0 n) <= 7 / 4 * (1 + total (fun i => P i * Rabs (kl_t i)) (seq 0 n))) by (eapply Rle_trans; [exact TT|]; apply Rmult_le_compat_r; lra). lra. }
  assert (Op : forall o', sum_in dt o' (fun i => xopp (x i)) = xopp (sum_in dt o' x)).
  { induction o' as [i|l IHl r IHr]; cbn [sum_in]; [auto|]. rewrite IHl, IHr. unfold fadd. rewrite <- fround_opp'. f_equal. destruct (sum_in dt l x), (sum_in dt r x); cbn; auto. f_equal. ring. }
  rewrite Op in Neg. unfold fl_cat_kl. fold x. destruct (sum_in dt o x); try discriminate. auto.
Qed.
End KL.
Print Assumptions C105_kl.
Print Assumptions C105_kl_infinite.

(** ** With no bound on the logits *)
Lemma sum_nonpos dt o f : (forall i, In i (visits o) -> fle (f i) (Fin 0)) -> fle (sum_in dt o f) (Fin 0).
Proof.
  induction o as [i|l IHl r IHr]; cbn [sum_in visits]; intros H; [apply H; left; auto|].
  specialize (IHl ltac:(intros; apply H, in_or_app; auto)). specialize (IHr ltac:(intros; apply H, in_or_app; auto)).
  apply fround_nonpos. destruct (sum_in dt l f); try discriminate IHl; destruct (sum_in dt r f); try discriminate IHr; try reflexivity. apply fle_fin in IHl, IHr. apply fle_fin. lra.
Qed.
Lemma sum_zero dt o f : (forall i, In i (visits o) -> f i = Fin 0) -> sum_in dt o f = Fin 0.
Proof.
  induction o as [i|l IHl r IHr]; cbn [sum_in visits]; intros H; [apply H; left; auto|].
  rewrite IHl, IHr by (intros; apply H, in_or_app; auto). unfold fadd. rewrite xadd_fin, Rplus_0_l. apply fround_0.
Qed.
Lemma exp_unit dt E l : exp_fn dt E -> repr dt l -> l <= 0 -> exists q, E (Fin l) = Fin q /\ 0 <= q <= 1.
Proof.
  intros FE Rl L0. assert (G1 : fle (Fin 0) (E (Fin l))). { rewrite <- (exp_fn_ninf _ _ FE). apply (exp_fn_mono _ _ FE); [exact I|exact Rl|reflexivity]. }
  assert (G2 : fle (E (Fin l)) (Fin 1)). { rewrite <- (exp_fn_zero _ _ FE). apply (exp_fn_mono _ _ FE); [exact Rl|apply repr_0|apply fle_fin; auto]. }
  destruct (E (Fin l)) as [q| | |]; try discriminate. apply fle_fin in G1, G2. eauto.
Qed.
Lemma entropy_nonneg dt E o n lp : exp_fn dt E -> adds_all o n -> (forall i, (i < n)%nat -> value dt (lp i) /\ fle (lp i) (Fin 0)) -> fle (Fin 0) (fl_cat_entropy dt E o lp).
Proof.
  intros FE Ho H. unfold fl_cat_entropy. assert (Q : fle (sum_in dt o (fun i => fl_mul_exp dt E (lp i) (lp i))) (Fin 0)).
  { apply sum_nonpos. intros i Hi. apply (adds_all_in o n Ho) in Hi. destruct (H i Hi) as (V & Le). destruct (lp i) as [l| | |]; try discriminate Le.
    - apply fle_fin in Le. destruct (exp_unit dt E l FE V Le) as (q & Eq & Q0 & Q1). rewrite (mul_exp_fin _ _ _ _ _ Eq). apply fround_nonpos, fle_fin. nra.
    - rewrite mul_exp_zero by apply (exp_fn_ninf _ _ FE). apply fle_fin. lra. }
  destruct (sum_in _ _ _); try discriminate Q; [|reflexivity]. apply fle_fin in Q. apply fle_fin. lra.
Qed.
Section Any.
Variables (dt : dtype) (L E : XR -> XR) (o1 o : order) (n : nat) (a : nat -> XR).
Hypothesis FL : log_fn dt L.
Hypothesis FE : exp_fn dt E.
Hypothesis Ho1 : adds_all o1 n.
Hypothesis Ho : adds_all o n.
(** the logits are values below +inf, not all of them -inf *)
Hypothesis valid : forall i, (i < n)%nat -> value dt (a i) /\ a i <> NaN /\ a i <> PInf.
Hypothesis some : exists i, (i < n)%nat /\ a i <> NInf.
Lemma lp_value i : (i < n)%nat -> value dt (fl_log_softmax dt L E o1 n a i) /\ fle (fl_log_softmax dt L E o1 n a i) (Fin 0).
Proof.
  intros Hi. destruct some as (k0 & K0). destruct (C85_log_softmax dt L E FL FE n a o1 Ho1 valid k0 K0) as (Q & _). destruct (Q i Hi) as (Q0 & _). split; [|auto].
  destruct (fl_log_softmax dt L E o1 n a i) as [l| | |] eqn:El; try exact I. unfold fl_log_softmax in El. apply fround_value in El. exact El.
Qed.
(** The float entropy is never negative and never NaN. *)
Theorem C105_entropy_nonnegative : fle (Fin 0) (fl_cat_entropy_logits dt L E o1 o n a).
Proof. apply (entropy_nonneg dt E o n _ FE Ho). exact lp_value. Qed.
(** ... also for probabilities in [0, 1], whether or not they sum to 1 *)
Theorem C105_entropy_probs_nonnegative (p : nat -> XR) : (forall i, (i < n)%nat -> exists r, p i = Fin r /\ repr dt r /\ 0 <= r <= 1) -> fle (Fin 0) (fl_cat_entropy_probs dt L E o p).
Proof.
  intros Hp. apply (entropy_nonneg dt E o n _ FE Ho). intros i Hi. destruct (Hp i Hi) as (r & -> & Rr & R0 & R1). destruct R0 as [R0|<-].
  - destruct (log_fn_finite _ _ FL r R0 Rr) as (l & El & Rl & _). rewrite El. split; [exact Rl|]. rewrite <- El, <- (log_fn_one _ _ FL). apply (log_fn_mono _ _ FL); auto using repr_1.
  - rewrite (log_fn_zero _ _ FL). split; [exact I|reflexivity].
Qed.
(** A distribution on a single category has entropy exactly 0. *)
Theorem C105_entropy_point k0 : (k0 < n)%nat -> a k0 <> NInf -> (forall i, (i < n)%nat -> i <> k0 -> a i = NInf) -> fl_cat_entropy_logits dt L E o1 o n a = Fin 0.
Proof.
  intros K0 Nk Only. destruct (valid k0 K0) as (Vk & Nn & Np). destruct (a k0) as [m| | |] eqn:Ek; try contradiction.
  assert (Am : fl_amax n a = Fin m).
  { destruct (amax_spec n a) as (_ & B & A); [intros i Hi; apply (valid i Hi)|]. specialize (B k0 K0). rewrite Ek in B. destruct A as [A|(k & Hk & A)]; [rewrite A in B; discriminate|].
    destruct (Nat.eq_dec k k0) as [->|D]; [congruence|]. rewrite (Only k Hk D) in A. rewrite A in B. discriminate. }
  assert (Sh : forall i, (i < n)%nat -> fl_shifted dt n a i = if Nat.eqb i k0 then Fin 0 else NInf).
  { intros i Hi. unfold fl_shifted. rewrite Am. destruct (Nat.eqb i k0) eqn:D; [apply Nat.eqb_eq in D as ->; rewrite Ek; unfold fsub; rewrite xsub_fin, Rminus_diag_eq by auto; apply fround_0|].
    apply Nat.eqb_neq in D. rewrite (Only i Hi D). reflexivity. }
  assert (Sm : fl_exp_sum dt E o1 n a = Fin 1).
  { unfold fl_exp_sum. transitivity (sum_in dt o1 (fun j => if Nat.eqb j k0 then Fin 1 else Fin 0)).
    - apply sum_in_ext. intros i Hi. apply (adds_all_in o1 n Ho1) in Hi. rewrite Sh by auto. destruct (Nat.eqb i k0); [apply (exp_fn_zero _ _ FE)|apply (exp_fn_ninf _ _ FE)].
    - destruct (adds_all_in o1 n Ho1) as (ND & AI). pose proof (proj2 (AI k0) K0) as I0.
      clear Ho1 AI. revert I0 ND. induction o1 as [i|l IHl r IHr]; cbn [sum_in visits]; intros I0 ND; [destruct I0 as [->|[]]; rewrite Nat.eqb_refl; auto|].
      destruct (nodup_app _ _ ND) as (NL & NR & D). assert (Z : forall o', ~ In k0 (visits o') -> sum_in dt o' (fun j => if Nat.eqb j k0 then Fin 1 else Fin 0) = Fin 0).
      { intros o' H. apply sum_zero. intros i Hi. destruct (Nat.eqb i k0) eqn:X; [apply Nat.eqb_eq in X as ->; contradiction|auto]. }
      apply in_app_or in I0 as [I0|I0].
      + rewrite IHl, Z by eauto. apply fadd_0_r. apply repr_1.
      + rewrite IHr, Z by eauto. apply fadd_0_l. apply repr_1. }
  unfold fl_cat_entropy_logits, fl_cat_entropy. rewrite (sum_zero dt o); [cbn; f_equal; ring|]. intros i Hi. apply (adds_all_in o n Ho) in Hi.
  unfold fl_log_softmax. rewrite Sm, (log_fn_one _ _ FL), Sh by auto. destruct (Nat.eqb i k0).
  - assert (Z : fsub dt (Fin 0) (Fin 0) = Fin 0) by (unfold fsub; rewrite xsub_fin, Rminus_diag_eq by auto; apply fround_0). rewrite Z, (mul_exp_fin dt E 0 (Fin 0) 1 (exp_fn_zero _ _ FE)), Rmult_0_l. apply fround_0.
  - change (fsub dt NInf (Fin 0)) with NInf. apply mul_exp_zero, (exp_fn_ninf _ _ FE).
Qed.
(** The divergence of a distribution from itself is exactly 0. *)
Theorem C105_kl_self : fl_cat_kl dt L E o1 o1 o n a a = Fin 0.
Proof.
  unfold fl_cat_kl. apply sum_zero. intros i Hi. apply (adds_all_in o n Ho) in Hi. destruct (lp_value i Hi) as (V & Le). destruct (fl_log_softmax dt L E o1 n a i) as [l| | |]; try discriminate Le.
  - apply fle_fin in Le. destruct (exp_unit dt E l FE V Le) as (q & Eq & Q0 & Q1). assert (Z : fsub dt (Fin l) (Fin l) = Fin 0) by (unfold fsub; rewrite xsub_fin, Rminus_diag_eq by auto; apply fround_0).
    rewrite Z, (mul_exp_fin dt E 0 _ q Eq), Rmult_0_l. apply fround_0.
  - apply mul_exp_zero, (exp_fn_ninf _ _ FE).
Qed.
End Any.

(** ** Numbers for float32 *)
Lemma ln_1024 m : (1 <= m <= 1024)%nat -> 0 <= ln (INR m) <= 10.
Proof.
  intros (M1 & M2). apply le_INR in M1, M2. cbn [INR] in M1. split.
  - rewrite <- ln_1. destruct M1 as [M1|M1]; [left; apply ln_increasing; lra|rewrite <- M1; lra].
  - assert (X : 2 <= exp 1) by (pose proof (exp_ineq1_le 1); lra). assert (L2 : ln 2 <= 1) by (rewrite <- (ln_exp 1); destruct X as [X|X]; [left; apply ln_increasing; lra|rewrite <- X; lra]).
    apply Rle_trans with (ln (2 ^ 10)); [|rewrite ln_pow by lra; cbn [INR]; lra]. assert (Q : INR 1024 = 2 ^ 10) by (rewrite INR_IZR_INZ; cbn; lra). rewrite <- Q.
    destruct M2 as [M2|M2]; [left; apply ln_increasing; lra|rewrite M2; lra].
Qed.
Lemma tiny32 : tiny float32 <= / 2 ^ 60.
Proof. apply Rle_trans with (bpow radix2 (-60)); [apply bpow_le; cbn; lia|]. change (bpow radix2 (-60)) with (/ IZR (Z.pow_pos 2 60)). right. f_equal. cbn. lra. Qed.
Lemma max32 : 2 ^ 20 <= maxpow float32.
Proof. apply Rle_trans with (bpow radix2 20); [right; change (bpow radix2 20) with (IZR (Z.pow_pos 2 20)); cbn; lra|apply bpow_le; cbn; lia]. Qed.
Lemma exp_nat m : exp (INR m) = exp 1 ^ m.
Proof. induction m as [|m IH]; [apply exp_0|]. rewrite S_INR, exp_plus, IH. cbn [pow]. ring. Qed.
Lemma exp_71 l : -71 <= l -> / 3 ^ 71 <= exp l.
Proof.
  intros H. apply Rle_trans with (exp (- (71))); [|apply Raux.exp_le; lra]. rewrite exp_Ropp. apply Rinv_le_contravar; [apply exp_pos|]. replace 71 with (INR 71) by (rewrite INR_IZR_INZ; reflexivity). rewrite exp_nat.
  apply pow_incr. split; [left; apply exp_pos|exact exp_le_3].
Qed.
Lemma tiny_71 : 2 * tiny float32 < / 3 ^ 71.
Proof.
  apply Rle_lt_trans with (bpow radix2 (-125)).
  - replace (bpow radix2 (-125)) with (2 * bpow radix2 (-126)) by (rewrite <- (bpow_plus radix2 1); reflexivity). apply Rmult_le_compat_l; [lra|]. apply bpow_le. cbn. lia.
  - change (bpow radix2 (-125)) with (/ IZR (Z.pow_pos 2 125)). rewrite pow_IZR. apply Rinv_lt_contravar; [apply Rmult_lt_0_compat; apply IZR_lt; reflexivity|]. apply IZR_lt. reflexivity.
Qed.
(** up to 1024 categories, logits within 30, functions within 2 units, sums in any order of depth at most 20 *)
Theorem C105_float32 L E o1 o2 o n (a1 a2 : nat -> XR) : log_fn float32 L -> exp_fn float32 E -> accurate float32 2 L ln (fun c => 0 < c) -> accurate float32 2 E exp (fun x => x <= 0) ->
  (n <= 1024)%nat -> adds_all o1 n -> adds_all o2 n -> adds_all o n -> (depth o1 <= 20)%nat -> (depth o2 <= 20)%nat -> (depth o <= 20)%nat ->
  (forall i, (i < n)%nat -> a1 i = NInf \/ exists r, a1 i = Fin r /\ repr float32 r /\ Rabs r <= 30) ->
  (forall i, (i < n)%nat -> a2 i = NInf \/ exists r, a2 i = Fin r /\ repr float32 r /\ Rabs r <= 30) ->
  (exists i, (i < n)%nat /\ a1 i <> NInf) -> (exists i, (i < n)%nat /\ a2 i <> NInf) ->
  let P := category_prob n a1 in let Q := category_prob n a2 in
  close (fl_cat_entropy_logits float32 L E o1 o n a1) (shannon_entropy n P) ((1 + shannon_entropy n P) / 4000) /\
  ((forall i, (i < n)%nat -> a1 i <> NInf -> a2 i <> NInf) -> close (fl_cat_kl float32 L E o1 o2 o n a1 a2) (relative_entropy n P Q) ((3 + relative_entropy n P Q) / 2500)) /\
  ((exists i, (i < n)%nat /\ a1 i <> NInf /\ a2 i = NInf) -> fl_cat_kl float32 L E o1 o2 o n a1 a2 = PInf).
Proof.
  intros FL FE HL HE Hn Ho1 Ho2 Ho D1 D2 D A1 A2 S1 S2 P Q. apply le_INR in D1, D2, D. replace (INR 20) with 20 in D1, D2, D by (rewrite INR_IZR_INZ; reflexivity).
  assert (N1 : (1 <= n <= 1024)%nat) by (destruct S1 as (i & Hi & _); lia). destruct (ln_1024 n N1) as (L0 & L1). pose proof (pos_INR (depth o1)). pose proof (pos_INR (depth o2)). pose proof (pos_INR (depth o)).
  assert (NN : 1 <= INR n <= 1024). { destruct N1 as (M1 & M2). apply le_INR in M1, M2. cbn [INR] in M1. replace (INR 1024) with 1024 in M2 by (rewrite INR_IZR_INZ; reflexivity). lra. }
  pose proof eps32 as E32. assert (E32' : eps float32 = / 16777216) by (rewrite E32; f_equal; cbn; lra). clear E32. pose proof max32 as M32. cbn [pow] in M32. pose proof tiny32 as T32. pose proof (tiny_pos float32) as T0.
  assert (T33 : tiny float32 <= / 1000000000000000) by (eapply Rle_trans; [exact T32|]; apply Rinv_le_contravar; cbn; lra). clear T32.
  assert (U1 : ls_units 2 30 o1 n <= 606) by (unfold ls_units; lra). assert (U2 : ls_units 2 30 o2 n <= 606) by (unfold ls_units; lra).
  assert (U0 : 0 <= ls_units 2 30 o1 n) by (unfold ls_units; lra).
  assert (Big : INR n * (16 * 30 + 8 * ln (INR n) + 3) * tiny float32 <= eps float32).
  { apply Rle_trans with (1024 * 600 * / 1000000000000000); [|rewrite E32'; lra]. apply Rmult_le_compat; try lra; [apply Rmult_le_pos; lra|]. apply Rmult_le_compat; lra. }
  split; [|split].
  - destruct (C105_entropy float32 2 30 L E o1 o n a1) as (Hp & C); auto; try lra; try (rewrite E32'; lra).
    + eapply Rle_trans; [|exact Big]. apply Rmult_le_compat_r; [lra|]. apply Rmult_le_compat_l; lra.
    + fold P in Hp, C. eapply close_weaken; [exact C|]. rewrite E32'. set (h := 1 + shannon_entropy n P). apply Rle_trans with (3766 * / 16777216 * h); [|unfold h; lra]. apply Rmult_le_compat_r; [unfold h; lra|]. lra.
  - intros Sub. destruct (C105_kl float32 2 30 606 L E o1 o2 o n a1 a2) as (Hp & C); auto; try lra; try (rewrite E32'; lra).
    fold P Q in Hp, C. eapply close_weaken; [exact C|]. rewrite E32'. set (h := 3 + relative_entropy n P Q). apply Rle_trans with (6192 * / 16777216 * h); [|unfold h; lra]. apply Rmult_le_compat_r; [unfold h; lra|]. lra.
  - intros (i & Hi & Ni & Ei). apply (C105_kl_infinite float32 2 30 606 L E o1 o2 o n a1 a2) with (i0 := i); auto; try lra; try (rewrite E32'; lra).
    assert (Ud : ls_units 2 30 o1 n * eps float32 <= / 16) by (rewrite E32'; lra). assert (Tn : INR n * tiny float32 <= eps float32) by (eapply Rle_trans; [|exact Big]; apply Rmult_le_compat_r; [lra|]; rewrite <- (Rmult_1_r (INR n)) at 1; apply Rmult_le_compat_l; lra).
    destruct (log_softmax_close float32 2 30 L E o1 n a1 ltac:(lra) FL FE HL HE Ho1 ltac:(lra) A1 S1 Ud ltac:(lra) Tn i Hi) as [(X & _)|(l & _ & El & Rl & Ll & Bl & _ & Bp)]; [contradiction|].
    rewrite El. intros Z. destruct (HE l Rl Ll) as (q & Eq & _ & Bq). rewrite Z in Eq. injection Eq as <-. rewrite E32' in Bq. rewrite Rminus_0_l, Rabs_Ropp, (Rabs_pos_eq (exp l)) in Bq by (left; apply exp_pos).
    assert (Lb : - 71 <= l) by (apply Rabs_le_inv in Bl, Bp; lra). pose proof (exp_71 l Lb) as X. pose proof tiny_71. lra.
Qed.

(** The hypotheses are met: logits (0, 1, -inf) against (1, 1, 0), correctly rounded functions. *)
Lemma exp_32 : accurate float32 2 (r_exp float32) exp (fun x => x <= 0).
Proof.
  intros x Rx X0. pose proof max32 as M. cbn [pow] in M. assert (X1 : exp x <= 1) by (replace 1 with (exp 0) by apply exp_0; apply Raux.exp_le; auto).
  destruct (exp_accurate_range float32 x Rx ltac:(lra)) as (r & Er & Rr & B). exists r. split; [auto|]. split; [auto|]. eapply Rle_trans; [exact B|]. pose proof (eps_pos float32). pose proof (Rabs_pos (exp x)). apply Rplus_le_compat_r. apply Rmult_le_compat_r; lra.
Qed.
Lemma log_32 : accurate float32 2 (fun a => fround float32 (xlog a)) ln (fun c => 0 < c).
Proof.
  intros x Rx X0. destruct (log_accurate float32 x Rx X0) as (r & Er & Rr & B). exists r. split; [auto|]. split; [auto|]. eapply Rle_trans; [exact B|]. pose proof (eps_pos float32). pose proof (Rabs_pos (ln x)). apply Rplus_le_compat_r. apply Rmult_le_compat_r; lra.
Qed.
Example ex_cat_info : let a1 := fun i => nth i [Fin 0; Fin 1; NInf] NaN in let a2 := fun i => nth i [Fin 1; Fin 1; Fin 0] NaN in let o := left_to_right 2 in
  let L := fun a => fround float32 (xlog a) in let E := r_exp float32 in
  let P := category_prob 3 a1 in let Q := category_prob 3 a2 in
  close (fl_cat_entropy_logits float32 L E o o 3 a1) (shannon_entropy 3 P) ((1 + shannon_entropy 3 P) / 4000) /\
  close (fl_cat_kl float32 L E o o o 3 a1 a2) (relative_entropy 3 P Q) ((3 + relative_entropy 3 P Q) / 2500) /\
  fl_cat_kl float32 L E o o o 3 a2 a1 = PInf.
Proof.
  intros a1 a2 o L E P Q. assert (A1 : forall i, (i < 3)%nat -> a1 i = NInf \/ exists r, a1 i = Fin r /\ repr float32 r /\ Rabs r <= 30).
  { intros i Hi. destruct i as [|[|[|i]]]; [right|right|left; reflexivity|lia]; eexists; (split; [reflexivity|]); (split; [auto using repr_0, repr_1|]); [rewrite Rabs_R0|rewrite Rabs_R1]; lra. }
  assert (A2 : forall i, (i < 3)%nat -> a2 i = NInf \/ exists r, a2 i = Fin r /\ repr float32 r /\ Rabs r <= 30).
  { intros i Hi. destruct i as [|[|[|i]]]; [right|right|right|lia]; eexists; (split; [reflexivity|]); (split; [auto using repr_0, repr_1|]); [rewrite Rabs_R1|rewrite Rabs_R1|rewrite Rabs_R0]; lra. }
  assert (Oa : adds_all o 3) by apply (left_to_right_all 2). assert (Do : (depth o <= 20)%nat) by (cbn; lia).
  assert (S1 : exists i, (i < 3)%nat /\ a1 i <> NInf) by (exists 0%nat; split; [lia|discriminate]). assert (S2 : exists i, (i < 3)%nat /\ a2 i <> NInf) by (exists 0%nat; split; [lia|discriminate]).
  destruct (C105_float32 L E o o o 3 a1 a2 (log_rounded float32) (exp_rounded float32) log_32 exp_32 ltac:(lia) Oa Oa Oa Do Do Do A1 A2 S1 S2) as (H & K & _).
  split; [exact H|]. split; [apply K; intros i Hi _; destruct i as [|[|[|i]]]; [discriminate|discriminate|discriminate|lia]|].
  destruct (C105_float32 L E o o o 3 a2 a1 (log_rounded float32) (exp_rounded float32) log_32 exp_32 ltac:(lia) Oa Oa Oa Do Do Do A2 A1 S2 S1) as (_ & _ & I).
  apply I. exists 2%nat. split; [lia|]. split; [discriminate|reflexivity].
Qed.

(** The test of mul_exp asks whether exp(logp) is 0, and exp underflows: logits (0, -200) and (0, -inf) give 0, not +inf. *)
Theorem C105_kl_underflow_refuted : let a1 := fun i => nth i [Fin 0; Fin (-200)] NaN in let a2 := fun i => nth i [Fin 0; NInf] NaN in let o := left_to_right 1 in
  0 < category_prob 2 a1 1 /\ category_prob 2 a2 1 = 0 /\ fl_cat_kl float32 (fun a => fround float32 (xlog a)) (r_exp float32) o o o 2 a1 a2 = Fin 0.
Proof.
  intros a1 a2 o. split; [|split].
  - unfold category_prob, sum_over. cbn [a1 nth seq map fold_right logit_weight]. pose proof (exp_pos 0). pose proof (exp_pos (-200)). apply Rdiv_lt_0_compat; lra.
  - unfold category_prob. cbn [a2 nth logit_weight]. apply Rmult_0_l.
  - assert (X0 : r_exp float32 (Fin (-200)) = Fin 0).
    { unfold r_exp. cbn [xexp fround]. assert (Ex : 0 <= exp (-200) <= bpow radix2 (-199 - 1)).
      { split; [left; apply exp_pos|]. change (bpow radix2 (-199 - 1)) with (/ IZR (Z.pow_pos 2 200)). rewrite <- (Ropp_involutive (-200)), exp_Ropp. apply Rinv_le_contravar; [apply IZR_lt; reflexivity|].
        assert (X : 2 <= exp 1) by (pose proof (exp_ineq1_le 1); lra). replace (- (-200)) with (INR 200) by (rewrite INR_IZR_INZ; cbn; lra). rewrite exp_nat. change (Z.pow_pos 2 200) with (2 ^ Z.of_nat 200)%Z. rewrite <- pow_IZR. apply pow_incr. lra. }
      assert (Z : rnd float32 (exp (-200)) = 0).
      { apply Rle_antisym.
        - assert (Y : rnd float32 (bpow radix2 (-199 - 1)) = 0) by (apply round_N_small_pos with (ex := (-199)%Z); [split; [apply Rle_refl|apply bpow_lt; lia]|unfold fexp, FLT_exp, emin; cbn; lia]).
          rewrite <- Y. apply rnd_le. lra.
        - apply rnd_ge_F; [apply generic_format_0|lra]. }
      rewrite Z, Rabs_R0. pose proof (maxpow_ge_32 float32). destruct (Rlt_dec _ _); [auto|lra]. }
    assert (E0 : r_exp float32 (Fin 0) = Fin 1) by apply (exp_fn_zero _ _ (exp_rounded float32)). assert (EN : r_exp float32 NInf = Fin 0) by apply (exp_fn_ninf _ _ (exp_rounded float32)).
    assert (R200 : repr float32 (-200)) by (apply (FixedDeterministic.repr_IZR float32 (-200)); cbn; lia).
    set (L := fun a => fround float32 (xlog a)). assert (L1 : L (Fin 1) = Fin 0) by apply (log_fn_one _ _ (log_rounded float32)).
    assert (N : forall v, value float32 v -> fsub float32 v (Fin 0) = v). { intros v V. unfold fsub. destruct v; cbn [xsub xadd xopp]; auto. rewrite Ropp_0, Rplus_0_r. apply fround_repr. auto. }
    assert (A1 : fl_amax 2 a1 = Fin 0). { unfold fl_amax. cbn [a1 nth seq map fold_right]. cbn. repeat (unfold xmax; cbn). destruct (Rlt_dec _ _); cbn; auto; try lra. }
    assert (A2 : fl_amax 2 a2 = Fin 0) by reflexivity.
    assert (H1 : fl_shifted float32 2 a1 0 = Fin 0 /\ fl_shifted float32 2 a1 1 = Fin (-200)) by (unfold fl_shifted; rewrite A1; split; apply N; [apply repr_0|exact R200]).
    assert (H2 : fl_shifted float32 2 a2 0 = Fin 0 /\ fl_shifted float32 2 a2 1 = NInf) by (unfold fl_shifted; rewrite A2; split; apply N; [apply repr_0|exact I]).
    assert (S1 : fl_exp_sum float32 (r_exp float32) o 2 a1 = Fin 1). { unfold fl_exp_sum, o. cbn [left_to_right sum_in]. rewrite (proj1 H1), (proj2 H1), E0, X0. apply fadd_0_r. apply repr_1. }
    assert (S2 : fl_exp_sum float32 (r_exp float32) o 2 a2 = Fin 1). { unfold fl_exp_sum, o. cbn [left_to_right sum_in]. rewrite (proj1 H2), (proj2 H2), E0, EN. apply fadd_0_r. apply repr_1. }
    unfold fl_cat_kl. cbv zeta. match goal with |- sum_in _ o ?f = _ => change (sum_in float32 o f) with (fadd float32 (f 0%nat) (f 1%nat)) end. cbv beta. unfold fl_log_softmax. fold L. rewrite S1, S2, L1, (proj1 H1), (proj2 H1), (proj1 H2), (proj2 H2), !N by first [exact I|apply repr_0|exact R200].
    rewrite (mul_exp_zero float32 _ _ (Fin (-200)) X0), (mul_exp_fin float32 _ 0 _ 1 E0), Rmult_0_l, fround_0. apply fadd_0_r. apply repr_0.
Qed.
Print Assumptions C105_entropy_nonnegative.
Print Assumptions C105_entropy_probs_nonnegative.
Print Assumptions C105_entropy_point.
Print Assumptions C105_kl_self.
Print Assumptions C105_float32.
Print Assumptions C105_kl_underflow_refuted.
