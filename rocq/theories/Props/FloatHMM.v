(** C98: HMM.forward in floating point; C99: HMM.forward_backward. *)
From Coq Require Import Reals Lra Lia List Bool ZArith Permutation.
From Flocq Require Import Core IEEE754.BinarySingleNaN.
From Verif Require Import Base.XR Base.Float Spec.Rounding Spec.Accuracy Proofs.FloatOrder Proofs.FloatLib Proofs.FloatNear
  Props.FloatNormalize Props.FloatBij Props.FloatCategorical.
From Verif Require Import Base.Sums Model.HMM Spec.HMM Model.FloatHMM.
Import ListNotations.
Local Open Scope R_scope.
Notation dtype := Float.dtype.

Section Core.
Variables (dt : dtype) (n : nat) (o1 o2 : order) (init : nat -> R) (tr ob : nat -> nat -> R) (Q : R).
Notation e := (eps dt).
Notation w := (1 - eps dt).
Hypothesis Ho1 : adds_all o1 n.
Hypothesis Ho2 : adds_all o2 n.
Hypothesis init_ok : forall i, repr dt (init i) /\ 0 <= init i <= 1.
Hypothesis tr_ok : forall i j, repr dt (tr i j) /\ 0 <= tr i j <= 1.
Hypothesis ob_ok : forall t j, repr dt (ob t j) /\ 0 <= ob t j <= Q.
Hypothesis ob_out : forall t j, (n <= j)%nat -> ob t j = 0.
Hypothesis n_pos : (0 < n)%nat.
Hypothesis Q_ge : 1 <= Q.
Hypothesis no_over : 16 * (INR n * INR n) * Q <= maxpow dt.
Notation d1 := (depth o1).
Notation d2 := (depth o2).
Notation states := (seq 0 n).
Notation xo := (fun t j => Fin (ob t j)).
Notation xt := (fun i j => Fin (tr i j)).
Notation xi := (fun i => Fin (init i)).

(** the exact forward recursion: joint probability of the observations up to [t] and state [j] *)
Fixpoint fw (t : nat) (j : nat) : R :=
  match t with O => init j * ob 0 j | S t => ob (S t) j * total (fun i => fw t i * tr i j) states end.
Definition lik (t : nat) : R := total (fw t) states.
Definition before (t : nat) : R := match t with O => 1 | S t => lik t end.
Lemma fw_nonneg t : forall j, 0 <= fw t j.
Proof.
  induction t as [|t IH]; intros j; cbn [fw]; apply Rmult_le_pos; try apply init_ok; try apply ob_ok.
  apply total_nonneg. intros i _. apply Rmult_le_pos; [auto|apply tr_ok].
Qed.
Lemma lik_nonneg t : 0 <= lik t. Proof. apply total_nonneg. intros; apply fw_nonneg. Qed.
Lemma fw_out t j : (n <= j)%nat -> fw t j = 0.
Proof. intros H. destruct t; cbn [fw]; rewrite ob_out by auto; ring. Qed.

(** roundings: [mu t] between alpha and the exact forward probabilities up to scale, [M t] in all *)
Fixpoint mu (t : nat) : nat := match t with O => 2 | S t => mu t + d1 + 3 end.
Definition M (t : nat) : nat := 2 * mu t + 2 * d2 + 1.
Lemma mu_mono t : (mu t <= mu (S t))%nat. Proof. cbn [mu]. lia. Qed.
Lemma w0 : 0 < w. Proof. pose proof (w_range dt). lra. Qed.
Lemma w1 : w <= 1. Proof. pose proof (w_range dt). lra. Qed.

Definition threshold : R := rnd dt hmm_eps.
Lemma threshold_ok : fround dt (Fin hmm_eps) = Fin threshold /\ 0 <= threshold <= 1.
Proof.
  assert (0 <= hmm_eps <= 1). { unfold hmm_eps. split; [apply Rlt_le, Rinv_0_lt_compat; lra|]. rewrite <- Rinv_1. apply Rinv_le_contravar; lra. }
  destruct (fround_between dt hmm_eps 0 1 (repr_0 _) (repr_1 _) H) as (E & B & _). auto.
Qed.
Lemma n_ge : 1 <= INR n. Proof. change 1 with (INR 1). apply le_INR. lia. Qed.
Lemma bounds : 4 * INR n <= maxpow dt /\ 8 * INR n * Q <= maxpow dt.
Proof.
  pose proof n_ge as N. assert (A : INR n <= INR n * INR n) by nra. assert (B : INR n * Q <= INR n * INR n * Q) by (apply Rmult_le_compat_r; lra).
  assert (C : INR n <= INR n * Q) by nra. lra.
Qed.
Lemma total_bound (p : nat -> R) b l : (forall i, p i <= b) -> total p l <= INR (length l) * b.
Proof.
  intros H. induction l as [|a l IH]; [rewrite total_nil; cbn; lra|]. rewrite total_cons. cbn [length]. rewrite S_INR. specialize (H a). lra.
Qed.
Lemma perm_total p o : adds_all o n -> total p (visits o) = total p states.
Proof. intros H. induction H; rewrite ?total_cons; lra. Qed.
Lemma up_pow d : / 2 <= w ^ d -> (1 + e) ^ d <= 2.
Proof.
  intros H. pose proof (eps_pos dt). apply Rle_trans with ((/ w) ^ d).
  - apply pow_incr. split; [lra|apply one_plus].
  - pose proof (pw_inv w w0 d). pose proof (piw_pos w w0 d). nra.
Qed.

Lemma sum_ext o (p q : nat -> XR) : (forall i, p i = q i) -> sum_in dt o p = sum_in dt o q.
Proof. intros H. induction o as [i|l IHl r IHr]; cbn [sum_in]; [auto|congruence]. Qed.
Lemma sum_finite o (p : nat -> R) b : adds_all o n -> (forall i, repr dt (p i)) -> (forall i, 0 <= p i <= b) -> / 2 <= w ^ depth o ->
  4 * INR n * b <= maxpow dt ->
  exists S, sum_in dt o (fun i => Fin (p i)) = Fin S /\ repr dt S /\ 0 <= S <= 2 * INR n * b /\ (forall i, (i < n)%nat -> p i <= S) /\ near w (depth o) S (total p states).
Proof.
  intros H R P W B.
  assert (T : total p states <= INR n * b). { pose proof (total_bound p b states (fun i => proj2 (P i))) as T. rewrite seq_length in T. auto. }
  pose proof (total_nonneg p states ltac:(intros; apply P)) as T0.
  assert (NO : sum_in dt o (fun i => Fin (p i)) <> PInf).
  { apply (no_overflow dt p R); [intros; apply P|]. rewrite (perm_total p o H). pose proof (up_pow (depth o) W) as U.
    assert (0 <= (1 + e) ^ depth o) by (apply pow_le; pose proof (eps_pos dt); lra). nra. }
  destruct (sum_in_cases dt p R (fun i => proj1 (P i)) o) as [X|(S & ES & _)]; [contradiction|].
  destruct (near_sum dt p o S R (fun i => proj1 (P i)) ES) as (RS & PS & Ms & Ns). rewrite (perm_total p o H) in Ns.
  exists S. split; [auto|]. split; [auto|]. pose proof (near_ceil w w0 _ _ _ Ns W T0). split; [lra|]. split; [|auto].
  intros i Hi. apply Ms. apply (proj2 (adds_all_in o n H)). auto.
Qed.
(** normalising messages [u] near [v] *)
Lemma normalize_near (x : nat -> XR) (u v : nat -> R) m : (forall j, x j = Fin (u j)) -> (forall j, repr dt (u j)) -> (forall j, (n <= j)%nat -> u j = 0) ->
  (forall j, 0 <= v j) -> 0 < total v states -> (forall j, near w m (u j) (v j)) -> / 2 <= w ^ (2 * m + d2) ->
  (forall j, u j = 0 \/ threshold <= u j) -> (forall j, v j / total v states = 0 \/ 2 * tiny dt <= v j / total v states) ->
  (forall j, u j <= 4 * INR n * Q) ->
  exists c a, snd (fl_hmm_normalize dt o2 x) = Fin c /\ repr dt c /\ 0 < c /\ near w d2 c (total u states) /\
    (forall j, fst (fl_hmm_normalize dt o2 x) j = Fin (a j)) /\ (forall j, repr dt (a j)) /\ (forall j, 0 <= a j <= 1) /\ forall j, near w 1 (a j) (u j / c).
Proof.
  intros X Ru Uo Pv Tv Hn W Ht Hd Bu.
  assert (Pu : forall j, 0 <= u j) by (intros j; apply (near_nonneg w w0 _ _ _ (Hn j)), Pv).
  assert (Cl : forall j, fl_hmm_clamp dt (x j) = Fin (u j)).
  { intros j. unfold fl_hmm_clamp. rewrite (proj1 threshold_ok), X. destruct (xeqb (Fin (u j)) (Fin 0)) eqn:Z; [apply xeqb_fin in Z; congruence|].
    destruct (xltb (Fin (u j)) (Fin threshold)) eqn:Lt; [|auto]. apply xltb_fin in Lt. destruct (Ht j) as [Z0|]; [|lra].
    rewrite Z0 in Z. rewrite (proj2 (xeqb_fin 0 0) eq_refl) in Z. discriminate. }
  assert (Wd : / 2 <= w ^ d2) by (apply Rle_trans with (1 := W), pw_dec; try lia; auto using w0, w1).
  destruct (sum_finite o2 u (4 * INR n * Q) Ho2 Ru (fun i => conj (Pu i) (Bu i)) Wd ltac:(pose proof no_over; lra)) as (c & Ec & Rc & Bc & Mc & Nc).
  assert (Tu : 0 < total u states) by (apply (near_pos w w0 m _ _ (near_total w m u v states (fun i _ => Hn i))), Tv).
  pose proof (near_pos w w0 _ _ _ Nc Tu) as C0.
  assert (Es : sum_in dt o2 (fun j => fl_hmm_clamp dt (x j)) = Fin c) by (rewrite <- Ec; apply sum_ext; auto).
  exists c, (fun j => rnd dt (u j / c)). unfold fl_hmm_normalize. rewrite Es.
  destruct (xeqb (Fin c) (Fin 0)) eqn:Z; [apply xeqb_fin in Z; lra|]. cbn [fst snd].
  assert (U1 : forall j, 0 <= u j / c <= 1).
  { intros j. pose proof (Pu j). split; [apply Rmult_le_pos; [auto|apply Rlt_le, Rinv_0_lt_compat; auto]|].
    apply Rmult_le_reg_r with c; [auto|]. unfold Rdiv. rewrite Rmult_assoc, Rinv_l, Rmult_1_r, Rmult_1_l by lra.
    destruct (lt_dec j n); [apply Mc; auto|rewrite Uo by lia; lra]. }
  split; [auto|]. split; [auto|]. split; [auto|]. split; [auto|].
  assert (Fr : forall j, fround dt (Fin (u j / c)) = Fin (rnd dt (u j / c)) /\ 0 <= rnd dt (u j / c) <= 1 /\ repr dt (rnd dt (u j / c))).
  { intros j. apply fround_between; auto using repr_0, repr_1. }
  split. { intros j. rewrite Cl. unfold fdiv. rewrite xdiv_fin' by lra. apply Fr. }
  split; [intros; apply Fr|]. split; [intros; apply Fr|].
  intros j. apply near_rnd.
  assert (N1 : near w (m + d2) c (total v states)).
  { eapply near_trans; eauto using w0. apply near_total; auto using w0. }
  assert (N2 : near w (m + (m + d2)) (u j / c) (v j / total v states)) by (apply near_quot; auto using w0, w1).
  apply (near_floor w _ _ _ _ N2); [replace (m + (m + d2))%nat with (2 * m + d2)%nat by lia; auto| |auto].
  apply Rmult_le_pos; [auto|apply Rlt_le, Rinv_0_lt_compat; auto].
Qed.


(** without any assumption on the size of the probabilities *)
Lemma normalize_range (x : nat -> XR) (u : nat -> R) : / 2 <= w ^ d2 -> (forall j, x j = Fin (u j)) -> (forall j, repr dt (u j)) ->
  (forall j, 0 <= u j <= 4 * INR n * Q) ->
  exists c a, fl_hmm_normalize dt o2 x = (fst (fl_hmm_normalize dt o2 x), Fin c) /\ repr dt c /\ 0 < c /\
    (forall j, (j < n)%nat -> fst (fl_hmm_normalize dt o2 x) j = Fin (a j) /\ repr dt (a j) /\ 0 <= a j <= 1).
Proof.
  intros W X Ru Bu. pose proof n_ge as N. destruct threshold_ok as [Et Bt].
  assert (Rt : repr dt threshold). { apply (fround_value dt (Fin hmm_eps)). auto. }
  pose (v := fun j => if Req_EM_T (u j) 0 then 0 else if Rlt_dec (u j) threshold then threshold else u j).
  assert (Cl : forall j, fl_hmm_clamp dt (x j) = Fin (v j)).
  { intros j. unfold fl_hmm_clamp, v. rewrite Et, X. destruct (Req_EM_T (u j) 0) as [Z|Z].
    - rewrite (proj2 (xeqb_fin _ _) Z). auto.
    - destruct (xeqb (Fin (u j)) (Fin 0)) eqn:Zb; [apply xeqb_fin in Zb; contradiction|].
      destruct (Rlt_dec (u j) threshold) as [H|H]; [rewrite (proj2 (xltb_fin _ _) H); auto|].
      destruct (xltb (Fin (u j)) (Fin threshold)) eqn:Lb; [apply xltb_fin in Lb; contradiction|auto]. }
  assert (NQ : 1 <= INR n * Q) by nra.
  assert (Bv : forall j, 0 <= v j <= 4 * INR n * Q).
  { intros j. specialize (Bu j). unfold v. destruct (Req_EM_T (u j) 0); [lra|]. destruct (Rlt_dec (u j) threshold); lra. }
  assert (Rv : forall j, repr dt (v j)).
  { intros j. unfold v. destruct (Req_EM_T (u j) 0); [apply repr_0|]. destruct (Rlt_dec (u j) threshold); auto. }
  destruct (sum_finite o2 v (4 * INR n * Q) Ho2 Rv Bv W ltac:(pose proof no_over; lra)) as (c & Ec & Rc & Bc & Mc & _).
  assert (Es : sum_in dt o2 (fun j => fl_hmm_clamp dt (x j)) = Fin c) by (rewrite <- Ec; apply sum_ext; auto).
  unfold fl_hmm_normalize. rewrite Es. destruct (xeqb (Fin c) (Fin 0)) eqn:Z.
  - apply xeqb_fin in Z. exists 1, (fun _ => 0). cbn [fst]. split; [auto|]. split; [apply repr_1|]. split; [lra|]. intros j Hj.
    rewrite Cl. assert (v j = 0) as -> by (specialize (Mc j Hj); specialize (Bv j); lra). split; [|split; [apply repr_0|lra]].
    unfold fdiv. rewrite xdiv_fin' by lra. replace (0 / 1) with 0 by field. apply fround_0.
  - assert (C0 : 0 < c). { destruct (Req_EM_T c 0) as [Zc|Zc]; [rewrite (proj2 (xeqb_fin c 0) Zc) in Z; discriminate|lra]. }
    exists c, (fun j => rnd dt (v j / c)). cbn [fst]. split; [auto|]. split; [auto|]. split; [auto|]. intros j Hj.
    assert (U1 : 0 <= v j / c <= 1).
    { split; [apply Rmult_le_pos; [apply Bv|apply Rlt_le, Rinv_0_lt_compat; auto]|].
      apply Rmult_le_reg_r with c; [auto|]. unfold Rdiv. rewrite Rmult_assoc, Rinv_l, Rmult_1_r, Rmult_1_l by lra. auto. }
    destruct (fround_between dt (v j / c) 0 1 (repr_0 _) (repr_1 _) U1) as (F1 & F2 & F3).
    rewrite Cl. unfold fdiv. rewrite xdiv_fin' by lra. auto.
Qed.
Lemma round_range x b : 0 <= x <= b -> 1 <= b -> 2 * b <= maxpow dt -> exists r, fround dt (Fin x) = Fin r /\ repr dt r /\ 0 <= r <= 2 * b.
Proof.
  intros Hx Hb Hm. destruct (round_fin dt x) as (r & E & Rr & Br & Er); [rewrite Rabs_pos_eq; lra|]. exists r. split; [auto|]. split; [auto|].
  rewrite (Rabs_pos_eq x) in Br by lra. apply Rabs_le_inv in Br. pose proof (eps_pos dt). pose proof (eps_le dt). split; [|nra].
  rewrite Er. apply rnd_ge_F; [apply repr_0|lra].
Qed.
Theorem range_any (L : XR -> XR) : (forall c, repr dt c -> 0 < c -> exists l, L (Fin c) = Fin l) -> / 2 <= w ^ d1 -> / 2 <= w ^ d2 ->
  forall t, exists alpha ll, fl_hmm_forward dt o1 o2 L xi xt xo t = (alpha, ll) /\ ll <> NaN /\
    forall j, (j < n)%nat -> exists a, alpha j = Fin a /\ repr dt a /\ 0 <= a <= 1.
Proof.
  intros HL W1 W2. pose proof n_ge as N. pose proof bounds as [B1 B2]. assert (NQ : 1 <= INR n * Q) by nra. assert (Q1 : Q <= INR n * Q) by nra.
  assert (Fn : forall (x : nat -> XR), (forall j, exists r, x j = Fin r /\ repr dt r /\ 0 <= r <= 4 * INR n * Q) ->
    exists u : nat -> R, (forall j, x j = Fin (u j)) /\ (forall j, repr dt (u j)) /\ forall j, 0 <= u j <= 4 * INR n * Q).
  { intros x H. exists (fun j => match x j with Fin r => r | _ => 0 end). repeat split; intros; destruct (H j) as (r & -> & R1 & R2); try apply R1; try apply R2; auto. }
  induction t as [|t (alpha & ll & E & Nl & Ha)]; cbn [fl_hmm_forward].
  - destruct (Fn (fun j => fmul dt (xi j) (xo 0%nat j))) as (u & X & Ru & Bu).
    { intros j. cbn [fmul xmul]. destruct (round_range (init j * ob 0 j) Q) as (r & Er & Rr & Br); [|auto|lra|].
      - pose proof (init_ok j) as [_ ?]. pose proof (ob_ok 0 j) as [_ ?]. nra.
      - exists r. split; [exact Er|]. split; [auto|]. lra. }
    destruct (normalize_range _ u W2 X Ru Bu) as (c & a & En & Rc & C0 & Hj). rewrite En. destruct (HL c Rc C0) as (l & ->).
    eexists _, _. split; [reflexivity|]. split; [discriminate|]. intros j J. exists (a j). apply Hj; auto.
  - rewrite E.
    (* states that do not exist have message 0 whatever their alpha *)
    assert (S1 : forall j, exists s, sum_in dt o1 (fun i => fmul dt (alpha i) (xt i j)) = Fin s /\ repr dt s /\ 0 <= s <= 2 * INR n).
    { intros j.
      pose (a := fun i => if lt_dec i n then match alpha i with Fin r => r | _ => 0 end else 0).
      assert (Ea : forall i, repr dt (a i) /\ 0 <= a i <= 1 /\ ((i < n)%nat -> alpha i = Fin (a i))).
      { intros i. unfold a. destruct (lt_dec i n) as [Hi|Hi]; [destruct (Ha i Hi) as (r & -> & R1 & R2); auto|]. split; [apply repr_0|]. split; [lra|lia]. }
      pose (p := fun i => rnd dt (a i * tr i j)).
      assert (Ep : forall i, fround dt (Fin (a i * tr i j)) = Fin (p i) /\ 0 <= p i <= 1 /\ repr dt (p i)).
      { intros i. apply fround_between; auto using repr_0, repr_1. pose proof (Ea i) as (_ & ? & _). pose proof (tr_ok i j) as [_ ?]. nra. }
      destruct (sum_finite o1 p 1 Ho1) as (s & Es & Rs & Bs & _); [intros; apply Ep|intros; apply Ep|auto|lra|].
      exists s. split; [|split; [auto|lra]]. rewrite <- Es.
      assert (Q2 : forall i, In i (visits o1) -> fmul dt (alpha i) (xt i j) = Fin (p i)).
      { intros i Hi. apply (proj2 (adds_all_in o1 n Ho1)) in Hi. rewrite (proj2 (proj2 (Ea i)) Hi). apply Ep. }
      clear - Q2. induction o1 as [i|l IHl r IHr]; cbn [sum_in]; [apply Q2; left; auto|].
      cbn [visits] in Q2. rewrite IHl, IHr by (intros; apply Q2, in_or_app; auto). auto. }
    destruct (Fn (fl_hmm_message dt o1 xt xo (S t) alpha)) as (u & X & Ru & Bu).
    { intros j. unfold fl_hmm_message. destruct (S1 j) as (s & -> & Rs & Bs). 
      destruct (round_range (ob (S t) j * s) (2 * INR n * Q)) as (r & Er & Rr & Br); [|lra|lra|].
      - pose proof (ob_ok (S t) j) as [_ ?]. split; [apply Rmult_le_pos; lra|]. rewrite (Rmult_comm (2 * INR n)). apply Rmult_le_compat; lra.
      - exists r. split; [exact Er|]. split; [auto|]. lra. }
    destruct (normalize_range _ u W2 X Ru Bu) as (c & a & En & Rc & C0 & Hj). rewrite En. destruct (HL c Rc C0) as (l & ->).
    eexists _, _. split; [reflexivity|]. split; [|intros j J; exists (a j); apply Hj; auto].
    destruct ll; try congruence; cbn; try discriminate. destruct (Rlt_dec _ _); [discriminate|]. destruct (Rlt_dec _ _); discriminate.
Qed.
Definition pred (t j : nat) : R := fw t j / before t.
Variable T : nat.
Hypothesis possible : 0 < lik T.
Hypothesis res1 : forall t i j, (t < T)%nat -> fw t i / lik t * tr i j = 0 \/ 2 * tiny dt <= fw t i / lik t * tr i j.
Hypothesis res2 : forall t j, (t <= T)%nat -> pred t j = 0 \/ 2 * tiny dt <= pred t j /\ 2 * threshold <= pred t j.
Hypothesis res3 : forall t j, (t <= T)%nat -> fw t j / lik t = 0 \/ 2 * tiny dt <= fw t j / lik t.
Hypothesis short : / 2 <= w ^ M T.

Lemma in_total_pos (f : nat -> R) l : (forall i, In i l -> 0 <= f i) -> 0 < total f l -> exists i, In i l /\ 0 < f i.
Proof.
  induction l as [|a l IH]; intros P H; [rewrite total_nil in H; lra|]. rewrite total_cons in H.
  destruct (Rlt_dec 0 (f a)) as [|N]; [exists a; split; [left|]; auto|].
  destruct IH as (i & I & J); [intros; apply P; right; auto|pose proof (P a (or_introl eq_refl)); lra|]. exists i. split; [right|]; auto.
Qed.
Lemma total_zero (f : nat -> R) l : (forall i, In i l -> f i = 0) -> total f l = 0.
Proof. induction l as [|a l IH]; intros H; [apply total_nil|]. rewrite total_cons, IH, (H a) by (intros; try (left; auto; fail); apply H; right; auto). ring. Qed.
Lemma total_le_in (f : nat -> R) l i : (forall i, 0 <= f i) -> In i l -> f i <= total f l.
Proof.
  intros P. induction l as [|a l IH]; intros I; [destruct I|]. rewrite total_cons. pose proof (total_nonneg f l ltac:(auto)). pose proof (P a).
  destruct I as [-> |I]; [lra|]. specialize (IH I). lra.
Qed.
Lemma lik_prev t : 0 < lik (S t) -> 0 < lik t.
Proof.
  intros H. destruct (in_total_pos _ _ (fun i _ => fw_nonneg (S t) i) H) as (j & _ & J). cbn [fw] in J.
  assert (0 < total (fun i => fw t i * tr i j) states) as K.
  { pose proof (total_nonneg (fun i => fw t i * tr i j) states ltac:(intros; apply Rmult_le_pos; [apply fw_nonneg|apply tr_ok])) as [|Z]; [auto|rewrite <- Z in J; lra]. }
  destruct (in_total_pos _ _ ltac:(intros; apply Rmult_le_pos; [apply fw_nonneg|apply tr_ok]) K) as (i & I & L).
  pose proof (total_le_in (fw t) states i (fw_nonneg t) I). pose proof (fw_nonneg t i). pose proof (proj2 (tr_ok i j)). unfold lik. nra.
Qed.
Lemma lik_pos t : (t <= T)%nat -> 0 < lik t.
Proof. intros H. remember (T - t)%nat as d. revert t H Heqd. induction d as [|d IH]; intros t H E; [replace t with T by lia; auto|]. apply lik_prev, IH; lia. Qed.
Lemma mu_le s t : (s <= t)%nat -> (mu s <= mu t)%nat.
Proof. intros H. induction H; [lia|]. cbn [mu]. lia. Qed.
Lemma short_at t m : (t <= T)%nat -> (m <= M t)%nat -> / 2 <= w ^ m.
Proof. intros H K. apply Rle_trans with (1 := short). apply pw_dec; [apply w0|apply w1|]. pose proof (mu_le t T H). unfold M in *. lia. Qed.
Lemma div_by_1 a : a / 1 = a. Proof. field. Qed.
Lemma div_nonneg a b : 0 <= a -> 0 < b -> 0 <= a / b.
Proof. intros. apply Rmult_le_pos; [auto|apply Rlt_le, Rinv_0_lt_compat; auto]. Qed.
Lemma total_mul (f : nat -> R) c l : total (fun i => f i * c) l = total f l * c.
Proof. induction l as [|a l IH]; rewrite ?total_nil, ?total_cons; [ring|rewrite IH; ring]. Qed.

(** what the computed carry satisfies after [t + 1] observations; [P] is the product of the normalisers *)
Definition good (t : nat) (alpha : nat -> R) (P : R) : Prop :=
  (forall j, repr dt (alpha j) /\ 0 <= alpha j <= 1) /\ 0 < P /\ (forall j, near w (mu t) (alpha j * P) (fw t j)) /\
  near w (d2 + 1) (total alpha states) 1.
Lemma good_P t alpha P : (t <= T)%nat -> good t alpha P -> near w (mu t + (d2 + 1)) P (lik t).
Proof.
  intros Ht (_ & P0 & N & S). apply (near_cancel w w0 (d2 + 1) (mu t) (total alpha states)); [apply lik_nonneg|auto|].
  rewrite <- total_mul. apply near_total. auto.
Qed.
Lemma good_alpha t alpha P j : (t <= T)%nat -> good t alpha P -> near w (2 * mu t + d2 + 1) (alpha j) (fw t j / lik t).
Proof.
  intros Ht G. pose proof (good_P _ _ _ Ht G) as NP. destruct G as (_ & P0 & N & _).
  pose proof (near_quot w w0 _ _ _ _ _ _ (fw_nonneg t j) (lik_pos t Ht) (N j) NP) as H.
  replace (alpha j * P / P) with (alpha j) in H by (field; lra). replace (2 * mu t + d2 + 1)%nat with (mu t + (mu t + (d2 + 1)))%nat by lia. auto.
Qed.
(** one normalisation *)
Lemma normalize_good t P (x : nat -> XR) (u : nat -> R) m : (t <= T)%nat -> 0 < P -> (forall j, x j = Fin (u j)) -> (forall j, repr dt (u j)) ->
  (forall j, near w m (u j * P) (fw t j)) -> (m + 1 = mu t)%nat -> (forall j, u j = 0 \/ threshold <= u j) -> (forall j, u j <= 4 * INR n * Q) ->
  exists c a, fl_hmm_normalize dt o2 x = (fst (fl_hmm_normalize dt o2 x), Fin c) /\ (forall j, fst (fl_hmm_normalize dt o2 x) j = Fin (a j)) /\
    repr dt c /\ 0 < c /\ near w d2 c (total u states) /\ good t a (P * c).
Proof.
  intros Ht P0 X Ru N Em Th Bu. pose proof (lik_pos t Ht) as L0.
  assert (Pu : forall j, 0 <= u j).
  { intros j. pose proof (near_nonneg w w0 _ _ _ (N j) (fw_nonneg t j)). nra. }
  assert (Uo : forall j, (n <= j)%nat -> u j = 0).
  { intros j Hj. specialize (N j). rewrite (fw_out t j Hj) in N. apply near_zero in N. nra. }
  assert (Tv : total (fun j => fw t j / P) states = lik t / P) by (unfold Rdiv; apply total_mul).
  destruct (normalize_near x u (fun j => fw t j / P) m X Ru Uo) as (c & a & E1 & Rc & C0 & Nc & E2 & Ra & Ba & Na); auto.
  - intros j. apply div_nonneg; [apply fw_nonneg|auto].
  - rewrite Tv. apply Rmult_lt_0_compat; [auto|apply Rinv_0_lt_compat; auto].
  - intros j. replace (u j) with (/ P * (u j * P)) by (field; lra). replace (fw t j / P) with (/ P * fw t j) by (field; lra).
    apply near_scale; [apply Rlt_le, Rinv_0_lt_compat; auto|auto].
  - apply (short_at t); [auto|]. unfold M. lia.
  - intros j. rewrite Tv. replace (fw t j / P / (lik t / P)) with (fw t j / lik t) by (field; lra). auto.
  - exists c, a. split; [rewrite <- E1; destruct (fl_hmm_normalize dt o2 x); auto|]. split; [auto|]. split; [auto|]. split; [auto|]. split; [auto|].
    split; [auto|]. split; [apply Rmult_lt_0_compat; auto|]. split.
    + intros j. rewrite <- Em. apply (near_trans w w0 1 m _ (u j * P)); [|auto].
      replace (a j * (P * c)) with (P * c * a j) by ring. replace (u j * P) with (P * c * (u j / c)) by (field; lra).
      apply near_scale; [|auto]. apply Rlt_le, Rmult_lt_0_compat; auto.
    + apply (near_trans w w0 1 d2 _ (total (fun j => u j / c) states)); [apply near_total; auto|].
      unfold Rdiv. rewrite total_mul. pose proof (total_nonneg u states ltac:(auto)) as [Tu|Z].
      * assert (H : near w (0 + d2) (total u states / c) (total u states / total u states)).
        { apply (near_quot w w0 0 d2); auto; [lra|]. apply near_refl; auto using w0, w1; lra. }
        replace (total u states / total u states) with 1 in H by (field; lra). auto.
      * exfalso. rewrite <- Z in Nc. apply near_zero in Nc. lra.
Qed.
Lemma rnd_up x : 0 <= x -> x <= maxpow dt / 2 -> x = 0 \/ tiny dt <= x -> fround dt (Fin x) = Fin (rnd dt x) /\ repr dt (rnd dt x) /\ near w 1 (rnd dt x) x /\ rnd dt x <= 2 * x.
Proof.
  intros X0 X1 X2. destruct (round_fin dt x) as (r & E & Rr & _ & ->); [rewrite Rabs_pos_eq; auto|].
  pose proof (near_rnd dt x X2) as N. repeat split; try apply N; auto; try apply Rr.
  apply (near_ceil w w0 _ _ _ N); [rewrite pow_1; apply (w_range dt)|auto].
Qed.
Lemma base : exists a c alpha, fl_hmm_normalize dt o2 (fun j => fmul dt (xi j) (xo 0%nat j)) = (alpha, Fin c) /\ (forall j, alpha j = Fin (a j)) /\
  repr dt c /\ good 0 a c /\ near w (M 0) c (lik 0 / before 0).
Proof.
  pose proof bounds as [B1 B2]. pose proof n_ge as N1.
  assert (X : forall j, 0 <= fw 0 j <= Q).
  { intros j. split; [apply fw_nonneg|]. cbn [fw]. pose proof (init_ok j) as [_ ?]. pose proof (ob_ok 0 j) as [_ ?]. nra. }
  assert (Y : forall j, fw 0 j = 0 \/ 2 * tiny dt <= fw 0 j /\ 2 * threshold <= fw 0 j).
  { intros j. pose proof (res2 0 j ltac:(lia)) as H. unfold pred, before in H. rewrite div_by_1 in H. auto. }
  assert (U : forall j, fround dt (Fin (fw 0 j)) = Fin (rnd dt (fw 0 j)) /\ repr dt (rnd dt (fw 0 j)) /\ near w 1 (rnd dt (fw 0 j)) (fw 0 j) /\ rnd dt (fw 0 j) <= 2 * fw 0 j).
  { intros j. specialize (X j). specialize (Y j). pose proof (tiny_pos dt). assert (Q <= INR n * Q) by nra. apply rnd_up; [lra|lra|destruct Y; [auto|right; lra]]. }
  destruct (normalize_good 0 1 (fun j => fmul dt (xi j) (xo 0%nat j)) (fun j => rnd dt (fw 0 j)) 1) as (c & a & E & Ea & Rc & C0 & Nc & G); auto; try lia; try lra.
  - intros j. apply U.
  - intros j. apply U.
  - intros j. rewrite Rmult_1_r. apply U.
  - intros j. apply (near_floor w 1 _ (fw 0 j)); [apply U|rewrite pow_1; apply (w_range dt)|apply X|]. destruct (Y j); [auto|right; lra].
  - intros j. pose proof (U j) as (_ & _ & _ & K). specialize (X j). assert (Q <= INR n * Q) by nra. lra.
  - exists a, c, (fst (fl_hmm_normalize dt o2 (fun j => fmul dt (xi j) (xo 0%nat j)))). split; [auto|]. split; [auto|]. split; [auto|].
    rewrite Rmult_1_l in G. split; [auto|]. cbn [before]. rewrite div_by_1. apply (near_weaken w w0 w1 (1 + d2)); [|apply lik_nonneg|unfold M; cbn [mu]; lia].
    apply (near_trans w w0 d2 1 _ (total (fun j => rnd dt (fw 0 j)) states)); [auto|]. apply near_total. intros j _. apply U.
Qed.
Lemma fw_step t (alpha : nat -> XR) a P : (S t <= T)%nat -> good t a P -> (forall j, alpha j = Fin (a j)) ->
  exists a' c alpha', fl_hmm_normalize dt o2 (fl_hmm_message dt o1 xt xo (S t) alpha) = (alpha', Fin c) /\ (forall j, alpha' j = Fin (a' j)) /\
  repr dt c /\ good (S t) a' (P * c) /\ near w (M (S t)) c (lik (S t) / before (S t)).
Proof.
  intros Ht G Ha. pose proof bounds as [B1 B2]. pose proof n_ge as N1. pose proof (tiny_pos dt) as T0.
  assert (Gp := good_P t a P ltac:(lia) G). assert (Ga := fun j => good_alpha t a P j ltac:(lia) G).
  pose proof (lik_pos t ltac:(lia)) as L0.
  destruct G as (A1 & P0 & A2 & A3).
  (* products *)
  assert (V : forall i j, 0 <= a i * tr i j <= 1).
  { intros i j. pose proof (A1 i) as [_ ?]. pose proof (tr_ok i j) as [_ ?]. nra. }
  assert (PR : forall i j, fround dt (Fin (a i * tr i j)) = Fin (rnd dt (a i * tr i j)) /\ 0 <= rnd dt (a i * tr i j) <= 1 /\ repr dt (rnd dt (a i * tr i j))).
  { intros i j. apply fround_between; auto using repr_0, repr_1. }
  assert (PN : forall i j, near w 1 (rnd dt (a i * tr i j)) (a i * tr i j)).
  { intros i j. apply near_rnd.
    apply (near_floor w (2 * mu t + d2 + 1) _ (fw t i / lik t * tr i j)).
    - rewrite (Rmult_comm (a i)), (Rmult_comm (fw t i / lik t)). apply near_scale; [apply tr_ok|auto].
    - apply (short_at t); [lia|unfold M; lia].
    - apply Rmult_le_pos; [apply div_nonneg; [apply fw_nonneg|auto]|apply tr_ok].
    - apply res1. lia. }
  (* sums *)
  assert (SM : forall j, exists s, sum_in dt o1 (fun i => fmul dt (alpha i) (xt i j)) = Fin s /\ repr dt s /\ 0 <= s <= 2 * INR n /\
     near w (1 + d1) s (total (fun i => a i * tr i j) states)).
  { intros j. destruct (sum_finite o1 (fun i => rnd dt (a i * tr i j)) 1 Ho1) as (s & Es & Rs & Bs & _ & Ns).
    - intros i. apply PR.
    - intros i. apply PR.
    - apply (short_at (S t)); [lia|unfold M; cbn [mu]; lia].
    - lra.
    - exists s. split; [rewrite <- Es; apply sum_ext; intros i; rewrite Ha; apply PR|]. split; [auto|]. split; [lra|].
      apply (near_trans w w0 _ _ _ (total (fun i => rnd dt (a i * tr i j)) states)); [auto|]. apply near_total. auto. }
  assert (SF : exists s : nat -> R, forall j, sum_in dt o1 (fun i => fmul dt (alpha i) (xt i j)) = Fin (s j) /\ repr dt (s j) /\ 0 <= s j <= 2 * INR n /\
     near w (1 + d1) (s j) (total (fun i => a i * tr i j) states)).
  { exists (fun j => match sum_in dt o1 (fun i => fmul dt (alpha i) (xt i j)) with Fin s => s | _ => 0 end).
    intros j. destruct (SM j) as (s & Es & H). rewrite Es. auto. }
  destruct SF as (s & Hs). clear SM.
  (* messages *)
  pose (y := fun j => ob (S t) j * s j).
  assert (Y1 : forall j, 0 <= y j <= 2 * INR n * Q).
  { intros j. unfold y. pose proof (Hs j) as (_ & _ & ? & _). pose proof (ob_ok (S t) j) as [_ ?].
    split; [apply Rmult_le_pos; lra|]. rewrite (Rmult_comm (2 * INR n)). apply Rmult_le_compat; lra. }
  assert (Y2 : forall j, near w (mu t + (1 + d1)) (y j * P) (fw (S t) j)).
  { intros j. apply (near_trans w w0 _ _ _ (ob (S t) j * (total (fun i => a i * tr i j) states * P))).
    - replace (y j * P) with ((ob (S t) j * P) * s j) by (unfold y; ring).
      replace (ob (S t) j * (total (fun i => a i * tr i j) states * P)) with ((ob (S t) j * P) * total (fun i => a i * tr i j) states) by ring.
      apply near_scale; [apply Rmult_le_pos; [apply ob_ok|lra]|apply Hs].
    - cbn [fw]. apply near_scale; [apply ob_ok|]. rewrite <- total_mul. apply near_total. intros i _.
      replace (a i * tr i j * P) with (tr i j * (a i * P)) by ring. rewrite (Rmult_comm (fw t i)). apply near_scale; [apply tr_ok|auto]. }
  assert (Y3 : forall j, near w (mu t + (1 + d1) + (mu t + (d2 + 1))) (y j) (pred (S t) j)).
  { intros j. pose proof (near_quot w w0 _ _ _ _ _ _ (fw_nonneg (S t) j) L0 (Y2 j) Gp) as H.
    replace (y j * P / P) with (y j) in H by (field; lra). auto. }
  assert (D0 : forall j, 0 <= pred (S t) j) by (intros j; apply div_nonneg; [apply fw_nonneg|auto]).
  assert (U : forall j, fround dt (Fin (y j)) = Fin (rnd dt (y j)) /\ repr dt (rnd dt (y j)) /\ near w 1 (rnd dt (y j)) (y j) /\ rnd dt (y j) <= 2 * y j).
  { intros j. specialize (Y1 j). apply rnd_up; [lra|lra|]. apply (near_floor w _ _ _ _ (Y3 j)); [|auto|].
    - apply (short_at (S t)); [lia|unfold M; cbn [mu]; lia].
    - destruct (res2 (S t) j ltac:(lia)); [auto|right; lra]. }
  assert (U3 : forall j, near w (mu t + (1 + d1) + (mu t + (d2 + 1)) + 1) (rnd dt (y j)) (pred (S t) j)).
  { intros j. apply (near_trans w w0 _ _ _ (y j)); [apply U|auto]. }
  destruct (normalize_good (S t) P (fl_hmm_message dt o1 xt xo (S t) alpha) (fun j => rnd dt (y j)) (mu t + (1 + d1) + 1)) as (c & a' & E & Ea & Rc & C0 & Nc & G); auto; try lia.
  - intros j. unfold fl_hmm_message. rewrite (proj1 (Hs j)). apply U.
  - intros j. apply U.
  - intros j. apply (near_trans w w0 _ _ _ (y j * P)); [|auto]. rewrite !(Rmult_comm _ P). apply near_scale; [lra|apply U].
  - cbn [mu]. lia.
  - intros j. apply (near_floor w _ _ _ _ (U3 j)); [|auto|].
    + apply (short_at (S t)); [lia|unfold M; cbn [mu]; lia].
    + destruct (res2 (S t) j ltac:(lia)); [auto|right; lra].
  - intros j. pose proof (U j) as (_ & _ & _ & K). specialize (Y1 j). lra.
  - exists a', c, (fst (fl_hmm_normalize dt o2 (fl_hmm_message dt o1 xt xo (S t) alpha))). split; [auto|]. split; [auto|]. split; [auto|]. split; [auto|].
    apply (near_weaken w w0 w1 (mu t + (1 + d1) + (mu t + (d2 + 1)) + 1 + d2)); [|apply div_nonneg; [apply lik_nonneg|auto]|unfold M; cbn [mu]; lia].
    apply (near_trans w w0 _ _ _ (total (fun j => rnd dt (y j)) states)); [auto|].
    unfold lik, Rdiv. rewrite <- total_mul. apply near_total. intros j _. apply U3.
Qed.


Lemma alpha_good L t : (t <= T)%nat -> exists a P, (forall j, fst (fl_hmm_forward dt o1 o2 L xi xt xo t) j = Fin (a j)) /\ good t a P.
Proof.
  induction t as [|t IH]; intros Ht.
  - destruct base as (a & c & alpha & E & Ea & Rc & G & Nc). exists a, c. cbn [fl_hmm_forward]. rewrite E. auto.
  - destruct (IH ltac:(lia)) as (a & P & Ea & G). cbn [fl_hmm_forward]. destruct (fl_hmm_forward dt o1 o2 L xi xt xo t) as [alpha ll]. cbn [fst] in Ea.
    destruct (fw_step t alpha a P Ht G Ea) as (a' & c & alpha' & E' & Ea' & Rc & G' & Nc). rewrite E'. exists a', (P * c). auto.
Qed.

(** ** backward *)
Variable o3 : order.
Notation d3 := (depth o3).
Hypothesis Ho3 : adds_all o3 n.
Hypothesis tr_out : forall i j, (n <= i)%nat -> tr i j = 0.
(** the exact backward recursion, [r] steps before the end *)
Fixpoint bw (r : nat) (i : nat) : R :=
  match r with O => 1 | S r => total (fun j => bw r j * ob (T - r) j * tr i j) states end.
Definition bw_total (r : nat) : R := match r with O => 1 | S _ => total (bw r) states end.
Fixpoint nu (r : nat) : nat := match r with O => 0 | S r => nu r + d3 + 3 end.
Hypothesis bw_possible : forall r, (r <= T)%nat -> 0 < total (bw r) states.
Hypothesis resb1 : forall r j, (r < T)%nat -> bw r j / bw_total r * ob (T - r) j = 0 \/ 2 * tiny dt <= bw r j / bw_total r * ob (T - r) j.
Hypothesis resb2 : forall r i j, (r < T)%nat -> bw r j / bw_total r * ob (T - r) j * tr i j = 0 \/ 2 * tiny dt <= bw r j / bw_total r * ob (T - r) j * tr i j.
Hypothesis resb3 : forall r i, (r < T)%nat -> bw (S r) i / bw_total r = 0 \/ 2 * threshold <= bw (S r) i / bw_total r.
Hypothesis resb4 : forall r i, (r < T)%nat -> bw (S r) i / bw_total (S r) = 0 \/ 2 * tiny dt <= bw (S r) i / bw_total (S r).
Definition MB : nat := 2 * (mu T + nu T + 1) + 2 * d2 + 2.
Hypothesis shortb : / 2 <= w ^ MB.
Lemma nu_le s t : (s <= t)%nat -> (nu s <= nu t)%nat.
Proof. intros H. induction H; [lia|]. cbn [nu]. lia. Qed.
Lemma short_b m : (m <= MB)%nat -> / 2 <= w ^ m.
Proof. intros K. apply Rle_trans with (1 := shortb). apply pw_dec; [apply w0|apply w1|auto]. Qed.
Lemma bw_nonneg r : forall i, 0 <= bw r i.
Proof.
  induction r as [|r IH]; intros i; cbn [bw]; [lra|]. apply total_nonneg. intros j _. apply Rmult_le_pos; [apply Rmult_le_pos; [auto|apply ob_ok]|apply tr_ok].
Qed.
Lemma bw_out r i : (n <= i)%nat -> bw (S r) i = 0.
Proof. intros H. cbn [bw]. apply total_zero. intros j _. rewrite tr_out by auto. ring. Qed.
Lemma bw_total_pos r : (r <= T)%nat -> 0 < bw_total r.
Proof. intros H. destruct r; cbn [bw_total]; [lra|apply bw_possible; auto]. Qed.
(** [D] is the product of the normalisers *)
Definition goodb (r : nat) (beta : nat -> R) (D : R) : Prop :=
  (forall i, repr dt (beta i) /\ 0 <= beta i <= 1) /\ 0 < D /\ (forall i, near w (nu r) (beta i * D) (bw r i)) /\ near w (nu r + (d2 + 1)) D (bw_total r).
Lemma goodb_beta r beta D i : (r <= T)%nat -> goodb r beta D -> near w (nu r + (nu r + (d2 + 1))) (beta i) (bw r i / bw_total r).
Proof.
  intros Hr (_ & D0 & N & ND).
  pose proof (near_quot w w0 _ _ _ _ _ _ (bw_nonneg r i) (bw_total_pos r Hr) (N i) ND) as H.
  replace (beta i * D / D) with (beta i) in H by (field; lra). auto.
Qed.
Lemma sum_near o (x : nat -> XR) (p q : nat -> R) b m : adds_all o n -> (forall i, x i = Fin (p i)) -> (forall i, repr dt (p i)) -> (forall i, 0 <= p i <= b) ->
  (forall i, near w m (p i) (q i)) -> / 2 <= w ^ depth o -> 4 * INR n * b <= maxpow dt ->
  exists s, sum_in dt o x = Fin s /\ repr dt s /\ 0 <= s <= 2 * INR n * b /\ near w (m + depth o) s (total q states).
Proof.
  intros Ha X R P N W B. destruct (sum_finite o p b Ha R P W B) as (s & Es & Rs & Bs & _ & Ns). exists s.
  split; [rewrite <- Es; apply sum_ext; auto|]. split; [auto|]. split; [auto|]. apply (near_trans w w0 _ _ _ (total p states)); [auto|]. apply near_total. auto.
Qed.
Lemma pick (x : nat -> XR) (Pr : nat -> R -> Prop) : (forall i, exists r, x i = Fin r /\ Pr i r) -> exists u : nat -> R, forall i, x i = Fin (u i) /\ Pr i (u i).
Proof. intros H. exists (fun i => match x i with Fin r => r | _ => 0 end). intros i. destruct (H i) as (r & -> & K). auto. Qed.
Lemma bw_step r beta b D : (S r <= T)%nat -> goodb r b D -> (forall j, beta j = Fin (b j)) ->
  exists b' D', (forall i, fst (fl_hmm_normalize dt o2 (fun i => sum_in dt o3 (fun j => fmul dt (fmul dt (beta j) (xo (T - r)%nat j)) (xt i j)))) i = Fin (b' i)) /\ goodb (S r) b' D'.
Proof.
  intros Hr G Hb. pose proof bounds as [B1 B2]. pose proof n_ge as N1. pose proof (tiny_pos dt) as T0. pose proof (bw_total_pos r ltac:(lia)) as W0.
  assert (Gb := fun i => goodb_beta r b D i ltac:(lia) G). destruct G as (A1 & D0 & A2 & A3).
  assert (NU : (nu (S r) <= nu T)%nat) by (apply nu_le; auto). cbn [nu] in NU.
  assert (Q1 : Q <= INR n * Q) by nra.
  (* beta * ob *)
  assert (V : forall j, 0 <= b j * ob (T - r) j <= Q).
  { intros j. pose proof (A1 j) as [_ ?]. pose proof (ob_ok (T - r) j) as [_ ?]. nra. }
  assert (P1 : forall j, fround dt (Fin (b j * ob (T - r) j)) = Fin (rnd dt (b j * ob (T - r) j)) /\ repr dt (rnd dt (b j * ob (T - r) j)) /\
    near w 1 (rnd dt (b j * ob (T - r) j)) (b j * ob (T - r) j) /\ rnd dt (b j * ob (T - r) j) <= 2 * (b j * ob (T - r) j)).
  { intros j. specialize (V j). apply rnd_up; [lra|lra|].
    apply (near_floor w (nu r + (nu r + (d2 + 1))) _ (bw r j / bw_total r * ob (T - r) j)).
    - rewrite !(Rmult_comm _ (ob (T - r) j)). apply near_scale; [apply ob_ok|auto].
    - apply short_b. unfold MB. lia.
    - apply Rmult_le_pos; [apply div_nonneg; [apply bw_nonneg|auto]|apply ob_ok].
    - apply resb1. lia. }
  pose (p := fun j => rnd dt (b j * ob (T - r) j)).
  assert (Pp : forall j, 0 <= p j <= 2 * Q).
  { intros j. pose proof (P1 j) as (_ & _ & N & U). specialize (V j). split; [|unfold p; lra]. apply (near_nonneg w w0 _ _ _ N). lra. }
  assert (PN : forall i j, near w (nu r + (nu r + (d2 + 1)) + 1) (p j * tr i j) (bw r j / bw_total r * ob (T - r) j * tr i j)).
  { intros i j. rewrite !(Rmult_comm _ (tr i j)). apply near_scale; [apply tr_ok|]. apply (near_trans w w0 _ _ _ (b j * ob (T - r) j)); [apply P1|].
    rewrite !(Rmult_comm _ (ob (T - r) j)). apply near_scale; [apply ob_ok|auto]. }
  assert (P2 : forall i j, fround dt (Fin (p j * tr i j)) = Fin (rnd dt (p j * tr i j)) /\ repr dt (rnd dt (p j * tr i j)) /\
    near w 1 (rnd dt (p j * tr i j)) (p j * tr i j) /\ 0 <= rnd dt (p j * tr i j) <= 2 * Q).
  { intros i j. assert (Y : 0 <= p j * tr i j <= 2 * Q) by (pose proof (Pp j); pose proof (tr_ok i j) as [_ ?]; nra).
    destruct (rnd_up (p j * tr i j)) as (K1 & K2 & K3 & K4); [lra|lra| |].
    - apply (near_floor w _ _ _ _ (PN i j)); [apply short_b; unfold MB; lia| |apply resb2; lia].
      apply Rmult_le_pos; [|apply tr_ok]. apply Rmult_le_pos; [apply div_nonneg; [apply bw_nonneg|auto]|apply ob_ok].
    - split; [auto|]. split; [auto|]. split; [auto|]. split; [apply (near_nonneg w w0 _ _ _ K3); lra|].
      apply Rle_trans with (p j); [|apply Pp]. apply rnd_le_F; [apply (P1 j)|]. pose proof (Pp j). pose proof (tr_ok i j) as [_ ?]. nra. }
  (* sums *)
  assert (SM : forall i, exists s, sum_in dt o3 (fun j => fmul dt (fmul dt (beta j) (xo (T - r)%nat j)) (xt i j)) = Fin s /\
     (repr dt s /\ 0 <= s <= 4 * INR n * Q /\ near w (2 + d3) s (total (fun j => b j * ob (T - r) j * tr i j) states))).
  { intros i. destruct (sum_near o3 (fun j => fmul dt (fmul dt (beta j) (xo (T - r)%nat j)) (xt i j)) (fun j => rnd dt (p j * tr i j)) (fun j => b j * ob (T - r) j * tr i j) (2 * Q) 2 Ho3)
      as (s & Es & Rs & Bs & Ns).
    - intros j. rewrite Hb. unfold fmul at 2. rewrite xmul_fin, (proj1 (P1 j)). unfold fmul. rewrite xmul_fin. apply P2.
    - intros j. apply P2.
    - intros j. apply P2.
    - intros j. change 2%nat with (1 + 1)%nat. apply (near_trans w w0 _ _ _ (p j * tr i j)); [apply P2|].
      rewrite !(Rmult_comm _ (tr i j)). apply near_scale; [apply tr_ok|]. apply P1.
    - apply short_b. unfold MB. lia.
    - lra.
    - exists s. split; [auto|]. split; [auto|]. split; [lra|auto]. }
  apply (pick _ (fun i s => repr dt s /\ 0 <= s <= 4 * INR n * Q /\ near w (2 + d3) s (total (fun j => b j * ob (T - r) j * tr i j) states))) in SM.
  destruct SM as (u & Hu).
  assert (U1 : forall i, near w (nu r + (2 + d3)) (u i * D) (bw (S r) i)).
  { intros i. apply (near_trans w w0 _ _ _ (total (fun j => b j * ob (T - r) j * tr i j) states * D)).
    - rewrite !(Rmult_comm _ D). apply near_scale; [lra|apply Hu].
    - cbn [bw]. rewrite <- total_mul. apply near_total. intros j _.
      replace (b j * ob (T - r) j * tr i j * D) with (ob (T - r) j * tr i j * (b j * D)) by ring.
      replace (bw r j * ob (T - r) j * tr i j) with (ob (T - r) j * tr i j * bw r j) by ring.
      apply near_scale; [apply Rmult_le_pos; [apply ob_ok|apply tr_ok]|auto]. }
  assert (U2 : forall i, near w (nu r + (2 + d3) + (nu r + (d2 + 1))) (u i) (bw (S r) i / bw_total r)).
  { intros i. pose proof (near_quot w w0 _ _ _ _ _ _ (bw_nonneg (S r) i) W0 (U1 i) A3) as H. replace (u i * D / D) with (u i) in H by (field; lra). auto. }
  pose proof (bw_total_pos (S r) Hr) as L0. cbn [bw_total] in L0.
  assert (Tv : total (fun i => bw (S r) i / D) states = total (bw (S r)) states / D) by (unfold Rdiv; apply total_mul).
  assert (NV : forall i, near w (nu r + (2 + d3)) (u i) (bw (S r) i / D)).
  { intros i. replace (u i) with (/ D * (u i * D)) by (field; lra). unfold Rdiv. rewrite (Rmult_comm (bw (S r) i)). apply near_scale; [apply Rlt_le, Rinv_0_lt_compat; auto|auto]. }
  destruct (normalize_near (fun i => sum_in dt o3 (fun j => fmul dt (fmul dt (beta j) (xo (T - r)%nat j)) (xt i j))) u (fun i => bw (S r) i / D) (nu r + (2 + d3)))
    as (c & a & E1 & Rc & C0 & Nc & E2 & Ra & Ba & Na); auto; try (intros; apply Hu).
  - intros i Hi. specialize (U1 i). rewrite (bw_out r i Hi) in U1. apply near_zero in U1. nra.
  - intros i. apply div_nonneg; [apply bw_nonneg|auto].
  - rewrite Tv. apply Rmult_lt_0_compat; [auto|apply Rinv_0_lt_compat; auto].
  - apply short_b. unfold MB. lia.
  - intros i. apply (near_floor w _ _ _ _ (U2 i)); [apply short_b; unfold MB; lia|apply div_nonneg; [apply bw_nonneg|auto]|apply resb3; lia].
  - intros i. rewrite Tv. replace (bw (S r) i / D / (total (bw (S r)) states / D)) with (bw (S r) i / total (bw (S r)) states) by (field; lra). apply (resb4 r i). lia.
  - exists a, (D * c). split; [auto|]. split; [auto|]. split; [apply Rmult_lt_0_compat; auto|].
    assert (NA : forall i, near w (nu (S r)) (a i * (D * c)) (bw (S r) i)).
    { intros i. cbn [nu]. replace (nu r + d3 + 3)%nat with (nu r + (2 + d3) + 1)%nat by lia. apply (near_trans w w0 _ _ _ (u i * D)); [|auto].
      replace (a i * (D * c)) with (D * c * a i) by ring. replace (u i * D) with (D * c * (u i / c)) by (field; lra).
      apply near_scale; [|auto]. apply Rlt_le, Rmult_lt_0_compat; auto. }
    split; [auto|].
    apply (near_cancel w w0 (d2 + 1) (nu (S r)) (total a states)).
    + cbn [bw_total]. lra.
    + apply (near_trans w w0 1 d2 _ (total (fun j => u j / c) states)); [apply near_total; auto|].
      unfold Rdiv. rewrite total_mul. assert (0 < total u states) as Tu.
      { pose proof (near_total w _ u (fun i => bw (S r) i / D) states (fun i _ => NV i)) as NT. rewrite Tv in NT. apply (near_pos w w0 _ _ _ NT). apply Rmult_lt_0_compat; [auto|apply Rinv_0_lt_compat; auto]. }
      assert (H : near w (0 + d2) (total u states / c) (total u states / total u states)).
      { apply (near_quot w w0 0 d2); auto; [lra|]. apply near_refl; auto using w0, w1; lra. }
      replace (total u states / total u states) with 1 in H by (field; lra). auto.
    + cbn [bw_total]. rewrite <- total_mul. apply near_total. auto.
Qed.
Lemma backward_good r : (r <= T)%nat -> exists b D, (forall j, fl_hmm_backward dt o2 xt xo o3 T r j = Fin (b j)) /\ goodb r b D.
Proof.
  induction r as [|r IH]; intros Hr.
  - exists (fun _ => 1), 1. split; [auto|]. split; [intros; split; [apply repr_1|lra]|]. split; [lra|]. split; [intros; rewrite Rmult_1_r; apply near_refl; auto using w0, w1; cbn; lra|].
    apply near_refl; auto using w0, w1. cbn. lra.
  - destruct (IH ltac:(lia)) as (b & D & Eb & G). destruct (bw_step r _ b D Hr G Eb) as (b' & D' & E & G'). exists b', D'. split; auto.
Qed.
(** ** forward_backward *)
Section Gamma.
Variable t : nat.
Hypothesis t_le : (t <= T)%nat.
Notation r := (T - t)%nat.
Notation joint := (fun j => fw t j * bw r j).
Hypothesis joint_pos : 0 < total joint states.
Hypothesis resg1 : forall j, fw t j / lik t * (bw r j / bw_total r) = 0 \/ 2 * tiny dt <= fw t j / lik t * (bw r j / bw_total r) /\ 2 * threshold <= fw t j / lik t * (bw r j / bw_total r).
Hypothesis resg2 : forall j, joint j / total joint states = 0 \/ 2 * tiny dt <= joint j / total joint states.
Theorem gamma_core L : exists g, (forall j, fl_hmm_gamma dt o1 o2 L xi xt xo o3 T t j = Fin (g j)) /\
  (forall j, 0 <= g j <= 1 /\ near w (2 * (mu t + nu r + 1) + d2 + 1) (g j) (joint j / total joint states)).
Proof.
  destruct (alpha_good L t t_le) as (a & P & Ea & G). destruct (backward_good r ltac:(lia)) as (b & D & Eb & H).
  pose proof (good_alpha t a P) as Ga. pose proof (goodb_beta r b D) as Gb.
  assert (Ga' := fun j => Ga j t_le G). assert (Gb' := fun j => Gb j ltac:(lia) H). clear Ga Gb.
  destruct G as (A1 & P0 & A2 & A3). destruct H as (C1 & D0 & C2 & C3).
  pose proof (mu_le t T t_le) as ML. pose proof (nu_le r T ltac:(lia)) as NL. pose proof n_ge as N1. assert (Q1 : 1 <= INR n * Q) by nra.
  pose proof (lik_pos t t_le) as L0. pose proof (bw_total_pos r ltac:(lia)) as W0. pose proof (tiny_pos dt) as T0.
  assert (V : forall j, 0 <= a j * b j <= 1). { intros j. pose proof (A1 j) as [_ ?]. pose proof (C1 j) as [_ ?]. nra. }
  assert (NV : forall j, near w (2 * mu t + d2 + 1 + (nu r + (nu r + (d2 + 1)))) (a j * b j) (fw t j / lik t * (bw r j / bw_total r))).
  { intros j. apply near_prod; auto using w0; apply div_nonneg; auto using fw_nonneg, bw_nonneg. }
  assert (J0 : forall j, 0 <= fw t j / lik t * (bw r j / bw_total r)) by (intros j; apply Rmult_le_pos; apply div_nonneg; auto using fw_nonneg, bw_nonneg).
  assert (U : forall j, fround dt (Fin (a j * b j)) = Fin (rnd dt (a j * b j)) /\ 0 <= rnd dt (a j * b j) <= 1 /\ repr dt (rnd dt (a j * b j))).
  { intros j. apply fround_between; auto using repr_0, repr_1. }
  assert (UN : forall j, near w 1 (rnd dt (a j * b j)) (a j * b j)).
  { intros j. apply near_rnd. apply (near_floor w _ _ _ _ (NV j)); [apply short_b; unfold MB; lia|auto|]. destruct (resg1 j); [auto|right; lra]. }
  assert (UJ : forall j, near w (mu t + nu r + 1) (rnd dt (a j * b j)) (joint j / (P * D))).
  { intros j. apply (near_trans w w0 _ _ _ (a j * b j)); [auto|].
    replace (a j * b j) with (/ (P * D) * ((a j * P) * (b j * D))) by (field; lra). unfold Rdiv. rewrite (Rmult_comm (fw t j * bw r j)).
    apply near_scale; [apply Rlt_le, Rinv_0_lt_compat, Rmult_lt_0_compat; auto|]. apply near_prod; auto using w0, fw_nonneg, bw_nonneg. }
  assert (UT : forall j, rnd dt (a j * b j) = 0 \/ threshold <= rnd dt (a j * b j)).
  { intros j. assert (N2 := near_trans w w0 _ _ _ _ _ (UN j) (NV j)). apply (near_floor w _ _ _ _ N2); [apply short_b; unfold MB; lia|auto|]. destruct (resg1 j); [auto|right; lra]. }
  assert (PD : 0 < P * D) by (apply Rmult_lt_0_compat; auto).
  assert (Tv : total (fun j => joint j / (P * D)) states = total joint states / (P * D)) by (unfold Rdiv; apply (total_mul joint)).
  destruct (normalize_near (fun j => fmul dt (fst (fl_hmm_forward dt o1 o2 L xi xt xo t) j) (fl_hmm_backward dt o2 xt xo o3 T r j))
     (fun j => rnd dt (a j * b j)) (fun j => joint j / (P * D)) (mu t + nu r + 1)) as (c & g & E1 & Rc & C0 & Nc & E2 & Rg & Bg & Ng); auto.
  - intros j. rewrite Ea, Eb. unfold fmul. rewrite xmul_fin. apply U.
  - intros j. apply U.
  - intros j Hj. specialize (UJ j). cbv beta in UJ. rewrite (fw_out t j Hj) in UJ. unfold Rdiv in UJ. rewrite !Rmult_0_l in UJ. apply near_zero in UJ. auto.
  - intros j. apply div_nonneg; [apply Rmult_le_pos; auto using fw_nonneg, bw_nonneg|auto].
  - rewrite Tv. apply Rmult_lt_0_compat; [auto|apply Rinv_0_lt_compat; auto].
  - apply short_b. unfold MB. lia.
  - intros j. rewrite Tv. replace (joint j / (P * D) / (total joint states / (P * D))) with (joint j / total joint states) by (field; lra). auto.
  - intros j. pose proof (U j). lra.
  - exists g. split; [exact E2|]. intros j. split; [auto|].
    pose proof (near_total w _ (fun j => rnd dt (a j * b j)) (fun j => joint j / (P * D)) states (fun i _ => UJ i)) as NT.
    assert (N3 := near_trans w w0 _ _ _ _ _ Nc NT). cbv beta in N3; rewrite Tv in N3.
    assert (N4 := near_quot w w0 _ _ _ _ _ _ ltac:(apply div_nonneg; [apply Rmult_le_pos; [apply (fw_nonneg t j)|apply (bw_nonneg r j)]|exact PD])
       ltac:(apply Rmult_lt_0_compat; [exact joint_pos|apply Rinv_0_lt_compat; exact PD]) (UJ j) N3).
    replace (fw t j * bw r j / (P * D) / (total joint states * / (P * D))) with (joint j / total joint states) in N4 by (field; repeat split; lra).
    replace (2 * (mu t + nu r + 1) + d2 + 1)%nat with (mu t + nu r + 1 + (mu t + nu r + 1 + d2) + 1)%nat by lia.
    apply (near_trans w w0 _ _ _ (rnd dt (a j * b j) / c)); auto.
Qed.
End Gamma.

Variables (L : XR -> XR) (k A : R).
Hypothesis HL : accurate dt k L ln (fun c => 0 < c).
Hypothesis k_pos : 0 <= k.
Hypothesis HA : forall t, (t <= T)%nat -> Rabs (ln (lik t / before t)) <= A.
Notation N := (INR T).
Notation g := (eps dt * ((k + INR T + 1) * (A + 1) + 4)).
Hypothesis long : (INR T + 1) * g <= 1.
Lemma A_pos : 0 <= A. Proof. pose proof (HA 0 ltac:(lia)). pose proof (Rabs_pos (ln (lik 0 / before 0))). lra. Qed.
Lemma before_pos t : (t <= T)%nat -> 0 < before t.
Proof. intros H. destruct t; cbn [before]; [lra|]. apply lik_pos. lia. Qed.
Lemma g_pos : 0 <= g. Proof. pose proof A_pos. pose proof (pos_INR T). pose proof (eps_pos dt). apply Rmult_le_pos; [lra|]. nra. Qed.
Lemma g_le : g <= 1. Proof. pose proof g_pos. pose proof (pos_INR T). nra. Qed.
Lemma log_one t c : (t <= T)%nat -> repr dt c -> near w (M t) c (lik t / before t) ->
  exists r, L (Fin c) = Fin r /\ Rabs (ln c) <= A + 1 /\ Rabs (r - ln c) <= eps dt * (k * (A + 1) + 1).
Proof.
  intros Ht Rc N.
  assert (L0 : 0 < lik t / before t) by (apply Rmult_lt_0_compat; [apply lik_pos; auto|apply Rinv_0_lt_compat, before_pos; auto]).
  pose proof (near_pos w w0 _ _ _ N L0) as C0. destruct (HL c Rc C0) as (r & Er & Rr & Br). exists r. split; [auto|].
  pose proof (near_half_ln w w0 _ _ _ N (short_at t (M t) Ht ltac:(lia)) L0) as D. pose proof (HA t Ht) as Ha.
  assert (Lc : Rabs (ln c) <= A + 1). { replace (ln c) with ((ln c - ln (lik t / before t)) + ln (lik t / before t)) by ring. eapply Rle_trans; [apply Rabs_triang|]. lra. }
  split; [auto|]. pose proof (tiny_le_eps dt). pose proof (eps_pos dt).
  assert (k * eps dt * Rabs (ln c) <= k * eps dt * (A + 1)) by (apply Rmult_le_compat_l; [apply Rmult_le_pos; lra|auto]). lra.
Qed.
Lemma bound_N : (N + 1) * (A + 1) + 3 <= maxpow dt / 2.
Proof.
  pose proof A_pos. pose proof (pos_INR T). pose proof (eps_pos dt) as E0.
  assert (E1 : eps dt * (4 * bpow radix2 (mant dt - 2)) = 1).
  { unfold eps. change 4 with (bpow radix2 2). rewrite <- !bpow_plus. replace (- mant dt + (2 + (mant dt - 2)))%Z with 0%Z by lia. auto. }
  assert (E2 : 4 * (4 * bpow radix2 (mant dt - 2)) <= maxpow dt).
  { unfold maxpow. change 4 with (bpow radix2 2). rewrite <- !bpow_plus. apply bpow_le. pose proof (exp_ok dt). lia. }
  pose proof (bpow_gt_0 radix2 (mant dt - 2)) as B0. set (B := bpow radix2 (mant dt - 2)) in *. clearbody B.
  assert (E3 : eps dt * ((N + 1) * (A + 1) + 3) <= 1).
  { apply Rle_trans with (2 := g_le). apply Rmult_le_compat_l; [lra|]. nra. }
  assert ((N + 1) * (A + 1) + 3 <= 4 * B) by (apply Rmult_le_reg_l with (eps dt); lra). nra.
Qed.
Lemma forward_good t : (t <= T)%nat -> exists alpha a P l, fl_hmm_forward dt o1 o2 L xi xt xo t = (alpha, Fin l) /\ (forall j, alpha j = Fin (a j)) /\ repr dt l /\
  good t a P /\ Rabs (ln P) <= (INR t + 1) * (A + 1) /\ Rabs (l - ln P) <= (INR t + 1) * g.
Proof.
  pose proof A_pos as A0. pose proof (eps_pos dt) as E0. pose proof (pos_INR T) as N0. pose proof g_pos as G0. pose proof g_le as G1.
  assert (D0 : eps dt * (k * (A + 1) + 1) <= g) by (apply Rmult_le_compat_l; [lra|]; nra).
  induction t as [|t IH]; intros Ht.
  - destruct base as (a & c & alpha & E & Ea & Rc & G & Nc). destruct (log_one 0 c ltac:(lia) Rc Nc) as (r & Er & Bc & Br).
    exists alpha, a, c, r. cbn [fl_hmm_forward]. rewrite E, Er. split; [auto|]. split; [auto|].
    split. { destruct G as (_ & C0 & _). destruct (HL c Rc C0) as (r' & Er' & Rr & _). congruence. }
    split; [auto|]. cbn [INR]. split; lra.
  - destruct (IH ltac:(lia)) as (alpha & a & P & l & E & Ea & Rl & G & BP & Bl). clear IH.
    destruct (fw_step t alpha a P Ht G Ea) as (a' & c & alpha' & E' & Ea' & Rc & G' & Nc).
    destruct (log_one (S t) c Ht Rc Nc) as (r & Er & Bc & Br).
    assert (P0 : 0 < P) by apply G. assert (C0 : 0 < c). { destruct G' as (_ & PC & _). nra. }
    assert (LP : ln (P * c) = ln P + ln c) by (apply ln_mult; auto).
    cbn [fl_hmm_forward]. rewrite E, E', Er. cbn [fadd xadd].
    rewrite S_INR. assert (TN : INR t + 1 <= N) by (rewrite <- S_INR; apply le_INR; auto). pose proof (pos_INR t) as T0.
    assert (SY : Rabs (ln P + ln c) <= (INR t + 1 + 1) * (A + 1)). { eapply Rle_trans; [apply Rabs_triang|]. lra. }
    assert (Bt : (INR t + 1) * g <= 1) by (apply Rle_trans with (2 := long); apply Rmult_le_compat_r; lra).
    assert (DY : Rabs ((r + l) - (ln P + ln c)) <= (INR t + 1) * g + eps dt * (k * (A + 1) + 1)).
    { replace (r + l - (ln P + ln c)) with ((r - ln c) + (l - ln P)) by ring. eapply Rle_trans; [apply Rabs_triang|]. lra. }
    assert (BY : Rabs (r + l) <= (N + 1) * (A + 1) + 2).
    { replace (r + l) with ((r + l - (ln P + ln c)) + (ln P + ln c)) by ring. eapply Rle_trans; [apply Rabs_triang|]. 
      assert ((INR t + 1 + 1) * (A + 1) <= (N + 1) * (A + 1)) by (apply Rmult_le_compat_r; lra). lra. }
    pose proof bound_N as MB. destruct (round_fin dt (r + l) ltac:(lra)) as (l' & El & Rl' & Bl' & _).
    exists alpha', a', (P * c), l'. unfold fadd. cbn [xadd]. rewrite El. split; [auto|]. split; [auto|]. split; [auto|]. split; [auto|]. rewrite LP. split; [auto|].
    assert (R1 : eps dt * (Rabs (r + l) + 1) <= eps dt * ((N + 1) * (A + 1) + 3)) by (apply Rmult_le_compat_l; lra).
    replace (l' - (ln P + ln c)) with ((l' - (r + l)) + (r + l - (ln P + ln c))) by ring. eapply Rle_trans; [apply Rabs_triang|].
    assert (eps dt * ((N + 1) * (A + 1) + 3) + eps dt * (k * (A + 1) + 1) = g) by ring. lra.
Qed.
(** the computed filtering probabilities and log-likelihood *)
Theorem core t : (t <= T)%nat -> exists alpha l, fl_hmm_forward dt o1 o2 L xi xt xo t = (alpha, Fin l) /\
  (forall j, exists a, alpha j = Fin a /\ 0 <= a <= 1 /\ near w (2 * mu t + d2 + 1) a (fw t j / lik t)) /\
  Rabs (l - ln (lik t)) <= (INR t + 1) * g + 2 * eps dt * INR (mu t + d2 + 1).
Proof.
  intros Ht. destruct (forward_good t Ht) as (alpha & a & P & l & E & Ea & Rl & G & BP & Bl).
  exists alpha, l. split; [auto|]. split.
  - intros j. exists (a j). split; [auto|]. split; [apply G|]. apply (good_alpha t a P j Ht G).
  - pose proof (near_ln w w0 _ _ _ (good_P t a P Ht G) (lik_pos t Ht)) as D. pose proof (ln_w dt) as LW.
    replace (l - ln (lik t)) with ((l - ln P) + (ln P - ln (lik t))) by ring. eapply Rle_trans; [apply Rabs_triang|].
    pose proof (pos_INR (mu t + (d2 + 1))) as I. replace (mu t + d2 + 1)%nat with (mu t + (d2 + 1))%nat by lia.
    assert (INR (mu t + (d2 + 1)) * - ln w <= INR (mu t + (d2 + 1)) * (2 * eps dt)) by (apply Rmult_le_compat_l; auto). lra.
Qed.
End Core.

From Verif Require Proofs.HMM Props.FloatAccuracy Props.HMM.
From Verif Require Import Proofs.FloatIEEE.
Section Sequence.
Context {E : Type}.
Variables (dt : dtype) (pi : list R) (A : list (list R)) (b : E -> list R) (obs : list E) (x0 : E) (Q : R) (o1 o2 : order).
Notation n := (length pi).
(** entries that are numbers of the dtype; probabilities at most 1, observation densities at most [Q] *)
Definition entries (Q : R) (l : list R) : Prop := length l = n /\ forall x, In x l -> repr dt x /\ 0 <= x <= Q.
(** the roundings that separate alpha at time [t] from the filtering distribution *)
Definition roundings (t : nat) : nat := 2 * (2 + t * (depth o1 + 3)) + depth o2 + 1.
(** the default of [nth], never reached *)
Hypothesis Hobs : In x0 obs.
Hypothesis Hpi : entries 1 pi.
Hypothesis HA : length A = n /\ forall row, In row A -> entries 1 row.
Hypothesis Hb : forall x, In x obs -> entries Q (b x).
Hypothesis Ho1 : adds_all o1 n.
Hypothesis Ho2 : adds_all o2 n.
Hypothesis Q_ge : 1 <= Q.
Hypothesis no_over : 16 * (INR n * INR n) * Q <= maxpow dt.
Hypothesis possible : 0 < likelihood pi A b obs.
(** none of the exact quantities is so small that it underflows or falls below the clipping threshold *)
Hypothesis messages : forward_resolvable pi A b (2 * Rmax (tiny dt) (rnd dt hmm_eps)) obs.
Hypothesis filters : forall t j, (t < length obs)%nat -> (j < n)%nat -> resolvable (2 * tiny dt) (filtering pi A b obs t j).
Hypothesis moves : forall t i j, (S t < length obs)%nat -> (i < n)%nat -> (j < n)%nat -> resolvable (2 * tiny dt) (filtering pi A b obs t i * step A i j).
Variable L : XR -> XR.

Notation ob := (fun t j => emit b j (nth t obs x0)).
Notation Fw := (fw n (start pi) (step A) ob).
Notation Lk := (lik n (start pi) (step A) ob).
Lemma at_in t : In (nth t obs x0) obs.
Proof. destruct (nth_in_or_default t obs x0) as [H| ->]; auto. Qed.
Lemma entry_ok P l i : 0 <= P -> entries P l -> repr dt (nth i l 0) /\ 0 <= nth i l 0 <= P.
Proof. intros HP [_ H]. destruct (nth_in_or_default i l 0) as [I| ->]; [auto|]. split; [apply repr_0|lra]. Qed.
Lemma total_sumf f l : total f l = sumf f l.
Proof. induction l as [|a l IH]; [reflexivity|]. rewrite total_cons, IH, sumf_cons. auto. Qed.
Lemma sumf_in (f g : nat -> R) l : (forall i, In i l -> f i = g i) -> sumf f l = sumf g l.
Proof. induction l as [|a l IH]; intros H; [reflexivity|]. rewrite !sumf_cons, (H a (or_introl eq_refl)), IH by (intros; apply H; right; auto). auto. Qed.
Lemma fw_joint t : (t < length obs)%nat -> forall j, (j < n)%nat -> Fw t j = state_joint pi A b (firstn (S t) obs) t j.
Proof.
  induction t as [|t IH]; intros Ht j Hj; cbn [fw].
  - symmetry. apply (Proofs.HMM.SJ_0 pi A b x0 obs j); auto.
  - change (state_joint pi A b (firstn (S (S t)) obs) (S t) j) with (Proofs.HMM.SJ pi A b obs (S t) j).
    rewrite (Proofs.HMM.SJ_S pi A b x0 obs t j) by auto. f_equal. rewrite total_sumf. apply sumf_in. intros i Hi. apply in_seq in Hi.
    rewrite IH by lia. auto.
Qed.
Lemma lik_joint t : (t < length obs)%nat -> Lk t = likelihood pi A b (firstn (S t) obs).
Proof.
  intros Ht. unfold lik. rewrite total_sumf. rewrite <- (Proofs.HMM.sj_total pi A b (firstn (S t) obs) t) by (rewrite firstn_length_le; lia).
  apply sumf_in. intros i Hi. apply in_seq in Hi. apply fw_joint; [auto|lia].
Qed.
Lemma before_joint t : (t < length obs)%nat -> before n (start pi) (step A) ob t = likelihood pi A b (firstn t obs).
Proof. intros Ht. destruct t; cbn [before]; [symmetry; apply (Proofs.HMM.Lt_0 pi A b obs)|apply lik_joint; lia]. Qed.
Lemma mu_closed t : mu o1 t = (2 + t * (depth o1 + 3))%nat.
Proof. induction t as [|t IH]; cbn [mu]; [auto|rewrite IH; cbn; lia]. Qed.
Lemma emit_out t j : (n <= j)%nat -> ob t j = 0.
Proof. intros H. unfold emit. apply nth_overflow. rewrite (proj1 (Hb _ (at_in t))). auto. Qed.
Lemma step_out i j : (n <= j)%nat -> step A i j = 0.
Proof.
  intros H. unfold step. apply nth_overflow. destruct (nth_in_or_default i A []) as [I| ->]; [|cbn; lia]. rewrite (proj1 (proj2 HA _ I)). auto.
Qed.
Lemma step_ok i j : repr dt (step A i j) /\ 0 <= step A i j <= 1.
Proof.
  unfold step. destruct (nth_in_or_default i A []) as [I| ->]; [apply entry_ok; [lra|apply (proj2 HA _ I)]|].
  rewrite nth_overflow by (cbn; lia). split; [apply repr_0|lra].
Qed.
Section Posterior.
(** ** backward and the posterior *)
Variable o3 : order.
Hypothesis Ho3 : adds_all o3 n.
(** the roundings that separate gamma at time [t] from the posterior *)
Definition posterior_roundings (t : nat) : nat := 2 * (2 + t * (depth o1 + 3) + (length obs - 1 - t) * (depth o3 + 3) + 1) + depth o2 + 1.
Hypothesis shortb : / 2 <= (1 - eps dt) ^ (2 * (2 + (length obs - 1) * (depth o1 + 3) + (length obs - 1) * (depth o3 + 3) + 1) + 2 * depth o2 + 2).
(** none of the exact backward quantities is so small that it underflows or falls below the clipping threshold *)
Hypothesis backward_messages : backward_resolvable pi A b (2 * rnd dt hmm_eps) obs.
Hypothesis backwards : forall t i, (S t < length obs)%nat -> (i < n)%nat -> resolvable (2 * tiny dt) (future pi A b obs t i / future_total pi A b obs t).
Hypothesis emissions : forall t j, (S t < length obs)%nat -> (j < n)%nat ->
  resolvable (2 * tiny dt) (future pi A b obs (S t) j / future_total pi A b obs (S t) * emit b j (nth (S t) obs x0)).
Hypothesis backward_moves : forall t i j, (S t < length obs)%nat -> (i < n)%nat -> (j < n)%nat ->
  resolvable (2 * tiny dt) (future pi A b obs (S t) j / future_total pi A b obs (S t) * emit b j (nth (S t) obs x0) * step A i j).
Hypothesis products : product_resolvable pi A b (2 * Rmax (tiny dt) (rnd dt hmm_eps)) obs.
Hypothesis posteriors : forall t j, (t < length obs)%nat -> (j < n)%nat -> resolvable (2 * tiny dt) (posterior pi A b obs t j).
Notation Bw := (bw n (step A) ob (length obs - 1)).
Lemma step_row_out i j : (n <= i)%nat -> step A i j = 0.
Proof. intros H. unfold step. rewrite (nth_overflow A) by (rewrite (proj1 HA); auto). destruct j; auto. Qed.
Lemma bw_future r : (r <= length obs - 1)%nat -> (0 < length obs)%nat -> forall i, Bw r i = future pi A b obs (length obs - 1 - r) i.
Proof.
  intros Hr L0. induction r as [|r IH]; intros i; cbn [bw].
  - rewrite Nat.sub_0_r. symmetry. apply (Proofs.HMM.Fu_last pi A b obs i). auto.
  - change (future pi A b obs) with (Proofs.HMM.Fu pi A b obs). rewrite (Proofs.HMM.Fu_S pi A b x0 obs) by lia.
    replace (S (length obs - 1 - S r)) with (length obs - 1 - r)%nat by lia. rewrite total_sumf. apply sumf_in. intros j _. rewrite IH by lia.
    change (future pi A b obs) with (Proofs.HMM.Fu pi A b obs). ring.
Qed.
Lemma bw_future_total r : (r <= length obs - 1)%nat -> (0 < length obs)%nat ->
  bw_total n (step A) ob (length obs - 1) r = future_total pi A b obs (length obs - 1 - r).
Proof.
  intros Hr L0. unfold future_total. destruct r as [|r]; cbn [bw_total].
  - rewrite Nat.sub_0_r. replace (S (length obs - 1)) with (length obs) by lia. rewrite Nat.eqb_refl. auto.
  - destruct (Nat.eqb_spec (S (length obs - 1 - S r)) (length obs)); [lia|]. rewrite total_sumf. apply sumf_in. intros i _. apply bw_future; auto.
Qed.
Lemma joint_future t : (t < length obs)%nat -> forall j, (j < n)%nat -> Fw t j * Bw (length obs - 1 - t) j = state_joint pi A b obs t j.
Proof.
  intros Ht j Hj. rewrite fw_joint by auto. rewrite bw_future by lia. replace (length obs - 1 - (length obs - 1 - t))%nat with t by lia.
  symmetry. apply (Proofs.HMM.sj_split pi A b obs t j); auto.
Qed.
Lemma joint_total t : (t < length obs)%nat -> total (fun j => Fw t j * Bw (length obs - 1 - t) j) (seq 0 n) = likelihood pi A b obs.
Proof.
  intros Ht. rewrite total_sumf, <- (Proofs.HMM.sj_total pi A b obs t Ht). apply sumf_in. intros j Hj. apply in_seq in Hj. apply joint_future; [auto|lia].
Qed.
Theorem C99_posterior t : (t < length obs)%nat -> forall j, (j < n)%nat -> exists g,
  fl_hmm_gamma dt o1 o2 L (fun i => Fin (start pi i)) (fun i j => Fin (step A i j)) (fun t j => Fin (emit b j (nth t obs x0))) o3 (length obs - 1) t j = Fin g /\
  0 <= g <= 1 /\
  posterior pi A b obs t j * (1 - eps dt) ^ posterior_roundings t <= g <= posterior pi A b obs t j * (/ (1 - eps dt)) ^ posterior_roundings t.
Proof.
  intros Ht. set (T := (length obs - 1)%nat) in *. assert (ET : length obs = S T) by (unfold T; destruct obs; [destruct Hobs|cbn; lia]).
  assert (NP : (0 < n)%nat).
  { destruct pi as [|p l] eqn:Ep; [|cbn; lia]. exfalso. rewrite <- (Proofs.HMM.sj_total [] A b obs 0) in possible by lia. cbn in possible. unfold sumf in possible. cbn in possible. lra. }
  assert (W : forall t j, (n <= j)%nat -> Fw t j = 0) by (intros; apply (fw_out n); auto using emit_out).
  assert (NUc : forall r, nu o3 r = (r * (depth o3 + 3))%nat) by (intros r; induction r as [|r IH]; cbn [nu]; [auto|rewrite IH; cbn; lia]).
  assert (Ok1 : forall i, repr dt (start pi i) /\ 0 <= start pi i <= 1) by (intros i; apply entry_ok; [lra|auto]).
  assert (Ok2 : forall s j, repr dt (ob s j) /\ 0 <= ob s j <= Q) by (intros s j; apply entry_ok; [lra|apply Hb, at_in]).
  assert (Fn : forall s j, 0 <= Fw s j) by (intros; eapply fw_nonneg with (dt := dt); [apply Ok1|apply step_ok|apply Ok2]).
  assert (Bn : forall s j, 0 <= Bw s j) by (intros; eapply bw_nonneg with (dt := dt); [apply step_ok|apply Ok2]).
  assert (BO : forall r i, (n <= i)%nat -> Bw (S r) i = 0) by (intros; apply bw_out; auto using step_row_out).
  assert (JP : forall s, (s < length obs)%nat -> 0 < total (fun j => Fw s j * Bw (T - s) j) (seq 0 n)) by (intros s Hs; unfold T; rewrite joint_total by auto; auto).
  assert (BP : forall r, (r <= T)%nat -> 0 < total (Bw r) (seq 0 n)).
  { intros r Hr. pose proof (JP (T - r)%nat ltac:(lia)) as J. replace (T - (T - r))%nat with r in J by lia.
    destruct (in_total_pos (fun j => Fw (T - r) j * Bw r j) (seq 0 n) (fun i _ => Rmult_le_pos _ _ (Fn (T - r)%nat i) (Bn r i)) J) as (i & Ii & Gi).
    pose proof (total_le_in (Bw r) (seq 0 n) i (Bn r) Ii). pose proof (Bn r i). pose proof (Fn (T - r)%nat i). destruct (Req_EM_T (Bw r i) 0) as [Z|Z]; [rewrite Z in Gi; lra|lra]. }
  destruct (gamma_core dt n o1 o2 (start pi) (step A) ob Q Ho1 Ho2) with (T := T) (L := L) (o3 := o3) (t := t) as (g & Eg & Hg); auto; try lia.
  - apply step_ok.
  - apply emit_out.
  - rewrite lik_joint by lia. rewrite <- ET, firstn_all. auto.
  - intros s i j Hs. destruct (lt_dec i n) as [Hi|Hi]; [|left; rewrite W by lia; unfold Rdiv; ring].
    destruct (lt_dec j n) as [Hj|Hj]; [|left; rewrite step_out by lia; ring].
    rewrite fw_joint, lik_joint by lia. apply (moves s i j); auto; lia.
  - intros s j Hs. unfold pred. destruct (lt_dec j n) as [Hj|Hj]; [|left; rewrite W by lia; unfold Rdiv; ring].
    rewrite fw_joint, before_joint by lia. destruct (messages s j ltac:(lia) Hj) as [Z|G]; [left; auto|right].
    pose proof (Rmax_l (tiny dt) (rnd dt hmm_eps)). pose proof (Rmax_r (tiny dt) (rnd dt hmm_eps)). unfold threshold. lra.
  - intros s j Hs. destruct (lt_dec j n) as [Hj|Hj]; [|left; rewrite W by lia; unfold Rdiv; ring].
    rewrite fw_joint, lik_joint by lia. apply (filters s j); auto; lia.
  - apply Rle_trans with (1 := shortb). apply pw_dec; [apply w0|apply w1|]. unfold M. rewrite mu_closed. lia.
  - apply step_row_out.
  - intros r j Hr. destruct (lt_dec j n) as [Hj|Hj]; [|left; rewrite emit_out by lia; ring].
    unfold T. rewrite bw_future, bw_future_total by lia. pose proof (emissions (length obs - 1 - r - 1)%nat j ltac:(lia) Hj) as H.
    replace (S (length obs - 1 - r - 1)) with (length obs - 1 - r)%nat in H by lia. exact H.
  - intros r i j Hr. destruct (lt_dec j n) as [Hj|Hj]; [|left; rewrite emit_out by lia; ring].
    destruct (lt_dec i n) as [Hi|Hi]; [|left; rewrite step_row_out by lia; ring].
    unfold T. rewrite bw_future, bw_future_total by lia. pose proof (backward_moves (length obs - 1 - r - 1)%nat i j ltac:(lia) Hi Hj) as H.
    replace (S (length obs - 1 - r - 1)) with (length obs - 1 - r)%nat in H by lia. exact H.
  - intros r i Hr. destruct (lt_dec i n) as [Hi|Hi]; [|left; rewrite BO by lia; unfold Rdiv; ring].
    unfold T. rewrite bw_future, bw_future_total by lia. pose proof (backward_messages (length obs - 1 - S r)%nat i ltac:(lia) Hi) as H.
    replace (S (length obs - 1 - S r)) with (length obs - 1 - r)%nat in H by lia. exact H.
  - intros r i Hr. destruct (lt_dec i n) as [Hi|Hi]; [|left; rewrite BO by lia; unfold Rdiv; ring].
    unfold T. rewrite bw_future, bw_future_total by lia. apply (backwards (length obs - 1 - S r)%nat i); auto; lia.
  - apply Rle_trans with (1 := shortb). right. f_equal. unfold MB. rewrite mu_closed, NUc. lia.
  - intros j. destruct (lt_dec j n) as [Hj|Hj]; [|left; rewrite W by lia; unfold Rdiv; ring].
    unfold T. rewrite fw_joint, lik_joint, bw_future, bw_future_total by lia. replace (length obs - 1 - (length obs - 1 - t))%nat with t by lia.
    destruct (products t j Ht Hj) as [Z|G]; [left; auto|right]. unfold filtering in G.
    pose proof (Rmax_l (tiny dt) (rnd dt hmm_eps)). pose proof (Rmax_r (tiny dt) (rnd dt hmm_eps)). unfold threshold. lra.
  - intros j. destruct (lt_dec j n) as [Hj|Hj]; [|left; rewrite W by lia; unfold Rdiv; ring].
    unfold T. rewrite joint_total, joint_future by auto. apply (posteriors t j); auto.
  - intros j Hj. exists (g j). split; [apply Eg|]. destruct (Hg j) as (B1 & B2). split; [auto|]. unfold near in B2. unfold T in B2. rewrite joint_total, joint_future in B2 by auto.
    unfold posterior_roundings. rewrite mu_closed, NUc in B2. exact B2.
Qed.
End Posterior.

Hypothesis short : / 2 <= (1 - eps dt) ^ (roundings (length obs - 1) + depth o2).
Variables k B : R.
Hypothesis HL : accurate dt k L ln (fun c => 0 < c).
Hypothesis k_pos : 0 <= k.
(** every factor P(observation t | earlier observations) has a logarithm of size at most [B] *)
Hypothesis factors : forall t, (t < length obs)%nat -> Rabs (ln (likelihood pi A b (firstn (S t) obs) / likelihood pi A b (firstn t obs))) <= B.
Hypothesis long : INR (length obs) * (eps dt * ((k + INR (length obs)) * (B + 1) + 4)) <= 1.

Theorem C98_forward t : (t < length obs)%nat -> exists alpha l,
  fl_hmm_forward dt o1 o2 L (fun i => Fin (start pi i)) (fun i j => Fin (step A i j)) (fun t j => Fin (emit b j (nth t obs x0))) t = (alpha, Fin l) /\
  (forall j, (j < n)%nat -> exists a, alpha j = Fin a /\ 0 <= a <= 1 /\
     filtering pi A b obs t j * (1 - eps dt) ^ roundings t <= a <= filtering pi A b obs t j * (/ (1 - eps dt)) ^ roundings t) /\
  Rabs (l - ln (likelihood pi A b (firstn (S t) obs))) <=
    INR (S t) * (eps dt * ((k + INR (length obs)) * (B + 1) + 4)) + 2 * eps dt * INR (2 + t * (depth o1 + 3) + depth o2 + 1).
Proof.
  intros Ht. pose (T := (length obs - 1)%nat). assert (ET : length obs = S T) by (unfold T; destruct obs; [destruct Hobs|cbn; lia]).
  assert (IT : INR (length obs) = INR T + 1) by (rewrite ET, S_INR; auto).
  assert (NP : (0 < n)%nat).
  { destruct pi as [|p l] eqn:Ep; [|cbn; lia]. exfalso. rewrite <- (Proofs.HMM.sj_total [] A b obs 0) in possible by lia. cbn in possible. unfold sumf in possible. cbn in possible. lra. }
  assert (W : forall t j, (t < length obs)%nat -> (n <= j)%nat -> Fw t j = 0) by (intros; apply (fw_out n); auto using emit_out).
  destruct (core dt n o1 o2 (start pi) (step A) ob Q Ho1 Ho2) with (T := T) (L := L) (k := k) (A := B) (t := t) as (alpha & l & Ef & Fa & Fl); auto; try lia.
  - intros i. apply entry_ok; [lra|auto].
  - apply step_ok.
  - intros s j. apply entry_ok; [lra|apply Hb, at_in].
  - apply emit_out.
  - rewrite lik_joint by lia. rewrite <- ET, firstn_all. auto.
  - intros s i j Hs. destruct (lt_dec i n) as [Hi|Hi]; [|left; rewrite W by lia; unfold Rdiv; ring].
    destruct (lt_dec j n) as [Hj|Hj]; [|left; rewrite step_out by lia; ring].
    rewrite fw_joint, lik_joint by lia. apply (moves s i j); auto; lia.
  - intros s j Hs. unfold pred. destruct (lt_dec j n) as [Hj|Hj]; [|left; rewrite W by lia; unfold Rdiv; ring].
    rewrite fw_joint, before_joint by lia. destruct (messages s j ltac:(lia) Hj) as [Z|G]; [left; auto|right].
    pose proof (Rmax_l (tiny dt) (rnd dt hmm_eps)). pose proof (Rmax_r (tiny dt) (rnd dt hmm_eps)). unfold threshold. lra.
  - intros s j Hs. destruct (lt_dec j n) as [Hj|Hj]; [|left; rewrite W by lia; unfold Rdiv; ring].
    rewrite fw_joint, lik_joint by lia. apply (filters s j); auto; lia.
  - apply Rle_trans with (1 := short). right. f_equal. unfold M, roundings. rewrite mu_closed. fold T. lia.
  - intros s Hs. rewrite lik_joint, before_joint by lia. apply factors. lia.
  - rewrite <- IT. replace (k + INR T + 1) with (k + INR (length obs)) by (rewrite IT; ring). auto.
  - exists alpha, l. split; [auto|]. split.
    + intros j Hj. destruct (Fa j) as (a & E1 & E2 & E3). exists a. split; [auto|]. split; [auto|]. unfold near in E3.
      rewrite fw_joint, lik_joint in E3 by auto. unfold roundings. rewrite mu_closed in E3. exact E3.
    + rewrite lik_joint in Fl by auto. rewrite S_INR. rewrite mu_closed in Fl. rewrite IT. replace (k + (INR T + 1)) with (k + INR T + 1) by ring. exact Fl.
Qed.
(** and whatever the sizes: probabilities stay in [0, 1] and the log-likelihood is a number *)
Theorem C98_range t : (forall c, repr dt c -> 0 < c -> exists l, L (Fin c) = Fin l) -> (0 < n)%nat ->
  / 2 <= (1 - eps dt) ^ depth o1 -> / 2 <= (1 - eps dt) ^ depth o2 -> exists alpha ll,
  fl_hmm_forward dt o1 o2 L (fun i => Fin (start pi i)) (fun i j => Fin (step A i j)) (fun t j => Fin (emit b j (nth t obs x0))) t = (alpha, ll) /\
  ll <> NaN /\ forall j, (j < n)%nat -> exists a, alpha j = Fin a /\ 0 <= a <= 1.
Proof.
  intros H1 NP H2 H3.
  destruct (range_any dt n o1 o2 (start pi) (step A) ob Q Ho1 Ho2) with (L := L) (t := t) as (alpha & ll & E1 & E2 & E3); auto.
  - intros i. apply entry_ok; [lra|auto].
  - apply step_ok.
  - intros s j. apply entry_ok; [lra|apply Hb, at_in].
  - exists alpha, ll. split; [auto|]. split; [auto|]. intros j Hj. destruct (E3 j Hj) as (a & ? & _ & ?). eauto.
Qed.
End Sequence.

Local Instance gt32 : Prec_gt_0 24 := mant_gt_0 float32.
Local Instance lt32 : Prec_lt_emax 24 128 := mant_lt_emax float32.
(** Underflow is not detected: two states, exact log; the only possible start has probability 2^-200 given the
    observation, which underflows to 0; the reported log-likelihood is 0, i.e. likelihood 1, and alpha is all zero. *)
Theorem C98_underflow_refuted : exists (pi : list R) (A : list (list R)) (b : unit -> list R) alpha,
  entries float32 pi 1 pi /\ (forall row, In row A -> entries float32 pi 1 row) /\ entries float32 pi 1 (b tt) /\
  fadd float32 (Fin (start pi 0)) (Fin (start pi 1)) = Fin 1 /\
  0 < likelihood pi A b [tt] < / 2 ^ 100 /\
  fl_hmm_forward float32 (left_to_right 1) (left_to_right 1) (fun a => fround float32 (xlog a)) (fun i => Fin (start pi i)) (fun i j => Fin (step A i j))
    (fun t j => Fin (emit b j (nth t [tt] tt))) 0 = (alpha, Fin 0) /\ forall j, (j < 2)%nat -> alpha j = Fin 0.
Proof.
  pose (q := bpow radix2 (-100)). assert (Rq : repr float32 q) by (apply repr_pow; cbn; unfold emin; cbn; lia).
  assert (Q0 : 0 < q) by apply bpow_gt_0.
  assert (Q1 : q < / 2 ^ 99). { unfold q. change (bpow radix2 (-100)) with (/ IZR (Z.pow_pos 2 100)). cbn. apply Rinv_lt_contravar; lra. }
  assert (Q2 : q * q < / 2 ^ 100). { assert (/ 2 ^ 99 <= / 2) by (apply Rinv_le_contravar; cbn; lra). assert (/ 2 * / 2 ^ 99 = / 2 ^ 100) by (cbn; field). nra. }
  assert (QQ : rnd float32 (q * q) = 0).
  { unfold q. rewrite <- bpow_plus. apply round_N_small_pos with (ex := (-199)%Z).
    - change (-199 - 1)%Z with (-200)%Z. split; [apply bpow_le; lia|apply bpow_lt; lia].
    - unfold fexp, FLT_exp, emin. cbn. lia. }
  assert (Q3 : q < 1). { assert (/ 2 ^ 99 <= 1) by (rewrite <- Rinv_1; apply Rinv_le_contravar; cbn; lra). lra. }
  exists [q; 1], [[1; 0]; [0; 1]], (fun _ => [q; 0]), (fun j => fdiv float32 (fl_hmm_clamp float32 (fmul float32 (Fin (start [q; 1] j)) (Fin (emit (fun _ : unit => [q; 0]) j tt)))) (Fin 1)).
  assert (H0 : forall j, (j < 2)%nat -> fl_hmm_clamp float32 (fmul float32 (Fin (start [q; 1] j)) (Fin (emit (fun _ : unit => [q; 0]) j tt))) = Fin 0).
  { intros j Hj. assert (fmul float32 (Fin (start [q; 1] j)) (Fin (emit (fun _ : unit => [q; 0]) j tt)) = Fin 0) as ->.
    - unfold start, emit, fmul. destruct j as [|[|j]]; [| |lia]; cbn [nth xmul].
      + cbn [fround]. rewrite QQ, Rabs_R0. pose proof (maxpow_ge_2 float32). destruct (Rlt_dec _ _); [auto|lra].
      + rewrite Rmult_1_l. apply fround_0.
    - unfold fl_hmm_clamp. rewrite (proj2 (xeqb_fin 0 0) eq_refl). auto. }
  split; [|split; [|split; [|split; [|split; [|split]]]]].
  - split; [auto|]. intros x [<-|[<-|[]]]; split; auto using repr_1; lra.
  - intros row [<-|[<-|[]]]; (split; [auto|]); intros x [<-|[<-|[]]]; split; auto using repr_1, repr_0; lra.
  - split; [auto|]. intros x [<-|[<-|[]]]; split; auto using repr_0; lra.
  - unfold start. cbn [nth]. unfold fadd. cbn [xadd].
    change (fadd float32 (Fin q) (Fin 1) = Fin 1).
    assert (V1 : Fin q = of_ieee float32 (@B754_finite 24 128 false 8388608 (-123) eq_refl)).
    { unfold q. cbn. f_equal. unfold F2R; cbn. lra. }
    assert (V2 : Fin 1 = of_ieee float32 (@B754_finite 24 128 false 8388608 (-23) eq_refl)).
    { cbn. f_equal. unfold F2R; cbn. lra. }
    rewrite V1, V2, fadd_ieee. apply (f_equal (of_ieee float32)). apply B2SF_inj. vm_compute. reflexivity.
  - unfold likelihood, sumf, rsum, path_prob, continue_prob, start, Spec.HMM.step, emit; cbn - [q pow Rinv]. cbn [pow] in Q2. split; nra.
  - cbn [fl_hmm_forward]. unfold fl_hmm_normalize. cbn [left_to_right sum_in nth]. rewrite !H0 by lia. 
    unfold fadd. cbn [xadd]. rewrite Rplus_0_r, fround_0, (proj2 (xeqb_fin 0 0) eq_refl). f_equal. cbn [xlog]. rewrite rlog_pos, ln_1 by lra. apply fround_0.
  - intros j Hj. rewrite H0 by auto. unfold fdiv. rewrite xdiv_fin' by lra. replace (0 / 1) with 0 by field. apply fround_0.
Qed.
Notation ex_pi := Verif.Props.HMM.ex_pi.
Notation ex_A := Verif.Props.HMM.ex_A.
Notation fair := Verif.Props.HMM.fair.
Lemma ex_facts : (2 * Rmax (tiny float32) (rnd float32 hmm_eps) < / 100) /\
  (eps float32 <= / 10000) /\
  (likelihood ex_pi ex_A fair [tt; tt] = 9 / 64) /\
  (likelihood ex_pi ex_A fair [tt] = 3 / 8) /\
  (likelihood ex_pi ex_A fair [] = 1) /\
  (state_joint ex_pi ex_A fair [tt] 0 0 = 1 / 4) /\
  (state_joint ex_pi ex_A fair [tt] 0 1 = 1 / 8) /\
  (state_joint ex_pi ex_A fair [tt; tt] 1 0 = 3 / 32) /\
  (state_joint ex_pi ex_A fair [tt; tt] 1 1 = 3 / 64) /\
  (repr float32 (/ 2)) /\
  (repr float32 (/ 4)) /\
  (forall l, In l [ex_pi; fair tt] \/ In l ex_A -> entries float32 ex_pi 1 l) /\
  (forall c, 3 / 8 <= c <= 1 -> Rabs (ln c) <= 2).
Proof.
  assert (Hsm : 2 * Rmax (tiny float32) (rnd float32 hmm_eps) < / 100).
  { assert (Rm : repr float32 (/ 1024)) by (change (/ 1024) with (bpow radix2 (-10)); apply repr_pow; cbn; unfold emin; cbn; lia).
    assert (rnd float32 hmm_eps <= / 1024). { apply rnd_le_F; [apply Rm|]. unfold hmm_eps. apply Rinv_le_contravar; [lra|]. cbn. lra. }
    assert (tiny float32 <= / 1024). { change (/ 1024) with (bpow radix2 (-10)). apply bpow_le. unfold emin. cbn. lia. }
    unfold Rmax. destruct (Rle_dec _ _); lra. }
  pose proof (tiny_pos float32) as T0. pose proof (Rmax_l (tiny float32) (rnd float32 hmm_eps)) as Tm.
  assert (E24 : eps float32 <= / 10000). { apply Rle_trans with (/ 16384); [change (/ 16384) with (bpow radix2 (-14)); apply bpow_le; cbn; lia|apply Rinv_le_contravar; lra]. }
  pose proof (eps_pos float32) as E0.
  assert (L2 : likelihood ex_pi ex_A fair [tt; tt] = 9 / 64).
  { unfold likelihood, sumf, rsum, path_prob, continue_prob, start, step, emit, Verif.Props.HMM.ex_pi, Verif.Props.HMM.ex_A, Verif.Props.HMM.fair; cbn. lra. }
  assert (L1 : likelihood ex_pi ex_A fair [tt] = 3 / 8).
  { unfold likelihood, sumf, rsum, path_prob, continue_prob, start, step, emit, Verif.Props.HMM.ex_pi, Verif.Props.HMM.ex_A, Verif.Props.HMM.fair; cbn. lra. }
  assert (L0 : likelihood ex_pi ex_A fair [] = 1).
  { unfold likelihood, sumf, rsum, path_prob; cbn. lra. }
  assert (S00 : state_joint ex_pi ex_A fair [tt] 0 0 = 1 / 4) by (unfold state_joint, sumf, rsum, path_prob, continue_prob, start, step, emit, Verif.Props.HMM.ex_pi, Verif.Props.HMM.ex_A, Verif.Props.HMM.fair; cbn; lra).
  assert (S01 : state_joint ex_pi ex_A fair [tt] 0 1 = 1 / 8) by (unfold state_joint, sumf, rsum, path_prob, continue_prob, start, step, emit, Verif.Props.HMM.ex_pi, Verif.Props.HMM.ex_A, Verif.Props.HMM.fair; cbn; lra).
  assert (S10 : state_joint ex_pi ex_A fair [tt; tt] 1 0 = 3 / 32) by (unfold state_joint, sumf, rsum, path_prob, continue_prob, start, step, emit, Verif.Props.HMM.ex_pi, Verif.Props.HMM.ex_A, Verif.Props.HMM.fair; cbn; lra).
  assert (S11 : state_joint ex_pi ex_A fair [tt; tt] 1 1 = 3 / 64) by (unfold state_joint, sumf, rsum, path_prob, continue_prob, start, step, emit, Verif.Props.HMM.ex_pi, Verif.Props.HMM.ex_A, Verif.Props.HMM.fair; cbn; lra).
  assert (R2 : repr float32 (/ 2)) by (change (/ 2) with (bpow radix2 (-1)); apply repr_pow; cbn; unfold emin; cbn; lia).
  assert (R4 : repr float32 (/ 4)) by (change (/ 4) with (bpow radix2 (-2)); apply repr_pow; cbn; unfold emin; cbn; lia).
  assert (En : forall l, In l [ex_pi; fair tt] \/ In l ex_A -> entries float32 ex_pi 1 l).
  { intros l Hl. assert (length l = 2%nat /\ forall x, In x l -> x = / 2 \/ x = / 4) as (H1 & H2).
    - unfold Verif.Props.HMM.ex_A, Verif.Props.HMM.ex_pi, Verif.Props.HMM.fair in Hl. cbn in Hl. destruct Hl as [[<-|[<-|[]]]|[<-|[<-|[]]]]; (split; [auto|]); intros x [<-|[<-|[]]]; lra.
    - split; [auto|]. intros x Hx. destruct (H2 x Hx) as [-> | ->]; split; auto; lra. }
  assert (Lb : forall c, 3 / 8 <= c <= 1 -> Rabs (ln c) <= 2).
  { intros c Hc. assert (ln c <= 0) by (rewrite <- ln_1; destruct (proj2 Hc) as [|Ec]; [left; apply ln_increasing; lra|rewrite Ec; lra]).
    assert (- (2) <= ln c). { rewrite <- (ln_exp (- (2))). pose proof (exp_ineq1 2 ltac:(lra)). left. apply ln_increasing; [apply exp_pos|].
      rewrite exp_Ropp. apply Rlt_le_trans with (/ 3); [apply Rinv_lt_contravar; lra|lra]. }
    apply Rabs_le. lra. }
  repeat (split; [assumption|]). assumption.
Qed.
(** the hypotheses of C98_forward are met by a two-state chain in float32 *)
Example C98_float32 : exists alpha l,
  fl_hmm_forward float32 (left_to_right 1) (left_to_right 1) (fun a => fround float32 (xlog a)) (fun i => Fin (start ex_pi i)) (fun i j => Fin (step ex_A i j))
    (fun t j => Fin (emit fair j (nth t [tt; tt] tt))) 1 = (alpha, Fin l) /\ Rabs (l - ln (9 / 64)) <= 50 * eps float32 /\
  exists a, alpha 0%nat = Fin a /\ 2 / 3 * (1 - eps float32) ^ 14 <= a <= 2 / 3 * (/ (1 - eps float32)) ^ 14.
Proof.
  destruct ex_facts as (Hsm & E24 & L2 & L1 & L0 & S00 & S01 & S10 & S11 & R2 & R4 & En & Lb).
  pose proof (tiny_pos float32) as T0. pose proof (Rmax_l (tiny float32) (rnd float32 hmm_eps)) as Tm. pose proof (eps_pos float32) as E0.
  destruct (C98_forward float32 ex_pi ex_A fair [tt; tt] tt 1 (left_to_right 1) (left_to_right 1)) with (L := fun a => fround float32 (xlog a)) (k := 1) (B := 2) (t := 1%nat)
    as (alpha & l & Ef & Fa & Fl).
  - left; auto.
  - apply En. left. left. auto.
  - split; [auto|]. intros row Hr. apply En. auto.
  - intros x _. destruct x. apply En. left. right. left. auto.
  - apply (left_to_right_all 1).
  - apply (left_to_right_all 1).
  - lra.
  - change (length ex_pi) with 2%nat. assert (64 <= maxpow float32) by (change 64 with (bpow radix2 6); apply bpow_le; cbn; lia). cbn [INR]. lra.
  - rewrite L2. lra.
  - intros [|[|t]] [|[|j]] Ht Hj; cbn in Ht, Hj; try lia; right; cbn [firstn]; rewrite ?S00, ?S01, ?S10, ?S11, ?L0, ?L1; lra.
  - intros [|[|t]] [|[|j]] Ht Hj; cbn in Ht, Hj; try lia; right; unfold filtering; cbn [firstn]; rewrite ?S00, ?S01, ?S10, ?S11, ?L1, ?L2; lra.
  - intros [|t] [|[|i]] [|[|j]] Ht Hi Hj; cbn in Ht, Hi, Hj; try lia; right; unfold filtering; cbn [firstn]; rewrite ?S00, ?S01, ?L1; unfold step, Verif.Props.HMM.ex_A; cbn [nth]; lra.
  - apply Rle_trans with ((1 - / 10000) ^ 15); [cbn; lra|]. apply pow_incr. lra.
  - apply FloatAccuracy.log_accurate.
  - lra.
  - intros [|[|t]] Ht; cbn in Ht; try lia; cbn [firstn]; rewrite ?L0, ?L1, ?L2; apply Lb; lra.
  - cbn [length INR]. lra.
  - cbn. lia.
  - exists alpha, l. split; [exact Ef|]. cbn [firstn] in Fl. rewrite L2 in Fl. split.
    + apply Rle_trans with (1 := Fl). cbn. lra.
    + destruct (Fa 0%nat) as (a & E1 & _ & E2); [cbn; lia|]. exists a. split; [auto|]. unfold filtering in E2. cbn [firstn] in E2. rewrite S10, L2 in E2.
      replace (3 / 32 / (9 / 64)) with (2 / 3) in E2 by field. exact E2.
Qed.
Example C99_float32 : exists g,
  fl_hmm_gamma float32 (left_to_right 1) (left_to_right 1) (fun a => fround float32 (xlog a)) (fun i => Fin (start ex_pi i)) (fun i j => Fin (step ex_A i j))
    (fun t j => Fin (emit fair j (nth t [tt; tt] tt))) (left_to_right 1) 1 0 0%nat = Fin g /\
  2 / 3 * (1 - eps float32) ^ 16 <= g <= 2 / 3 * (/ (1 - eps float32)) ^ 16.
Proof.
  destruct ex_facts as (Hsm & E24 & L2 & L1 & L0 & S00 & S01 & S10 & S11 & R2 & R4 & En & Lb).
  pose proof (tiny_pos float32) as T0. pose proof (Rmax_l (tiny float32) (rnd float32 hmm_eps)) as Tm. pose proof (eps_pos float32) as E0.
  assert (F0 : forall i, (i < 2)%nat -> future ex_pi ex_A fair [tt; tt] 0 i = 3 / 8).
  { intros [|[|i]] Hi; try lia; unfold future, sumf, rsum, path_prob, continue_prob, start, step, emit, Verif.Props.HMM.ex_pi, Verif.Props.HMM.ex_A, Verif.Props.HMM.fair; cbn; lra. }
  assert (F1 : forall i, (i < 2)%nat -> future ex_pi ex_A fair [tt; tt] 1 i = 1).
  { intros [|[|i]] Hi; try lia; unfold future, sumf, rsum, path_prob, continue_prob, start, step, emit, Verif.Props.HMM.ex_pi, Verif.Props.HMM.ex_A, Verif.Props.HMM.fair; cbn; lra. }
  assert (T1 : future_total ex_pi ex_A fair [tt; tt] 1 = 1) by reflexivity.
  assert (T2 : future_total ex_pi ex_A fair [tt; tt] 0 = 3 / 4).
  { unfold future_total. cbn [Nat.eqb length]. change (length ex_pi) with 2%nat. cbn [seq]. rewrite !sumf_cons, sumf_nil, !F0 by lia. lra. }
  assert (P : forall t j, (t < 2)%nat -> (j < 2)%nat -> / 4 <= posterior ex_pi ex_A fair [tt; tt] t j).
  { intros [|[|t]] [|[|j]] Ht Hj; try lia; unfold posterior; rewrite ?S10, ?S11, L2; try lra;
    unfold state_joint, sumf, rsum, path_prob, continue_prob, start, step, emit, Verif.Props.HMM.ex_pi, Verif.Props.HMM.ex_A, Verif.Props.HMM.fair; cbn; lra. }
  assert (P0 : posterior ex_pi ex_A fair [tt; tt] 0 0 = 2 / 3).
  { unfold posterior; rewrite L2. unfold state_joint, sumf, rsum, path_prob, continue_prob, start, step, emit, Verif.Props.HMM.ex_pi, Verif.Props.HMM.ex_A, Verif.Props.HMM.fair; cbn; lra. }
  assert (Em : forall j, (j < 2)%nat -> / 4 <= emit fair j tt) by (intros [|[|j]] Hj; try lia; unfold emit, Verif.Props.HMM.fair; cbn; lra).
  assert (St : forall i j, (i < 2)%nat -> (j < 2)%nat -> step ex_A i j = / 2) by (intros [|[|i]] [|[|j]] Hi Hj; try lia; unfold step, Verif.Props.HMM.ex_A; cbn; lra).
  pose proof (Rmax_r (tiny float32) (rnd float32 hmm_eps)) as Tr.
  destruct (C99_posterior float32 ex_pi ex_A fair [tt; tt] tt 1 (left_to_right 1) (left_to_right 1)) with (L := fun a => fround float32 (xlog a)) (o3 := left_to_right 1) (t := 0%nat) (j := 0%nat)
    as (g & Eg & _ & Bg).
  - left; auto.
  - apply En. left. left. auto.
  - split; [auto|]. intros row Hr. apply En. auto.
  - intros x _. destruct x. apply En. left. right. left. auto.
  - apply (left_to_right_all 1).
  - apply (left_to_right_all 1).
  - lra.
  - change (length ex_pi) with 2%nat. assert (64 <= maxpow float32) by (change 64 with (bpow radix2 6); apply bpow_le; cbn; lia). cbn [INR]. lra.
  - rewrite L2. lra.
  - intros [|[|t]] [|[|j]] Ht Hj; cbn in Ht, Hj; try lia; right; cbn [firstn]; rewrite ?S00, ?S01, ?S10, ?S11, ?L0, ?L1; lra.
  - intros [|[|t]] [|[|j]] Ht Hj; cbn in Ht, Hj; try lia; right; unfold filtering; cbn [firstn]; rewrite ?S00, ?S01, ?S10, ?S11, ?L1, ?L2; lra.
  - intros [|t] [|[|i]] [|[|j]] Ht Hi Hj; cbn in Ht, Hi, Hj; try lia; right; unfold filtering; cbn [firstn]; rewrite ?S00, ?S01, ?L1; unfold step, Verif.Props.HMM.ex_A; cbn [nth]; lra.
  - apply (left_to_right_all 1).
  - apply Rle_trans with ((1 - / 10000) ^ 26); [cbn; lra|]. apply pow_incr. lra.
  - intros [|t] i Ht Hi; cbn in Ht, Hi; try lia. right. rewrite T1, F0 by lia. lra.
  - intros [|t] i Ht Hi; cbn in Ht, Hi; try lia. right. rewrite T2, F0 by lia. lra.
  - intros [|t] j Ht Hj; cbn in Ht, Hj; try lia. right. rewrite T1, F1 by lia. cbn [nth]. specialize (Em j Hj). lra.
  - intros [|t] i j Ht Hi Hj; cbn in Ht, Hi, Hj; try lia. right. rewrite T1, F1, St by lia. cbn [nth]. specialize (Em j Hj). lra.
  - intros [|[|t]] [|[|j]] Ht Hj; cbn in Ht, Hj; try lia; right; unfold filtering; cbn [firstn];
      rewrite ?S00, ?S01, ?S10, ?S11, ?L1, ?L2, ?T2, ?T1, ?F0, ?F1 by lia; lra.
  - intros t j Ht Hj. right. specialize (P t j Ht Hj). lra.
  - cbn. lia.
  - cbn. lia.
  - exists g. split; [exact Eg|]. rewrite P0 in Bg. exact Bg.
Qed.
Print Assumptions C98_forward.
Print Assumptions C98_range.
Print Assumptions C99_posterior.
Print Assumptions C98_underflow_refuted.
