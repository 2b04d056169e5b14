(** C106: log_prob, entropy and KL divergence of Bernoulli in floating point. *)
From Coq Require Import Reals Lra Lia List Bool Arith ZArith.
From Flocq Require Import Core IEEE754.BinarySingleNaN Sterbenz.
From Verif Require Import Base.XR Base.Float Spec.Rounding Spec.Accuracy Spec.CatInfo Spec.BernInfo Proofs.FloatOrder Proofs.FloatLib
  Props.FloatNormalize Props.FloatBij Props.FloatCategorical Props.FloatAccuracy.
From Verif Require Import Model.FloatDist Model.FloatCategorical Model.FloatBernoulli Props.FloatCatInfo Props.FloatMixture Props.FloatViterbi Proofs.FloatIEEE.
Import ListNotations.
Local Open Scope R_scope.

Lemma mnn_fin dt r q : fl_multiply_no_nan dt (Fin r) (Fin q) = fmul dt (Fin r) (Fin q).
Proof. unfold fl_multiply_no_nan. destruct (xeqb (Fin q) (Fin 0)) eqn:Q; [|auto]. apply xeqb_fin in Q as ->. unfold fmul. rewrite xmul_fin, Rmult_0_r, fround_0. auto. Qed.
Lemma mnn_zero dt x : fl_multiply_no_nan dt x (Fin 0) = Fin 0.
Proof. unfold fl_multiply_no_nan. rewrite (proj2 (xeqb_fin 0 0) eq_refl). auto. Qed.
Lemma minus_one dt r : repr dt r -> fmul dt (Fin (-1)) (Fin r) = Fin (- r).
Proof. intros H. unfold fmul. rewrite xmul_fin. replace (-1 * r) with (- r) by ring. apply fround_repr, repr_opp, H. Qed.
Lemma coin_pair p : shannon_entropy 2 (coin p) = - ((if Rlt_dec 0 (1 - p) then (1 - p) * ln (1 - p) else 0) + ((if Rlt_dec 0 p then p * ln p else 0) + 0)).
Proof. reflexivity. Qed.

Section Bern.
Variables (dt : dtype) (k B M : R) (L L1 G S : XR -> XR).
Notation e := (eps dt).
Notation eta := ((k + 1) * e * (1 + M)).
Hypothesis k_pos : 0 <= k.
Hypothesis HL : accurate dt k L ln (fun c => 0 < c).
Hypothesis HL1 : accurate dt k L1 (fun x => ln (1 + x)) (fun x => -1 < x <= 0).
Hypothesis HG : accurate dt k G (fun x => / (1 + exp (- x))) (fun x => Rabs x <= B).
Hypothesis HS : accurate dt k S (fun x => ln (1 + exp x)) (fun x => Rabs x <= B).
Hypothesis M_pos : 1 <= M.
Hypothesis M_max : M <= maxpow dt / 32.
Hypothesis eta_max : eta <= / 16.

(** [d] describes a coin with success probability [p], neither 0 nor 1, with logarithms of size at most [M] *)
Definition describes (d : bern_param) (p : R) : Prop :=
  match d with
  | BProbs (Fin r) => repr dt r /\ p = r
  | BLogits (Fin l) => repr dt l /\ Rabs l <= B /\ p = / (1 + exp (- l))
  | _ => False
  end /\ 0 < p < 1 /\ Rabs (ln p) <= M /\ Rabs (ln (1 - p)) <= M.

Lemma eta_facts : 0 < e <= / 32 /\ 0 <= k * e <= / 32 /\ tiny dt <= e /\ 0 < tiny dt /\ e * (1 + M) <= eta /\ k * e <= eta /\ 2 * e <= eta /\ 0 <= eta /\ (forall t, Rabs t <= M -> k * e * Rabs t + tiny dt <= eta).
Proof.
  pose proof (eps_pos dt) as E0. pose proof (tiny_le_eps dt). pose proof (tiny_pos dt). assert (0 <= k * e) by (apply Rmult_le_pos; lra). assert (0 <= k * e * M) by (apply Rmult_le_pos; lra). assert (1 * e <= M * e) by (apply Rmult_le_compat_r; lra).
  assert (k * e * 1 <= k * e * M) by (apply Rmult_le_compat_l; lra). repeat split; try lra. intros t Ht. pose proof (Rabs_pos t). assert (k * e * Rabs t <= k * e * M) by (apply Rmult_le_compat_l; lra). lra.
Qed.
Lemma logistic_neg l : / (1 + exp (- - l)) = 1 - / (1 + exp (- l)).
Proof. rewrite Ropp_involutive, exp_Ropp. pose proof (exp_pos l). field. split; lra. Qed.
Lemma numbers d p : describes d p -> exists q0 q1 t0 t1, fl_bern_both dt L L1 G S d = ((Fin q0, Fin q1), (Fin t0, Fin t1)) /\
  repr dt t0 /\ repr dt t1 /\
  Rabs (q0 - (1 - p)) <= (k + 2) * e /\ Rabs (q1 - p) <= (k + 2) * e /\ Rabs (t0 - ln (1 - p)) <= k * e * Rabs (ln (1 - p)) + tiny dt /\ Rabs (t1 - ln p) <= k * e * Rabs (ln p) + tiny dt.
Proof.
  destruct eta_facts as ((E0 & E1) & (K0 & K1) & T1 & T0 & F1 & F2 & F3 & F4 & F5). intros (D & P01 & _). destruct d as [[l| | |]|[r| | |]]; try contradiction D.
  - destruct D as (Rl & Bl & ->). assert (Rn : repr dt (- l)) by (apply repr_opp; auto). assert (Bn : Rabs (- l) <= B) by (rewrite Rabs_Ropp; auto).
    cbn [fl_bern_both]. rewrite minus_one by auto. destruct (HG l Rl Bl) as (q1 & E2 & Rq1 & B1). destruct (HG (- l) Rn Bn) as (q0 & E3 & Rq0 & B0). destruct (HS l Rl Bl) as (s0 & E4 & Rs0 & C0). destruct (HS (- l) Rn Bn) as (s1 & E5 & Rs1 & C1).
    rewrite E2, E3, E4, E5. cbn [xopp]. rewrite logistic_neg in B0. set (p := / (1 + exp (- l))) in *. exists q0, q1, (- s0), (- s1). split; [auto|]. split; [apply repr_opp; auto|]. split; [apply repr_opp; auto|].
    assert (L0 : ln (1 - p) = - ln (1 + exp l)). { unfold p. rewrite <- logistic_neg, Ropp_involutive. rewrite ln_Rinv by (pose proof (exp_pos l); lra). auto. }
    assert (Lp : ln p = - ln (1 + exp (- l))). { unfold p. rewrite ln_Rinv by (pose proof (exp_pos (- l)); lra). auto. }
    rewrite (Rabs_pos_eq p) in B1 by lra. rewrite (Rabs_pos_eq (1 - p)) in B0 by lra. assert (k * e * p <= k * e * 1) by (apply Rmult_le_compat_l; lra). assert (k * e * (1 - p) <= k * e * 1) by (apply Rmult_le_compat_l; lra).
    split; [lra|]. split; [lra|]. rewrite L0, Lp, !Rabs_Ropp. split; [replace (- s0 - - ln (1 + exp l)) with (- (s0 - ln (1 + exp l))) by ring|replace (- s1 - - ln (1 + exp (- l))) with (- (s1 - ln (1 + exp (- l)))) by ring]; rewrite Rabs_Ropp; auto.
  - destruct D as (Rr & ->). cbn [fl_bern_both]. rewrite minus_one by auto. pose proof (sub_rel dt 1 r (repr_1 dt) Rr) as S1. pose proof (maxpow_ge_32 dt).
    destruct (round_fin dt (1 - r)) as (q & Eq0 & Rq0 & _ & Eq); [rewrite Rabs_pos_eq; lra|]. rewrite <- Eq in S1. assert (F0 : fsub dt (Fin 1) (Fin r) = Fin q) by (unfold fsub; rewrite xsub_fin; auto). rewrite F0.
    rewrite (Rabs_pos_eq (1 - r)) in S1 by lra. assert (S1' : Rabs (q - (1 - r)) <= e) by (eapply Rle_trans; [exact S1|]; rewrite <- (Rmult_1_r e) at 2; apply Rmult_le_compat_l; lra). apply Rabs_le_inv in S1' as S1''.
    pose proof (sub_rel dt 1 q (repr_1 dt) Rq0) as S2. destruct (round_fin dt (1 - q)) as (q1 & Eq1' & Rq1 & _ & Eq1); [apply Rabs_le; lra|]. rewrite <- Eq1 in S2. assert (F0' : fsub dt (Fin 1) (Fin q) = Fin q1) by (unfold fsub; rewrite xsub_fin; auto). rewrite F0'.
    assert (Rabs (1 - q) <= r + e) by (apply Rabs_le; lra). assert (S3 : e * Rabs (1 - q) <= e * (r + e)) by (apply Rmult_le_compat_l; lra).
    destruct (HL1 (- r) (repr_opp _ _ Rr) ltac:(lra)) as (t0 & -> & Rt0 & B0). destruct (HL r Rr ltac:(lra)) as (t1 & -> & Rt1 & B1). exists q, q1, t0, t1. split; [auto|]. split; [auto|]. split; [auto|].
    split; [lra|]. split; [|split; [exact B0|exact B1]]. replace (q1 - r) with ((q1 - (1 - q)) - (q - (1 - r))) by ring. eapply Rle_trans; [apply Rabs_triang|]. rewrite Rabs_Ropp.
    assert (e * (r + e) <= e * (r + / 32)) by (apply Rmult_le_compat_l; lra). assert (e * r <= e * 1) by (apply Rmult_le_compat_l; lra). assert (e * (1 - r) = e - e * r) by ring. lra.
Qed.
Lemma product q t p s : Rabs (q - p) <= (k + 2) * e -> Rabs (t - s) <= k * e * Rabs s + tiny dt -> 0 <= p <= 1 -> Rabs s <= M -> close (fl_multiply_no_nan dt (Fin t) (Fin q)) (p * s) (6 * eta) /\ Rabs (p * s) <= M.
Proof.
  destruct eta_facts as ((E0 & E1) & (K0 & K1) & T1 & T0 & F1 & F2 & F3 & F4 & F5). intros Hq Ht P01 Hs. pose proof (maxpow_ge_32 dt). pose proof (Rabs_pos s). specialize (F5 s Hs).
  assert (Ps : Rabs (p * s) <= M). { rewrite Rabs_mult, (Rabs_pos_eq p) by lra. rewrite <- (Rmult_1_l M). apply Rmult_le_compat; lra. }
  split; [|auto]. rewrite mnn_fin. rewrite (Rmult_comm p s) in *.
  assert (X1 : eta * Rabs p <= eta) by (rewrite (Rabs_pos_eq p) by lra; rewrite <- (Rmult_1_r eta) at 2; apply Rmult_le_compat_l; lra).
  assert (X2 : (k + 2) * e * Rabs s <= 2 * eta). { apply Rle_trans with ((k + 2) * e * M); [apply Rmult_le_compat_l; [lra|auto]|]. assert (0 <= k * e * M) by (apply Rmult_le_pos; lra). lra. }
  assert (X3 : eta * ((k + 2) * e) <= eta * / 8) by (apply Rmult_le_compat_l; lra).
  eapply close_weaken; [apply (close_mul dt (Fin t) (Fin q) s p eta ((k + 2) * e) (M + 1))|]; try lra.
  - exists t. split; [auto|lra]. - exists q. split; [auto|lra].
Qed.
Lemma close_neg v t a : close v t a -> value dt v -> close (fmul dt (Fin (-1)) v) (- t) a.
Proof. intros (r & -> & H) V. rewrite minus_one by exact V. exists (- r). split; [auto|]. replace (- r - - t) with (- (r - t)) by ring. rewrite Rabs_Ropp. auto. Qed.
Lemma add_value u v : value dt (fadd dt u v).
Proof. unfold fadd. destruct (fround dt _) eqn:E; try exact I. apply fround_value in E. exact E. Qed.
(** The float entropy is near the exact one, whichever way the distribution was built. *)
Theorem C106_entropy d p : describes d p -> close (fl_bern_entropy dt L L1 G S d) (shannon_entropy 2 (coin p)) (14 * eta).
Proof.
  destruct eta_facts as ((E0 & E1) & (K0 & K1) & T1 & T0 & F1 & F2 & F3 & F4 & F5). intros D. destruct (numbers d p D) as (q0 & q1 & t0 & t1 & Q & _ & _ & A0 & A1 & B0 & B1). destruct D as (_ & P & M1 & M0).
  unfold fl_bern_entropy. rewrite Q. rewrite coin_pair. destruct (Rlt_dec 0 (1 - p)); [|lra]. destruct (Rlt_dec 0 p); [|lra]. rewrite Rplus_0_r.
  destruct (product q0 t0 (1 - p) (ln (1 - p)) A0 B0 ltac:(lra) M0) as (C0 & D0). destruct (product q1 t1 p (ln p) A1 B1 ltac:(lra) M1) as (C1 & D1).
  apply close_neg; [|apply add_value]. eapply close_weaken; [apply (close_add dt _ _ _ _ _ _ (2 * M + 1) C0 C1); lra|]. lra.
Qed.
(** The float KL divergence is near the exact one, for any combination of the two ways. *)
Theorem C106_kl d1 d2 p1 p2 : describes d1 p1 -> describes d2 p2 -> close (fl_bern_kl dt L L1 G S d1 d2) (relative_entropy 2 (coin p1) (coin p2)) (33 * eta).
Proof.
  destruct eta_facts as ((E0 & E1) & (K0 & K1) & T1 & T0 & F1 & F2 & F3 & F4 & F5). intros D X. destruct (numbers d1 p1 D) as (q0 & q1 & t0 & t1 & Q & _ & _ & A0 & A1 & B0 & B1). destruct (numbers d2 p2 X) as (r0 & r1 & s0 & s1 & Q2 & _ & _ & _ & _ & G0 & G1).
  destruct D as (_ & P & M1 & M0). destruct X as (_ & P2 & N1 & N0). unfold fl_bern_kl. rewrite Q, Q2.
  assert (RE : relative_entropy 2 (coin p1) (coin p2) = p1 * ln p1 - p1 * ln p2 + (1 - p1) * ln (1 - p1) - (1 - p1) * ln (1 - p2)).
  { unfold relative_entropy, sum_over. cbn [seq map fold_right coin]. destruct (Rlt_dec 0 (1 - p1)); [|lra]. destruct (Rlt_dec 0 p1); [|lra]. rewrite !ln_div by lra. ring. }
  rewrite RE. destruct (product q1 t1 p1 (ln p1) A1 B1 ltac:(lra) M1) as (C1 & D1). destruct (product q1 s1 p1 (ln p2) A1 G1 ltac:(lra) N1) as (C2 & D2).
  destruct (product q0 t0 (1 - p1) (ln (1 - p1)) A0 B0 ltac:(lra) M0) as (C3 & D3). destruct (product q0 s0 (1 - p1) (ln (1 - p2)) A0 G0 ltac:(lra) N0) as (C4 & D4). pose proof (maxpow_ge_32 dt).
  assert (Ma : Rabs (p1 * ln p1 - p1 * ln p2) <= 2 * M) by (eapply Rle_trans; [apply Rabs_triang|]; rewrite Rabs_Ropp; lra).
  assert (Mb : Rabs (p1 * ln p1 - p1 * ln p2 + (1 - p1) * ln (1 - p1)) <= 3 * M) by (eapply Rle_trans; [apply Rabs_triang|]; lra).
  assert (Ca : close (fsub dt (fl_multiply_no_nan dt (Fin t1) (Fin q1)) (fl_multiply_no_nan dt (Fin s1) (Fin q1))) (p1 * ln p1 - p1 * ln p2) (14 * eta)) by (eapply close_weaken; [apply (close_sub dt _ _ _ _ _ _ (2 * M + 1) C1 C2); lra|]; lra).
  assert (Cb : close (fadd dt (fsub dt (fl_multiply_no_nan dt (Fin t1) (Fin q1)) (fl_multiply_no_nan dt (Fin s1) (Fin q1))) (fl_multiply_no_nan dt (Fin t0) (Fin q0))) (p1 * ln p1 - p1 * ln p2 + (1 - p1) * ln (1 - p1)) (23 * eta)) by (eapply close_weaken; [apply (close_add dt _ _ _ _ _ _ (3 * M + 2) Ca C3); lra|]; lra).
  eapply close_weaken; [apply (close_sub dt _ _ _ _ _ _ (4 * M + 2) Cb C4); lra|]. lra.
Qed.
(** ... the divergence from itself is exactly 0 *)
Theorem C106_kl_self d p : describes d p -> fl_bern_kl dt L L1 G S d d = Fin 0.
Proof.
  destruct eta_facts as ((E0 & E1) & (K0 & K1) & T1 & T0 & F1 & F2 & F3 & F4 & F5). intros D. destruct (numbers d p D) as (q0 & q1 & t0 & t1 & Q & _ & _ & A0 & A1 & B0 & B1). destruct D as (_ & P & M1 & M0).
  unfold fl_bern_kl. rewrite Q. destruct (product q0 t0 (1 - p) (ln (1 - p)) A0 B0 ltac:(lra) M0) as ((c & Ec & _) & _). destruct (product q1 t1 p (ln p) A1 B1 ltac:(lra) M1) as ((a & Ea & _) & _). rewrite Ea, Ec.
  unfold fsub at 2. rewrite xsub_fin, Rminus_diag_eq, fround_0 by auto. rewrite fadd_0_l by (rewrite <- Ec, mnn_fin; unfold fmul; destruct (fround dt _) eqn:Ex; try exact I; apply fround_value in Ex; exact Ex).
  unfold fsub. rewrite xsub_fin, Rminus_diag_eq by auto. apply fround_0.
Qed.
Lemma mnn_ninf q : 0 < q -> fl_multiply_no_nan dt NInf (Fin q) = NInf.
Proof.
  intros Hq. unfold fl_multiply_no_nan. destruct (xeqb (Fin q) (Fin 0)) eqn:X; [apply xeqb_fin in X; lra|]. unfold fmul. cbn [xmul]. unfold inf_times. destruct (Rlt_dec 0 (- q)); [lra|]. destruct (Rlt_dec (- q) 0); [reflexivity|lra].
Qed.
(** An outcome whose float probability is positive, impossible under the second distribution: exactly +inf. *)
Theorem C106_kl_infinite d p q0 q1 lps : describes d p -> L (Fin 0) = NInf -> L1 (Fin (-1)) = NInf -> L (Fin 1) = Fin 0 -> L1 (Fin 0) = Fin 0 ->
  fl_bern_both dt L L1 G S d = ((Fin q0, Fin q1), lps) ->
  (0 < q1 -> fl_bern_kl dt L L1 G S d (BProbs (Fin 0)) = PInf) /\ (0 < q0 -> fl_bern_kl dt L L1 G S d (BProbs (Fin 1)) = PInf).
Proof.
  destruct eta_facts as ((E0 & E1) & (K0 & K1) & T1 & T0 & F1 & F2 & F3 & F4 & F5). intros D Z0 Z1 Hu Hw Eb. destruct (numbers d p D) as (q0' & q1' & t0 & t1 & Q & _ & _ & A0 & A1 & B0 & B1). destruct D as (_ & P & M1 & M0).
  rewrite Q in Eb. injection Eb as -> -> <-. unfold fl_bern_kl. rewrite Q. destruct (product q0 t0 (1 - p) (ln (1 - p)) A0 B0 ltac:(lra) M0) as ((c & Ec & Bc) & Dc). destruct (product q1 t1 p (ln p) A1 B1 ltac:(lra) M1) as ((a & Ea & Ba) & Da). rewrite Ea, Ec.
  apply Rabs_le_inv in Bc, Ba, Dc, Da. pose proof (maxpow_ge_32 dt). cbn [fl_bern_both]. rewrite !minus_one by auto using repr_0, repr_1. rewrite Ropp_0. replace (- (1)) with (-1) by ring. rewrite Z0, Z1, Hu, Hw.
  assert (Z : forall q, fl_multiply_no_nan dt (Fin 0) (Fin q) = Fin 0) by (intros q; rewrite mnn_fin; unfold fmul; rewrite xmul_fin, Rmult_0_l; apply fround_0). rewrite !Z. split; intros Pos; rewrite (mnn_ninf _ Pos).
  - reflexivity.
  - assert (Va : repr dt a) by (rewrite mnn_fin in Ea; apply fround_value in Ea; exact Ea). unfold fsub at 2. rewrite xsub_fin, Rminus_0_r, (fround_repr dt a Va). unfold fadd. rewrite xadd_fin. destruct (round_fin dt (a + c)) as (r & -> & _); [apply Rabs_le; lra|]. reflexivity.
Qed.
(** log_prob of the outcome 0 or 1 *)
Theorem C106_log_prob d p i : describes d p -> (i <= 1)%nat -> let t := ln (coin p i) in
  close (fl_bern_log_prob dt L L1 S d (Fin (INR i))) t (k * e * Rabs t + tiny dt).
Proof.
  intros D Hi t. destruct (numbers d p D) as (q0 & q1 & t0 & t1 & Q & R0 & R1 & _ & _ & B0 & B1). unfold fl_bern_log_prob.
  assert (LP : fl_bern_log_probs dt L L1 S d = (Fin t0, Fin t1)). { transitivity (snd (fl_bern_both dt L L1 G S d)); [destruct d; reflexivity|rewrite Q; reflexivity]. }
  rewrite LP. assert (O1 : fsub dt (Fin 1) (Fin 0) = Fin 1) by (unfold fsub; rewrite xsub_fin, Rminus_0_r; apply fround_repr, repr_1). assert (O0 : fsub dt (Fin 1) (Fin 1) = Fin 0) by (unfold fsub; rewrite xsub_fin, Rminus_diag_eq by auto; apply fround_0).
  assert (One : forall r, repr dt r -> fl_multiply_no_nan dt (Fin r) (Fin 1) = Fin r) by (intros r Rr; rewrite mnn_fin; unfold fmul; rewrite xmul_fin, Rmult_1_r; apply fround_repr; auto).
  destruct i as [|[|i]]; [| |lia]; cbn [INR] in *; rewrite ?O1, ?O0, ?mnn_zero, ?One by auto.
  - rewrite fadd_0_r by exact R0. exists t0. split; [auto|exact B0].
  - rewrite fadd_0_l by exact R1. exists t1. split; [auto|exact B1].
Qed.
(** From logits the error of the entropy is even relative: it is small against a small entropy. *)
Lemma term_rel q t p s : 0 <= p <= 1 -> 0 <= s <= M -> k * e <= / 16 -> Rabs (q - p) <= k * e * p + tiny dt -> Rabs (t - s) <= k * e * s + tiny dt ->
  exists v, fmul dt (Fin t) (Fin q) = Fin v /\ repr dt v /\ Rabs (v - p * s) <= (3 * k + 2) * e * (p * s) + (4 * M + 6) * tiny dt.
Proof.
  destruct eta_facts as ((E0 & E1) & (K0 & K1) & T1 & T0 & F1 & F2 & F3 & F4 & F5). intros P01 S0 Ke Hq Ht. pose proof (maxpow_ge_32 dt).
  set (w := p * s). assert (W0 : 0 <= w) by (apply Rmult_le_pos; lra). assert (W1 : w <= M) by (unfold w; rewrite <- (Rmult_1_l M); apply Rmult_le_compat; lra).
  assert (Qb : Rabs q <= p * (1 + k * e) + tiny dt). { replace q with ((q - p) + p) by ring. eapply Rle_trans; [apply Rabs_triang|]. rewrite (Rabs_pos_eq p) by lra. lra. }
  assert (Hv : Rabs (t * q - w) <= (2 * (k * e) + k * e * (k * e)) * w + (2 * M + 2) * tiny dt).
  { unfold w. replace (t * q - p * s) with (q * (t - s) + s * (q - p)) by ring. eapply Rle_trans; [apply Rabs_triang|]. rewrite !Rabs_mult, (Rabs_pos_eq s) by lra.
    assert (X1 : Rabs q * Rabs (t - s) <= (p * (1 + k * e) + tiny dt) * (k * e * s + tiny dt)) by (apply Rmult_le_compat; auto using Rabs_pos).
    assert (X2 : s * Rabs (q - p) <= s * (k * e * p + tiny dt)) by (apply Rmult_le_compat_l; lra).
    assert (X3 : p * (1 + k * e) * tiny dt <= 17 / 16 * tiny dt) by (apply Rmult_le_compat_r; [lra|nra]). assert (X4 : tiny dt * (k * e * s) <= tiny dt * (/ 16 * M)) by (apply Rmult_le_compat_l; [lra|apply Rmult_le_compat; lra]). assert (X5 : tiny dt * tiny dt <= tiny dt * / 32) by (apply Rmult_le_compat_l; lra).
    assert (X6 : s * tiny dt <= M * tiny dt) by (apply Rmult_le_compat_r; lra). assert (0 <= M * tiny dt) by (apply Rmult_le_pos; lra). lra. }
  assert (K2 : k * e * (k * e) <= k * e * / 16) by (apply Rmult_le_compat_l; lra).
  assert (Hv' : Rabs (t * q - w) <= (33 / 16 * (k * e)) * w + (2 * M + 2) * tiny dt). { eapply Rle_trans; [exact Hv|]. apply Rplus_le_compat_r. apply Rmult_le_compat_r; lra. }
  assert (0 <= k * e * w) by (apply Rmult_le_pos; lra). assert (k * e * w <= / 16 * w) by (apply Rmult_le_compat_r; lra). assert (Mt : M * tiny dt <= M * / 32) by (apply Rmult_le_compat_l; lra).
  assert (Vb : Rabs (t * q) <= (1 + 33 / 16 * (k * e)) * w + (2 * M + 2) * tiny dt). { replace (t * q) with ((t * q - w) + w) by ring. eapply Rle_trans; [apply Rabs_triang|]. rewrite (Rabs_pos_eq w) by auto. lra. }
  unfold fmul. rewrite xmul_fin. destruct (round_fin dt (t * q)) as (v & -> & Rv & _ & Ev); [lra|]. exists v. split; [auto|]. split; [auto|]. rewrite Ev.
  replace (rnd dt (t * q) - w) with ((rnd dt (t * q) - t * q) + (t * q - w)) by ring. eapply Rle_trans; [apply Rabs_triang|]. pose proof (rnd_rel dt (t * q)) as Q.
  assert (e * Rabs (t * q) <= e * ((1 + 33 / 16 * (k * e)) * w + (2 * M + 2) * tiny dt)) by (apply Rmult_le_compat_l; lra).
  assert (e * ((2 * M + 2) * tiny dt) <= / 32 * ((2 * M + 2) * tiny dt)) by (apply Rmult_le_compat_r; [apply Rmult_le_pos; lra|lra]). assert (0 <= e * w) by (apply Rmult_le_pos; lra).
  assert (e * (k * e * w) <= / 32 * (k * e * w)) by (apply Rmult_le_compat_r; lra). assert (0 <= M * tiny dt) by (apply Rmult_le_pos; lra). lra.
Qed.
Theorem C106_entropy_logits l p : describes (BLogits (Fin l)) p -> k * e <= / 64 -> let H := shannon_entropy 2 (coin p) in
  0 < H /\ close (fl_bern_entropy dt L L1 G S (BLogits (Fin l))) H ((4 * k + 4) * e * H + (12 * M + 16) * tiny dt).
Proof.
  destruct eta_facts as ((E0 & E1) & (K0 & K1) & T1 & T0 & F1 & F2 & F3 & F4 & F5). intros ((Rl & Bl & Ep) & P & M1 & M0) Ke. pose proof (maxpow_ge_32 dt).
  assert (Rn : repr dt (- l)) by (apply repr_opp; auto). assert (Bn : Rabs (- l) <= B) by (rewrite Rabs_Ropp; auto).
  unfold fl_bern_entropy. cbn [fl_bern_both]. rewrite minus_one by auto. destruct (HG l Rl Bl) as (q1 & E2 & Rq1 & B1). destruct (HG (- l) Rn Bn) as (q0 & E3 & Rq0 & B0). destruct (HS l Rl Bl) as (s0 & E4 & Rs0 & C0). destruct (HS (- l) Rn Bn) as (s1 & E5 & Rs1 & C1).
  rewrite E2, E3, E4, E5. cbn [xopp]. rewrite logistic_neg in B0. rewrite <- Ep in *. rewrite coin_pair. destruct (Rlt_dec 0 (1 - p)); [|lra]. destruct (Rlt_dec 0 p); [|lra]. rewrite Rplus_0_r.
  assert (L0 : ln (1 + exp l) = - ln (1 - p)). { rewrite Ep, <- logistic_neg, Ropp_involutive. rewrite ln_Rinv by (pose proof (exp_pos l); lra). ring. }
  assert (Lp : ln (1 + exp (- l)) = - ln p). { rewrite Ep. rewrite ln_Rinv by (pose proof (exp_pos (- l)); lra). ring. }
  assert (N1 : ln p < 0) by (rewrite <- ln_1; apply ln_increasing; lra). assert (N0 : ln (1 - p) < 0) by (rewrite <- ln_1; apply ln_increasing; lra).
  rewrite Rabs_left in M1, M0 by lra. rewrite L0 in C0. rewrite Lp in C1. rewrite (Rabs_pos_eq (- ln (1 - p))) in C0 by lra. rewrite (Rabs_pos_eq (- ln p)) in C1 by lra. rewrite (Rabs_pos_eq p) in B1 by lra. rewrite (Rabs_pos_eq (1 - p)) in B0 by lra.
  set (w1 := p * - ln p). set (w0 := (1 - p) * - ln (1 - p)). assert (W1 : 0 < w1) by (apply Rmult_lt_0_compat; lra). assert (W0 : 0 < w0) by (apply Rmult_lt_0_compat; lra).
  replace (- ((1 - p) * ln (1 - p) + p * ln p)) with (w0 + w1) by (unfold w0, w1; ring). cbv zeta. split; [lra|].
  destruct (term_rel q0 s0 (1 - p) (- ln (1 - p)) ltac:(lra) ltac:(lra) ltac:(lra) B0 C0) as (v0 & V0 & Rv0 & D0). destruct (term_rel q1 s1 p (- ln p) ltac:(lra) ltac:(lra) ltac:(lra) B1 C1) as (v1 & V1 & Rv1 & D1). fold w0 in D0. fold w1 in D1.
  assert (Ng : forall s q v, fmul dt (Fin s) (Fin q) = Fin v -> fl_multiply_no_nan dt (Fin (- s)) (Fin q) = Fin (- v)).
  { intros s q v Hv. rewrite mnn_fin. unfold fmul in *. rewrite xmul_fin in *. replace (- s * q) with (- (s * q)) by ring. change (Fin (- (s * q))) with (xopp (Fin (s * q))). rewrite fround_opp', Hv. auto. }
  rewrite (Ng _ _ _ V0), (Ng _ _ _ V1). unfold fadd. rewrite xadd_fin.
  assert (Wm : w0 + w1 <= 2 * M). { assert (w1 <= M) by (unfold w1; rewrite <- (Rmult_1_l M); apply Rmult_le_compat; lra). assert (w0 <= M) by (unfold w0; rewrite <- (Rmult_1_l M); apply Rmult_le_compat; lra). lra. }
  set (h := w0 + w1) in *. assert (Dh : Rabs (v0 + v1 - h) <= (3 * k + 2) * e * h + (8 * M + 12) * tiny dt).
  { unfold h. replace (v0 + v1 - (w0 + w1)) with ((v0 - w0) + (v1 - w1)) by ring. eapply Rle_trans; [apply Rabs_triang|]. lra. }
  assert (Kh : 0 <= k * e * h) by (apply Rmult_le_pos; [lra|unfold h; lra]). assert (Eh : 0 <= e * h) by (apply Rmult_le_pos; [lra|unfold h; lra]). assert (H0 : 0 < h) by (unfold h; lra). clearbody h.
  assert (Kh' : k * e * h <= / 64 * h) by (apply Rmult_le_compat_r; lra). assert (Eh' : e * h <= / 32 * h) by (apply Rmult_le_compat_r; lra). assert (Mt : M * tiny dt <= M * / 32) by (apply Rmult_le_compat_l; lra). assert (0 <= M * tiny dt) by (apply Rmult_le_pos; lra).
  assert (Vb : Rabs (v0 + v1) <= h + (3 * k + 2) * e * h + (8 * M + 12) * tiny dt). { replace (v0 + v1) with ((v0 + v1 - h) + h) by ring. eapply Rle_trans; [apply Rabs_triang|]. rewrite (Rabs_pos_eq h) by lra. lra. }
  replace (- v0 + - v1) with (- (v0 + v1)) by ring. assert (Vm : Rabs (- (v0 + v1)) <= maxpow dt / 2) by (rewrite Rabs_Ropp; lra).
  destruct (round_fin dt (- (v0 + v1)) Vm) as (v & -> & Rv & _ & Ev). rewrite minus_one by auto. exists (- v). split; [auto|]. rewrite Ev.
  pose proof (rnd_rel dt (- (v0 + v1))) as Q. rewrite Rabs_Ropp in Q. replace (- rnd dt (- (v0 + v1)) - h) with (- (rnd dt (- (v0 + v1)) - - (v0 + v1)) + (v0 + v1 - h)) by ring. eapply Rle_trans; [apply Rabs_triang|]. rewrite Rabs_Ropp.
  assert (X : e * Rabs (v0 + v1) <= e * (h + (3 * k + 2) * e * h + (8 * M + 12) * tiny dt)) by (apply Rmult_le_compat_l; lra).
  assert (e * ((8 * M + 12) * tiny dt) <= / 32 * ((8 * M + 12) * tiny dt)) by (apply Rmult_le_compat_r; [apply Rmult_le_pos; lra|lra]). assert (e * (k * e * h) <= / 32 * (k * e * h)) by (apply Rmult_le_compat_r; lra). assert (e * (e * h) <= / 32 * (e * h)) by (apply Rmult_le_compat_r; lra). lra.
Qed.
End Bern.
Print Assumptions C106_entropy.
Print Assumptions C106_kl.
Print Assumptions C106_kl_self.
Print Assumptions C106_kl_infinite.
Print Assumptions C106_log_prob.
Print Assumptions C106_entropy_logits.

(** ** With no bound on the parameters *)
(** [entropy] treats the outcomes alike: bit for bit the same for opposite logits. *)
Theorem C106_entropy_symmetric dt L L1 G S l : repr dt l -> fl_bern_entropy dt L L1 G S (BLogits (Fin l)) = fl_bern_entropy dt L L1 G S (BLogits (Fin (- l))).
Proof.
  intros Rl. unfold fl_bern_entropy. cbn [fl_bern_both]. rewrite !minus_one by auto using repr_opp. rewrite Ropp_involutive. f_equal. unfold fadd. f_equal.
  destruct (fl_multiply_no_nan dt (xopp (S (Fin l))) (G (Fin (- l)))), (fl_multiply_no_nan dt (xopp (S (Fin (- l)))) (G (Fin l))); try reflexivity. rewrite !xadd_fin. f_equal. ring.
Qed.
Lemma mnn_nonpos dt t q : fle t (Fin 0) -> 0 <= q -> fle (fl_multiply_no_nan dt t (Fin q)) (Fin 0).
Proof.
  intros Ht Hq. destruct t as [t| | |]; try discriminate Ht.
  - apply fle_fin in Ht. rewrite mnn_fin. apply fround_nonpos, fle_fin. nra.
  - destruct Hq as [Hq|<-]; [rewrite mnn_ninf by auto; reflexivity|rewrite mnn_zero; apply fle_fin; lra].
Qed.
(** [entropy] is never negative and never NaN. *)
Theorem C106_entropy_nonnegative dt L L1 G S d : log_fn dt L -> (forall x, repr dt x -> -1 <= x <= 0 -> fle (L1 (Fin x)) (Fin 0)) ->
  (forall x, repr dt x -> exists q, G (Fin x) = Fin q /\ 0 <= q) -> (forall x, repr dt x -> fle (Fin 0) (S (Fin x))) ->
  match d with BProbs (Fin p) => repr dt p /\ 0 <= p <= 1 | BLogits (Fin l) => repr dt l | _ => False end ->
  fle (Fin 0) (fl_bern_entropy dt L L1 G S d).
Proof.
  intros FL H1 HG HS V.
  assert (Main : forall t0 t1 q0 q1, fle t0 (Fin 0) -> fle t1 (Fin 0) -> 0 <= q0 -> 0 <= q1 ->
    fle (Fin 0) (fmul dt (Fin (-1)) (fadd dt (fl_multiply_no_nan dt t0 (Fin q0)) (fl_multiply_no_nan dt t1 (Fin q1))))).
  { intros t0 t1 q0 q1 T0 T1 Q0 Q1. pose proof (mnn_nonpos dt t0 q0 T0 Q0) as A. pose proof (mnn_nonpos dt t1 q1 T1 Q1) as B.
    assert (C : fle (fadd dt (fl_multiply_no_nan dt t0 (Fin q0)) (fl_multiply_no_nan dt t1 (Fin q1))) (Fin 0)).
    { apply fround_nonpos. destruct (fl_multiply_no_nan dt t0 (Fin q0)); try discriminate A; destruct (fl_multiply_no_nan dt t1 (Fin q1)); try discriminate B; try reflexivity. apply fle_fin in A, B. apply fle_fin. lra. }
    destruct (fadd dt _ _) as [s| | |]; try discriminate C.
    - apply fle_fin in C. apply fround_nonneg, fle_fin. lra.
    - unfold fmul. cbn [xmul]. unfold inf_times. destruct (Rlt_dec 0 _); [reflexivity|lra]. }
  assert (Neg : forall v, fle (Fin 0) v -> fle (xopp v) (Fin 0)).
  { intros v Hv. destruct v; try discriminate Hv; [|reflexivity]. apply fle_fin in Hv. apply fle_fin. lra. }
  destruct d as [[l| | |]|[p| | |]]; try contradiction V; unfold fl_bern_entropy; cbn [fl_bern_both].
  - rewrite minus_one by auto. destruct (HG l V) as (q1 & -> & Q1). destruct (HG (- l) (repr_opp _ _ V)) as (q0 & -> & Q0). apply Main; auto; apply Neg, HS; auto using repr_opp.
  - destruct V as (Rp & P0 & P1). rewrite minus_one by auto. pose proof (maxpow_ge_32 dt).
    assert (Un : forall x, repr dt x -> 0 <= x <= 1 -> exists q, fsub dt (Fin 1) (Fin x) = Fin q /\ repr dt q /\ 0 <= q <= 1).
    { intros x Rx X01. unfold fsub. rewrite xsub_fin. destruct (fround_between dt (1 - x) 0 1 (repr_0 dt) (repr_1 dt) ltac:(lra)) as (E & Hb & Rb). rewrite E. eexists. split; [reflexivity|]. auto. }
    destruct (Un p Rp ltac:(lra)) as (q0 & -> & Rq0 & Q0). destruct (Un q0 Rq0 Q0) as (q1 & -> & Rq1 & Q1). apply Main; try lra; [apply H1; [apply repr_opp; auto|lra]|].
    destruct P0 as [P0|<-]; [|rewrite (log_fn_zero _ _ FL); reflexivity]. rewrite <- (log_fn_one _ _ FL). apply (log_fn_mono _ _ FL); auto using repr_1.
Qed.
(** A certain outcome has entropy exactly 0, and divergence exactly 0 from itself. *)
Theorem C106_certain dt L L1 G S p : L (Fin 0) = NInf -> L (Fin 1) = Fin 0 -> L1 (Fin 0) = Fin 0 -> L1 (Fin (-1)) = NInf -> p = 0 \/ p = 1 ->
  fl_bern_entropy dt L L1 G S (BProbs (Fin p)) = Fin 0 /\ fl_bern_kl dt L L1 G S (BProbs (Fin p)) (BProbs (Fin p)) = Fin 0.
Proof.
  intros Z0 Z1 N0 N1 Hp. assert (S1 : fsub dt (Fin 1) (Fin 0) = Fin 1) by (unfold fsub; rewrite xsub_fin, Rminus_0_r; apply fround_repr, repr_1). assert (S0 : fsub dt (Fin 1) (Fin 1) = Fin 0) by (unfold fsub; rewrite xsub_fin, Rminus_diag_eq by auto; apply fround_0).
  assert (M0 : fmul dt (Fin (-1)) (Fin 0) = Fin 0) by (rewrite minus_one, Ropp_0 by apply repr_0; auto). assert (M1 : fmul dt (Fin (-1)) (Fin 1) = Fin (-1)) by (rewrite minus_one by apply repr_1; f_equal; ring).
  assert (Z : fl_multiply_no_nan dt (Fin 0) (Fin 1) = Fin 0) by (rewrite mnn_fin; unfold fmul; rewrite xmul_fin, Rmult_0_l; apply fround_0). assert (A : fadd dt (Fin 0) (Fin 0) = Fin 0) by (unfold fadd; rewrite xadd_fin, Rplus_0_l; apply fround_0).
  assert (D : fsub dt (Fin 0) (Fin 0) = Fin 0) by (unfold fsub; rewrite xsub_fin, Rminus_0_r; apply fround_0).
  unfold fl_bern_entropy, fl_bern_kl. destruct Hp as [-> | ->]; cbn [fl_bern_both]; rewrite ?S1, ?S0, ?M0, ?M1, ?S1, ?S0, ?Z0, ?Z1, ?N0, ?N1, ?mnn_zero, ?Z, ?A, ?D, ?A, ?D, ?M0; auto.
Qed.

(** ** A small probability *)
Local Instance gt32 : Prec_gt_0 24 := mant_gt_0 float32.
Local Instance lt32 : BinarySingleNaN.Prec_lt_emax 24 128 := mant_lt_emax float32.
(** 1 - (1 - p) loses a probability p below half a unit: for p = 2^-30 in float32 the entropy reported is less than a seventh of the
    exact one, and the divergence from an impossible event is reported as a negative number, not +inf. *)
Theorem C106_small_probability_refuted G S : let p := / 2 ^ 30 in let L := fun a => fround float32 (xlog a) in let L1 := fun a => fround float32 (xlog (xadd (Fin 1) a)) in
  repr float32 p /\ exists h, fl_bern_entropy float32 L L1 G S (BProbs (Fin p)) = Fin h /\ 0 < h < shannon_entropy 2 (coin p) / 7 /\
    fl_bern_kl float32 L L1 G S (BProbs (Fin p)) (BProbs (Fin 0)) = Fin (- h).
Proof.
  intros p L L1. assert (Ep : p = bpow radix2 (-30)) by (unfold p; change (bpow radix2 (-30)) with (/ IZR (Z.pow_pos 2 30)); f_equal; cbn; lra).
  assert (Rp : repr float32 p) by (rewrite Ep; apply repr_pow; cbn; unfold emin; cbn; lia). split; [exact Rp|].
  assert (P0 : 0 < p) by (rewrite Ep; apply bpow_gt_0). assert (P1 : p <= / 1024) by (unfold p; apply Rinv_le_contravar; cbn; lra).
  assert (Q0 : fsub float32 (Fin 1) (Fin p) = Fin 1).
  { assert (V1 : Fin p = of_ieee float32 (@BinarySingleNaN.B754_finite 24 128 false 8388608 (-53) eq_refl)) by (rewrite Ep; cbn; f_equal; unfold F2R; cbn; lra).
    assert (V2 : Fin 1 = of_ieee float32 (@BinarySingleNaN.B754_finite 24 128 false 8388608 (-23) eq_refl)) by (cbn; f_equal; unfold F2R; cbn; lra).
    rewrite V2 at 1. rewrite V1, fsub_ieee, V2. apply (f_equal (of_ieee float32)). apply BinarySingleNaN.B2SF_inj. vm_compute. reflexivity. }
  assert (Q1 : fsub float32 (Fin 1) (Fin 1) = Fin 0) by (unfold fsub; rewrite xsub_fin, Rminus_diag_eq by auto; apply fround_0).
  assert (Ln : - (2 * p) <= ln (1 - p) <= - p).
  { split.
    - assert (X : ln (/ (1 - p)) <= / (1 - p) - 1). { pose proof (exp_ineq1_le (ln (/ (1 - p)))) as Y. rewrite exp_ln in Y by (apply Rinv_0_lt_compat; lra). lra. }
      rewrite ln_Rinv in X by lra. assert (/ (1 - p) <= 1 + 2 * p); [|lra]. apply Rmult_le_reg_l with (1 - p); [lra|]. rewrite Rinv_r by lra. nra.
    - pose proof (exp_ineq1_le (ln (1 - p))) as Y. rewrite exp_ln in Y by lra. lra. }
  assert (R2 : repr float32 (2 * p)) by (apply double_exact; [exact Rp|rewrite Rabs_pos_eq by lra; pose proof (maxpow_ge_32 float32); lra]).
  destruct (fround_between float32 (ln (1 - p)) _ _ (repr_opp _ _ R2) (repr_opp _ _ Rp) Ln) as (E1 & Hb & Rb). set (t := rnd float32 (ln (1 - p))) in *.
  assert (T0 : L1 (Fin (- p)) = Fin t). { unfold L1. rewrite xadd_fin. cbn [xlog]. rewrite rlog_pos by lra. exact E1. }
  assert (T1 : exists u, L (Fin p) = Fin u). { destruct (log_fn_finite _ _ (log_rounded float32) p P0 Rp) as (u & Eu & _). exists u. exact Eu. } destruct T1 as (u & T1).
  assert (One : fl_multiply_no_nan float32 (Fin t) (Fin 1) = Fin t) by (rewrite mnn_fin; unfold fmul; rewrite xmul_fin, Rmult_1_r; apply fround_repr; auto).
  exists (- t). unfold fl_bern_entropy, fl_bern_kl. cbn [fl_bern_both]. rewrite Q0, Q1, minus_one, T0, T1, !mnn_zero, One by auto. split; [|split].
  - rewrite fadd_0_r by exact Rb. apply minus_one; auto.
  - rewrite coin_pair. destruct (Rlt_dec 0 (1 - p)); [|lra]. destruct (Rlt_dec 0 p); [|lra]. split; [lra|].
    assert (Lp : ln p <= - 15). { unfold p. rewrite ln_Rinv, ln_pow by (cbn; lra). replace (INR 30) with 30 by (rewrite INR_IZR_INZ; reflexivity). assert (/ 2 <= ln 2); [|lra]. assert (X : ln (/ 2) <= / 2 - 1). { pose proof (exp_ineq1_le (ln (/ 2))) as Y. rewrite exp_ln in Y by lra. lra. } rewrite ln_Rinv in X by lra. lra. }
    assert (p * ln p <= p * - 15) by (apply Rmult_le_compat_l; lra). assert ((1 - p) * ln (1 - p) <= 0) by nra. lra.
  - rewrite minus_one, Ropp_0, Ropp_involutive by apply repr_0. assert (Z1 : L1 (Fin 0) = Fin 0) by (unfold L1; rewrite xadd_fin, Rplus_0_r; cbn [xlog]; rewrite rlog_pos, ln_1 by lra; apply fround_0). rewrite Z1.
    assert (Z : fl_multiply_no_nan float32 (Fin 0) (Fin 1) = Fin 0) by (rewrite mnn_fin; unfold fmul; rewrite xmul_fin, Rmult_0_l; apply fround_0). rewrite Z.
    assert (D : forall v, repr float32 v -> fsub float32 (Fin v) (Fin 0) = Fin v) by (intros v Rv; unfold fsub; rewrite xsub_fin, Rminus_0_r; apply fround_repr; auto). rewrite (D 0 (repr_0 _)), fadd_0_l by exact Rb. apply D. auto.
Qed.

(** ** Numbers for float32 *)
Lemma logits_describe dt B M l : repr dt l -> Rabs l <= B -> B + 1 <= M -> describes dt B M (BLogits (Fin l)) (/ (1 + exp (- l))).
Proof.
  intros Rl Bl BM. assert (G : forall x, Rabs x <= B -> Rabs (ln (/ (1 + exp (- x)))) <= M).
  { intros x Bx. pose proof (exp_pos (- x)). rewrite ln_Rinv, Rabs_Ropp by lra. apply Rabs_le_inv in Bx. assert (U : 1 + exp (- x) <= exp (B + 1)).
    { rewrite exp_plus. pose proof (exp_ineq1_le 1). assert (exp (- x) <= exp B) by (apply Raux.exp_le; lra). assert (1 <= exp B) by (rewrite <- exp_0; apply Raux.exp_le; lra). nra. }
    assert (0 < ln (1 + exp (- x))) by (rewrite <- ln_1; apply ln_increasing; lra). rewrite Rabs_pos_eq by lra. apply Rle_trans with (B + 1); [|auto]. rewrite <- (ln_exp (B + 1)). destruct U as [U|U]; [left; apply ln_increasing; lra|rewrite U; lra]. }
  unfold describes. split; [auto|]. pose proof (exp_pos (- l)). split; [split; [apply Rinv_0_lt_compat; lra|rewrite <- Rinv_1; apply Rinv_lt_contravar; lra]|]. split; [apply G; auto|]. rewrite <- logistic_neg. apply G. rewrite Rabs_Ropp. auto.
Qed.
(** float32, library functions within 2 units, logits within 80 or probabilities with logarithms within 81 *)
Theorem C106_float32 L L1 G S d1 d2 p1 p2 : accurate float32 2 L ln (fun c => 0 < c) -> accurate float32 2 L1 (fun x => ln (1 + x)) (fun x => -1 < x <= 0) ->
  accurate float32 2 G (fun x => / (1 + exp (- x))) (fun x => Rabs x <= 80) -> accurate float32 2 S (fun x => ln (1 + exp x)) (fun x => Rabs x <= 80) ->
  describes float32 80 81 d1 p1 -> describes float32 80 81 d2 p2 ->
  close (fl_bern_entropy float32 L L1 G S d1) (shannon_entropy 2 (coin p1)) (/ 4000) /\ close (fl_bern_kl float32 L L1 G S d1 d2) (relative_entropy 2 (coin p1) (coin p2)) (/ 2000).
Proof.
  intros HL HL1 HG HS D1 D2. pose proof eps32 as E32. assert (E32' : eps float32 = / 16777216) by (rewrite E32; f_equal; cbn; lra). clear E32. pose proof max32 as M32. cbn [pow] in M32.
  assert (Et : (2 + 1) * eps float32 * (1 + 81) <= / 16) by (rewrite E32'; lra). split.
  - eapply close_weaken; [apply (C106_entropy float32 2 80 81 L L1 G S); auto; lra|rewrite E32'; lra].
  - eapply close_weaken; [apply (C106_kl float32 2 80 81 L L1 G S); auto; lra|rewrite E32'; lra].
Qed.
(** the hypotheses are met: logits 1 against probability 1/2, correctly rounded functions *)
Lemma rounded_32 (F : R -> R) (P : R -> Prop) : (forall x, repr float32 x -> P x -> Rabs (F x) <= maxpow float32 / 2) ->
  accurate float32 2 (fun a : XR => match a with Fin x => fround float32 (Fin (F x)) | _ => NaN end) F P.
Proof.
  intros H x Rx Px. destruct (round_fin float32 (F x) (H x Rx Px)) as (r & Er & Rr & _ & Ev). exists r. split; [auto|]. split; [auto|]. rewrite Ev. eapply Rle_trans; [apply rnd_rel|].
  pose proof (eps_pos float32). pose proof (Rabs_pos (F x)). apply Rplus_le_compat_r. apply Rmult_le_compat_r; lra.
Qed.
Example ex_bernoulli : let rd (f : R -> R) := fun a : XR => match a with Fin x => fround float32 (Fin (f x)) | _ => NaN end in
  let L := rd ln in let L1 := rd (fun x => ln (1 + x)) in let G := rd (fun x => / (1 + exp (- x))) in let S := rd (fun x => ln (1 + exp x)) in
  close (fl_bern_entropy float32 L L1 G S (BLogits (Fin 1))) (shannon_entropy 2 (coin (/ (1 + exp (- (1)))))) (/ 4000) /\
  close (fl_bern_kl float32 L L1 G S (BLogits (Fin 1)) (BProbs (Fin (/ 2)))) (relative_entropy 2 (coin (/ (1 + exp (- (1))))) (coin (/ 2))) (/ 2000).
Proof.
  intros rd L L1 G S. pose proof max32 as M32. cbn [pow] in M32.
  assert (HL : accurate float32 2 L ln (fun c => 0 < c)).
  { apply rounded_32. intros x Rx X0. apply Rabs_le. pose proof (ln_repr float32 x Rx X0) as Q. replace (bpow radix2 (emax float32 - 1)) with (maxpow float32 / 2) in Q by (unfold maxpow; change (emax float32) with (1 + 127)%Z; rewrite bpow_plus; change (1 + 127 - 1)%Z with 127%Z; change (bpow radix2 1) with 2; field). exact Q. }
  assert (HL1 : accurate float32 2 L1 (fun x => ln (1 + x)) (fun x => -1 < x <= 0)).
  { apply rounded_32. intros x Rx X0. destruct (Rle_dec x (- / 2)) as [X1|X1].
    - assert (Rs : repr float32 (1 + x)). { replace (1 + x) with (1 - - x) by ring. split; [apply sterbenz; [typeclasses eauto|typeclasses eauto|apply F_1|apply F_opp; apply Rx|lra]|]. rewrite Rabs_pos_eq; lra. }
      apply Rabs_le. pose proof (ln_repr float32 (1 + x) Rs ltac:(lra)) as Q. replace (bpow radix2 (emax float32 - 1)) with (maxpow float32 / 2) in Q by (unfold maxpow; change (emax float32) with (1 + 127)%Z; rewrite bpow_plus; change (1 + 127 - 1)%Z with 127%Z; change (bpow radix2 1) with 2; field). exact Q.
    - assert (ln (1 + x) <= 0) by (rewrite <- ln_1; destruct X0 as [_ [X0|X0]]; [left; apply ln_increasing; lra|rewrite X0, Rplus_0_r; lra]).
      assert (X : ln (/ (1 + x)) <= / (1 + x) - 1). { pose proof (exp_ineq1_le (ln (/ (1 + x)))) as Y. rewrite exp_ln in Y by (apply Rinv_0_lt_compat; lra). lra. } rewrite ln_Rinv in X by lra. assert (/ (1 + x) <= 2) by (rewrite <- (Rinv_involutive 2) by lra; apply Rinv_le_contravar; lra). apply Rabs_le. lra. }
  assert (HG : accurate float32 2 G (fun x => / (1 + exp (- x))) (fun x => Rabs x <= 80)).
  { apply rounded_32. intros x _ _. pose proof (exp_pos (- x)). rewrite Rabs_pos_eq by (left; apply Rinv_0_lt_compat; lra). apply Rle_trans with 1; [rewrite <- Rinv_1; apply Rinv_le_contravar; lra|lra]. }
  assert (HS : accurate float32 2 S (fun x => ln (1 + exp x)) (fun x => Rabs x <= 80)).
  { apply rounded_32. intros x _ Bx. pose proof (exp_pos x). assert (0 < ln (1 + exp x)) by (rewrite <- ln_1; apply ln_increasing; lra). rewrite Rabs_pos_eq by lra. apply Rabs_le_inv in Bx.
    assert (U : 1 + exp x <= exp 81). { replace 81 with (80 + 1) by ring. rewrite exp_plus. pose proof (exp_ineq1_le 1). assert (exp x <= exp 80) by (apply Raux.exp_le; lra). assert (1 <= exp 80) by (pose proof (exp_ineq1_le 80); lra). nra. }
    apply Rle_trans with 81; [|lra]. rewrite <- (ln_exp 81). destruct U as [U|U]; [left; apply ln_increasing; lra|rewrite U; lra]. }
  assert (D1 : describes float32 80 81 (BLogits (Fin 1)) (/ (1 + exp (- (1))))) by (apply logits_describe; [apply repr_1|rewrite Rabs_R1; lra|lra]).
  assert (R2 : repr float32 (/ 2)) by (change (/ 2) with (bpow radix2 (-1)); apply repr_pow; cbn; unfold emin; cbn; lia).
  assert (D2 : describes float32 80 81 (BProbs (Fin (/ 2))) (/ 2)).
  { split; [split; [exact R2|auto]|]. split; [lra|]. replace (1 - / 2) with (/ 2) by field. rewrite ln_Rinv, Rabs_Ropp by lra. assert (0 < ln 2) by (rewrite <- ln_1; apply ln_increasing; lra). assert (ln 2 <= 1). { pose proof (exp_ineq1_le (ln 2)) as Y. rewrite exp_ln in Y by lra. lra. } rewrite Rabs_pos_eq by lra. lra. }
  apply (C106_float32 L L1 G S _ _ _ _ HL HL1 HG HS D1 D2).
Qed.
Print Assumptions C106_entropy_symmetric.
Print Assumptions C106_entropy_nonnegative.
Print Assumptions C106_certain.
Print Assumptions C106_small_probability_refuted.
Print Assumptions C106_float32.
