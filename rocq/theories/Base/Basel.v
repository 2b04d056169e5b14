(** Infrastructure: sum_{k>=1} 1/k^2 = pi^2/6 (Matsuoka's proof: the integrals of cos^(2n) and x^2 cos^(2n) over [0, pi/2]). *)
From Coq Require Import Reals Lra Lia.
From Coquelicot Require Import Coquelicot.
From Verif Require Import Base.Integral.
Local Open Scope R_scope.

Fixpoint inv_squares (n : nat) : R := match n with O => 0 | S m => inv_squares m + / INR (S m) ^ 2 end.

Definition cI (n : nat) : R := RInt (fun x => cos x ^ (2 * n)) 0 (PI / 2).
Definition cJ (n : nat) : R := RInt (fun x => x ^ 2 * cos x ^ (2 * n)) 0 (PI / 2).
Lemma cI_ok n : is_RInt (fun x => cos x ^ (2 * n)) 0 (PI / 2) (cI n).
Proof.
  apply (@RInt_correct R_CompleteNormedModule), (@ex_RInt_continuous R_CompleteNormedModule). intros z _.
  apply (@ex_derive_continuous R_AbsRing R_NormedModule). auto_derive; auto.
Qed.
Lemma cJ_ok n : is_RInt (fun x => x ^ 2 * cos x ^ (2 * n)) 0 (PI / 2) (cJ n).
Proof.
  apply (@RInt_correct R_CompleteNormedModule), (@ex_RInt_continuous R_CompleteNormedModule). intros z _.
  apply (@ex_derive_continuous R_AbsRing R_NormedModule). auto_derive; auto.
Qed.
Lemma rint_lin2 (f g : R -> R) a b u v c d : is_RInt f a b u -> is_RInt g a b v -> is_RInt (fun x => c * f x + d * g x) a b (c * u + d * v).
Proof. intros Hf Hg. apply (is_RInt_plus (V := R_NormedModule)); apply (is_RInt_scal (V := R_NormedModule)); auto. Qed.
Lemma sin2 x : sin x * sin x = 1 - cos x * cos x.
Proof. pose proof (sin2_cos2 x) as H. unfold Rsqr in H. lra. Qed.
Lemma dbl n : (2 * S n = S (S (2 * n)))%nat. Proof. lia. Qed.

Lemma cI_rec n : (2 * INR n + 2) * cI (S n) = (2 * INR n + 1) * cI n.
Proof.
  pose proof (rint_lin2 _ _ _ _ _ _ (2 * INR n + 2) (- (2 * INR n + 1)) (cI_ok (S n)) (cI_ok n)) as A.
  assert (B : is_RInt (fun x => (2 * INR n + 2) * cos x ^ (2 * S n) + - (2 * INR n + 1) * cos x ^ (2 * n)) 0 (PI / 2)
     ((fun x => cos x ^ (S (2 * n)) * sin x) (PI / 2) - (fun x => cos x ^ (S (2 * n)) * sin x) 0)).
  { apply (is_RInt_of_derive (fun x => cos x ^ (S (2 * n)) * sin x)).
    - intros x. auto_derive; auto.
      replace (match (n + (n + 0))%nat with | 0%nat => 1 | S _ => INR (n + (n + 0)) + 1 end) with (2 * INR n + 1).
      2:{ change (2 * INR n + 1 = INR (S (n + (n + 0)))). rewrite S_INR, !plus_INR. cbn. ring. }
      rewrite dbl. replace (n + (n + 0))%nat with (2 * n)%nat by lia. cbn [pow].
      match goal with |- ?L = ?R => replace L with (R + (2 * INR n + 1) * cos x ^ (2 * n) * (1 - cos x * cos x - sin x * sin x)) by ring end.
      rewrite sin2. ring.
    - intros x. apply (@ex_derive_continuous R_AbsRing R_NormedModule). auto_derive; auto. }
  pose proof (is_RInt_unique _ _ _ _ A) as UA. pose proof (is_RInt_unique _ _ _ _ B) as UB. rewrite UA in UB.
  rewrite cos_PI2, sin_0, pow_i in UB by lia. lra.
Qed.
Lemma cIJ n : cI (S n) = (INR n + 1) * (2 * INR n + 1) * cJ n - 2 * (INR n + 1) ^ 2 * cJ (S n).
Proof.
  pose proof (rint_lin2 _ _ _ _ _ _ (2 * (INR n + 1) ^ 2) (- ((INR n + 1) * (2 * INR n + 1))) (cJ_ok (S n)) (cJ_ok n)) as A0.
  pose proof (rint_lin2 _ _ _ _ _ _ 1 1 (cI_ok (S n)) A0) as A.
  assert (B : is_RInt (fun x => 1 * cos x ^ (2 * S n) + 1 * (2 * (INR n + 1) ^ 2 * (x ^ 2 * cos x ^ (2 * S n)) + - ((INR n + 1) * (2 * INR n + 1)) * (x ^ 2 * cos x ^ (2 * n)))) 0 (PI / 2)
     ((fun x => x * cos x ^ (S (S (2 * n))) + (INR n + 1) * (x ^ 2 * (cos x ^ (S (2 * n)) * sin x))) (PI / 2) - (fun x => x * cos x ^ (S (S (2 * n))) + (INR n + 1) * (x ^ 2 * (cos x ^ (S (2 * n)) * sin x))) 0)).
  { apply (is_RInt_of_derive (fun x => x * cos x ^ (S (S (2 * n))) + (INR n + 1) * (x ^ 2 * (cos x ^ (S (2 * n)) * sin x)))).
    - intros x. auto_derive; auto.
      replace (match (n + (n + 0))%nat with | 0%nat => 1 | S _ => INR (n + (n + 0)) + 1 end) with (2 * INR n + 1).
      2:{ change (2 * INR n + 1 = INR (S (n + (n + 0)))). rewrite S_INR, !plus_INR. cbn. ring. }
      rewrite dbl. replace (n + (n + 0))%nat with (2 * n)%nat by lia. cbn [pow].
      match goal with |- ?L = ?R => replace L with (R + (INR n + 1) * (2 * INR n + 1) * x ^ 2 * cos x ^ (2 * n) * (1 - cos x * cos x - sin x * sin x)) by ring end.
      rewrite sin2. ring.
    - intros x. apply (@ex_derive_continuous R_AbsRing R_NormedModule). auto_derive; auto. }
  pose proof (is_RInt_unique _ _ _ _ A) as UA. pose proof (is_RInt_unique _ _ _ _ B) as UB. rewrite UA in UB.
  rewrite cos_PI2, sin_0, !pow_i in UB by lia. lra.
Qed.
Lemma cI0 : cI 0 = PI / 2.
Proof.
  apply is_RInt_unique. replace (PI / 2) with ((fun x => x) (PI / 2) - (fun x => x) 0) at 2 by (cbn; ring). 
  apply (is_RInt_of_derive (fun x => x)); [intros x; auto_derive; auto; cbn; ring|intros; apply (@ex_derive_continuous R_AbsRing R_NormedModule); auto_derive; auto].
Qed.
Lemma cJ0 : cJ 0 = PI ^ 3 / 24.
Proof.
  apply is_RInt_unique. replace (PI ^ 3 / 24) with ((fun x => x ^ 3 / 3) (PI / 2) - (fun x => x ^ 3 / 3) 0) by (cbn; field). 
  apply (is_RInt_of_derive (fun x => x ^ 3 / 3)); [intros x; auto_derive; auto; cbn; field|intros; apply (@ex_derive_continuous R_AbsRing R_NormedModule); auto_derive; auto].
Qed.
Lemma cI_pos n : 0 < cI n.
Proof.
  induction n as [|n IH]; [rewrite cI0; pose proof PI_RGT_0; lra|]. pose proof (pos_INR n). pose proof (cI_rec n) as E.
  assert (0 < (2 * INR n + 2) * cI (S n)). { rewrite E. apply Rmult_lt_0_compat; lra. }
  apply (Rmult_lt_reg_l (2 * INR n + 2)); [lra|]. rewrite Rmult_0_r. auto.
Qed.
Lemma basel_partial n : inv_squares n = PI ^ 2 / 6 - 2 * (cJ n / cI n).
Proof.
  pose proof PI_RGT_0. induction n as [|n IH]; [cbn [inv_squares]; rewrite cI0, cJ0; field; lra|].
  cbn [inv_squares]. rewrite IH. pose proof (pos_INR n) as Hn. pose proof (cI_rec n) as E1. pose proof (cIJ n) as E2. pose proof (cI_pos n) as P1. pose proof (cI_pos (S n)) as P2.
  rewrite S_INR. set (k := INR n + 1) in *. replace (INR n) with (k - 1) in * by (unfold k; ring).
  assert (E3 : cI n = 2 * k / (2 * k - 1) * cI (S n)). { apply (Rmult_eq_reg_l (2 * (k - 1) + 1)); [|lra]. rewrite <- E1. field. lra. }
  assert (E4 : cJ (S n) = (k * (2 * k - 1) * cJ n - cI (S n)) / (2 * k ^ 2)).
  { rewrite E2. field. lra. }
  rewrite E4, E3. field. lra.
Qed.
(** Jordan's inequality on [0, pi/2] *)
Lemma jordan x : 0 <= x <= PI / 2 -> x <= PI / 2 * sin x.
Proof.
  intros Hx. pose proof PI_RGT_0 as HP. set (h := fun t => PI / 2 * sin t - t).
  assert (D : forall t, is_derive h t (PI / 2 * cos t - 1)) by (intros t; unfold h; auto_derive; auto; ring).
  assert (h 0 = 0) by (unfold h; rewrite sin_0; ring). assert (h (PI / 2) = 0) by (unfold h; rewrite sin_PI2; ring).
  destruct (Rle_dec 0 (h x)) as [|N]; [unfold h in *; lra|]. exfalso. apply Rnot_le_lt in N.
  assert (0 < x) by (destruct Hx as [[|<-] _]; lra). assert (x < PI / 2) by (destruct Hx as [_ [| ->]]; lra).
  (* the derivative is negative somewhere before x and positive somewhere after x, but cos is decreasing *)
  destruct (MVT_gen h 0 x (fun t => PI / 2 * cos t - 1)) as (c1 & B1 & E1).
  { intros; apply D. } { intros. apply continuity_pt_filterlim. apply (ex_derive_continuous h). eexists; apply D. }
  destruct (MVT_gen h x (PI / 2) (fun t => PI / 2 * cos t - 1)) as (c2 & B2 & E2).
  { intros; apply D. } { intros. apply continuity_pt_filterlim. apply (ex_derive_continuous h). eexists; apply D. }
  rewrite Rmin_left, Rmax_right in B1, B2 by lra.
  assert (cos c2 <= cos c1). { apply cos_decr_1; lra. }
  assert (PI / 2 * cos c1 - 1 < 0). { apply Rnot_le_lt. intros K. assert (0 <= (PI / 2 * cos c1 - 1) * (x - 0)) by (apply Rmult_le_pos; lra). lra. }
  assert (0 < PI / 2 * cos c2 - 1). { apply Rnot_le_lt. intros K. assert (0 <= - (PI / 2 * cos c2 - 1) * (PI / 2 - x)) by (apply Rmult_le_pos; lra). lra. }
  assert (PI / 2 * cos c2 <= PI / 2 * cos c1) by (apply Rmult_le_compat_l; lra). lra.
Qed.
Lemma cJ_small n : 0 <= cJ n / cI n <= PI ^ 2 / 4 / (2 * INR n + 2).
Proof.
  pose proof PI_RGT_0 as HP. pose proof (pos_INR n) as Hn. pose proof (cI_pos n) as P1. pose proof (cI_rec n) as E1.
  assert (L : cJ n <= PI ^ 2 / 4 * (cI n - cI (S n))).
  { pose proof (rint_lin2 _ _ _ _ _ _ (PI ^ 2 / 4) (- (PI ^ 2 / 4)) (cI_ok n) (cI_ok (S n))) as A.
    replace (PI ^ 2 / 4 * (cI n - cI (S n))) with (PI ^ 2 / 4 * cI n + - (PI ^ 2 / 4) * cI (S n)) by ring.
    apply (is_RInt_le _ _ 0 (PI / 2) _ _ ltac:(lra) (cJ_ok n) A). intros x Hx. cbn beta. rewrite dbl. cbn [pow].
    set (C := cos x ^ (2 * n)). assert (0 <= C). { unfold C. rewrite pow_mult. apply pow_le. cbn. pose proof (Rle_0_sqr (cos x)) as K. unfold Rsqr in K. lra. }
    replace (PI * (PI * 1) / 4 * C + - (PI * (PI * 1) / 4) * (cos x * (cos x * C))) with (C * (PI ^ 2 / 4 * (1 - cos x * cos x))) by field.
    rewrite <- sin2. rewrite (Rmult_comm _ C). apply Rmult_le_compat_l; [auto|].
    pose proof (jordan x ltac:(lra)) as K. assert (0 <= sin x) by (apply sin_ge_0; lra).
    replace (PI ^ 2 / 4 * (sin x * sin x)) with ((PI / 2 * sin x) * (PI / 2 * sin x)) by field.
    rewrite Rmult_1_r. apply Rmult_le_compat; lra. }
  assert (0 <= cJ n).
  { apply (is_RInt_le (fun _ => 0) (fun x => x ^ 2 * cos x ^ (2 * n)) 0 (PI / 2) 0 (cJ n)); [lra| |apply cJ_ok|].
    - pose proof (is_RInt_const (V := R_NormedModule) 0 (PI / 2) 0) as K. unfold scal in K; cbn in K; unfold mult in K; cbn in K. rewrite Rmult_0_r in K. exact K.
    - intros x Hx. rewrite pow_mult. apply Rmult_le_pos; [apply pow2_ge_0|]. apply pow_le, pow2_ge_0. }
  split; [apply Rmult_le_pos; [auto|left; apply Rinv_0_lt_compat; auto]|].
  apply Rle_div_l; [auto|]. replace (PI ^ 2 / 4 / (2 * INR n + 2) * cI n) with (PI ^ 2 / 4 * (cI n - cI (S n))); auto.
  replace (cI (S n)) with ((2 * INR n + 1) * cI n / (2 * INR n + 2)); [field; lra|]. rewrite <- E1. field. lra.
Qed.
Lemma inv_INR_lim (c : R) : is_lim_seq (fun n => c / (2 * INR n + 2)) 0.
Proof.
  replace (Finite 0) with (Rbar_mult c 0) by (cbn; f_equal; ring). apply (is_lim_seq_scal_l (fun n => / (2 * INR n + 2)) c 0).
  replace (Finite 0) with (Rbar_inv p_infty) by reflexivity. apply is_lim_seq_inv; [|discriminate].
  apply (is_lim_seq_le_p_loc INR); [|apply is_lim_seq_INR]. exists 0%nat. intros n _. pose proof (pos_INR n). lra.
Qed.
Theorem basel : is_lim_seq inv_squares (PI ^ 2 / 6).
Proof.
  apply (is_lim_seq_ext (fun n => PI ^ 2 / 6 - 2 * (cJ n / cI n))); [intros; symmetry; apply basel_partial|].
  replace (Finite (PI ^ 2 / 6)) with (Finite (PI ^ 2 / 6 - 2 * 0)) by (f_equal; ring).
  apply is_lim_seq_minus'; [apply is_lim_seq_const|]. apply (is_lim_seq_scal_l (fun n => cJ n / cI n) 2 0).
  apply (is_lim_seq_le_le (fun _ => 0) _ (fun n => PI ^ 2 / 4 / (2 * INR n + 2))); [intros; apply cJ_small|apply is_lim_seq_const|apply inv_INR_lim].
Qed.
