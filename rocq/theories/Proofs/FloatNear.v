(** Relative error: [near w m r t] says [r] is [t] up to [m] roundings, each a factor between [w] and [1 / w]. *)
From Coq Require Import Reals Lra Lia List ZArith.
From Flocq Require Import Core.
From Verif Require Import Base.XR Base.Float Spec.Rounding Proofs.FloatOrder Props.FloatNormalize Props.FloatBij.
Import ListNotations.
Local Open Scope R_scope.

Definition near (w : R) (m : nat) (r t : R) : Prop := t * w ^ m <= r <= t * (/ w) ^ m.
Section Near.
Variable w : R.
Hypothesis w_pos : 0 < w.
Hypothesis w_le : w <= 1.
Notation near := (near w).
Lemma iw_pos : 0 < / w. Proof. apply Rinv_0_lt_compat; auto. Qed.
Lemma iw_ge : 1 <= / w. Proof. rewrite <- Rinv_1. apply Rinv_le_contravar; auto. Qed.
Lemma pw_pos m : 0 < w ^ m. Proof. apply pow_lt; auto. Qed.
Lemma piw_pos m : 0 < (/ w) ^ m. Proof. apply pow_lt, iw_pos. Qed.
Lemma pw_inv m : w ^ m * (/ w) ^ m = 1.
Proof. rewrite <- Rpow_mult_distr, Rinv_r, pow1 by lra. auto. Qed.
Lemma pw_dec a b : (a <= b)%nat -> w ^ b <= w ^ a.
Proof.
  intros H. replace b with (a + (b - a))%nat by lia. rewrite pow_add. pose proof (pw_pos a). pose proof (pw_pos (b - a)).
  assert (w ^ (b - a) <= 1 ^ (b - a)) by (apply pow_incr; lra). rewrite pow1 in *. nra.
Qed.
Lemma piw_inc a b : (a <= b)%nat -> (/ w) ^ a <= (/ w) ^ b.
Proof. intros H. apply Rle_pow; [apply iw_ge|auto]. Qed.
Lemma near_nonneg m r t : near m r t -> 0 <= t -> 0 <= r.
Proof. intros [A _] T. pose proof (pw_pos m). nra. Qed.
Lemma near_zero m r : near m r 0 -> r = 0.
Proof. intros [A B]. lra. Qed.
Lemma near_pos m r t : near m r t -> 0 < t -> 0 < r.
Proof. intros [A _] T. pose proof (pw_pos m). nra. Qed.
Lemma near_refl m t : 0 <= t -> near m t t.
Proof.
  intros T. pose proof (pw_dec 0 m ltac:(lia)). pose proof (piw_inc 0 m ltac:(lia)). cbn [pow] in *. unfold FloatNear.near. nra.
Qed.
Lemma near_weaken a b r t : near a r t -> 0 <= t -> (a <= b)%nat -> near b r t.
Proof.
  intros [A B] T H. pose proof (pw_dec a b H). pose proof (piw_inc a b H). split.
  - apply Rle_trans with (2 := A). apply Rmult_le_compat_l; auto.
  - apply Rle_trans with (1 := B). apply Rmult_le_compat_l; auto.
Qed.
Lemma near_trans a b r s t : near a r s -> near b s t -> near (b + a) r t.
Proof.
  intros [A1 A2] [B1 B2]. pose proof (pw_pos a). pose proof (piw_pos a). unfold FloatNear.near. rewrite !pow_add, <- !Rmult_assoc. split.
  - apply Rle_trans with (2 := A1). apply Rmult_le_compat_r; lra.
  - apply Rle_trans with (1 := A2). apply Rmult_le_compat_r; lra.
Qed.
Lemma near_scale c m r t : 0 <= c -> near m r t -> near m (c * r) (c * t).
Proof. intros C [A B]. split; rewrite Rmult_assoc; apply Rmult_le_compat_l; auto. Qed.
Lemma near_prod a b x X y Y : 0 <= X -> 0 <= Y -> near a x X -> near b y Y -> near (a + b) (x * y) (X * Y).
Proof.
  intros HX HY Nx Ny. pose proof (near_nonneg b y Y Ny HY) as Y0. rewrite Nat.add_comm. apply near_trans with (s := y * X).
  - rewrite (Rmult_comm x). apply near_scale; auto.
  - rewrite (Rmult_comm y). apply near_scale; auto.
Qed.
Lemma near_total m (r t : nat -> R) l : (forall i, In i l -> near m (r i) (t i)) -> near m (total r l) (total t l).
Proof.
  induction l as [|a l IH]; intros H; unfold FloatNear.near; rewrite ?total_cons, ?total_nil; [lra|].
  destruct (H a (or_introl eq_refl)) as [A B]. destruct (IH (fun i Hi => H i (or_intror Hi))) as [C D]. lra.
Qed.
(** dividing by a number near 1 *)
Lemma near_cancel a b x P F : 0 <= F -> near a x 1 -> near b (x * P) F -> near (b + a) P F.
Proof.
  intros HF Hx [B1 B2]. pose proof (near_pos _ _ _ Hx Rlt_0_1) as X0. destruct Hx as [A1 A2]. rewrite Rmult_1_l in A1, A2.
  pose proof (pw_pos a) as Wa. pose proof (piw_pos a) as Ia. pose proof (pw_pos b) as Wb. pose proof (piw_pos b) as Ib. pose proof (pw_inv a) as I.
  assert (P0 : 0 <= P) by (apply Rmult_le_reg_l with x; [auto|]; rewrite Rmult_0_r; nra).
  unfold FloatNear.near. rewrite !pow_add, <- !Rmult_assoc. split.
  - apply Rle_trans with (x * P * w ^ a); [apply Rmult_le_compat_r; lra|].
    apply Rle_trans with ((/ w) ^ a * P * w ^ a); [|right; replace ((/ w) ^ a * P * w ^ a) with (P * (w ^ a * (/ w) ^ a)) by ring; rewrite I; ring].
    apply Rmult_le_compat_r; [lra|]. apply Rmult_le_compat_r; auto.
  - apply Rle_trans with (x * P * (/ w) ^ a); [|apply Rmult_le_compat_r; lra].
    apply Rle_trans with (w ^ a * P * (/ w) ^ a); [right; replace (w ^ a * P * (/ w) ^ a) with (P * (w ^ a * (/ w) ^ a)) by ring; rewrite I; ring|].
    apply Rmult_le_compat_r; [lra|]. apply Rmult_le_compat_r; auto.
Qed.
Lemma near_quot a b y P f F : 0 <= f -> 0 < F -> near a y f -> near b P F -> near (a + b) (y / P) (f / F).
Proof.
  intros Hf HF Hy HP. pose proof (near_pos _ _ _ HP HF) as P0.
  assert (H1 : near b (P / F) 1).
  { replace 1 with (/ F * F) by (field; lra). unfold Rdiv. rewrite Rmult_comm. apply near_scale; [apply Rlt_le, Rinv_0_lt_compat; auto|auto]. }
  apply (near_cancel b a (P / F)); auto.
  - apply Rmult_le_pos; [auto|apply Rlt_le, Rinv_0_lt_compat; auto].
  - replace (P / F * (y / P)) with (/ F * y) by (field; lra). replace (f / F) with (/ F * f) by (unfold Rdiv; ring).
    apply near_scale; [apply Rlt_le, Rinv_0_lt_compat; auto|auto].
Qed.
(** a number near something at least twice [d] is at least [d] when the roundings amount to a factor 2 at most *)
Lemma near_floor m r t d : near m r t -> / 2 <= w ^ m -> 0 <= t -> (t = 0 \/ 2 * d <= t) -> r = 0 \/ d <= r.
Proof. intros [A B] H T [-> |D]; [left; lra|right]. nra. Qed.
Lemma near_ceil m r t : near m r t -> / 2 <= w ^ m -> 0 <= t -> r <= 2 * t.
Proof. intros [A B] H T. pose proof (pw_inv m). pose proof (piw_pos m). assert ((/ w) ^ m <= 2) by nra. nra. Qed.
Lemma near_ln m r t : near m r t -> 0 < t -> Rabs (ln r - ln t) <= INR m * - ln w.
Proof.
  intros N T. pose proof (near_pos _ _ _ N T) as R0. destruct N as [A B]. pose proof (pw_pos m). pose proof (piw_pos m). pose proof iw_pos.
  assert (E : forall k, ln (w ^ k) = INR k * ln w).
  { intros k. induction k as [|k IH]; [cbn; rewrite ln_1; ring|]. cbn [pow]. rewrite ln_mult, IH, S_INR by (auto using pw_pos). ring. }
  assert (E' : ln ((/ w) ^ m) = - (INR m * ln w)).
  { rewrite <- E, <- ln_Rinv by auto. f_equal. rewrite pow_inv. auto. }
  assert (C1 : ln t + ln (w ^ m) <= ln r). { rewrite <- ln_mult by auto. destruct (Rle_lt_or_eq_dec _ _ A) as [G| ->]; [left; apply ln_increasing; auto; apply Rmult_lt_0_compat; auto|lra]. }
  assert (C2 : ln r <= ln t + ln ((/ w) ^ m)). { rewrite <- ln_mult by auto. destruct (Rle_lt_or_eq_dec _ _ B) as [G| ->]; [left; apply ln_increasing; auto|lra]. }
  rewrite E in C1. rewrite E' in C2. apply Rabs_le. lra.
Qed.
Lemma near_half_ln m r t : near m r t -> / 2 <= w ^ m -> 0 < t -> Rabs (ln r - ln t) <= 1.
Proof.
  intros N H T. pose proof (near_pos _ _ _ N T) as R0. pose proof (near_ceil _ _ _ N H ltac:(lra)) as C. destruct N as [A _].
  assert (L : t * / 2 <= r) by nra. pose proof (exp_ineq1 1 ltac:(lra)) as X.
  assert (L2 : ln 2 <= 1). { rewrite <- (ln_exp 1). left. apply ln_increasing; lra. }
  assert (C1 : ln t - ln 2 <= ln r).
  { unfold Rminus. rewrite <- ln_Rinv, <- ln_mult by lra. destruct (Rle_lt_or_eq_dec _ _ L) as [G| ->]; [left; apply ln_increasing; auto; lra|lra]. }
  assert (C2 : ln r <= ln 2 + ln t).
  { rewrite <- ln_mult by lra. destruct (Rle_lt_or_eq_dec _ _ C) as [G| ->]; [left; apply ln_increasing; auto; lra|lra]. }
  apply Rabs_le. lra.
Qed.
End Near.

Section Rnd.
Variable dt : dtype.
Notation e := (eps dt).
Notation w := (1 - eps dt).
Lemma w_range : / 2 <= w /\ w < 1. Proof. pose proof (eps_pos dt). pose proof (eps_le dt). lra. Qed.
Lemma one_plus : 1 + e <= / w.
Proof.
  pose proof (eps_pos dt). pose proof (eps_le dt). apply Rmult_le_reg_r with w; [lra|]. rewrite Rinv_l by lra. nra.
Qed.
Lemma near_rnd x : x = 0 \/ tiny dt <= x -> near w 1 (rnd dt x) x.
Proof.
  pose proof (eps_pos dt). pose proof (eps_le dt). pose proof one_plus as O. pose proof (tiny_pos dt). unfold near. rewrite !pow_1.
  intros [-> |T]; [rewrite rnd_0; lra|]. pose proof (rnd_err dt x) as E. rewrite (Rabs_pos_eq x) in E by lra.
  specialize (E T). apply Rabs_le_inv in E. nra.
Qed.
Lemma near_sum p o S : (forall i, repr dt (p i)) -> (forall i, 0 <= p i) -> sum_in dt o (fun i => Fin (p i)) = Fin S ->
  repr dt S /\ 0 <= S /\ (forall i, In i (visits o) -> p i <= S) /\ near w (depth o) S (total p (visits o)).
Proof.
  intros R P E. destruct (sum_in_cases dt p R P o) as [Q|(S' & Q & RS & PS & M & B1 & B2)]; [congruence|].
  assert (S' = S) as -> by congruence. split; [auto|]. split; [auto|]. split; [auto|].
  pose proof (total_nonneg p (visits o) ltac:(auto)) as T. split; [rewrite Rmult_comm; auto|].
  apply Rle_trans with (1 := B2). rewrite Rmult_comm. apply Rmult_le_compat_l; [auto|]. apply pow_incr. pose proof (eps_pos dt). split; [lra|apply one_plus].
Qed.
Lemma ln_w : - ln w <= 2 * e.
Proof.
  pose proof (eps_pos dt). pose proof (eps_le dt). pose proof (exp_ineq1 (2 * e) ltac:(lra)) as X.
  assert (Y : exp (- (2 * e)) <= w).
  { rewrite exp_Ropp. apply Rle_trans with (/ (1 + 2 * e)); [apply Rinv_le_contravar; lra|].
    apply Rmult_le_reg_r with (1 + 2 * e); [lra|]. rewrite Rinv_l by lra. nra. }
  apply Ropp_le_cancel. rewrite Ropp_involutive. rewrite <- (ln_exp (- (2 * e))).
  destruct (Rle_lt_or_eq_dec _ _ Y) as [G| ->]; [left; apply ln_increasing; auto; apply exp_pos|lra].
Qed.
End Rnd.
