(** Proofs about the rational-quadratic spline. *)
From Coq Require Import List Reals ZArith Bool Arith Lia Lra Psatz.
From Verif Require Import Base.Result Base.Sums Base.Tensor Model.Bijector Model.ScalarBij Model.RQS Spec.Scalar.
Import ListNotations.
Local Open Scope R_scope.

(** ** One bin on [0,1] *)
Section Bin.
Variables s d0 d1 : R.
Hypothesis (Hs : 0 < s) (H0 : 0 < d0) (H1 : 0 < d1).
Definition bD (z : R) := s + (d1 + d0 - 2 * s) * (z - z * z).
Definition bN (z : R) := s * (z * z) + d0 * (z - z * z).
Definition bQ (z : R) := d1 * (z * z) + 2 * s * (z - z * z) + d0 * (1 - z) ^ 2.
Definition bw (z : R) := bN z / bD z.

Lemma u_range z : 0 <= z <= 1 -> 0 <= z - z * z <= / 4.
Proof.
  intros [A B]. split; [assert (0 <= z * (1 - z)) by (apply Rmult_le_pos; lra); lra|].
  pose proof (Rle_0_sqr (z - / 2)) as C. unfold Rsqr in C. lra.
Qed.
Lemma bD_pos z : 0 <= z <= 1 -> 0 < bD z.
Proof.
  intros H. pose proof (u_range z H) as [A B]. unfold bD. set (u := z - z * z) in *.
  replace (s + (d1 + d0 - 2 * s) * u) with (s * (1 - 2 * u) + (d1 + d0) * u) by ring.
  assert (0 < s * (1 - 2 * u)) by (apply Rmult_lt_0_compat; lra).
  assert (0 <= (d1 + d0) * u) by (apply Rmult_le_pos; lra). lra.
Qed.
Lemma bQ_pos z : 0 <= z <= 1 -> 0 < bQ z.
Proof.
  intros H. pose proof (u_range z H) as [A B]. unfold bQ.
  assert (0 <= d1 * (z * z)) by (apply Rmult_le_pos; nra).
  assert (0 <= 2 * s * (z - z * z)) by (apply Rmult_le_pos; lra).
  assert (0 <= d0 * (1 - z) ^ 2) by (apply Rmult_le_pos; nra).
  destruct (Rle_dec z (/2)) as [h|h].
  - assert (0 < d0 * (1 - z) ^ 2) by (apply Rmult_lt_0_compat; nra). lra.
  - assert (0 < d1 * (z * z)) by (apply Rmult_lt_0_compat; nra). lra.
Qed.
Lemma bw_0 : bw 0 = 0. Proof. unfold bw, bN. replace (s * (0*0) + d0 * (0 - 0*0)) with 0 by ring. unfold Rdiv; ring. Qed.
Lemma bw_1 : bw 1 = 1.
Proof. unfold bw, bN, bD. field. replace (s + (d1 + d0 - 2 * s) * (1 - 1 * 1)) with s by ring. lra. Qed.
Lemma bw_lt z1 z2 : 0 <= z1 -> z1 < z2 -> z2 <= 1 -> bw z1 < bw z2.
Proof.
  intros A B C.
  pose proof (bD_pos z1 ltac:(lra)) as P1. pose proof (bD_pos z2 ltac:(lra)) as P2.
  unfold bw. apply (Rmult_lt_reg_r (bD z1 * bD z2)); [apply Rmult_lt_0_compat; auto|].
  replace (bN z1 / bD z1 * (bD z1 * bD z2)) with (bN z1 * bD z2) by (field; lra).
  replace (bN z2 / bD z2 * (bD z1 * bD z2)) with (bN z2 * bD z1) by (field; lra).
  apply Rminus_gt_0_lt.
  replace (bN z2 * bD z1 - bN z1 * bD z2) with
    (s * (z2 - z1) * (s * (z1 * (1 - z2) + z2 * (1 - z1)) + d1 * (z1 * z2) + d0 * ((1 - z1) * (1 - z2))))
    by (unfold bN, bD; ring).
  apply Rmult_gt_0_compat; [apply Rmult_lt_0_compat; lra|].
  assert (0 <= s * (z1 * (1 - z2) + z2 * (1 - z1))) by (apply Rmult_le_pos; nra).
  assert (0 <= d1 * (z1 * z2)) by (apply Rmult_le_pos; nra).
  assert (0 <= d0 * ((1 - z1) * (1 - z2))) by (apply Rmult_le_pos; nra).
  destruct (Req_dec z2 1) as [->|h].
  - destruct (Req_dec z1 0) as [->|h'].
    + replace (0 * (1 - 1) + 1 * (1 - 0)) with 1 in * by ring. nra.
    + assert (0 < d1 * (z1 * 1)) by (apply Rmult_lt_0_compat; lra). lra.
  - assert (0 < d0 * ((1 - z1) * (1 - z2))) by (apply Rmult_lt_0_compat; [lra|apply Rmult_lt_0_compat; lra]). lra.
Qed.
Lemma bw_range z : 0 <= z <= 1 -> 0 <= bw z <= 1.
Proof.
  intros H. split.
  - destruct (Req_dec z 0) as [->|h]; [rewrite bw_0; lra|]. left. rewrite <- bw_0 at 1. apply bw_lt; lra.
  - destruct (Req_dec z 1) as [->|h]; [rewrite bw_1; lra|]. left. rewrite <- bw_1. apply bw_lt; lra.
Qed.
Lemma bw_deriv z : 0 <= z <= 1 -> derivable_pt_lim bw z (s * bQ z / (bD z) ^ 2).
Proof.
  intros H. pose proof (bD_pos z H) as P.
  assert (DN : derivable_pt_lim bN z (2 * s * z + d0 * (1 - 2 * z))).
  { unfold bN.
    replace (2 * s * z + d0 * (1 - 2 * z)) with (s * (1 * z + z * 1) + d0 * (1 - (1 * z + z * 1))) by ring.
    apply (derivable_pt_lim_plus (fun z => s * (z * z)) (fun z => d0 * (z - z * z))).
    - apply (derivable_pt_lim_scal (fun z => z * z)). apply (derivable_pt_lim_mult id id); apply derivable_pt_lim_id.
    - apply (derivable_pt_lim_scal (fun z => z - z * z)).
      apply (derivable_pt_lim_minus id (fun z => z * z)); [apply derivable_pt_lim_id|].
      apply (derivable_pt_lim_mult id id); apply derivable_pt_lim_id. }
  assert (DD : derivable_pt_lim bD z ((d1 + d0 - 2 * s) * (1 - 2 * z))).
  { unfold bD.
    replace ((d1 + d0 - 2 * s) * (1 - 2 * z)) with (0 + (d1 + d0 - 2 * s) * (1 - (1 * z + z * 1))) by ring.
    apply (derivable_pt_lim_plus (fun z => s) (fun z => (d1 + d0 - 2 * s) * (z - z * z))).
    - apply derivable_pt_lim_const.
    - apply (derivable_pt_lim_scal (fun z => z - z * z)).
      apply (derivable_pt_lim_minus id (fun z => z * z)); [apply derivable_pt_lim_id|].
      apply (derivable_pt_lim_mult id id); apply derivable_pt_lim_id. }
  replace (s * bQ z / bD z ^ 2) with
    (((2 * s * z + d0 * (1 - 2 * z)) * bD z - ((d1 + d0 - 2 * s) * (1 - 2 * z)) * bN z) / Rsqr (bD z)).
  - apply (derivable_pt_lim_div bN bD z); [exact DN|exact DD|lra].
  - unfold Rsqr. unfold Rdiv. replace (bD z ^ 2) with (bD z * bD z) by ring. f_equal.
    unfold bQ, bD, bN. ring.
Qed.

(** The quadratic solved by the inverse. *)
Lemma quad_at z w : (s - (d0 - (d1 + d0 - 2 * s) * w)) * z ^ 2 + (d0 - (d1 + d0 - 2 * s) * w) * z + - s * w
  = bN z - w * bD z.
Proof. unfold bN, bD. ring. Qed.
Lemma slope_at z : 0 <= z <= 1 ->
  2 * (s - (d0 - (d1 + d0 - 2 * s) * bw z)) * z + (d0 - (d1 + d0 - 2 * s) * bw z) = s * bQ z / bD z.
Proof.
  intros H. pose proof (bD_pos z H) as P. unfold bw.
  apply (Rmult_eq_reg_r (bD z)); [|lra].
  replace (s * bQ z / bD z * bD z) with (s * bQ z) by (field; lra).
  transitivity (2 * (s * bD z - (d0 * bD z - (d1 + d0 - 2 * s) * bN z)) * z + (d0 * bD z - (d1 + d0 - 2 * s) * bN z)).
  - field. lra.
  - unfold bN, bD, bQ. ring.
Qed.
(** a lower bound on the root of the discriminant *)
Lemma slope_lower z : 0 <= z <= 1 -> s * Rmin s (Rmin d0 d1) / Rmax s (Rmax d0 d1) <= s * bQ z / bD z.
Proof.
  intros H. pose proof (bD_pos z H) as P. pose proof (u_range z H) as [A B].
  set (m := Rmin s (Rmin d0 d1)). set (M := Rmax s (Rmax d0 d1)).
  assert (m <= s /\ m <= d0 /\ m <= d1) as (M1 & M2 & M3).
  { unfold m. pose proof (Rmin_l s (Rmin d0 d1)). pose proof (Rmin_r s (Rmin d0 d1)).
    pose proof (Rmin_l d0 d1). pose proof (Rmin_r d0 d1). lra. }
  assert (s <= M /\ d0 <= M /\ d1 <= M) as (N1 & N2 & N3).
  { unfold M. pose proof (Rmax_l s (Rmax d0 d1)). pose proof (Rmax_r s (Rmax d0 d1)).
    pose proof (Rmax_l d0 d1). pose proof (Rmax_r d0 d1). lra. }
  assert (0 < m). { unfold m. apply Rmin_pos; [auto|apply Rmin_pos; auto]. }
  assert (m <= bQ z).
  { unfold bQ.
    assert (m * (z * z) <= d1 * (z * z)) by (apply Rmult_le_compat_r; nra).
    assert (2 * m * (z - z * z) <= 2 * s * (z - z * z)) by (apply Rmult_le_compat_r; lra).
    assert (m * (1 - z) ^ 2 <= d0 * (1 - z) ^ 2) by (apply Rmult_le_compat_r; nra).
    replace m with (m * (z * z) + 2 * m * (z - z * z) + m * (1 - z) ^ 2) by ring. lra. }
  assert (bD z <= M).
  { unfold bD. set (u := z - z * z) in *.
    replace (s + (d1 + d0 - 2 * s) * u) with (s * (1 - 2 * u) + (d1 + d0) * u) by ring.
    assert (s * (1 - 2 * u) <= M * (1 - 2 * u)) by (apply Rmult_le_compat_r; lra).
    assert ((d1 + d0) * u <= (2 * M) * u) by (apply Rmult_le_compat_r; lra).
    replace M with (M * (1 - 2 * u) + (2 * M) * u) by ring. lra. }
  unfold Rdiv. rewrite !Rmult_assoc. apply Rmult_le_compat_l; [lra|].
  apply Rmult_le_compat; [lra| |auto|].
  - left. apply Rinv_0_lt_compat. lra.
  - apply Rinv_le_contravar; auto.
Qed.
Definition tiny_ok (tiny : R) : Prop := tiny <= (s * Rmin s (Rmin d0 d1) / Rmax s (Rmax d0 d1)) ^ 2.

Lemma root_correct tiny z : 0 <= z <= 1 -> tiny_ok tiny ->
  let w := bw z in
  let b := d0 - (d1 + d0 - 2 * s) * w in
  safe_quadratic_root tiny (s - b) b (- s * w) = z.
Proof.
  intros Hz Ht w b. set (a := s - b). set (c := - s * w).
  assert (E0 : a * z ^ 2 + b * z + c = 0).
  { unfold a, b, c. rewrite quad_at. unfold w, bw. field. pose proof (bD_pos z Hz). lra. }
  assert (E1 : 2 * a * z + b = s * bQ z / bD z) by (apply slope_at; auto).
  set (q := s * bQ z / bD z) in *.
  assert (Hq : 0 < q).
  { unfold q. pose proof (bD_pos z Hz). pose proof (bQ_pos z Hz). apply Rdiv_lt_0_compat; [apply Rmult_lt_0_compat; auto|auto]. }
  assert (Dq : b ^ 2 - 4 * a * c = q ^ 2) by (rewrite <- E1; nra).
  assert (Tq : tiny <= q ^ 2).
  { unfold tiny_ok in Ht. eapply Rle_trans; [exact Ht|].
    assert (L := slope_lower z Hz). fold q in L.
    assert (0 <= s * Rmin s (Rmin d0 d1) / Rmax s (Rmax d0 d1)).
    { left. apply Rdiv_lt_0_compat; [apply Rmult_lt_0_compat; auto; apply Rmin_pos; auto; apply Rmin_pos; auto|].
      eapply Rlt_le_trans; [exact Hs|apply Rmax_l]. }
    apply pow_incr; split; auto. }
  unfold safe_quadratic_root. cbv zeta. rewrite Dq.
  assert (Q2 : 0 < q ^ 2) by (apply pow_lt; auto).
  assert (R1 : Rltb 0 (q ^ 2) = true) by (unfold Rltb; destruct (Rlt_dec 0 (q ^ 2)); [auto|lra]). rewrite R1.
  rewrite Rmax_left by lra. rewrite sqrt_pow2 by lra.
  unfold Rleb. destruct (Rle_dec 0 b) as [hb|hb].
  - (* b >= 0 : 2c / (-b - q); b + q = 2 (a z + b), c = - z (a z + b) *)
    replace (- b - q) with (- (2 * (a * z + b))) by (rewrite <- E1; ring).
    replace (2 * c) with (- (2 * (a * z + b)) * z) by nra.
    field. assert (0 < b + q) by lra. rewrite <- E1 in H. lra.
  - (* b < 0 : (-b + q) / (2a) *)
    assert (0 < a) by (unfold a; lra). rewrite <- E1. field. lra.
Qed.
End Bin.

(** ** The bin search *)
Lemma Rleb_t a b : a <= b -> Rleb a b = true. Proof. intros; unfold Rleb; destruct (Rle_dec a b); auto; lra. Qed.
Lemma Rleb_f a b : b < a -> Rleb a b = false. Proof. intros; unfold Rleb; destruct (Rle_dec a b); auto; lra. Qed.
Lemma Rltb_t a b : a < b -> Rltb a b = true. Proof. intros; unfold Rltb; destruct (Rlt_dec a b); auto; lra. Qed.
Lemma Rltb_f a b : b <= a -> Rltb a b = false. Proof. intros; unfold Rltb; destruct (Rlt_dec a b); auto; lra. Qed.
Lemma clip_id x : 0 <= x <= 1 -> clip x 0 1 = x.
Proof. intros H; unfold clip. rewrite Rmax_left, Rmin_left; lra. Qed.

Definition increasing_list (l : list R) : Prop := forall i, (S i < length l)%nat -> nth i l 0 < nth (S i) l 0.
Lemma incr_lt l i j : increasing_list l -> (i < j)%nat -> (j < length l)%nat -> nth i l 0 < nth j l 0.
Proof.
  intros H Hij Hj. induction j as [|j IH]; [lia|].
  destruct (Nat.eq_dec i j) as [->|]; [apply H; auto|].
  apply (Rlt_trans _ (nth j l 0)); [apply IH; lia|apply H; auto].
Qed.
Lemma incr_le l i j : increasing_list l -> (i <= j)%nat -> (j < length l)%nat -> nth i l 0 <= nth j l 0.
Proof.
  intros H Hij Hj. destruct (Nat.eq_dec i j) as [->|]; [lra|]. left; apply incr_lt; auto; lia.
Qed.
Lemma nth_hd (l : list R) : nth 0 l 0 = hd 0 l. Proof. destruct l; reflexivity. Qed.
Lemma nth_last_R (l : list R) : last l 0 = nth (length l - 1) l 0.
Proof.
  induction l as [|a l IH]; [reflexivity|]. destruct l as [|b l]; [reflexivity|].
  change (last (a :: b :: l) 0) with (last (b :: l) 0). rewrite IH. cbn [length].
  replace (S (S (length l)) - 1)%nat with (S (S (length l) - 1)) by lia. reflexivity.
Qed.
Lemma nth_tl {A} (l : list A) i d : nth i (tl l) d = nth (S i) l d.
Proof. destruct l; [destruct i; reflexivity|reflexivity]. Qed.
Lemma nth_removelast {A} (l : list A) i d : (S i < length l)%nat -> nth i (removelast l) d = nth i l d.
Proof.
  revert i; induction l as [|a l IH]; intros i Hi; [simpl in Hi; lia|].
  destruct l as [|b l]; [simpl in Hi; lia|]. change (removelast (a :: b :: l)) with (a :: removelast (b :: l)).
  destruct i; [reflexivity|]. cbn [nth]. apply IH. simpl in *; lia.
Qed.
Lemma length_removelast {A} (l : list A) : length (removelast l) = (length l - 1)%nat.
Proof.
  induction l as [|a l IH]; [reflexivity|]. destruct l as [|b l]; [reflexivity|].
  change (removelast (a :: b :: l)) with (a :: removelast (b :: l)). cbn [length] in *. rewrite IH. lia.
Qed.
Lemma length_tl {A} (l : list A) : length (tl l) = (length l - 1)%nat.
Proof. destruct l; simpl; lia. Qed.

Lemma mask_sum_one cb l k : (k < length l)%nat -> length cb = length l ->
  (forall i, (i < length l)%nat -> nth i cb false = true <-> i = k) -> mask_sum cb l = nth k l 0.
Proof.
  revert l k. induction cb as [|b cb IH]; intros [|a l] k Hk Hl H; try (simpl in *; lia).
  unfold mask_sum. cbn [combine map rsum fold_right fst snd].
  assert (Hb := H 0%nat ltac:(simpl; lia)). cbn [nth] in Hb.
  fold (rsum (map (fun p : bool * R => (if fst p then 1 else 0) * snd p) (combine cb l))). fold (mask_sum cb l).
  destruct k as [|k].
  - destruct b; [|destruct Hb as [_ Hb]; specialize (Hb eq_refl); discriminate].
    assert (Z : mask_sum cb l = 0).
    { change (mask_sum cb l) with (sumf (fun p : bool * R => (if fst p then 1 else 0) * snd p) (combine cb l)).
      rewrite (sumf_zero (fun p : bool * R => (if fst p then 1 else 0) * snd p)); auto.
      intros [b' a'] Hin. cbn [fst snd]. apply (In_nth _ _ (false, 0)) in Hin. destruct Hin as (i & Hi & E).
      rewrite combine_nth in E by (simpl in Hl; lia). injection E as <- <-.
      rewrite combine_length in Hi. simpl in Hl.
      destruct (nth i cb false) eqn:Ei; [|ring].
      exfalso. apply (H (S i)) in Ei; [discriminate|simpl; lia]. }
    rewrite Z. cbn [nth]. ring.
  - destruct b; [destruct Hb as [Hb _]; specialize (Hb eq_refl); discriminate|].
    rewrite (IH l k).
    + cbn [nth]. ring.
    + simpl in Hk; lia.
    + simpl in Hl; lia.
    + intros i Hi. specialize (H (S i) ltac:(simpl; lia)). cbn [nth] in H. rewrite H. lia.
Qed.

Lemma nth_combine_pair (l1 l2 : list R) i : length l1 = length l2 ->
  nth i (combine l1 l2) (0, 0) = (nth i l1 0, nth i l2 0).
Proof. intros; apply combine_nth; auto. Qed.

Lemma correct_bin_spec x pos k : increasing_list pos -> (S k < length pos)%nat ->
  nth k pos 0 <= x < nth (S k) pos 0 ->
  length (correct_bin x pos) = (length pos - 1)%nat /\
  forall i, (i < length pos - 1)%nat -> nth i (correct_bin x pos) false = true <-> i = k.
Proof.
  intros Hinc Hk Hx. unfold correct_bin.
  set (cb := map _ _).
  assert (Hl : length cb = (length pos - 1)%nat).
  { unfold cb. rewrite map_length, combine_length, length_removelast, length_tl. lia. }
  assert (Hn : forall i, (i < length pos - 1)%nat ->
    nth i cb false = Rleb (nth i pos 0) x && Rltb x (nth (S i) pos 0)).
  { intros i Hi. pose (F := fun p : R * R => Rleb (fst p) x && Rltb x (snd p)).
    change cb with (map F (combine (removelast pos) (tl pos))).
    rewrite (nth_indep _ false (F (0, 0))) by (unfold cb in Hl; fold F in Hl; lia).
    rewrite (map_nth F), nth_combine_pair by (rewrite length_removelast, length_tl; lia).
    unfold F; cbn [fst snd]. rewrite nth_removelast by lia. rewrite nth_tl. reflexivity. }
  assert (Hcb : forall i, (i < length pos - 1)%nat -> nth i cb false = true <-> i = k).
  { intros i Hi. rewrite (Hn i Hi). split.
    - intros E. apply andb_prop in E. destruct E as [E1 E2].
      unfold Rleb, Rltb in *. destruct (Rle_dec (nth i pos 0) x) as [L1|]; [|discriminate].
      destruct (Rlt_dec x (nth (S i) pos 0)) as [L2|]; [|discriminate].
      destruct (lt_eq_lt_dec i k) as [[h|h]|h]; auto; exfalso.
      + pose proof (incr_le pos (S i) k Hinc ltac:(lia) ltac:(lia)). lra.
      + pose proof (incr_le pos (S k) i Hinc ltac:(lia) ltac:(lia)). lra.
    - intros ->. rewrite Rleb_t, Rltb_t by lra. reflexivity. }
  assert (Hex : existsb (fun b => b) cb = true).
  { apply existsb_exists. exists true. split; auto.
    rewrite <- (proj2 (Hcb k ltac:(lia)) eq_refl). apply nth_In. lia. }
  rewrite Hex. split; auto.
Qed.

Lemma mask_pick x pos l k : increasing_list pos -> (S k < length pos)%nat -> length l = length pos ->
  nth k pos 0 <= x < nth (S k) pos 0 ->
  mask_sum (correct_bin x pos) (removelast l) = nth k l 0 /\
  mask_sum (correct_bin x pos) (tl l) = nth (S k) l 0.
Proof.
  intros Hinc Hk Hl Hx. destruct (correct_bin_spec x pos k Hinc Hk Hx) as [L N]. split.
  - rewrite (mask_sum_one _ _ k), nth_removelast; auto; rewrite ?length_removelast; try lia.
    intros i Hi. apply N. lia.
  - rewrite (mask_sum_one _ _ k), nth_tl; auto; rewrite ?length_tl; try lia.
    intros i Hi. apply N. lia.
Qed.

Lemma find_bin x pos : increasing_list pos -> (2 <= length pos)%nat ->
  nth 0 pos 0 <= x < nth (length pos - 1) pos 0 ->
  exists k, (S k < length pos)%nat /\ nth k pos 0 <= x < nth (S k) pos 0.
Proof.
  intros Hinc Hl Hx.
  assert (G : forall n, (n < length pos)%nat -> x < nth n pos 0 ->
    exists k, (S k <= n)%nat /\ nth k pos 0 <= x < nth (S k) pos 0).
  { induction n as [|n IH]; intros Hn Hlt; [lra|].
    destruct (Rlt_dec x (nth n pos 0)) as [h|h].
    - destruct IH as (k & A & B); auto; [lia|]. exists k; split; auto.
    - exists n. split; [lia|]. lra. }
  destruct (G (length pos - 1)%nat ltac:(lia) (proj2 Hx)) as (k & A & B). exists k; split; auto. lia.
Qed.

(** ** The whole spline *)
Section Spline.
Variables xs ys ds : list R.
Hypothesis (Hlen : (2 <= length xs)%nat) (Hly : length ys = length xs) (Hld : length ds = length xs)
  (Hx : increasing_list xs) (Hy : increasing_list ys)
  (Hd : forall i, (i < length xs)%nat -> 0 < nth i ds 0).
Let nb := (length xs - 1)%nat.
Local Notation X k := (nth k xs 0).
Local Notation Y k := (nth k ys 0).
Local Notation D k := (nth k ds 0).
Definition bin_s k := (Y (S k) - Y k) / (X (S k) - X k).
Definition piece k x := Y k + (Y (S k) - Y k) * bw (bin_s k) (D k) (D (S k)) ((x - X k) / (X (S k) - X k)).
Definition piece' k x := bin_s k ^ 2 * bQ (bin_s k) (D k) (D (S k)) ((x - X k) / (X (S k) - X k))
  / bD (bin_s k) (D k) (D (S k)) ((x - X k) / (X (S k) - X k)) ^ 2.

Lemma Xlt k : (k < nb)%nat -> X k < X (S k). Proof. intros; apply Hx; unfold nb in *; lia. Qed.
Lemma Ylt k : (k < nb)%nat -> Y k < Y (S k). Proof. intros; apply Hy; unfold nb in *; lia. Qed.
Lemma Dpos k : (k <= nb)%nat -> 0 < D k. Proof. intros; apply Hd; unfold nb in *; lia. Qed.
Lemma bin_s_pos k : (k < nb)%nat -> 0 < bin_s k.
Proof. intros H. pose proof (Xlt k H). pose proof (Ylt k H). unfold bin_s. apply Rdiv_lt_0_compat; lra. Qed.
Lemma z_range k x : (k < nb)%nat -> X k <= x <= X (S k) -> 0 <= (x - X k) / (X (S k) - X k) <= 1.
Proof.
  intros H Hr. pose proof (Xlt k H). split.
  - apply Rmult_le_pos; [lra|]. left; apply Rinv_0_lt_compat; lra.
  - apply (Rmult_le_reg_r (X (S k) - X k)); [lra|]. unfold Rdiv. rewrite Rmult_assoc, Rinv_l; lra.
Qed.
Lemma piece_left k : (k < nb)%nat -> piece k (X k) = Y k.
Proof.
  intros H. pose proof (Xlt k H). unfold piece. replace ((X k - X k) / (X (S k) - X k)) with 0 by (field; lra).
  rewrite bw_0. ring.
Qed.
Lemma piece_right k : (k < nb)%nat -> piece k (X (S k)) = Y (S k).
Proof.
  intros H. pose proof (Xlt k H). unfold piece. replace ((X (S k) - X k) / (X (S k) - X k)) with 1 by (field; lra).
  rewrite bw_1; [ring|apply bin_s_pos; auto].
Qed.
Lemma piece'_left k : (k < nb)%nat -> piece' k (X k) = D k.
Proof.
  intros H. pose proof (Xlt k H). unfold piece'. replace ((X k - X k) / (X (S k) - X k)) with 0 by (field; lra).
  unfold bQ, bD. pose proof (bin_s_pos k H).
  replace (bin_s k + (D (S k) + D k - 2 * bin_s k) * (0 - 0 * 0)) with (bin_s k) by ring. field. lra.
Qed.
Lemma piece'_right k : (k < nb)%nat -> piece' k (X (S k)) = D (S k).
Proof.
  intros H. pose proof (Xlt k H). unfold piece'. replace ((X (S k) - X k) / (X (S k) - X k)) with 1 by (field; lra).
  unfold bQ, bD. pose proof (bin_s_pos k H).
  replace (bin_s k + (D (S k) + D k - 2 * bin_s k) * (1 - 1 * 1)) with (bin_s k) by ring. field. lra.
Qed.
Lemma piece'_pos k x : (k < nb)%nat -> X k <= x <= X (S k) -> 0 < piece' k x.
Proof.
  intros H Hr. pose proof (bin_s_pos k H) as P. unfold piece'.
  pose proof (z_range k x H Hr) as Z. pose proof (Dpos k ltac:(lia)). pose proof (Dpos (S k) ltac:(lia)).
  apply Rdiv_lt_0_compat; [|apply pow_lt; apply bD_pos; auto].
  apply Rmult_lt_0_compat; [apply pow_lt; auto|apply bQ_pos; auto].
Qed.
Lemma piece_deriv k x : (k < nb)%nat -> X k <= x <= X (S k) -> derivable_pt_lim (piece k) x (piece' k x).
Proof.
  intros H Hr. pose proof (bin_s_pos k H) as P. pose proof (Xlt k H) as L.
  pose proof (z_range k x H Hr) as Z. pose proof (Dpos k ltac:(lia)) as P0. pose proof (Dpos (S k) ltac:(lia)) as P1.
  set (g := fun x => (x - X k) / (X (S k) - X k)).
  assert (Dg : derivable_pt_lim g x (/ (X (S k) - X k))).
  { unfold g. replace (/ (X (S k) - X k)) with ((1 - 0) * / (X (S k) - X k) + (x - X k) * 0) by ring.
    apply (derivable_pt_lim_mult (fun x => x - X k) (fun _ => / (X (S k) - X k))).
    - apply (derivable_pt_lim_minus id (fun _ => X k)); [apply derivable_pt_lim_id|apply derivable_pt_lim_const].
    - apply derivable_pt_lim_const. }
  pose proof (bw_deriv _ _ _ P P0 P1 _ Z) as Dw.
  unfold piece. set (w := bw (bin_s k) (D k) (D (S k))) in *.
  replace (piece' k x) with (0 + (Y (S k) - Y k) *
    ((bin_s k * bQ (bin_s k) (D k) (D (S k)) ((x - X k) / (X (S k) - X k)) /
       bD (bin_s k) (D k) (D (S k)) ((x - X k) / (X (S k) - X k)) ^ 2) * / (X (S k) - X k))).
  - apply (derivable_pt_lim_plus (fun _ => Y k) (fun x => (Y (S k) - Y k) * w (g x))); [apply derivable_pt_lim_const|].
    apply (derivable_pt_lim_scal (fun x => w (g x))). apply (derivable_pt_lim_comp g w); auto.
  - unfold piece'. set (q := bQ _ _ _ _). set (e := bD _ _ _ _).
    assert (0 < e) by (apply bD_pos; auto). unfold bin_s. field. split; lra.
Qed.
Lemma piece_lt k x1 x2 : (k < nb)%nat -> X k <= x1 -> x1 < x2 -> x2 <= X (S k) -> piece k x1 < piece k x2.
Proof.
  intros H A B C. pose proof (Xlt k H) as L. unfold piece. pose proof (Ylt k H).
  apply Rplus_lt_compat_l, Rmult_lt_compat_l; [lra|].
  pose proof (z_range k x1 H ltac:(lra)). pose proof (z_range k x2 H ltac:(lra)).
  apply bw_lt; try lra; try (apply bin_s_pos; auto); try (apply Dpos; lia).
  apply Rmult_lt_compat_r; [apply Rinv_0_lt_compat; lra|lra].
Qed.

(** Region lemma: what [rqs_fwd] computes on each closed region. *)
Lemma fwd_below x : x <= X 0 -> rqs_fwd x xs ys ds = ((x - X 0) * D 0 + Y 0, ln (D 0)).
Proof.
  intros H. unfold rqs_fwd. rewrite <- !nth_hd. fold (X 0) (Y 0) (D 0). rewrite (Rleb_t x (X 0)) by auto.
  rewrite Rleb_f; [reflexivity|]. rewrite nth_last_R.
  pose proof (incr_lt xs 0 (length xs - 1) Hx ltac:(lia) ltac:(lia)). fold (X 0) in *. lra.
Qed.
Lemma fwd_above x : X nb <= x -> rqs_fwd x xs ys ds = ((x - X nb) * D nb + Y nb, ln (D nb)).
Proof.
  intros H. unfold rqs_fwd. rewrite !nth_last_R. rewrite Hly, Hld. fold nb. fold (X nb) (Y nb) (D nb).
  rewrite (Rleb_t (X nb) x) by auto. reflexivity.
Qed.
Lemma piece'_ln k x : (k < nb)%nat -> X k <= x <= X (S k) ->
  let z := (x - X k) / (X (S k) - X k) in
  2 * ln (bin_s k) + ln (bQ (bin_s k) (D k) (D (S k)) z) - 2 * ln (bD (bin_s k) (D k) (D (S k)) z) = ln (piece' k x).
Proof.
  intros H Hr z. pose proof (bin_s_pos k H) as P. pose proof (z_range k x H Hr) as Z.
  pose proof (Dpos k ltac:(lia)) as P0. pose proof (Dpos (S k) ltac:(lia)) as P1.
  unfold piece'. fold z. fold z in Z. pose proof (bQ_pos _ _ _ P P0 P1 z Z) as PQ. pose proof (bD_pos _ _ _ P P0 P1 z Z) as PD.
  set (q := bQ _ _ _ _) in *. set (e := bD _ _ _ _) in *.
  unfold Rdiv. rewrite ln_mult; [|apply Rmult_lt_0_compat; auto; apply pow_lt; auto|apply Rinv_0_lt_compat, pow_lt; auto].
  rewrite ln_mult; [|apply pow_lt; auto|auto]. rewrite ln_Rinv by (apply pow_lt; auto).
  replace (bin_s k ^ 2) with (bin_s k * bin_s k) by ring. replace (e ^ 2) with (e * e) by ring.
  rewrite !ln_mult by auto. ring.
Qed.
Lemma fwd_half k x : (k < nb)%nat -> X k <= x < X (S k) -> X 0 < x ->
  rqs_fwd x xs ys ds = (piece k x, ln (piece' k x)).
Proof.
  intros H Hr H0. assert (Hk : (S k < length xs)%nat) by (unfold nb in H; lia).
  unfold rqs_fwd. rewrite <- !nth_hd, !nth_last_R. fold (X 0).
  rewrite (Rleb_f x (X 0)) by auto.
  assert (L : x < nth (length xs - 1) xs 0).
  { pose proof (incr_le xs (S k) (length xs - 1) Hx ltac:(lia) ltac:(lia)). lra. }
  rewrite Rleb_f by auto.
  destruct (mask_pick x xs xs k Hx Hk eq_refl Hr) as [-> ->].
  destruct (mask_pick x xs ys k Hx Hk Hly Hr) as [-> ->].
  destruct (mask_pick x xs ds k Hx Hk Hld Hr) as [-> ->].
  fold (X k) (X (S k)) (Y k) (Y (S k)) (D k) (D (S k)). fold (bin_s k).
  pose proof (z_range k x H ltac:(lra)) as Z. rewrite clip_id by auto.
  f_equal.
  - unfold piece, bw, bN, bD. f_equal. unfold Rdiv. ring.
  - rewrite <- piece'_ln by (auto; lra). reflexivity.
Qed.
Lemma fwd_bin k x : (k < nb)%nat -> X k <= x <= X (S k) -> rqs_fwd x xs ys ds = (piece k x, ln (piece' k x)).
Proof.
  intros H Hr. destruct (Rle_dec x (X 0)) as [h|h].
  { (* x = X 0, k = 0 *)
    assert (k = 0%nat).
    { destruct k; auto. pose proof (incr_lt xs 0 (S k) Hx ltac:(lia) ltac:(unfold nb in *; lia)). fold (X 0) (X (S k)) in *. lra. }
    subst k. assert (x = X 0) by lra. subst x. rewrite fwd_below by lra.
    rewrite piece_left, piece'_left by auto. f_equal. ring. }
  destruct (Rlt_dec x (X (S k))) as [h'|h'].
  { apply fwd_half; auto; lra. }
  assert (x = X (S k)) by lra. subst x. destruct (Nat.eq_dec (S k) nb) as [e|e].
  - rewrite fwd_above by (rewrite <- e; lra). rewrite <- e. rewrite piece_right, piece'_right by auto. f_equal. ring.
  - rewrite (fwd_half (S k)); [|lia| |lra].
    + rewrite piece_left, piece'_left, piece_right, piece'_right by lia. reflexivity.
    + split; [lra|]. apply Xlt. lia.
Qed.

(** ** Derivative *)
Lemma deriv_glue (f g h : R -> R) x d : derivable_pt_lim g x d -> derivable_pt_lim h x d ->
  (exists del, 0 < del /\ (forall t, x - del < t <= x -> f t = g t) /\ (forall t, x <= t < x + del -> f t = h t)) ->
  derivable_pt_lim f x d.
Proof.
  intros Dg Dh (del & Hdel & Hl & Hr) eps He.
  destruct (Dg eps He) as [d1 H1]. destruct (Dh eps He) as [d2 H2].
  assert (Hm : 0 < Rmin del (Rmin d1 d2)).
  { apply Rmin_pos; auto. apply Rmin_pos; [apply (cond_pos d1)|apply (cond_pos d2)]. }
  exists (mkposreal _ Hm). intros e Hne Hlt. cbn in Hlt.
  pose proof (Rmin_l del (Rmin d1 d2)). pose proof (Rmin_r del (Rmin d1 d2)).
  pose proof (Rmin_l d1 d2). pose proof (Rmin_r d1 d2).
  destruct (Rle_dec 0 e).
  - rewrite Rabs_pos_eq in Hlt by auto. rewrite (Hr x), (Hr (x + e)) by lra. apply H2; auto. rewrite Rabs_pos_eq by auto. lra.
  - rewrite Rabs_left in Hlt by lra. rewrite (Hl x), (Hl (x + e)) by lra. apply H1; auto. rewrite Rabs_left by lra. lra.
Qed.

Definition f x := fst (rqs_fwd x xs ys ds).
Definition lf x := snd (rqs_fwd x xs ys ds).
Lemma lin_deriv a b c x : derivable_pt_lim (fun t => (t - a) * b + c) x b.
Proof.
  apply (eq_ind ((1 - 0) * b + (x - a) * 0 + 0) (fun d => derivable_pt_lim (fun t => (t - a) * b + c) x d)); [|ring].
  apply (derivable_pt_lim_plus (fun t => (t - a) * b) (fun _ => c)); [|apply derivable_pt_lim_const].
  apply (derivable_pt_lim_mult (fun t => t - a) (fun _ => b)); [|apply derivable_pt_lim_const].
  apply (derivable_pt_lim_minus id (fun _ => a)); [apply derivable_pt_lim_id|apply derivable_pt_lim_const].
Qed.
(** Left and right germs at any point with a common derivative [d] and [lf x = ln d]. *)
Lemma left_germ x : exists g d del, 0 < del /\ (forall t, x - del < t <= x -> f t = g t) /\
  derivable_pt_lim g x d /\ 0 < d /\ lf x = ln d.
Proof.
  destruct (Rle_dec x (X 0)) as [h|h].
  { exists (fun t => (t - X 0) * D 0 + Y 0), (D 0), 1. split; [lra|]. split; [|split; [apply lin_deriv|]].
    - intros t Ht. unfold f. rewrite fwd_below by lra. reflexivity.
    - split; [apply Dpos; lia|]. unfold lf. rewrite fwd_below by auto. reflexivity. }
  destruct (Rlt_dec (X nb) x) as [h'|h'].
  { exists (fun t => (t - X nb) * D nb + Y nb), (D nb), (x - X nb). split; [lra|]. split; [|split; [apply lin_deriv|]].
    - intros t Ht. unfold f. rewrite fwd_above by lra. reflexivity.
    - split; [apply Dpos; lia|]. unfold lf. rewrite fwd_above by lra. reflexivity. }
  assert (E : exists k, (k < nb)%nat /\ X k < x <= X (S k)).
  { assert (G : forall n, (n <= nb)%nat -> x <= X n -> exists k, (k < n)%nat /\ X k < x <= X (S k)).
    { induction n as [|n IH]; intros Hn Hle; [lra|].
      destruct (Rle_dec x (X n)) as [q|q]; [destruct IH as (k & A & B); auto; [lia|]; exists k; split; auto; lia|].
      exists n; split; [lia|lra]. }
    destruct (G nb (Nat.le_refl _) ltac:(lra)) as (k & A & B). exists k; auto. }
  destruct E as (k & Hk & Hr). exists (piece k), (piece' k x), (x - X k).
  split; [lra|]. split; [|split; [apply piece_deriv; auto; lra|split; [apply piece'_pos; auto; lra|]]].
  - intros t Ht. unfold f. rewrite (fwd_bin k) by (auto; lra). reflexivity.
  - unfold lf. rewrite (fwd_bin k) by (auto; lra). reflexivity.
Qed.
Lemma right_germ x : exists g d del, 0 < del /\ (forall t, x <= t < x + del -> f t = g t) /\
  derivable_pt_lim g x d /\ 0 < d /\ lf x = ln d.
Proof.
  destruct (Rle_dec (X nb) x) as [h|h].
  { exists (fun t => (t - X nb) * D nb + Y nb), (D nb), 1. split; [lra|]. split; [|split; [apply lin_deriv|]].
    - intros t Ht. unfold f. rewrite fwd_above by lra. reflexivity.
    - split; [apply Dpos; lia|]. unfold lf. rewrite fwd_above by auto. reflexivity. }
  destruct (Rlt_dec x (X 0)) as [h'|h'].
  { exists (fun t => (t - X 0) * D 0 + Y 0), (D 0), (X 0 - x). split; [lra|]. split; [|split; [apply lin_deriv|]].
    - intros t Ht. unfold f. rewrite fwd_below by lra. reflexivity.
    - split; [apply Dpos; lia|]. unfold lf. rewrite fwd_below by lra. reflexivity. }
  destruct (find_bin x xs Hx Hlen) as (k & Hk & Hr). { fold (X 0). fold nb. fold (X nb). lra. }
  fold (X k) (X (S k)) in Hr. assert (Hk' : (k < nb)%nat) by (unfold nb; lia).
  exists (piece k), (piece' k x), (X (S k) - x).
  split; [lra|]. split; [|split; [apply piece_deriv; auto; lra|split; [apply piece'_pos; auto; lra|]]].
  - intros t Ht. unfold f. rewrite (fwd_bin k) by (auto; lra). reflexivity.
  - unfold lf. rewrite (fwd_bin k) by (auto; lra). reflexivity.
Qed.
Lemma rqs_log_det x : log_abs_derivative f lf x.
Proof.
  destruct (left_germ x) as (g & d & e1 & He1 & Hg & Dg & Pd & Ld).
  destruct (right_germ x) as (h & d' & e2 & He2 & Hh & Dh & Pd' & Ld').
  assert (d = d') by (apply ln_inv; congruence). subst d'.
  exists d. split; [|split; [lra|rewrite Rabs_pos_eq by lra; auto]].
  apply (deriv_glue f g h); auto. exists (Rmin e1 e2).
  pose proof (Rmin_l e1 e2). pose proof (Rmin_r e1 e2).
  split; [apply Rmin_pos; auto|]. split; intros t Ht; [apply Hg; lra|apply Hh; lra].
Qed.

(** ** Monotonicity *)
Lemma f_below x : x <= X 0 -> f x = (x - X 0) * D 0 + Y 0.
Proof. intros; unfold f; rewrite fwd_below; auto. Qed.
Lemma f_above x : X nb <= x -> f x = (x - X nb) * D nb + Y nb.
Proof. intros; unfold f; rewrite fwd_above; auto. Qed.
Lemma f_bin k x : (k < nb)%nat -> X k <= x <= X (S k) -> f x = piece k x.
Proof. intros; unfold f; rewrite (fwd_bin k); auto. Qed.
Lemma f_knot k : (k <= nb)%nat -> f (X k) = Y k.
Proof.
  intros H. destruct (Nat.eq_dec k nb) as [->|e].
  - rewrite f_above by lra. ring.
  - pose proof (Xlt k ltac:(lia)). rewrite (f_bin k) by (try lia; lra). apply piece_left; lia.
Qed.
(** monotone up to knot [n], then on the whole line *)
Lemma f_incr_upto n : (n <= nb)%nat -> forall x1 x2, x1 < x2 -> x2 <= X n -> f x1 < f x2.
Proof.
  induction n as [|n IH]; intros Hn x1 x2 Hlt Hle.
  - rewrite !f_below by lra. pose proof (Dpos 0 ltac:(lia)). apply Rplus_lt_compat_r, Rmult_lt_compat_r; lra.
  - destruct (Rle_dec x2 (X n)) as [a|a]; [apply IH; auto; lia|].
    assert (B : forall t1 t2, X n <= t1 -> t1 < t2 -> t2 <= X (S n) -> f t1 < f t2).
    { intros t1 t2 q1 q2 q3. rewrite !(f_bin n) by (try lia; lra). apply piece_lt; auto; lia. }
    destruct (Rle_dec (X n) x1) as [b|b]; [apply B; lra|].
    apply (Rlt_trans _ (f (X n))); [apply IH; lia || lra|apply B; lra].
Qed.
Lemma f_increasing x1 x2 : x1 < x2 -> f x1 < f x2.
Proof.
  intros Hlt. destruct (Rle_dec x2 (X nb)) as [a|a]; [apply (f_incr_upto nb); auto|].
  assert (B : forall t1 t2, X nb <= t1 -> t1 < t2 -> f t1 < f t2).
  { intros t1 t2 q1 q2. rewrite !f_above by lra. pose proof (Dpos nb ltac:(lia)). apply Rplus_lt_compat_r, Rmult_lt_compat_r; lra. }
  destruct (Rle_dec (X nb) x1) as [b|b]; [apply B; lra|].
  apply (Rlt_trans _ (f (X nb))); [apply (f_incr_upto nb); lia || lra|apply B; lra].
Qed.
Lemma f_inj x1 x2 : f x1 = f x2 -> x1 = x2.
Proof.
  intros E. destruct (Rtotal_order x1 x2) as [h|[h|h]]; auto; exfalso; apply f_increasing in h; lra.
Qed.

(** ** Inverse *)
Variable tiny : R.
Hypothesis Htiny : forall k, (k < nb)%nat -> tiny_ok (bin_s k) (D k) (D (S k)) tiny.
Definition g y := fst (rqs_inv tiny y xs ys ds).
Definition lg y := snd (rqs_inv tiny y xs ys ds).

(** every y in a bin's range is the image of some z in [0,1] *)
Lemma bw_onto s d0 d1 w : 0 < s -> 0 < d0 -> 0 < d1 -> 0 <= w <= 1 -> exists z, 0 <= z <= 1 /\ bw s d0 d1 z = w.
Proof.
  intros Hs0 Hd0 Hd1 Hw.
  set (h := fun z => bN s d0 z - w * bD s d0 d1 z).
  assert (Ch : continuity h).
  { unfold h, bN, bD. intros z. apply derivable_continuous_pt.
    apply derivable_pt_minus.
    - apply derivable_pt_plus; apply derivable_pt_mult; try apply derivable_pt_const.
      + apply derivable_pt_mult; apply derivable_pt_id.
      + apply derivable_pt_minus; [apply derivable_pt_id|apply derivable_pt_mult; apply derivable_pt_id].
    - apply derivable_pt_mult; [apply derivable_pt_const|].
      apply derivable_pt_plus; [apply derivable_pt_const|].
      apply derivable_pt_mult; [apply derivable_pt_const|].
      apply derivable_pt_minus; [apply derivable_pt_id|apply derivable_pt_mult; apply derivable_pt_id]. }
  assert (H0 : h 0 <= 0) by (unfold h, bN, bD; nra).
  assert (H1 : 0 <= h 1) by (unfold h, bN, bD; nra).
  destruct (IVT_cor h 0 1 Ch ltac:(lra)) as (z & Hz & E); [nra|].
  exists z. split; auto. unfold bw. pose proof (bD_pos s d0 d1 Hs0 Hd0 Hd1 z Hz).
  unfold h in E. apply (Rmult_eq_reg_r (bD s d0 d1 z)); [|lra]. unfold Rdiv. rewrite Rmult_assoc, Rinv_l by lra. lra.
Qed.
Lemma inv_half k y : (k < nb)%nat -> Y k <= y < Y (S k) -> Y 0 < y ->
  exists x, X k <= x < X (S k) /\ piece k x = y /\ rqs_inv tiny y xs ys ds = (x, - ln (piece' k x)).
Proof.
  intros H Hr H0. assert (Hk : (S k < length ys)%nat) by (unfold nb in H; lia).
  pose proof (bin_s_pos k H) as P. pose proof (Xlt k H) as LX. pose proof (Ylt k H) as LY.
  pose proof (Dpos k ltac:(lia)) as P0. pose proof (Dpos (S k) ltac:(lia)) as P1.
  set (w := (y - Y k) / (Y (S k) - Y k)).
  assert (Hw : 0 <= w < 1).
  { unfold w. split; [apply Rmult_le_pos; [lra|left; apply Rinv_0_lt_compat; lra]|].
    apply (Rmult_lt_reg_r (Y (S k) - Y k)); [lra|]. unfold Rdiv. rewrite Rmult_assoc, Rinv_l; lra. }
  destruct (bw_onto (bin_s k) (D k) (D (S k)) w P P0 P1 ltac:(lra)) as (z & Hz & Ez).
  assert (Hz1 : z < 1). { destruct (Req_dec z 1) as [->|]; [rewrite bw_1 in Ez by auto; lra|lra]. }
  exists ((X (S k) - X k) * z + X k). 
  assert (Zx : ((X (S k) - X k) * z + X k - X k) / (X (S k) - X k) = z) by (field; lra).
  assert (Rx : X k <= (X (S k) - X k) * z + X k < X (S k)).
  { split; [nra|]. assert ((X (S k) - X k) * z < (X (S k) - X k) * 1) by (apply Rmult_lt_compat_l; lra). lra. }
  split; [auto|]. split.
  - unfold piece. rewrite Zx, Ez. unfold w. field. lra.
  - unfold rqs_inv. rewrite <- !nth_hd, !nth_last_R. fold (Y 0).
    rewrite (Rleb_f y (Y 0)) by auto.
    assert (L : y < nth (length ys - 1) ys 0).
    { pose proof (incr_le ys (S k) (length ys - 1) Hy ltac:(lia) ltac:(lia)). lra. }
    rewrite Rleb_f by auto.
    destruct (mask_pick y ys xs k Hy Hk (eq_sym Hly) Hr) as [-> ->].
    destruct (mask_pick y ys ys k Hy Hk eq_refl Hr) as [-> ->].
    destruct (mask_pick y ys ds k Hy Hk ltac:(lia) Hr) as [-> ->].
    fold (X k) (X (S k)) (Y k) (Y (S k)) (D k) (D (S k)). fold (bin_s k). fold w.
    rewrite (clip_id w) by lra.
    pose proof (root_correct (bin_s k) (D k) (D (S k)) P P0 P1 tiny z Hz (Htiny k H)) as RC.
    cbv zeta in RC. rewrite Ez in RC. rewrite RC. rewrite (clip_id z) by auto.
    f_equal. rewrite <- piece'_ln by (auto; lra). rewrite Zx. unfold bQ, bD. ring.
Qed.
Lemma inv_below y : y <= Y 0 -> rqs_inv tiny y xs ys ds = ((y - Y 0) / D 0 + X 0, - ln (D 0)).
Proof.
  intros H. unfold rqs_inv. rewrite <- !nth_hd. fold (X 0) (Y 0) (D 0). rewrite (Rleb_t y (Y 0)) by auto.
  rewrite Rleb_f; [reflexivity|]. rewrite nth_last_R.
  pose proof (incr_lt ys 0 (length ys - 1) Hy ltac:(lia) ltac:(lia)). fold (Y 0) in *. lra.
Qed.
Lemma inv_above y : Y nb <= y -> rqs_inv tiny y xs ys ds = ((y - Y nb) / D nb + X nb, - ln (D nb)).
Proof.
  intros H. unfold rqs_inv. rewrite !nth_last_R. rewrite Hly, Hld. fold nb. fold (X nb) (Y nb) (D nb).
  rewrite (Rleb_t (Y nb) y) by auto. reflexivity.
Qed.
Lemma inv_total y : f (g y) = y /\ lg y = - lf (g y).
Proof.
  unfold g, lg.
  destruct (Rle_dec y (Y 0)) as [h|h].
  { rewrite inv_below by auto. cbn [fst snd]. pose proof (Dpos 0 ltac:(lia)).
    assert ((y - Y 0) / D 0 <= 0).
    { apply (Rmult_le_reg_r (D 0)); auto. unfold Rdiv. rewrite Rmult_assoc, Rinv_l; lra. }
    unfold f, lf. rewrite fwd_below by lra. cbn [fst snd]. split; [field; lra|reflexivity]. }
  destruct (Rle_dec (Y nb) y) as [h'|h'].
  { rewrite inv_above by auto. cbn [fst snd]. pose proof (Dpos nb ltac:(lia)).
    assert (0 <= (y - Y nb) / D nb).
    { apply Rmult_le_pos; [lra|left; apply Rinv_0_lt_compat; auto]. }
    unfold f, lf. rewrite fwd_above by lra. cbn [fst snd]. split; [field; lra|reflexivity]. }
  destruct (find_bin y ys Hy ltac:(lia)) as (k & Hk & Hr).
  { rewrite Hly. fold nb. fold (Y 0) (Y nb). lra. }
  assert (Hk' : (k < nb)%nat) by (unfold nb; lia).
  destruct (inv_half k y Hk' Hr ltac:(lra)) as (x & Rx & Px & E). rewrite E. cbn [fst snd].
  unfold f, lf. rewrite (fwd_bin k) by (auto; lra). auto.
Qed.
Lemma f_g y : f (g y) = y. Proof. apply inv_total. Qed.
Lemma g_f x : g (f x) = x. Proof. apply f_inj. apply f_g. Qed.
Lemma lg_f x : lg (f x) = - lf x. Proof. rewrite (proj2 (inv_total (f x))), g_f. reflexivity. Qed.
End Spline.

(** ** Continuity of the log-det *)
Section SplineC1.
Variables xs ys ds : list R.
Hypothesis (Hlen : (2 <= length xs)%nat) (Hly : length ys = length xs) (Hld : length ds = length xs)
  (Hx : increasing_list xs) (Hy : increasing_list ys)
  (Hd : forall i, (i < length xs)%nat -> 0 < nth i ds 0).
Lemma cont_glue (f g h : R -> R) x : continuity_pt g x -> continuity_pt h x ->
  (exists del, 0 < del /\ (forall t, x - del < t <= x -> f t = g t) /\ (forall t, x <= t < x + del -> f t = h t)) ->
  continuity_pt f x.
Proof.
  intros Cg Ch (del & Hdel & Hl & Hr) eps He.
  destruct (Cg eps He) as (d1 & P1 & H1). destruct (Ch eps He) as (d2 & P2 & H2).
  exists (Rmin del (Rmin d1 d2)). split; [apply Rmin_pos; auto; apply Rmin_pos; auto|].
  intros t (Dt & Ht). simpl in *. unfold R_dist in *.
  pose proof (Rmin_l del (Rmin d1 d2)). pose proof (Rmin_r del (Rmin d1 d2)).
  pose proof (Rmin_l d1 d2). pose proof (Rmin_r d1 d2).
  assert (Ba : x - del < t < x + del) by (apply Rabs_def2 in Ht; lra).
  destruct (Rle_dec x t).
  - rewrite (Hr x), (Hr t) by lra. apply H2. split; auto. lra.
  - rewrite (Hl x), (Hl t) by lra. apply H1. split; auto. lra.
Qed.
Lemma lnpiece'_cont k x : (k < length xs - 1)%nat -> nth k xs 0 <= x <= nth (S k) xs 0 ->
  continuity_pt (fun t => ln (piece' xs ys ds k t)) x.
Proof.
  intros Hk Hr.
  set (s := bin_s xs ys k). set (d0 := nth k ds 0). set (d1 := nth (S k) ds 0).
  assert (Ps : 0 < s) by (apply (bin_s_pos xs ys ds); auto).
  assert (P0 : 0 < d0) by (apply Hd; lia). assert (P1 : 0 < d1) by (apply Hd; lia).
  pose proof (z_range xs ys ds Hlen Hly Hld Hx k x Hk Hr) as Z.
  set (gz := fun t => (t - nth k xs 0) / (nth (S k) xs 0 - nth k xs 0)).
  assert (Cg : continuity_pt gz x).
  { unfold gz, Rdiv. apply (continuity_pt_mult (fun t => t - nth k xs 0) (fun _ => / (nth (S k) xs 0 - nth k xs 0))).
    - apply (continuity_pt_minus id (fun _ => nth k xs 0)); [apply derivable_continuous_pt, derivable_pt_id|apply continuity_pt_const; intros ? ?; reflexivity].
    - apply continuity_pt_const; intros ? ?; reflexivity. }
  assert (Cid : forall z, continuity_pt (fun t => t) z) by (intros; apply derivable_continuous_pt, derivable_pt_id).
  assert (Cc : forall c z, continuity_pt (fun _ => c) z) by (intros; apply continuity_pt_const; intros ? ?; reflexivity).
  assert (Csq : forall z, continuity_pt (fun t => t * t) z).
  { intros; apply (continuity_pt_mult (fun t => t) (fun t => t)); auto. }
  assert (Cu : forall z, continuity_pt (fun t => t - t * t) z).
  { intros; apply (continuity_pt_minus (fun t => t) (fun t => t * t)); auto. }
  assert (CQ : forall z, continuity_pt (bQ s d0 d1) z).
  { intros z. unfold bQ.
    apply (continuity_pt_plus (fun z => d1 * (z * z) + 2 * s * (z - z * z)) (fun z => d0 * (1 - z) ^ 2)).
    - apply (continuity_pt_plus (fun z => d1 * (z * z)) (fun z => 2 * s * (z - z * z))).
      + apply (continuity_pt_mult (fun _ => d1) (fun z => z * z)); auto.
      + apply (continuity_pt_mult (fun _ => 2 * s) (fun z => z - z * z)); auto.
    - apply (continuity_pt_mult (fun _ => d0) (fun z => (1 - z) ^ 2)); auto.
      change (continuity_pt (fun z => (1 - z) * ((1 - z) * 1)) z).
      assert (C1 : continuity_pt (fun z => 1 - z) z) by (apply (continuity_pt_minus (fun _ => 1) (fun z => z)); auto).
      apply (continuity_pt_mult (fun z => 1 - z) (fun z => (1 - z) * 1)); auto.
      apply (continuity_pt_mult (fun z => 1 - z) (fun _ => 1)); auto. }
  assert (CD : forall z, continuity_pt (bD s d0 d1) z).
  { intros z. unfold bD. apply (continuity_pt_plus (fun _ => s) (fun z => (d1 + d0 - 2 * s) * (z - z * z))); auto.
    apply (continuity_pt_mult (fun _ => d1 + d0 - 2 * s) (fun z => z - z * z)); auto. }
  set (R_ := fun z => s ^ 2 * bQ s d0 d1 z / bD s d0 d1 z ^ 2).
  assert (CR : continuity_pt R_ (gz x)).
  { unfold R_. pose proof (bD_pos s d0 d1 Ps P0 P1 (gz x) Z) as PD.
    apply (continuity_pt_div (fun z => s ^ 2 * bQ s d0 d1 z) (fun z => bD s d0 d1 z ^ 2)).
    - apply (continuity_pt_mult (fun _ => s ^ 2) (bQ s d0 d1)); auto.
    - change (continuity_pt (fun z => bD s d0 d1 z * (bD s d0 d1 z * 1)) (gz x)).
      apply (continuity_pt_mult (bD s d0 d1) (fun z => bD s d0 d1 z * 1)); auto.
      apply (continuity_pt_mult (bD s d0 d1) (fun _ => 1)); auto.
    - apply Rgt_not_eq. apply pow_lt; auto. }
  assert (Pp : 0 < R_ (gz x)).
  { apply (piece'_pos xs ys ds Hlen Hly Hld Hx Hy Hd k x Hk Hr). }
  change (continuity_pt (comp ln (comp R_ gz)) x).
  apply continuity_pt_comp; [apply continuity_pt_comp; auto|].
  apply derivable_continuous_pt. exists (/ R_ (gz x)). apply derivable_pt_lim_ln. exact Pp.
Qed.
Lemma rqs_lf_continuous : continuity (lf xs ys ds).
Proof.
  intros x.
  assert (Cc : forall c z, continuity_pt (fun _ => c) z) by (intros; apply continuity_pt_const; intros ? ?; reflexivity).
  assert (Left : exists g del, 0 < del /\ (forall t, x - del < t <= x -> lf xs ys ds t = g t) /\ continuity_pt g x).
  { destruct (Rle_dec x (nth 0 xs 0)) as [h|h].
    { exists (fun _ => ln (nth 0 ds 0)), 1. split; [lra|]. split; auto.
      intros t Ht. unfold lf. rewrite (fwd_below xs ys ds Hlen Hly Hld Hx) by lra. reflexivity. }
    destruct (Rlt_dec (nth (length xs - 1) xs 0) x) as [h'|h'].
    { exists (fun _ => ln (nth (length xs - 1) ds 0)), (x - nth (length xs - 1) xs 0). split; [lra|]. split; auto.
      intros t Ht. unfold lf. rewrite (fwd_above xs ys ds Hly Hld) by lra. reflexivity. }
    assert (E : exists k, (k < length xs - 1)%nat /\ nth k xs 0 < x <= nth (S k) xs 0).
    { assert (G : forall n, (n <= length xs - 1)%nat -> x <= nth n xs 0 -> exists k, (k < n)%nat /\ nth k xs 0 < x <= nth (S k) xs 0).
      { induction n as [|n IH]; intros Hn Hle; [lra|].
        destruct (Rle_dec x (nth n xs 0)) as [q|q]; [destruct IH as (k & A & B); auto; [lia|]; exists k; split; auto; lia|].
        exists n; split; [lia|lra]. }
      destruct (G (length xs - 1)%nat (Nat.le_refl _) ltac:(lra)) as (k & A & B). exists k; auto. }
    destruct E as (k & Hk & Hr). exists (fun t => ln (piece' xs ys ds k t)), (x - nth k xs 0).
    split; [lra|]. split; [|apply lnpiece'_cont; auto; lra].
    intros t Ht. unfold lf. rewrite (fwd_bin xs ys ds Hlen Hly Hld Hx Hy Hd k) by (auto; lra). reflexivity. }
  assert (Right : exists g del, 0 < del /\ (forall t, x <= t < x + del -> lf xs ys ds t = g t) /\ continuity_pt g x).
  { destruct (Rle_dec (nth (length xs - 1) xs 0) x) as [h|h].
    { exists (fun _ => ln (nth (length xs - 1) ds 0)), 1. split; [lra|]. split; auto.
      intros t Ht. unfold lf. rewrite (fwd_above xs ys ds Hly Hld) by lra. reflexivity. }
    destruct (Rlt_dec x (nth 0 xs 0)) as [h'|h'].
    { exists (fun _ => ln (nth 0 ds 0)), (nth 0 xs 0 - x). split; [lra|]. split; auto.
      intros t Ht. unfold lf. rewrite (fwd_below xs ys ds Hlen Hly Hld Hx) by lra. reflexivity. }
    destruct (find_bin x xs Hx Hlen ltac:(lra)) as (k & Hk & Hr). assert (Hk' : (k < length xs - 1)%nat) by lia.
    exists (fun t => ln (piece' xs ys ds k t)), (nth (S k) xs 0 - x).
    split; [lra|]. split; [|apply lnpiece'_cont; auto; lra].
    intros t Ht. unfold lf. rewrite (fwd_bin xs ys ds Hlen Hly Hld Hx Hy Hd k) by (auto; lra). reflexivity. }
  destruct Left as (g1 & e1 & He1 & Hg & Cg). destruct Right as (g2 & e2 & He2 & Hh & Ch).
  apply (cont_glue _ g1 g2); auto. exists (Rmin e1 e2).
  pose proof (Rmin_l e1 e2). pose proof (Rmin_r e1 e2).
  split; [apply Rmin_pos; auto|]. split; intros t Ht; [apply Hg; lra|apply Hh; lra].
Qed.
End SplineC1.
