(** C101: sums over event dimensions in floating point (Independent, Block). *)
From Coq Require Import Reals Lra Lia List Bool Arith ZArith Permutation.
From Flocq Require Import Core.
From Verif Require Import Base.XR Base.Float Spec.Rounding Spec.Accuracy Proofs.FloatOrder Proofs.FloatLib
  Props.FloatNormalize Props.FloatBij Props.FloatCategorical Props.FloatAccuracy.
From Verif Require Import Model.FloatDist Model.FloatReduce.
Import ListNotations.
Local Open Scope R_scope.

Lemma sum_value dt o x : (forall i, In i (visits o) -> value dt (x i)) -> value dt (sum_in dt o x).
Proof.
  destruct o as [i|l r]; intros H; cbn [sum_in visits] in *; [apply H; left; auto|].
  unfold fadd. destruct (fround dt (xadd (sum_in dt l x) (sum_in dt r x))) eqn:Q; cbn [value]; auto. eapply fround_value; eauto.
Qed.

Section Sum.
Variables (dt : dtype) (x : nat -> XR).
Notation e := (eps dt).
Notation up d := ((1 + eps dt) ^ d).
(** the real value of a finite entry *)
Definition re (a : XR) : R := match a with Fin r => r | _ => 0 end.
Definition size (o : order) : R := total (fun i => Rabs (re (x i))) (visits o).
Lemma size_nonneg o : 0 <= size o. Proof. apply total_nonneg. intros; apply Rabs_pos. Qed.
Lemma size_plus l r : size (Plus l r) = size l + size r. Proof. unfold size. cbn [visits]. apply total_app. Qed.
Lemma up_ge d : 1 <= up d. Proof. apply pow_R1_Rle. pose proof (eps_pos dt). lra. Qed.
Lemma up_mono c d : (c <= d)%nat -> up c <= up d. Proof. apply Rle_pow. pose proof (eps_pos dt). lra. Qed.

Definition entry_ok (a : XR) : Prop := match a with Fin r => repr dt r | NInf => True | _ => False end.
Definition is_ninf (a : XR) : bool := match a with NInf => true | _ => false end.
Lemma sum_signed o : (forall i, In i (visits o) -> entry_ok (x i)) -> up (depth o) * size o <= maxpow dt / 2 ->
  if existsb (fun i => is_ninf (x i)) (visits o) then sum_in dt o x = NInf
  else exists S, sum_in dt o x = Fin S /\ repr dt S /\ Rabs (S - total (fun i => re (x i)) (visits o)) <= (up (depth o) - 1) * size o.
Proof.
  induction o as [i|l IHl r IHr]; intros V M; cbn [sum_in visits existsb].
  - specialize (V i (or_introl eq_refl)). unfold size. cbn [visits depth pow]. rewrite !total_cons, !total_nil. destruct (x i) as [v| | |]; try contradiction; [|reflexivity].
    cbn [is_ninf orb re]. exists v. split; [auto|]. split; [apply V|]. rewrite Rplus_0_r, Rminus_diag_eq, Rabs_R0 by auto. lra.
  - cbn [depth] in M. set (m := Nat.max (depth l) (depth r)) in *. cbn [pow] in M. rewrite size_plus in M.
    pose proof (size_nonneg l) as Pl. pose proof (size_nonneg r) as Pr. pose proof (eps_pos dt) as E0.
    pose proof (up_ge m) as U. pose proof (up_mono (depth l) m (Nat.le_max_l _ _)) as Ul. pose proof (up_mono (depth r) m (Nat.le_max_r _ _)) as Ur.
    pose proof (up_ge (depth l)) as Gl. pose proof (up_ge (depth r)) as Gr.
    assert (Q : up m * (size l + size r) <= maxpow dt / 2). { apply Rle_trans with (2 := M). rewrite Rmult_assoc. rewrite <- (Rmult_1_l (up m * _)) at 1.
      apply Rmult_le_compat_r; [apply Rmult_le_pos; lra|lra]. }
    specialize (IHl ltac:(intros; apply V, in_or_app; auto) ltac:(nra)). specialize (IHr ltac:(intros; apply V, in_or_app; auto) ltac:(nra)).
    rewrite existsb_app.
    destruct (existsb _ (visits l)).
    + cbn [orb]. rewrite IHl. destruct (existsb _ (visits r)); [rewrite IHr; reflexivity|destruct IHr as (S & -> & _); reflexivity].
    + destruct IHl as (Sl & El & Rl & Bl). cbn [orb]. destruct (existsb _ (visits r)); [rewrite El, IHr; reflexivity|].
      destruct IHr as (Sr & Er & Rr & Br). rewrite El, Er. unfold fadd. rewrite xadd_fin.
      assert (Tl : forall o', Rabs (total (fun i => re (x i)) (visits o')) <= size o').
      { intros o'. unfold size. induction (visits o') as [|a L IH]; [rewrite !total_nil, Rabs_R0; lra|]. rewrite !total_cons.
        eapply Rle_trans; [apply Rabs_triang|]. lra. }
      assert (Ab : Rabs (Sl + Sr) <= up m * (size l + size r)).
      { replace (Sl + Sr) with ((Sl - total (fun i => re (x i)) (visits l)) + (Sr - total (fun i => re (x i)) (visits r)) +
          (total (fun i => re (x i)) (visits l) + total (fun i => re (x i)) (visits r))) by ring.
        pose proof (Tl l) as Al. pose proof (Tl r) as Ar.
        eapply Rle_trans; [apply Rabs_triang|]. eapply Rle_trans; [apply Rplus_le_compat; apply Rabs_triang|]. nra. }
      destruct (round_fin dt (Sl + Sr)) as (S & ES & RS & _ & EqS); [lra|]. exists S. split; [auto|]. split; [auto|].
      rewrite total_app. rewrite EqS. pose proof (add_err dt Sl Sr (proj1 Rl) (proj1 Rr)) as A.
      set (tl := total (fun i => re (x i)) (visits l)) in *. set (tr := total (fun i => re (x i)) (visits r)) in *.
      replace (rnd dt (Sl + Sr) - (tl + tr)) with ((rnd dt (Sl + Sr) - (Sl + Sr)) + ((Sl - tl) + (Sr - tr))) by ring.
      eapply Rle_trans; [apply Rabs_triang|].
      apply Rle_trans with (e * (up m * (size l + size r)) + ((up m - 1) * size l + (up m - 1) * size r)).
      * apply Rplus_le_compat; [eapply Rle_trans; [exact A|]; apply Rmult_le_compat_l; lra|].
        eapply Rle_trans; [apply Rabs_triang|]. apply Rplus_le_compat.
        -- eapply Rle_trans; [exact Bl|]. apply Rmult_le_compat_r; lra.
        -- eapply Rle_trans; [exact Br|]. apply Rmult_le_compat_r; lra.
      * cbn [depth pow]. fold m. rewrite size_plus. right. ring.
Qed.
End Sum.

Lemma up_linear dt d : 2 * INR d * eps dt <= 1 -> (1 + eps dt) ^ d <= 1 + 2 * INR d * eps dt.
Proof.
  pose proof (eps_pos dt) as E0. induction d as [|d IH]; intros H; [cbn; lra|]. rewrite S_INR in *. pose proof (pos_INR d) as P.
  specialize (IH ltac:(nra)). cbn [pow]. apply Rle_trans with ((1 + eps dt) * (1 + 2 * INR d * eps dt)); [apply Rmult_le_compat_l; lra|].
  assert (2 * INR d * eps dt * eps dt <= 1 * eps dt) by (apply Rmult_le_compat_r; nra). lra.
Qed.
Lemma total_ext_in f g l : (forall i, In i l -> f i = g i) -> total f l = total g l.
Proof. induction l as [|a l IH]; intros H; [auto|]. rewrite !total_cons, IH by (intros; apply H; right; auto). rewrite H by (left; auto). auto. Qed.
Lemma total_plus f g l : total (fun i => f i + g i) l = total f l + total g l.
Proof. induction l as [|a l IH]; [rewrite !total_nil; lra|]. rewrite !total_cons, IH. lra. Qed.
Lemma total_all o n f : adds_all o n -> total f (visits o) = total f (seq 0 n).
Proof. intros H. induction H; rewrite ?total_cons; lra. Qed.

Section Reduce.
Variables (dt : dtype) (o : order) (n : nat) (x : nat -> XR).
Hypothesis Ho : adds_all o n.
Hypothesis deep : 2 * INR (depth o) * eps dt <= 1.

(** every term within [tol i] of [t i]: the sum is within the sum of the tolerances plus [2 depth eps] of the total size *)
Theorem C101_sum (t tol : nat -> R) :
  (forall i, (i < n)%nat -> close (x i) (t i) (tol i) /\ value dt (x i)) ->
  total (fun i => Rabs (t i) + tol i) (seq 0 n) <= maxpow dt / 4 ->
  close (fl_reduce dt o x) (total t (seq 0 n))
    (total tol (seq 0 n) + 2 * INR (depth o) * eps dt * total (fun i => Rabs (t i) + tol i) (seq 0 n)).
Proof.
  intros H M. pose proof (eps_pos dt) as E0. pose proof (up_linear dt (depth o) deep) as U. pose proof (up_ge dt (depth o)) as G.
  destruct (adds_all_in o n Ho) as (_ & IN).
  set (W := total (fun i => Rabs (t i) + tol i) (seq 0 n)) in *.
  assert (X : forall i, In i (visits o) -> exists r, x i = Fin r /\ repr dt r /\ Rabs (r - t i) <= tol i).
  { intros i Hi. apply IN in Hi. destruct (H i Hi) as ((r & Er & B) & V). exists r. rewrite Er in V. auto. }
  assert (Sz : size x o <= W).
  { unfold W. rewrite <- (total_all o n) by auto. unfold size. apply total_le. intros i Hi. destruct (X i Hi) as (r & -> & _ & B). cbn [re].
    replace r with ((r - t i) + t i) by ring. eapply Rle_trans; [apply Rabs_triang|]. lra. }
  pose proof (size_nonneg x o) as P.
  assert (NB : existsb (fun i => is_ninf (x i)) (visits o) = false).
  { apply not_true_is_false. intros Q. apply existsb_exists in Q as (i & Hi & Q). destruct (X i Hi) as (r & E & _). rewrite E in Q. discriminate. }
  pose proof (sum_signed dt x o) as S. rewrite NB in S. destruct S as (S & ES & _ & B).
  - intros i Hi. destruct (X i Hi) as (r & -> & R & _). exact R.
  - nra.
  - exists S. split; [exact ES|]. replace (S - total t (seq 0 n)) with ((S - total (fun i => re (x i)) (visits o)) + (total (fun i => re (x i)) (visits o) - total t (seq 0 n))) by ring.
    eapply Rle_trans; [apply Rabs_triang|]. rewrite Rplus_comm. apply Rplus_le_compat.
    + rewrite <- !(total_all o n) by auto. assert (D : forall l, (forall i, In i l -> In i (visits o)) -> Rabs (total (fun i => re (x i)) l - total t l) <= total tol l).
      { induction l as [|a l IH]; intros Hl; [rewrite !total_nil, Rminus_diag_eq, Rabs_R0 by auto; lra|]. rewrite !total_cons.
        destruct (X a (Hl a (or_introl eq_refl))) as (r & Er & _ & Ba). rewrite Er. cbn [re]. specialize (IH ltac:(intros; apply Hl; right; auto)).
        replace (r + total (fun i => re (x i)) l - (t a + total t l)) with ((r - t a) + (total (fun i => re (x i)) l - total t l)) by ring.
        eapply Rle_trans; [apply Rabs_triang|]. lra. }
      apply D; auto.
    + eapply Rle_trans; [exact B|]. apply Rmult_le_compat; lra.
Qed.
(** one impossible coordinate makes the event impossible: -inf, never NaN *)
Theorem C101_impossible k : (k < n)%nat -> x k = NInf ->
  (forall i, (i < n)%nat -> x i = NInf \/ exists r, x i = Fin r /\ repr dt r) ->
  total (fun i => match x i with Fin r => Rabs r | _ => 0 end) (seq 0 n) <= maxpow dt / 4 ->
  fl_reduce dt o x = NInf.
Proof.
  intros Hk Ek H M. pose proof (up_linear dt (depth o) deep) as U. pose proof (up_ge dt (depth o)) as G. destruct (adds_all_in o n Ho) as (_ & IN).
  pose proof (sum_signed dt x o) as S.
  assert (Q : existsb (fun i => is_ninf (x i)) (visits o) = true) by (apply existsb_exists; exists k; rewrite Ek; split; [apply IN; auto|auto]).
  rewrite Q in S. apply S.
  - intros i Hi. apply IN in Hi. destruct (H i Hi) as [-> |(r & -> & R)]; [exact I|exact R].
  - assert (Sz : size x o <= maxpow dt / 4). { apply Rle_trans with (2 := M). rewrite <- (total_all o n) by auto. right. apply total_ext_in. intros i _. unfold re. destruct (x i); auto using Rabs_R0. }
    pose proof (size_nonneg x o). nra.
Qed.
(** a NaN coordinate is never hidden *)
Theorem C101_nan k : (k < n)%nat -> x k = NaN -> fl_reduce dt o x = NaN.
Proof.
  intros Hk Ek. destruct (adds_all_in o n Ho) as (_ & IN). apply IN in Hk. unfold fl_reduce. clear Ho IN deep.
  induction o as [i|l IHl r IHr]; cbn [sum_in visits] in *; [destruct Hk as [-> |[]]; auto|].
  apply in_app_or in Hk as [Hk|Hk]; [rewrite IHl by auto|rewrite IHr by auto]; [reflexivity|]. destruct (sum_in dt l x); reflexivity.
Qed.
End Reduce.

(** Independent(Normal).log_prob over [n] coordinates: accurate to [(k + 25 + 5 depth)] units of the total size *)
Section Normals.
Variables (dt : dtype) (o : order) (n : nat) (k c : R) (L : XR -> XR) (v loc s : nat -> R).
Notation e := (eps dt).
Notation z i := ((v i - loc i) / s i).
Hypothesis Ho : adds_all o n.
Hypothesis k_pos : 0 <= k.
Hypothesis HL : accurate dt k L ln (fun s => 0 < s).
Hypothesis Hc : Rabs (c - half_log_2pi) <= 2 * e.
Hypothesis inputs : forall i, (i < n)%nat -> repr dt (v i) /\ repr dt (loc i) /\ repr dt (s i) /\ 0 < s i /\ Rabs (v i - loc i) <= maxpow dt / 2.
Definition normals_size : R := total (fun i => 1 + (z i) ^ 2 + Rabs (ln (s i))) (seq 0 n).
Hypothesis units_ok : (k + 25 + 2 * INR (depth o)) * e <= 1.
Hypothesis size_ok : normals_size <= maxpow dt / 64.
Lemma term_le_total (f : nat -> R) l i : (forall j, In j l -> 0 <= f j) -> In i l -> f i <= total f l.
Proof.
  induction l as [|a l IH]; intros H Hi; [destruct Hi|]. rewrite total_cons.
  assert (0 <= total f l) by (apply total_nonneg; intros; apply H; right; auto). pose proof (H a (or_introl eq_refl)).
  destruct Hi as [<- |Hi]; [lra|]. specialize (IH ltac:(intros; apply H; right; auto) Hi). lra.
Qed.
Lemma total_scale a f l : total (fun i => a * f i) l = a * total f l.
Proof. induction l as [|b l IH]; [rewrite !total_nil; ring|]. rewrite !total_cons, IH. ring. Qed.
Theorem C101_independent_normal :
  close (fl_reduce dt o (fun i => fl_normal_log_prob dt L (Fin c) (Fin (v i)) (Fin (loc i)) (Fin (s i))))
    (total (fun i => normal_log_density (v i) (loc i) (s i)) (seq 0 n)) ((k + 25 + 5 * INR (depth o)) * e * normals_size).
Proof.
  pose proof (eps_pos dt) as E0. pose proof (pos_INR (depth o)) as D0.
  set (g := fun i => 1 + (z i) ^ 2 + Rabs (ln (s i))).
  assert (G : forall i, 1 <= g i). { intros i. unfold g. pose proof (pow2_ge_0 (z i)). pose proof (Rabs_pos (ln (s i))). lra. }
  assert (K : (k + 25) * e <= 1) by nra.
  assert (T2 : forall i, (i < n)%nat -> Rabs (normal_log_density (v i) (loc i) (s i)) <= 3 / 2 * g i).
  { intros i Hi. destruct (inputs i Hi) as (_ & _ & _ & S0 & _). rewrite normal_log_density_eq by auto. pose proof half_log_2pi_bounds. unfold g.
    pose proof (pow2_ge_0 (z i)) as Z0. pose proof (Rle_abs (ln (s i))) as A1. pose proof (Rle_abs (- ln (s i))) as A2. rewrite Rabs_Ropp in A2.
    replace (z i * z i) with (z i ^ 2) by ring. apply Rabs_le. lra. }
  assert (EW : normals_size = total g (seq 0 n)) by reflexivity.
  assert (W0 : 0 <= normals_size) by (rewrite EW; apply total_nonneg; intros i _; specialize (G i); lra).
  assert (TW : total (fun i => Rabs (normal_log_density (v i) (loc i) (s i)) + (k + 25) * e * g i) (seq 0 n) <= 5 / 2 * normals_size).
  { rewrite EW, <- total_scale. apply total_le. intros i Hi. apply in_seq in Hi. specialize (T2 i ltac:(lia)). specialize (G i). nra. }
  assert (C := C101_sum dt o n (fun i => fl_normal_log_prob dt L (Fin c) (Fin (v i)) (Fin (loc i)) (Fin (s i))) Ho ltac:(nra)
    (fun i => normal_log_density (v i) (loc i) (s i)) (fun i => (k + 25) * e * g i)).
  pose proof (maxpow_pos dt) as M0.
  eapply close_weaken; [apply C|].
  - intros i Hi. destruct (inputs i Hi) as (R1 & R2 & R3 & S0 & B). split.
    + apply C94_normal; auto; [nra|]. apply Rle_trans with (2 := size_ok). apply (term_le_total g); [intros j _; specialize (G j); lra|apply in_seq; lia].
    + unfold fl_normal_log_prob, fsub. cbv zeta. match goal with |- value _ (fround _ ?x) => destruct (fround dt x) eqn:Q; cbn [value]; auto; eapply fround_value; eauto end.
  - lra.
  - rewrite total_scale. fold g. rewrite <- EW.
    assert (2 * INR (depth o) * e * total (fun i => Rabs (normal_log_density (v i) (loc i) (s i)) + (k + 25) * e * g i) (seq 0 n) <= 2 * INR (depth o) * e * (5 / 2 * normals_size)).
    { apply Rmult_le_compat_l; [nra|auto]. }
    lra.
Qed.
End Normals.

(** the premises are met: 32 coordinates, each Normal(2, 2) at 4, summed from left to right in float32 *)
Example ex_independent :
  close (fl_reduce float32 (left_to_right 31) (fun _ => fl_normal_log_prob float32 (fun a => fround float32 (xlog a)) (Fin (rnd float32 half_log_2pi)) (Fin 4) (Fin 2) (Fin 2)))
    (total (fun _ => normal_log_density 4 2 2) (seq 0 32)) ((1 + 25 + 5 * INR (depth (left_to_right 31))) * eps float32 * normals_size 32 (fun _ => 4) (fun _ => 2) (fun _ => 2)) /\
  normals_size 32 (fun _ => 4) (fun _ => 2) (fun _ => 2) <= 100.
Proof.
  assert (W : normals_size 32 (fun _ => 4) (fun _ => 2) (fun _ => 2) <= 100).
  { unfold normals_size, total. cbn [seq map fold_right]. pose proof ln2_bounds. rewrite (Rabs_pos_eq (ln 2)) by lra. replace ((4 - 2) / 2) with 1 by lra. lra. }
  split; [|exact W]. 
  assert (R4 : repr float32 4) by (change 4 with (bpow radix2 2); apply repr_pow; cbn; unfold emin; cbn; lia).
  assert (R2 : repr float32 2) by (change 2 with (bpow radix2 1); apply repr_pow; cbn; unfold emin; cbn; lia).
  assert (M : 65536 <= maxpow float32) by (change 65536 with (bpow radix2 16); apply bpow_le; cbn; lia).
  apply C101_independent_normal.
  - apply (left_to_right_all 31).
  - lra.
  - apply log_accurate.
  - apply rounded_const. pose proof half_log_2pi_bounds. rewrite Rabs_pos_eq by lra. lra.
  - intros i _. repeat split; try lra; try apply R4; try apply R2. rewrite Rabs_pos_eq by lra. lra.
  - cbn [left_to_right depth Nat.max]. replace (eps float32) with (/ 2 ^ 24) by (cbn; lra).
    replace (depth (left_to_right 31)) with 31%nat by reflexivity. rewrite INR_IZR_INZ. cbn. lra.
  - lra.
Qed.
Print Assumptions C101_sum.
Print Assumptions C101_impossible.
Print Assumptions C101_nan.
Print Assumptions C101_independent_normal.
