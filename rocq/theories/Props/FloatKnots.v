(** C88: the knots of a rational-quadratic spline in floating point. *)
From Coq Require Import Reals List Bool Lra Lia ZArith Permutation.
From Flocq Require Import Core.
From Verif Require Import Base.XR Base.Float Model.FloatDist Model.FloatSplineInit Spec.Rounding Proofs.FloatOrder Proofs.FloatLib Props.FloatNormalize Props.FloatSoftmax.
Import ListNotations.
Local Open Scope R_scope.

Lemma pow_up e n : 0 <= e -> INR n * e <= / 2 -> (1 + e) ^ n <= 1 + 2 * (INR n * e).
Proof.
  intros E H. destruct (Req_dec e 0) as [-> |N]; [rewrite Rplus_0_r, pow1; lra|].
  assert (P : 0 < 1 + e) by lra. assert (Pn : 0 < (1 + e) ^ n) by (apply pow_lt; auto).
  destruct n as [|n]; [cbn; lra|]. assert (E1 : e <= 1). { rewrite S_INR in H. pose proof (pos_INR n). nra. }
  pose proof (bernoulli_le e (S n) ltac:(lra)) as Be.
  assert (M : (1 - e) ^ S n * (1 + e) ^ S n <= 1).
  { rewrite <- Rpow_mult_distr. replace ((1 - e) * (1 + e)) with (1 - e * e) by ring.
    assert (K : (1 - e * e) ^ S n <= 1 ^ S n) by (apply pow_incr; nra). rewrite pow1 in K. lra. }
  set (a := INR (S n) * e) in *. set (v := (1 + e) ^ S n) in *. assert (A0 : 0 <= a) by (unfold a; pose proof (pos_INR (S n)); nra).
  clearbody a v. apply Rnot_lt_le. intros C. assert ((1 - a) * v <= 1) by nra. nra.
Qed.
Lemma depth_length o : (depth o < length (visits o))%nat.
Proof. induction o as [i|l IHl r IHr]; cbn [depth visits length]; [lia|]. rewrite app_length. lia. Qed.
Lemma total_perm f l l' : Permutation l l' -> total f l = total f l'.
Proof. induction 1; rewrite ?total_cons; lra. Qed.
Lemma total_seq_S f n : total f (seq 0 (S n)) = total f (seq 0 n) + f n.
Proof. rewrite seq_S, total_app. cbn. lra. Qed.
Lemma total_seq_mono f n m : (forall i, 0 <= f i) -> (n <= m)%nat -> total f (seq 0 n) <= total f (seq 0 m).
Proof. intros P H. induction H as [|m H IH]; [lra|]. rewrite total_seq_S. pose proof (P m). lra. Qed.

Section Knots.
Variables dt host : dtype.
Notation e := (eps dt).
Hypothesis host_mant : (mant dt <= mant host)%Z.
Hypothesis host_emax : (emax dt <= emax host)%Z.
Lemma eps_host : eps host <= e. Proof. apply bpow_le. lia. Qed.
Lemma tiny_host : tiny host <= tiny dt. Proof. apply bpow_le. unfold emin. lia. Qed.
(** one rounding of a number of magnitude at most [K], underflow included *)
Lemma rnd_abs d x K : Rabs x <= K -> tiny d <= K -> Rabs (rnd d x - x) <= eps d * K.
Proof.
  intros H T. pose proof (eps_pos d) as E. destruct (Rle_lt_dec (tiny d) (Rabs x)) as [L|L].
  - apply Rle_trans with (1 := rnd_err d x L). apply Rmult_le_compat_l; lra.
  - apply Rle_trans with (1 := rnd_err_sub d x L).
    assert (Q : / 2 * bpow radix2 (emin d) = eps d * tiny d).
    { unfold eps, tiny. rewrite <- bpow_plus. replace (- mant d + (emin d + mant d - 1))%Z with (-1 + emin d)%Z by lia.
      rewrite bpow_plus. change (bpow radix2 (-1)) with (/ 2). reflexivity. }
    rewrite Q. apply Rmult_le_compat_l; lra.
Qed.
(** sums that stay below a representable bound do not overflow *)
Lemma sum_in_fin p b o : (forall i, repr dt (p i)) -> (forall i, 0 <= p i) -> repr dt b ->
  (1 + e) ^ depth o * total p (visits o) <= b ->
  exists S, sum_in dt o (fun i => Fin (p i)) = Fin S /\ repr dt S /\
    (1 - e) ^ depth o * total p (visits o) <= S <= (1 + e) ^ depth o * total p (visits o).
Proof.
  intros R P Rb. pose proof (eps_pos dt) as E0.
  assert (G : (1 + e) ^ depth o * total p (visits o) <= b -> sum_in dt o (fun i => Fin (p i)) <> PInf).
  { induction o as [i|l IHl r IHr]; cbn [sum_in visits depth]; intros H; [discriminate|].
    rewrite total_app in H. set (m := Nat.max (depth l) (depth r)) in *.
    assert (Tl : 0 <= total p (visits l)) by (apply total_nonneg; auto). assert (Tr : 0 <= total p (visits r)) by (apply total_nonneg; auto).
    assert (Pm : 0 < (1 + e) ^ m) by (apply pow_lt; lra).
    assert (Hm : (1 + e) ^ m * (total p (visits l) + total p (visits r)) <= b).
    { apply Rle_trans with (2 := H). apply Rmult_le_compat_r; [lra|]. cbn [pow]. nra. }
    assert (Ul : (1 + e) ^ depth l <= (1 + e) ^ m) by (apply Rle_pow; [lra|unfold m; lia]).
    assert (Ur : (1 + e) ^ depth r <= (1 + e) ^ m) by (apply Rle_pow; [lra|unfold m; lia]).
    assert (Bl : (1 + e) ^ depth l * total p (visits l) <= (1 + e) ^ m * total p (visits l)) by (apply Rmult_le_compat_r; auto).
    assert (Br : (1 + e) ^ depth r * total p (visits r) <= (1 + e) ^ m * total p (visits r)) by (apply Rmult_le_compat_r; auto).
    rewrite Rmult_plus_distr_l in Hm.
    assert (0 <= (1 + e) ^ m * total p (visits l)) by (apply Rmult_le_pos; lra). assert (0 <= (1 + e) ^ m * total p (visits r)) by (apply Rmult_le_pos; lra).
    destruct (sum_in_cases dt p R P l) as [Cl|(Sl & El & Rl & Nl & _ & _ & Vl)]; [exfalso; apply IHl; auto; lra|].
    destruct (sum_in_cases dt p R P r) as [Cr|(Sr & Er & Rr & Nr & _ & _ & Vr)]; [exfalso; apply IHr; auto; lra|].
    rewrite El, Er. unfold fadd. rewrite xadd_fin.
    destruct (fround_between dt (Sl + Sr) 0 b (repr_0 dt) Rb ltac:(lra)) as (-> & _). discriminate. }
  intros H. destruct (sum_in_cases dt p R P o) as [C|(S & ES & RS & _ & _ & B)]; [exfalso; apply G; auto|]. eauto.
Qed.

Variables (rmin rmax m B D : R) (n : nat) (p : nat -> R) (o : nat -> order).
Hypothesis n_pos : (1 <= n)%nat.
Hypothesis rmin_B : Rabs rmin <= B.
Hypothesis rmax_B : Rabs rmax <= B.
Hypothesis r_lt : rmin < rmax.
Hypothesis host_values : repr host rmin /\ repr host rmax /\ repr host m /\ repr host (INR n).
Hypothesis m_tiny : tiny dt <= m.
(** the constructor's check *)
Hypothesis check : fl_bins_too_large host (Fin rmin) (Fin rmax) (Fin m) n = false.
Hypothesis p_ok : forall i, (i < n)%nat -> repr dt (p i) /\ 0 <= p i <= 1.
Hypothesis p_total : total p (seq 0 n) <= 1 + D * e.
Hypothesis D_pos : 0 <= D.
Hypothesis o_ok : forall j, (0 < j < n)%nat -> Permutation (visits (o j)) (seq 0 j).
Hypothesis no_overflow : B <= bpow radix2 (emax dt - 4).
Hypothesis few : (INR n + D + 1) * e <= / 50.
(** the minimum bin size is large enough for the dtype at the ends of the range *)
Hypothesis m_large : (9 * INR n + 4 * D + 40) * e * B < m.

Notation Rg := (rmax - rmin).
Lemma e_small : 0 < e <= / 50.
Proof. pose proof (eps_pos dt). split; auto. assert (1 * e <= (INR n + D + 1) * e); [|lra]. apply Rmult_le_compat_r; [lra|]. pose proof (pos_INR n). lra. Qed.
Lemma ne_small : 0 <= INR n * e <= / 50.
Proof. pose proof (eps_pos dt). pose proof (pos_INR n). split; [nra|]. assert (INR n * e <= (INR n + D + 1) * e); [|lra]. apply Rmult_le_compat_r; lra. Qed.
Lemma De_small : 0 <= D * e <= / 50.
Proof. pose proof (eps_pos dt). pose proof (pos_INR n). split; [nra|]. assert (D * e <= (INR n + D + 1) * e); [|lra]. apply Rmult_le_compat_r; lra. Qed.
Lemma B_bounds : 0 < m /\ - B <= rmin /\ rmax <= B /\ 0 < Rg <= 2 * B.
Proof.
  pose proof (tiny_pos dt). apply Rabs_le_inv in rmin_B, rmax_B. repeat split; lra.
Qed.
Lemma big_repr d k : (emax dt <= emax d)%Z -> (mant dt <= mant d)%Z -> (1 <= k <= 3)%Z -> repr d (bpow radix2 (emax dt - k)).
Proof.
  intros H1 H2 K. pose proof (mant_ok dt); pose proof (exp_ok dt); pose proof (mant_ok d); pose proof (exp_ok d).
  split; [apply F_bpow; unfold emin; lia|]. rewrite Rabs_pos_eq by apply bpow_ge_0. apply bpow_lt. lia.
Qed.
Lemma B8 : 8 * B <= bpow radix2 (emax dt - 1) /\ 2 * B <= bpow radix2 (emax dt - 3).
Proof.
  split.
  - replace (emax dt - 1)%Z with (3 + (emax dt - 4))%Z by lia. rewrite bpow_plus. change (bpow radix2 3) with 8. lra.
  - replace (emax dt - 3)%Z with (1 + (emax dt - 4))%Z by lia. rewrite bpow_plus. change (bpow radix2 1) with 2. lra.
Qed.

(** the constants the constructor computes in Python *)
Lemma host_consts : exists t, fsub host (fl_range_size host (Fin rmin) (Fin rmax)) (fmul host (Fin (INR n)) (Fin m)) = Fin t /\
  0 <= t /\ t <= Rg - INR n * m + (16/5) * (e * Rg) /\ INR n * m <= (11/10) * Rg.
Proof.
  destruct B_bounds as (Pm & B1 & B2 & PR & R2). destruct B8 as [B8a B8b]. destruct host_values as ([F1 _] & [F2 _] & [F3 _] & _).
  pose proof e_small as Es. pose proof eps_host as Eh. pose proof (eps_pos host) as Eh0.
  assert (N1 : 1 <= INR n) by (apply (le_INR 1); auto). set (nm := INR n * m) in *.
  assert (NM : m <= nm) by (unfold nm; nra).
  assert (A1 : Rabs (rnd host Rg - Rg) <= eps host * Rabs Rg).
  { apply add_err; auto. apply F_opp; auto. }
  rewrite (Rabs_pos_eq Rg) in A1 by lra. apply Rabs_le_inv in A1. assert (eps host * Rg <= e * Rg) by (apply Rmult_le_compat_r; lra).
  assert (A2 : Rabs (rnd host nm - nm) <= eps host * nm).
  { rewrite <- (Rabs_pos_eq nm) at 3 by lra. apply rnd_err. rewrite Rabs_pos_eq by lra. pose proof tiny_host. lra. }
  apply Rabs_le_inv in A2. assert (eps host * nm <= e * nm) by (apply Rmult_le_compat_r; lra).
  assert (Rr : fl_range_size host (Fin rmin) (Fin rmax) = Fin (rnd host Rg) /\ repr host (rnd host Rg)).
  { unfold fl_range_size, fsub. rewrite xsub_fin.
    destruct (fround_between host Rg 0 _ (repr_0 host) (big_repr host 3 host_emax host_mant ltac:(lia)) ltac:(lra)) as (Q & _ & Q'). auto. }
  destruct Rr as (Er & Rr). unfold fl_bins_too_large in check. rewrite Er in check |- *. fold nm.
  assert (Em : fmul host (Fin (INR n)) (Fin m) = Fin (rnd host nm) /\ repr host (rnd host nm)).
  { unfold fmul in *. rewrite xmul_fin in check |- *. fold nm in check |- *. cbn [fround] in check |- *. destruct (Rlt_dec (Rabs (rnd host nm)) (maxpow host)) as [L|L].
    - split; [auto|]. split; [apply F_rnd|auto].
    - exfalso. destruct (Rlt_dec nm 0); [lra|]. discriminate check. }
  destruct Em as (Em & Rm). rewrite Em in *. apply xltb_fin_f in check.
  set (r1 := rnd host Rg) in *. set (r2 := rnd host nm) in *.
  assert (NR : nm <= (11/10) * Rg). { assert (e * Rg <= / 50 * Rg) by (apply Rmult_le_compat_r; lra). assert (e * nm <= / 50 * nm) by (apply Rmult_le_compat_r; lra). lra. }
  assert (A3 : Rabs (rnd host (r1 - r2) - (r1 - r2)) <= eps host * Rabs (r1 - r2)).
  { apply add_err; [apply Rr|apply F_opp, Rm]. }
  rewrite (Rabs_pos_eq (r1 - r2)) in A3 by lra. apply Rabs_le_inv in A3. assert (eps host * (r1 - r2) <= e * (r1 - r2)) by (apply Rmult_le_compat_r; lra).
  assert (r2p : 0 <= r2). { apply rnd_nonneg. lra. }
  assert (e * (r1 - r2) <= e * r1) by (apply Rmult_le_compat_l; lra).
  assert (r1u : r1 <= (51/50) * Rg). { assert (e * Rg <= / 50 * Rg) by (apply Rmult_le_compat_r; lra). lra. }
  assert (e * r1 <= (51/50) * (e * Rg)). { replace ((51/50) * (e * Rg)) with (e * ((51/50) * Rg)) by ring. apply Rmult_le_compat_l; lra. }
  assert (e * nm <= (11/10) * (e * Rg)). { replace ((11/10) * (e * Rg)) with (e * ((11/10) * Rg)) by ring. apply Rmult_le_compat_l; lra. }
  exists (rnd host (r1 - r2)). split.
  - unfold fsub. rewrite xsub_fin. destruct (fround_between host (r1 - r2) 0 r1 (repr_0 host) Rr ltac:(lra)) as (Q & _). exact Q.
  - split; [apply rnd_nonneg; lra|]. split; [|exact NR]. assert (0 <= e * Rg) by (apply Rmult_le_pos; lra). lra.
Qed.

(** the sizes of the bins *)
Lemma sizes : exists s : nat -> R, (forall i, (i < n)%nat -> fl_bin_size dt host (Fin rmin) (Fin rmax) (Fin m) n (Fin (p i)) = Fin (s i)) /\
  (forall i, repr dt (s i)) /\ (forall i, 0 <= s i) /\ (forall i, (i < n)%nat -> (1 - e) * m <= s i) /\
  (forall j, (j < n)%nat -> total s (seq 0 j) + m <= Rg + e * Rg * (13 + 2 * D)) /\
  total s (seq 0 n) <= (3/2) * Rg.
Proof.
  destruct host_consts as (t & Et & Pt & Ut & NR). destruct B_bounds as (Pm & B1 & B2 & PR & R2). pose proof e_small as Es. pose proof ne_small as Ns. pose proof De_small as Ds.
  assert (N1 : 1 <= INR n) by (apply (le_INR 1); auto). destruct B8 as [B8a B8b].
  assert (ER : 0 <= e * Rg <= / 50 * Rg) by (split; [apply Rmult_le_pos; lra|apply Rmult_le_compat_r; lra]).
  assert (NM : m <= INR n * m) by nra.
  set (T := rnd dt t).
  assert (BT : Rabs (T - t) <= e * ((11/10) * Rg)).
  { apply rnd_abs; [rewrite Rabs_pos_eq by auto|]; lra. }
  apply Rabs_le_inv in BT. assert (PT : 0 <= T) by (apply rnd_nonneg; auto).
  assert (UT : T <= Rg - INR n * m + (43/10) * (e * Rg)) by lra.
  assert (UT' : T <= (11/10) * Rg) by lra.
  assert (ET : fround dt (Fin t) = Fin T /\ repr dt T).
  { destruct (fround_between dt t 0 _ (repr_0 dt) (big_repr dt 1 ltac:(lia) ltac:(lia) ltac:(lia)) ltac:(lra)) as (Q & _ & Q'). auto. }
  set (M := rnd dt m).
  assert (BM : Rabs (M - m) <= e * m). { apply rnd_abs; [rewrite Rabs_pos_eq by lra|]; lra. }
  apply Rabs_le_inv in BM. assert (Em : 0 <= e * m <= / 50 * m) by (split; [apply Rmult_le_pos; lra|apply Rmult_le_compat_r; lra]).
  assert (EM : fround dt (Fin m) = Fin M /\ repr dt M).
  { destruct (fround_between dt m 0 _ (repr_0 dt) (big_repr dt 1 ltac:(lia) ltac:(lia) ltac:(lia)) ltac:(lra)) as (Q & _ & Q'). auto. }
  set (q := fun i => rnd dt (p i * T)). set (s := fun i => if lt_dec i n then rnd dt (q i + M) else 0).
  assert (Q : forall i, (i < n)%nat -> fmul dt (Fin (p i)) (Fin T) = Fin (q i) /\ repr dt (q i) /\ 0 <= q i <= T /\ q i <= (1 + e) * (p i * T) + e * m).
  { intros i Hi. destruct (p_ok i Hi) as (_ & P0 & P1). assert (PQ : 0 <= p i * T <= T) by (split; nra).
    unfold fmul. rewrite xmul_fin. destruct (fround_between dt (p i * T) 0 T (repr_0 dt) (proj2 ET) PQ) as (Q1 & Q2 & Q3).
    split; auto. split; auto. split; auto.
    assert (A : Rabs (rnd dt (p i * T) - p i * T) <= e * Rmax (p i * T) (tiny dt)).
    { apply rnd_abs; [rewrite Rabs_pos_eq by lra; apply Rmax_l|apply Rmax_r]. }
    apply Rabs_le_inv in A. assert (Mx : Rmax (p i * T) (tiny dt) <= p i * T + m) by (apply Rmax_lub; lra).
    assert (e * Rmax (p i * T) (tiny dt) <= e * (p i * T + m)) by (apply Rmult_le_compat_l; lra). unfold q. lra. }
  assert (Sf : forall i, (i < n)%nat -> fadd dt (Fin (q i)) (Fin M) = Fin (s i) /\ repr dt (s i) /\ M <= s i /\ s i <= (1 + e) * (q i + M)).
  { intros i Hi. unfold s. destruct (lt_dec i n) as [_|]; [|contradiction]. destruct (Q i Hi) as (_ & Rq & Bq & _).
    unfold fadd. rewrite xadd_fin. destruct (fround_between dt (q i + M) M _ (proj2 EM) (big_repr dt 1 ltac:(lia) ltac:(lia) ltac:(lia)) ltac:(lra)) as (Q1 & Q2 & Q3).
    split; auto. split; auto. split; [apply Q2|]. pose proof (add_err dt (q i) M (proj1 Rq) (proj1 (proj2 EM))) as A. rewrite (Rabs_pos_eq (q i + M)) in A by lra. apply Rabs_le_inv in A. lra. }
  assert (Ps : forall i, 0 <= s i). { intros i. destruct (lt_dec i n) as [Hi|Hi]; [destruct (Sf i Hi) as (_ & _ & K & _); lra|unfold s; destruct (lt_dec i n); [contradiction|lra]]. }
  (* the total of the first j sizes *)
  assert (Sum : forall j, (j <= n)%nat -> total s (seq 0 j) <= (1 + e) * ((1 + e) * T * total p (seq 0 j) + INR j * ((1 + 2 * e) * m))).
  { induction j as [|j IH]; intros Hj; [cbn; lra|]. rewrite !total_seq_S, S_INR. specialize (IH ltac:(lia)).
    destruct (Q j ltac:(lia)) as (_ & _ & _ & Uq). destruct (Sf j ltac:(lia)) as (_ & _ & _ & Us).
    assert (q j + M <= (1 + e) * (p j * T) + (1 + 2 * e) * m) by lra.
    assert ((1 + e) * (q j + M) <= (1 + e) * ((1 + e) * (p j * T) + (1 + 2 * e) * m)) by (apply Rmult_le_compat_l; lra).
    assert (Dd : (1 + e) * ((1 + e) * T * (total p (seq 0 j) + p j) + (INR j + 1) * ((1 + 2 * e) * m)) =
                (1 + e) * ((1 + e) * T * total p (seq 0 j) + INR j * ((1 + 2 * e) * m)) + (1 + e) * ((1 + e) * (p j * T) + (1 + 2 * e) * m)) by ring.
    lra. }
  assert (Pj : forall j, (j <= n)%nat -> 0 <= total p (seq 0 j) <= 1 + D * e).
  { intros j Hj. split.
    - apply total_nonneg. intros i Hi. apply in_seq in Hi. destruct (p_ok i ltac:(lia)); lra.
    - apply Rle_trans with (2 := p_total). revert p_ok. clear - Hj. intros p_ok. induction Hj as [|k Hj IH]; [lra|]. rewrite total_seq_S.
      assert (total p (seq 0 j) <= total p (seq 0 k)) by (apply IH; intros; apply p_ok; lia). destruct (p_ok k ltac:(lia)). lra. }
  (* (1+e)^2 T (1 + D e) *)
  assert (W : forall j, (j <= n)%nat -> (1 + e) * ((1 + e) * T * total p (seq 0 j)) <= T + (e * Rg) * ((5/2) + (3/2) * D)).
  { intros j Hj. destruct (Pj j Hj) as [Pa Pb].
    assert (T * total p (seq 0 j) <= T * (1 + D * e)) by (apply Rmult_le_compat_l; auto).
    assert (T * (D * e) <= (11/10) * Rg * (D * e)) by (apply Rmult_le_compat_r; lra).
    assert (X1 : (1 + e) * ((1 + e) * T * total p (seq 0 j)) = (1 + e) * (1 + e) * (T * total p (seq 0 j))) by ring. rewrite X1.
    assert (X2 : 0 <= (1 + e) * (1 + e) <= 1 + (101/50) * e) by nra.
    apply Rle_trans with ((1 + (101/50) * e) * (T * (1 + D * e))).
    { apply Rle_trans with ((1 + e) * (1 + e) * (T * (1 + D * e))); [apply Rmult_le_compat_l; lra|]. apply Rmult_le_compat_r; [|lra]. apply Rmult_le_pos; lra. }
    assert (X3 : T * (1 + D * e) = T + T * (D * e)) by ring.
    assert (X4 : e * (T * (1 + D * e)) <= e * ((11/10) * Rg * (51/50))).
    { apply Rmult_le_compat_l; [lra|]. apply Rmult_le_compat; lra. }
    assert (X5 : e * (11 / 10 * Rg * (51 / 50)) = (561/500) * (e * Rg)) by field. 
    assert (X6 : 11 / 10 * Rg * (D * e) = (11/10) * (D * (e * Rg))) by ring.
    assert (X7 : e * Rg * (5 / 2 + 3 / 2 * D) = (5/2) * (e * Rg) + (3/2) * (D * (e * Rg))) by ring.
    assert (X8 : 0 <= D * (e * Rg)) by (apply Rmult_le_pos; lra).
    replace ((1 + 101 / 50 * e) * (T * (1 + D * e))) with (T * (1 + D * e) + (101/50) * (e * (T * (1 + D * e)))) by ring.
    lra. }
  assert (V : forall j, (j <= n)%nat -> (1 + e) * (INR j * ((1 + 2 * e) * m)) <= INR j * m + (7/2) * (e * Rg)).
  { intros j Hj. assert (Ij : INR j <= INR n) by (apply le_INR; auto). pose proof (pos_INR j) as Ij0.
    assert (Y1 : INR j * m <= (11/10) * Rg) by nra. assert (Y0 : 0 <= INR j * m) by nra.
    assert (Y2 : (1 + e) * (1 + 2 * e) <= 1 + (152/50) * e) by nra.
    replace ((1 + e) * (INR j * ((1 + 2 * e) * m))) with ((1 + e) * (1 + 2 * e) * (INR j * m)) by ring.
    apply Rle_trans with ((1 + (152/50) * e) * (INR j * m)); [apply Rmult_le_compat_r; lra|].
    assert (e * (INR j * m) <= e * ((11/10) * Rg)) by (apply Rmult_le_compat_l; lra). lra. }
  exists s. split; [|split; [|split; [auto|split; [|split]]]].
  - intros i Hi. unfold fl_bin_size. rewrite Et, (proj1 ET), (proj1 EM). destruct (Q i Hi) as (-> & _). apply (Sf i Hi).
  - intros i. destruct (lt_dec i n) as [Hi|Hi]; [apply (Sf i Hi)|]. unfold s. destruct (lt_dec i n); [contradiction|apply repr_0].
  - intros i Hi. destruct (Sf i Hi) as (_ & _ & K & _). lra.
  - intros j Hj. pose proof (Sum j ltac:(lia)) as K. rewrite Rmult_plus_distr_l in K. pose proof (W j ltac:(lia)) as Wj. pose proof (V j ltac:(lia)) as Vj.
    assert (INR j + 1 <= INR n) by (rewrite <- S_INR; apply le_INR; lia).
    assert (INR j * m + m <= INR n * m) by nra.
    assert (e * Rg * (5 / 2 + 3 / 2 * D) = (5/2) * (e * Rg) + (3/2) * (D * (e * Rg))) by ring.
    assert (e * Rg * (13 + 2 * D) = 13 * (e * Rg) + 2 * (D * (e * Rg))) by ring.
    assert (0 <= D * (e * Rg)) by (apply Rmult_le_pos; lra). lra.
  - pose proof (Sum n ltac:(lia)) as K. rewrite Rmult_plus_distr_l in K. pose proof (W n ltac:(lia)) as Wj. pose proof (V n ltac:(lia)) as Vj.
    assert (e * Rg * (5 / 2 + 3 / 2 * D) = (5/2) * (e * Rg) + (3/2) * (D * e * Rg)) by ring.
    assert (D * e * Rg <= / 50 * Rg) by (apply Rmult_le_compat_r; lra). lra.
Qed.

(** The knots are finite, distinct and increasing. *)
Theorem C88_knots_increasing :
  forall j, (j < n)%nat -> exists a b,
    fl_knot dt host (Fin rmin) (Fin rmax) (Fin m) n (fun i => Fin (p i)) o j = Fin a /\
    fl_knot dt host (Fin rmin) (Fin rmax) (Fin m) n (fun i => Fin (p i)) o (S j) = Fin b /\
    repr dt a /\ repr dt b /\ a < b.
Proof.
  destruct sizes as (s & Es & Rs & Ps & Ms & Us & Ts). destruct B_bounds as (Pm & B1 & B2 & PR & R2).
  pose proof e_small as Esm. pose proof ne_small as Ns. pose proof De_small as Ds. destruct B8 as [B8a B8b].
  assert (N1 : 1 <= INR n) by (apply (le_INR 1); auto).
  assert (EB : 0 <= e * B <= / 50 * B) by (split; [apply Rmult_le_pos; lra|apply Rmult_le_compat_r; lra]).
  assert (ER : 0 <= e * Rg <= 2 * (e * B)).
  { split; [apply Rmult_le_pos; lra|]. replace (2 * (e * B)) with (e * (2 * B)) by ring. apply Rmult_le_compat_l; lra. }
  assert (mB : m <= (11/5) * B). { destruct host_consts as (t & _ & _ & _ & NR). nra. }
  assert (EN : 0 <= INR n * (e * B)) by (apply Rmult_le_pos; lra). assert (ED : 0 <= D * (e * B)) by (apply Rmult_le_pos; lra).
  assert (mL : 9 * (INR n * (e * B)) + 4 * (D * (e * B)) + 40 * (e * B) < m) by (replace (9 * (INR n * (e * B)) + 4 * (D * (e * B)) + 40 * (e * B)) with ((9 * INR n + 4 * D + 40) * e * B) by ring; auto).
  assert (em : 0 <= e * m <= (11/5) * (e * B)).
  { split; [apply Rmult_le_pos; lra|]. replace ((11/5) * (e * B)) with (e * ((11/5) * B)) by ring. apply Rmult_le_compat_l; lra. }
  (* the converted ends *)
  assert (Cv : forall x, - B <= x <= B -> fround dt (Fin x) = Fin (rnd dt x) /\ repr dt (rnd dt x) /\ Rabs (rnd dt x - x) <= (11/5) * (e * B)).
  { intros x Hx. destruct (fround_between dt x _ _ (repr_opp dt _ (big_repr dt 1 ltac:(lia) ltac:(lia) ltac:(lia))) (big_repr dt 1 ltac:(lia) ltac:(lia) ltac:(lia)) ltac:(lra)) as (Q1 & _ & Q3).
    split; auto. split; auto. replace ((11/5) * (e * B)) with (e * ((11/5) * B)) by ring. apply rnd_abs; [apply Rabs_le; lra|lra]. }
  destruct (Cv rmin ltac:(lra)) as (El & Rl & Bl). destruct (Cv rmax ltac:(lra)) as (Eh & Rh & Bh). apply Rabs_le_inv in Bl, Bh.
  set (lo := rnd dt rmin) in *. set (hi := rnd dt rmax) in *.
  (* prefix sums *)
  assert (Tj : forall j, (j <= n)%nat -> 0 <= total s (seq 0 j) <= (3/2) * Rg).
  { intros j Hj. split; [apply total_nonneg; auto|]. apply Rle_trans with (2 := Ts). apply total_seq_mono; auto. }
  assert (nER : INR n * e * ((3/2) * Rg) <= 3 * (INR n * (e * B))).
  { replace (3 * (INR n * (e * B))) with (INR n * e * (3 * B)) by ring. apply Rmult_le_compat_l; lra. }
  assert (C : forall j, (0 < j < n)%nat -> exists c, sum_in dt (o j) (fun i => fl_bin_size dt host (Fin rmin) (Fin rmax) (Fin m) n (Fin (p i))) = Fin c /\ repr dt c /\
     total s (seq 0 j) - 3 * (INR n * (e * B)) <= c <= total s (seq 0 j) + 6 * (INR n * (e * B))).
  { intros j Hj. pose proof (o_ok j Hj) as Pj.
    rewrite (sum_in_ext dt (o j) _ (fun i => Fin (s i))).
    2:{ intros i Hi. apply Es. apply (Permutation_in i Pj), in_seq in Hi. lia. }
    assert (Dp : (depth (o j) <= n)%nat). { pose proof (depth_length (o j)) as K. rewrite (Permutation_length Pj), seq_length in K. lia. }
    assert (De : INR (depth (o j)) * e <= INR n * e) by (apply Rmult_le_compat_r; [lra|apply le_INR; auto]).
    destruct (Tj j ltac:(lia)) as [T0 T1]. set (t := total s (seq 0 j)) in *.
    assert (Up : (1 + e) ^ depth (o j) * t <= t + 6 * (INR n * (e * B))).
    { pose proof (pow_up e (depth (o j)) ltac:(lra) ltac:(lra)) as K. apply Rle_trans with ((1 + 2 * (INR n * e)) * t); [apply Rmult_le_compat_r; lra|].
      assert (INR n * e * t <= INR n * e * ((3/2) * Rg)) by (apply Rmult_le_compat_l; lra). lra. }
    assert (Lo : t - 3 * (INR n * (e * B)) <= (1 - e) ^ depth (o j) * t).
    { pose proof (bernoulli_le e (depth (o j)) ltac:(lra)) as K. apply Rle_trans with ((1 - INR n * e) * t); [|apply Rmult_le_compat_r; lra].
      assert (INR n * e * t <= INR n * e * ((3/2) * Rg)) by (apply Rmult_le_compat_l; lra). lra. }
    assert (nEB : INR n * (e * B) <= / 50 * B) by (replace (INR n * (e * B)) with (INR n * e * B) by ring; apply Rmult_le_compat_r; lra).
    destruct (sum_in_fin s _ (o j) Rs Ps (big_repr dt 1 ltac:(lia) ltac:(lia) ltac:(lia))) as (c & Ec & Rc & L1 & L2).
    { rewrite (total_perm s _ _ Pj). fold t. lra. }
    rewrite (total_perm s _ _ Pj) in L1, L2. fold t in L1, L2. exists c. split; auto. split; auto. lra. }
  (* interior knots *)
  assert (Kn : forall j, (0 < j < n)%nat -> exists a, fl_knot dt host (Fin rmin) (Fin rmax) (Fin m) n (fun i => Fin (p i)) o j = Fin a /\ repr dt a /\
     lo + total s (seq 0 j) - 3 * (INR n * (e * B)) - 5 * (e * B) <= a <= lo + total s (seq 0 j) + 6 * (INR n * (e * B)) + 5 * (e * B)).
  { intros j Hj. destruct (C j Hj) as (c & Ec & Rc & Bc). unfold fl_knot.
    destruct (Nat.eqb_spec j 0); [lia|]. destruct (Nat.eqb_spec j n); [lia|]. cbv beta. rewrite El, Ec. unfold fadd. rewrite xadd_fin.
    destruct (Tj j ltac:(lia)) as [T0 T1].
    assert (nEB : INR n * (e * B) <= / 50 * B) by (replace (INR n * (e * B)) with (INR n * e * B) by ring; apply Rmult_le_compat_r; lra).
    assert (Ab : Rabs (lo + c) <= 5 * B) by (apply Rabs_le; lra).
    destruct (fround_between dt (lo + c) _ _ (repr_opp dt _ (big_repr dt 1 ltac:(lia) ltac:(lia) ltac:(lia))) (big_repr dt 1 ltac:(lia) ltac:(lia) ltac:(lia))) as (Q1 & _ & Q3).
    { apply Rabs_le_inv in Ab. lra. }
    exists (rnd dt (lo + c)). split; auto. split; auto.
    pose proof (add_err dt lo c (proj1 Rl) (proj1 Rc)) as A.
    assert (e * Rabs (lo + c) <= e * (5 * B)) by (apply Rmult_le_compat_l; lra). apply Rabs_le_inv in A. lra. }
  assert (K0 : fl_knot dt host (Fin rmin) (Fin rmax) (Fin m) n (fun i => Fin (p i)) o 0 = Fin lo) by (unfold fl_knot; cbn [Nat.eqb]; auto).
  assert (KN : fl_knot dt host (Fin rmin) (Fin rmax) (Fin m) n (fun i => Fin (p i)) o n = Fin hi).
  { unfold fl_knot. destruct (Nat.eqb_spec n 0); [lia|]. rewrite Nat.eqb_refl. auto. }
  assert (ERD : e * Rg * (13 + 2 * D) <= 26 * (e * B) + 4 * (D * (e * B))).
  { assert (D * (e * Rg) <= D * (2 * (e * B))) by (apply Rmult_le_compat_l; lra). replace (e * Rg * (13 + 2 * D)) with (13 * (e * Rg) + 2 * (D * (e * Rg))) by ring. lra. }
  intros j Hj. pose proof (Ms j Hj) as Mj. pose proof (total_seq_S s j) as TS.
  destruct (Nat.eq_dec j 0) as [J0|J0]; destruct (Nat.eq_dec (S j) n) as [Jn|Jn].
  - (* a single bin *) exists lo, hi. rewrite Jn, J0. split; auto. split; auto. split; auto. split; auto.
    pose proof (Us 0%nat ltac:(lia)) as U0. cbn [seq total fold_right] in U0. lra.
  - subst j. destruct (Kn 1%nat ltac:(lia)) as (b & Eb & Rb & Bb1 & Bb2). exists lo, b. split; auto. split; auto. split; auto. split; auto.
    rewrite TS in Bb1. change (total s (seq 0 0)) with 0 in Bb1. lra.
  - rewrite Jn. destruct (Kn j ltac:(lia)) as (a & Ea & Ra & Ba1 & Ba2). exists a, hi. split; auto. split; auto. split; auto. split; auto.
    pose proof (Us j Hj) as U0. lra.
  - destruct (Kn j ltac:(lia)) as (a & Ea & Ra & Ba1 & Ba2). destruct (Kn (S j) ltac:(lia)) as (b & Eb & Rb & Bb1 & Bb2).
    exists a, b. split; auto. split; auto. split; auto. split; auto. rewrite TS in Bb1. lra.
Qed.
End Knots.
Print Assumptions C88_knots_increasing.

(** ** A case that meets the hypotheses: float32 parameters, Python floats, four equal bins on [-1, 1]
    with [min_bin_size = 2^-13] (the default is 1e-4), cumsum from left to right. *)
Lemma repr_pw dt k : (emin dt <= k < emax dt)%Z -> repr dt (bpow radix2 k).
Proof. intros H. split; [apply F_bpow; lia|]. rewrite Rabs_pos_eq by apply bpow_ge_0. apply bpow_lt. lia. Qed.
Fixpoint left_to_right (j : nat) : order := match j with 0%nat => At 0 | S k => Plus (left_to_right k) (At (S k)) end.
Lemma visits_left j : visits (left_to_right j) = seq 0 (S j).
Proof. induction j as [|j IH]; [reflexivity|]. cbn [left_to_right visits]. rewrite IH. symmetry. apply (seq_S (S j) 0). Qed.
Example C88_example j : (j < 4)%nat -> exists a b,
  let knot := fl_knot float32 float64 (Fin (-1)) (Fin 1) (Fin (bpow radix2 (-13))) 4 (fun _ => Fin (/ 4)) (fun k => left_to_right (k - 1)) in
  knot j = Fin a /\ knot (S j) = Fin b /\ repr float32 a /\ repr float32 b /\ a < b.
Proof.
  cbv zeta. assert (R1 := repr_1 float64).
  assert (Rm : repr float64 (bpow radix2 (-13))) by (apply repr_pw; cbn; lia).
  assert (I4 : INR 4 = 4) by (cbn; lra).
  assert (P13 : bpow radix2 (-13) = / 8192) by (cbn; lra).
  assert (E : eps float32 = / 16777216) by (cbn; lra).
  apply (C88_knots_increasing float32 float64 ltac:(cbn; lia) ltac:(cbn; lia) (-1) 1 (bpow radix2 (-13)) 1 0 4 (fun _ => / 4)).
  - lia.
  - rewrite Rabs_left; lra.
  - rewrite Rabs_R1; lra.
  - lra.
  - split; [replace (-1) with (- (1)) by lra; apply (FloatLib.repr_opp float64 1 R1)|]. split; auto. split; auto. rewrite I4. change 4 with (bpow radix2 2). apply repr_pw; cbn; lia.
  - apply bpow_le. cbn; lia.
  - unfold fl_bins_too_large, fl_range_size, fsub, fmul. rewrite xsub_fin, xmul_fin, I4.
    replace (1 - -1) with (bpow radix2 1) by (cbn; lra). replace (4 * bpow radix2 (-13)) with (bpow radix2 (-11)) by (cbn; lra).
    rewrite !fround_repr by (apply repr_pw; cbn; lia). cbn [xltb]. destruct (Rlt_dec _ _) as [L|]; auto. exfalso. apply lt_bpow in L. lia.
  - intros i _. split; [|lra]. change (/ 4) with (bpow radix2 (-2)). apply repr_pw; cbn; lia.
  - cbn. lra.
  - lra.
  - intros k Hk. rewrite visits_left. replace (S (k - 1)) with k by lia. reflexivity.
  - change 1 with (bpow radix2 0) at 1. apply bpow_le. cbn; lia.
  - rewrite I4, E. lra.
  - rewrite I4, E, P13. lra.
Qed.

From Flocq Require Import BinarySingleNaN.
From Verif Require Import Proofs.FloatIEEE.
Local Instance gt32 : Prec_gt_0 24 := mant_gt_0 float32.
Local Instance lt32 : Prec_lt_emax 24 128 := mant_lt_emax float32.
Definition b_lo : binary_float 24 128 := @B754_finite 24 128 false 8388608 (-9) eq_refl.
Definition b_m : binary_float 24 128 := @B754_finite 24 128 false 8388608 (-36) eq_refl.
(** ** "No bin is smaller than min_bin_size" fails far from the origin: on [2^14, 2^14 + 1] with two bins
    and [min_bin_size = 2^-13] the constructor's check passes, but a bin given softmax weight 0 has
    both its knots at 2^14 in float32.  Its width is then 0; the inverse of any value that falls in
    that bin's y-interval is NaN. *)
Theorem C88_min_bin_size_refuted :
  let lo := bpow radix2 14 in let m := Fin (bpow radix2 (-13)) in
  let knot := fl_knot float32 float64 (Fin lo) (Fin (lo + 1)) m 2 (fun i => if Nat.eqb i 0 then Fin 0 else Fin 1) (fun _ => At 0) in
  fl_bins_too_large float64 (Fin lo) (Fin (lo + 1)) m 2 = false /\
  knot 0%nat = Fin lo /\ knot 1%nat = Fin lo /\
  forall height, 0 < height ->
    let width := fsub float32 (knot 1%nat) (knot 0%nat) in
    let bin_slope := fdiv float32 (Fin height) width in
    forall s0 s1 w, repr float32 s0 -> repr float32 s1 -> repr float32 w -> 0 <= w <= 1 -> Rabs (s1 + s0) < bpow radix2 127 ->
    fl_rqs_inv_x float32 width (knot 0%nat) (fl_rqs_inv_z float32 (Fin s0) (Fin s1) bin_slope (Fin w)) = NaN.
Proof.
  cbv zeta. set (lo := bpow radix2 14). set (m := bpow radix2 (-13)).
  assert (I2 : INR 2 = 2) by (cbn; lra). assert (Lo : lo = 16384) by (unfold lo; cbn; lra).
  assert (Rlo : repr float32 lo) by (apply repr_pw; cbn; lia). assert (Rm : repr float32 m) by (apply repr_pw; cbn; lia).
  assert (Add : fadd float32 (Fin lo) (Fin m) = Fin lo).
  { assert (V1 : Fin lo = of_ieee float32 b_lo) by (cbn; f_equal; unfold lo, F2R; cbn; lra).
    assert (V2 : Fin m = of_ieee float32 b_m) by (cbn; f_equal; unfold m, F2R; cbn; lra).
    rewrite V1, V2, fadd_ieee. apply (f_equal (of_ieee float32)). apply B2SF_inj. vm_compute. reflexivity. }
  assert (S1 : fsub float64 (Fin (lo + 1)) (Fin lo) = Fin 1).
  { unfold fsub. rewrite xsub_fin. replace (lo + 1 - lo) with 1 by ring. apply fround_repr, repr_1. }
  assert (S2 : fmul float64 (Fin (INR 2)) (Fin m) = Fin (bpow radix2 (-12))).
  { unfold fmul. rewrite xmul_fin, I2. replace (2 * m) with (bpow radix2 (-12)) by (unfold m; cbn; lra). apply fround_repr, repr_pw; cbn; lia. }
  assert (K0 : fl_knot float32 float64 (Fin lo) (Fin (lo + 1)) (Fin m) 2 (fun i => if Nat.eqb i 0 then Fin 0 else Fin 1) (fun _ => At 0) 0 = Fin lo).
  { unfold fl_knot. cbn [Nat.eqb]. apply fround_repr, Rlo. }
  assert (K1 : fl_knot float32 float64 (Fin lo) (Fin (lo + 1)) (Fin m) 2 (fun i => if Nat.eqb i 0 then Fin 0 else Fin 1) (fun _ => At 0) 1 = Fin lo).
  { unfold fl_knot. cbn [Nat.eqb sum_in]. rewrite (fround_repr _ _ Rlo). unfold fl_bin_size, fl_range_size. rewrite S1, S2.
    unfold fsub. rewrite xsub_fin.
    destruct (fround_between float64 (1 - bpow radix2 (-12)) 0 1 (repr_0 _) (repr_1 _)) as (-> & Q & _); [cbn; lra|].
    destruct (fround_between float32 (rnd float64 (1 - bpow radix2 (-12))) 0 1 (repr_0 _) (repr_1 _) Q) as (-> & _ & _).
    unfold fmul. rewrite xmul_fin, Rmult_0_l, (fround_repr _ 0 (repr_0 _)), (fround_repr _ _ Rm).
    unfold fadd at 2. rewrite xadd_fin, Rplus_0_l, (fround_repr _ _ Rm). unfold fadd. rewrite xadd_fin.
    exact Add. }
  split; [|split; [exact K0|split; [exact K1|]]].
  - unfold fl_bins_too_large, fl_range_size. rewrite S1, S2. cbn [xltb]. destruct (Rlt_dec _ _) as [L|]; auto. exfalso. change 1 with (bpow radix2 0) in L. apply lt_bpow in L. lia.
  - intros h Hh s0 s1 w R0 R1' Rw Bw Bs. rewrite K0, K1. unfold fsub at 1 2. rewrite xsub_fin, Rminus_diag_eq by auto. rewrite (fround_repr _ 0 (repr_0 _)).
    assert (BS : fdiv float32 (Fin h) (Fin 0) = PInf).
    { unfold fdiv. cbn [xdiv]. unfold inf_times. repeat destruct (Req_EM_T _ _); repeat destruct (Rlt_dec _ _); try lra; reflexivity. }
    rewrite BS.
    assert (Z : fl_rqs_inv_z float32 (Fin s0) (Fin s1) PInf (Fin w) = NaN); [|rewrite Z; reflexivity].
    unfold fl_rqs_inv_z, fl_rqs_slopes_term.
    assert (A1 : exists t, fadd float32 (Fin s1) (Fin s0) = Fin t).
    { unfold fadd. rewrite xadd_fin. apply Rabs_def2 in Bs.
      destruct (fround_between float32 (s1 + s0) _ _ (FloatLib.repr_opp _ _ (repr_pw float32 127 ltac:(cbn; lia))) (repr_pw float32 127 ltac:(cbn; lia)) ltac:(lra)) as (-> & _). eauto. }
    destruct A1 as (t & ->).
    assert (M2 : fmul float32 (Fin 2) PInf = PInf).
    { unfold fmul. cbn [xmul]. unfold inf_times. repeat destruct (Req_EM_T _ _); repeat destruct (Rlt_dec _ _); try lra; reflexivity. }
    rewrite M2. change (fsub float32 (Fin t) PInf) with NInf.
    destruct (Req_dec w 0) as [-> |W].
    + assert (M3 : fmul float32 NInf (Fin 0) = NaN). { unfold fmul. cbn [xmul]. unfold inf_times. repeat destruct (Req_EM_T _ _); repeat destruct (Rlt_dec _ _); try lra; reflexivity. }
      cbn [xopp]. rewrite M3. change (fsub float32 (Fin s0) NaN) with NaN. change (fsub float32 PInf NaN) with NaN. unfold fl_safe_quadratic_root. cbn [xleb]. unfold fdiv, fadd, fsub, fmul. cbn [xopp xadd xsub]. change (fround float32 NaN) with NaN. cbn [xadd xsub]. destruct (xmul _ _); reflexivity.
    + assert (M3 : fmul float32 NInf (Fin w) = NInf). { unfold fmul. cbn [xmul]. unfold inf_times. repeat destruct (Req_EM_T _ _); repeat destruct (Rlt_dec _ _); try lra; reflexivity. }
      cbn [xopp]. rewrite M3. change (fsub float32 (Fin s0) NInf) with PInf. change (fsub float32 PInf PInf) with NaN.
      unfold fl_safe_quadratic_root.
      assert (M4 : fmul float32 (Fin 4) NaN = NaN) by reflexivity.
      assert (M5 : fmul float32 PInf PInf = PInf) by reflexivity.
      rewrite M4, M5. change (fmul float32 NaN NInf) with NaN. change (fsub float32 PInf NaN) with NaN.
      cbn [xltb xleb].
      assert (M6 : fmul float32 (Fin 2) NInf = NInf).
      { unfold fmul. cbn [xmul]. unfold inf_times. repeat destruct (Req_EM_T _ _); repeat destruct (Rlt_dec _ _); try lra; reflexivity. }
      rewrite M6. cbn [xopp]. change (fsub float32 NInf (Fin 0)) with NInf. reflexivity.
Qed.
Print Assumptions C88_min_bin_size_refuted.
