(** C100: HMM.viterbi in floating point. *)
From Coq Require Import Reals Lra Lia List Bool Arith ZArith Permutation.
From Flocq Require Import Core.
From Verif Require Import Base.XR Base.Float Spec.Rounding Spec.Accuracy Proofs.FloatOrder Proofs.FloatLib
  Props.FloatNormalize Props.FloatBij Props.FloatCategorical Props.FloatSoftmax.
From Verif Require Import Base.Sums Model.MathUtils Spec.HMM Model.FloatDist Model.FloatViterbi.
From Verif Require Proofs.HMM Proofs.MathUtils Props.FixedDeterministic.
Import ListNotations.
Local Open Scope R_scope.
Notation dtype := Float.dtype.

(** the log-probability of the first [t + 1] states of a path, added from left to right in [dt] *)
Fixpoint fl_score (dt : dtype) (ti : nat -> XR) (tr ob : nat -> nat -> XR) (p : list nat) (t : nat) : XR :=
  match t with
  | O => fadd dt (ti (nth 0 p O)) (ob O (nth 0 p O))
  | S t => fadd dt (fadd dt (fl_score dt ti tr ob p t) (tr (nth t p O) (nth (S t) p O))) (ob (S t) (nth (S t) p O))
  end.

(** ** the backward pass selects an entry exactly *)
Section Back.
Variables (dth : dtype) (o : order) (n : nat).
Hypothesis Ho : adds_all o n.
Lemma back_off o' (f : nat -> XR) s : (forall j, In j (visits o') -> exists r, f j = Fin r) -> (forall j, In j (visits o') -> s <> j) ->
  sum_in dth o' (fun i => fmul dth (f i) (if Nat.eqb i s then Fin 1 else Fin 0)) = Fin 0.
Proof.
  induction o' as [i|l IHl r IHr]; cbn [sum_in visits]; intros V H.
  - destruct (Nat.eqb_spec i s) as [E|_]; [exfalso; apply (H i); [left; auto|auto]|].
    destruct (V i) as (v & ->); [left; auto|]. unfold fmul. cbn [xmul]. rewrite Rmult_0_r. apply fround_repr, repr_0.
  - rewrite IHl, IHr by (intros; (apply V || apply H); apply in_or_app; auto). apply fadd_0_l. apply repr_0.
Qed.
Lemma back_on o' (f : nat -> XR) s : (forall j, In j (visits o') -> exists r, f j = Fin r /\ repr dth r) -> NoDup (visits o') -> In s (visits o') ->
  sum_in dth o' (fun i => fmul dth (f i) (if Nat.eqb i s then Fin 1 else Fin 0)) = f s.
Proof.
  induction o' as [i|l IHl r IHr]; cbn [sum_in visits]; intros V ND H.
  - destruct H as [-> |[]]. destruct (V s) as (v & Ev & Rv); [left; auto|]. rewrite Nat.eqb_refl, Ev. unfold fmul. cbn [xmul]. rewrite Rmult_1_r. apply fround_repr; auto.
  - destruct (nodup_app _ _ ND) as (NL & NR & D). apply in_app_or in H as [H|H].
    + assert (V' : forall j, In j (visits r) -> exists v, f j = Fin v) by (intros j Hj; destruct (V j) as (v & Ev & _); [apply in_or_app; auto|eauto]).
      rewrite IHl by (auto; intros; apply V, in_or_app; auto).
      rewrite (back_off r) by (eauto || (intros j Hj E; subst; eauto)).
      destruct (V s) as (v & -> & Rv); [apply in_or_app; auto|]. apply fadd_0_r, Rv.
    + assert (V' : forall j, In j (visits l) -> exists v, f j = Fin v) by (intros j Hj; destruct (V j) as (v & Ev & _); [apply in_or_app; auto|eauto]).
      rewrite IHr by (auto; intros; apply V, in_or_app; auto).
      rewrite (back_off l) by (eauto || (intros j Hj E; subst; eauto)).
      destruct (V s) as (v & -> & Rv); [apply in_or_app; auto|]. apply fadd_0_l, Rv.
Qed.
(** any number of states: the index converted to [dth] *)
Lemma back_rounded src s : (forall i, (i < n)%nat -> exists r, fround dth (Fin (INR (src i))) = Fin r) -> (s < n)%nat ->
  fl_viterbi_back dth o src s = fl_as_index (fround dth (Fin (INR (src s)))).
Proof.
  intros V Hs. destruct (adds_all_in o n Ho) as (ND & IN). unfold fl_viterbi_back. rewrite (back_on o (fun i => fround dth (Fin (INR (src i))))); auto.
  - intros j Hj. apply IN in Hj. destruct (V j Hj) as (r & Er). exists r. split; [auto|]. eapply fround_fin_inv; eauto.
  - apply IN; auto.
Qed.
Hypothesis Hn : (Z.of_nat n <= 2 ^ mant dth)%Z.
Lemma back_exact src s : (forall i, (i < n)%nat -> (src i < n)%nat) -> (s < n)%nat -> fl_viterbi_back dth o src s = src s.
Proof.
  intros V Hs. assert (Rr : forall i, (i < n)%nat -> fround dth (Fin (INR (src i))) = Fin (INR (src i))).
  { intros i Hi. apply fround_repr. rewrite INR_IZR_INZ. apply FixedDeterministic.repr_IZR. specialize (V i Hi). lia. }
  rewrite back_rounded by eauto. rewrite Rr by auto. unfold fl_as_index. rewrite INR_IZR_INZ, Ztrunc_IZR. apply Nat2Z.id.
Qed.
End Back.

(** ** argmax over a table of states *)
Lemma argmax_states n (f : nat -> XR) : (0 < n)%nat -> (forall i, (i < n)%nat -> f i <> NaN) ->
  (argmax (map f (seq 0 n)) < n)%nat /\ (forall i, (i < n)%nat -> fle (f i) (f (argmax (map f (seq 0 n))))) /\
  f (argmax (map f (seq 0 n))) = fl_amax n f.
Proof.
  intros Hn N. set (l := map f (seq 0 n)).
  assert (NN : forall b, In b l -> b <> NaN) by (intros b Hb; apply in_map_iff in Hb as (i & <- & Hi); apply in_seq in Hi; apply N; lia).
  assert (NE : l <> []) by (unfold l; destruct n; [lia|discriminate]).
  destruct (Proofs.MathUtils.argmax_spec l NE NN) as (c & Hc & Hm).
  assert (L : (argmax l < n)%nat).
  { assert (nth_error l (argmax l) <> None) by congruence. apply nth_error_Some in H. unfold l in H at 2. rewrite map_length, seq_length in H. auto. }
  assert (Ec : c = f (argmax l)).
  { apply nth_error_nth with (d := f 0%nat) in Hc. rewrite <- Hc. unfold l at 2. rewrite map_nth, seq_nth by auto. auto. }
  assert (M : forall i, (i < n)%nat -> fle (f i) (f (argmax l))).
  { intros i Hi. rewrite <- Ec. assert (I : In (f i) l) by (apply in_map, in_seq; lia). specialize (Hm _ I). specialize (NN _ I).
    assert (Nc : c <> NaN) by (rewrite Ec; auto). destruct (f i), c; try discriminate Hm; try reflexivity; try congruence.
    apply fle_fin. apply xltb_fin_f in Hm. lra. }
  split; [auto|]. split; [auto|].
  destruct (amax_spec n f N) as (A1 & A2 & A3). apply fle_antisym; [auto|].
  destruct A3 as [E|(k & Hk & E)]; rewrite E; [apply fle_NInf; auto|auto].
Qed.

(** ** C100: no path has a larger floating-point log-probability *)
Section Optimal.
Variables (dt dth : dtype) (o : order) (n T : nat) (ti : nat -> XR) (tr ob : nat -> nat -> XR) (B : R).
Hypothesis n_pos : (0 < n)%nat.
Hypothesis Ho : adds_all o n.
Hypothesis Hn : (Z.of_nat n <= 2 ^ mant dth)%Z.
Hypothesis B_ge : 1 <= B.
(** no log-probability is NaN or above [B]; -inf is allowed *)
Hypothesis ti_ok : forall i, (i < n)%nat -> fle (ti i) (Fin B).
Hypothesis tr_ok : forall i j, (i < n)%nat -> (j < n)%nat -> fle (tr i j) (Fin B).
Hypothesis ob_ok : forall t j, (t <= T)%nat -> (j < n)%nat -> fle (ob t j) (Fin B).
Notation K := (2 * INR T + 2).
Hypothesis K_eps : 8 * K * eps dt <= 1.
Hypothesis K_max : 4 * K * B <= maxpow dt.
Notation score := (fl_score dt ti tr ob).
Notation vmax := (fl_viterbi_max dt n ti tr ob).
Notation source := (fl_viterbi_source dt n ti tr ob).
Notation trace := (fl_viterbi_trace dt dth o n ti tr ob).

Lemma add_below a b k : fle a (Fin (2 * k * B)) -> fle b (Fin B) -> 0 <= k <= K - 1 -> fle (fadd dt a b) (Fin (2 * (k + 1) * B)).
Proof.
  intros Ha Hb Hk. pose proof (eps_pos dt) as E0.
  assert (S : fle (xadd a b) (Fin (2 * k * B + B))).
  { destruct a as [x| | |]; try discriminate Ha; destruct b as [y| | |]; try discriminate Hb; try reflexivity.
    apply fle_fin in Ha, Hb. apply fle_fin. lra. }
  assert (P0 : 0 <= 2 * k * B + B) by nra.
  assert (P1 : 2 * k * B + B <= maxpow dt / 2) by nra.
  destruct (round_fin dt (2 * k * B + B)) as (r & Er & _ & Hr & _); [rewrite Rabs_pos_eq; auto|].
  apply fle_trans with (Fin r). { rewrite <- Er. apply fround_mono; auto. }
  apply fle_fin. rewrite (Rabs_pos_eq (2 * k * B + B)) in Hr by auto. apply Rabs_le_inv in Hr.
  assert (eps dt * (2 * k * B + B + 1) <= B).
  { apply Rle_trans with (eps dt * (8 * K * B)); [|assert (8 * K * eps dt * B <= 1 * B) by (apply Rmult_le_compat_r; lra); lra].
    apply Rmult_le_compat_l; [lra|]. nra. }
  lra.
Qed.
Lemma INR_le_T t : (t <= T)%nat -> INR t <= INR T. Proof. apply le_INR. Qed.
Lemma step_below a i j t : (S t <= T)%nat -> (i < n)%nat -> (j < n)%nat -> fle a (Fin (2 * (2 * INR t + 2) * B)) ->
  fle (fadd dt a (tr i j)) (Fin (2 * (2 * INR t + 3) * B)) /\
  fle (fadd dt (fadd dt a (tr i j)) (ob (S t) j)) (Fin (2 * (2 * INR (S t) + 2) * B)).
Proof.
  intros Ht Hi Hj Ha. pose proof (pos_INR t) as P. pose proof (INR_le_T _ Ht) as L. rewrite S_INR in L.
  assert (A : fle (fadd dt a (tr i j)) (Fin (2 * (2 * INR t + 3) * B))).
  { replace (2 * INR t + 3) with (2 * INR t + 2 + 1) by ring. apply add_below; auto. lra. }
  split; [exact A|]. rewrite S_INR. replace (2 * (INR t + 1) + 2) with (2 * INR t + 3 + 1) by ring. apply add_below; auto. lra.
Qed.
Lemma first_below j : (j < n)%nat -> fle (fadd dt (ti j) (ob 0 j)) (Fin (2 * (2 * INR 0 + 2) * B)).
Proof.
  intros Hj. cbn [INR]. replace (2 * 0 + 2) with (1 + 1) by ring. apply add_below; auto.
  - apply fle_trans with (Fin B); auto. apply fle_fin. lra.
  - apply ob_ok; auto. lia.
  - pose proof (pos_INR T). lra.
Qed.
Lemma vmax_below t : (t <= T)%nat -> forall j, (j < n)%nat -> fle (vmax t j) (Fin (2 * (2 * INR t + 2) * B)).
Proof.
  induction t as [|t IH]; intros Ht j Hj; cbn [fl_viterbi_max]; [apply first_below; auto|].
  assert (X : forall i, (i < n)%nat -> fle (fl_viterbi_logp dt tr ob (S t) (vmax t) i j) (Fin (2 * (2 * INR (S t) + 2) * B))).
  { intros i Hi. apply step_below; auto. apply IH; auto. lia. }
  destruct (amax_spec n (fun i => fl_viterbi_logp dt tr ob (S t) (vmax t) i j)) as (_ & _ & A).
  { intros i Hi. eapply fle_nan_l, X; auto. }
  destruct A as [-> |(k & Hk & ->)]; [reflexivity|auto].
Qed.
Lemma logp_nan t i j : (S t <= T)%nat -> (i < n)%nat -> (j < n)%nat -> fl_viterbi_logp dt tr ob (S t) (vmax t) i j <> NaN.
Proof. intros Ht Hi Hj. eapply fle_nan_l. apply step_below; auto. apply vmax_below; auto. lia. Qed.
Lemma source_spec t j : (S t <= T)%nat -> (j < n)%nat -> (source t j < n)%nat /\
  vmax (S t) j = fl_viterbi_logp dt tr ob (S t) (vmax t) (source t j) j.
Proof.
  intros Ht Hj. destruct (argmax_states n (fun i => fl_viterbi_logp dt tr ob (S t) (vmax t) i j) n_pos) as (A1 & _ & A3).
  { intros i Hi. apply logp_nan; auto. }
  split; [exact A1|]. cbn [fl_viterbi_max]. symmetry. exact A3.
Qed.
Lemma back_states t s : (S t <= T)%nat -> (s < n)%nat -> fl_viterbi_back dth o (source t) s = source t s.
Proof. intros Ht Hs. apply back_exact with (n := n); auto. intros i Hi. apply source_spec; auto. Qed.
Lemma score_app p q t : (t < length p)%nat -> score (p ++ q) t = score p t.
Proof.
  induction t as [|t IH]; intros H; cbn [fl_score]; [rewrite app_nth1 by auto; auto|].
  rewrite IH by lia. rewrite !app_nth1 by lia. auto.
Qed.
Lemma trace_spec t : (t <= T)%nat -> forall s, (s < n)%nat ->
  length (trace t s) = S t /\ nth t (trace t s) O = s /\ (forall x, In x (trace t s) -> (x < n)%nat) /\ score (trace t s) t = vmax t s.
Proof.
  induction t as [|t IH]; intros Ht s Hs; cbn [fl_viterbi_trace].
  - repeat split; auto. intros x [<- |[]]; auto.
  - rewrite back_states by auto. destruct (source_spec t s Ht Hs) as (Hsrc & Ev). destruct (IH ltac:(lia) _ Hsrc) as (L & N & I & Sc).
    set (p := trace t (source t s)) in *. split; [rewrite app_length, L; cbn; lia|]. split; [rewrite app_nth2, L, Nat.sub_diag by lia; auto|]. split.
    + intros x Hx. apply in_app_or in Hx as [Hx|[<- |[]]]; auto.
    + cbn [fl_score]. rewrite score_app by lia. rewrite (app_nth1 _ _ _ (n := t)) by lia. rewrite N, Sc.
      rewrite app_nth2, L, Nat.sub_diag by lia. cbn [nth]. rewrite Ev. auto.
Qed.
Lemma score_below p t : (t <= T)%nat -> (forall s, (s <= t)%nat -> (nth s p O < n)%nat) -> fle (score p t) (vmax t (nth t p O)).
Proof.
  induction t as [|t IH]; intros Ht Hp; cbn [fl_score].
  - apply fle_refl. eapply fle_nan_l, first_below. apply Hp. auto.
  - specialize (IH ltac:(lia) ltac:(intros; apply Hp; lia)). pose proof (Hp t ltac:(lia)) as H1. pose proof (Hp (S t) ltac:(lia)) as H2.
    set (i := nth t p O) in *. set (j := nth (S t) p O) in *.
    pose proof (vmax_below t ltac:(lia) i H1) as V. pose proof (fle_trans _ _ _ IH V) as W.
    destruct (step_below _ i j t Ht H1 H2 V) as (V1 & V2). destruct (step_below _ i j t Ht H1 H2 W) as (W1 & W2).
    apply fle_trans with (fl_viterbi_logp dt tr ob (S t) (vmax t) i j).
    + unfold fl_viterbi_logp. specialize (tr_ok i j H1 H2). pose proof (ob_ok (S t) j Ht H2) as Hob.
      assert (NN : forall a b c, fle a (Fin c) -> fle b (Fin B) -> xadd a b <> NaN).
      { intros a b c A1 A2. destruct a; try discriminate A1; destruct b; try discriminate A2; discriminate. }
      apply fround_mono, xadd_mono2; eauto; [|apply fle_refl; eapply fle_nan_l; eauto].
      apply fround_mono, xadd_mono2; eauto. apply fle_refl. eapply fle_nan_l; eauto.
    + cbn [fl_viterbi_max]. apply (amax_spec n (fun i => fl_viterbi_logp dt tr ob (S t) (vmax t) i j)); auto. intros k Hk. apply logp_nan; auto.
Qed.
Theorem C100_optimal : In (fl_viterbi dt dth o n ti tr ob T) (paths n (S T)) /\
  forall q, In q (paths n (S T)) -> fle (score q T) (score (fl_viterbi dt dth o n ti tr ob T) T).
Proof.
  destruct (argmax_states n (vmax T) n_pos) as (A1 & A2 & _).
  { intros i Hi. eapply fle_nan_l, vmax_below; auto. }
  unfold fl_viterbi. set (s := argmax _) in *. destruct (trace_spec T ltac:(lia) s A1) as (L & N & I & Sc). split.
  - apply Proofs.HMM.in_paths. auto.
  - intros q Hq. apply Proofs.HMM.in_paths in Hq as (Lq & Iq). rewrite Sc.
    assert (Hp : forall s, (s <= T)%nat -> (nth s q O < n)%nat) by (intros s' Hs'; apply Iq, nth_In; lia).
    apply fle_trans with (vmax T (nth T q O)); [apply score_below; auto|apply A2; auto].
Qed.
End Optimal.

(** ** the returned path is nearly the most probable one *)
(** [a] is the logarithm of [p] up to [delta], and not larger than [B] in size *)
Definition log_of (B delta p : R) (a : XR) : Prop :=
  (p = 0 /\ a = NInf) \/ (0 < p /\ exists v, a = Fin v /\ Rabs v <= B /\ Rabs (v - ln p) <= delta).

Section Weight.
Variables (E : Type) (pi : list R) (A : list (list R)) (b : E -> list R) (obs : list E) (x0 : E).
Notation T := (length obs - 1)%nat.
Hypothesis obs_pos : obs <> [].
(** the exact probability of the first [t + 1] states and observations *)
Fixpoint weight (p : list nat) (t : nat) : R :=
  match t with
  | O => start pi (nth 0 p O) * emit b (nth 0 p O) (nth 0 obs x0)
  | S t => weight p t * step A (nth t p O) (nth (S t) p O) * emit b (nth (S t) p O) (nth (S t) obs x0)
  end.
Fixpoint prods (f : nat -> R) (k : nat) : R := match k with O => 1 | S k => prods f k * f k end.
Lemma prods_first f k : prods f (S k) = f O * prods (fun t => f (S t)) k.
Proof. induction k as [|k IH]; [cbn; ring|]. change (prods f (S (S k))) with (prods f (S k) * f (S k)). rewrite IH. cbn [prods]. ring. Qed.
Lemma prods_ext f h k : (forall t, (t < k)%nat -> f t = h t) -> prods f k = prods h k.
Proof. induction k as [|k IH]; intros H; cbn [prods]; [auto|]. rewrite IH, H by auto. auto. Qed.
Lemma continue_prods p : forall xs s, length p = length xs ->
  continue_prob A b s p xs = prods (fun t => step A (nth t (s :: p) O) (nth t p O) * emit b (nth t p O) (nth t xs x0)) (length p).
Proof.
  induction p as [|s' p IH]; intros xs s L; [reflexivity|]. destruct xs as [|x xs]; [discriminate|]. cbn [continue_prob length].
  rewrite prods_first, (IH xs s') by (cbn in L; lia). cbn [nth]. auto.
Qed.
Lemma weight_path p : length p = length obs -> weight p T = path_prob pi A b obs p.
Proof.
  intros L. destruct p as [|s p]; [destruct obs; [congruence|discriminate]|]. 
  assert (W : forall t, (t < length obs)%nat -> weight (s :: p) t = start pi s * emit b s (nth 0 obs x0) *
    prods (fun t => step A (nth t (s :: p) O) (nth t p O) * emit b (nth t p O) (nth (S t) obs x0)) t).
  { induction t as [|t IH]; intros Ht; cbn [weight prods]; [cbn [nth]; ring|]. rewrite IH by lia. cbn [nth]. ring. }
  rewrite W by (destruct obs; [congruence|cbn; lia]). destruct obs as [|x xs]; [congruence|]. cbn [path_prob nth].
  replace (length (x :: xs) - 1)%nat with (length p) by (cbn in L |- *; lia). rewrite (continue_prods p xs s) by (cbn in L; lia). auto.
Qed.

End Weight.

Section Probability.
Variables (dt dth : dtype) (o : order) (E : Type) (pi : list R) (A : list (list R)) (b : E -> list R) (obs : list E) (x0 : E).
Variables (ti : nat -> XR) (tr ob : nat -> nat -> XR) (B delta : R).
Notation n := (length pi).
Notation T := (length obs - 1)%nat.
Hypothesis n_pos : (0 < n)%nat.
Hypothesis obs_pos : obs <> [].
Hypothesis Ho : adds_all o n.
Hypothesis Hn : (Z.of_nat n <= 2 ^ mant dth)%Z.
Hypothesis B_ge : 1 <= B.
Hypothesis delta_pos : 0 <= delta.
Hypothesis ti_ok : forall i, (i < n)%nat -> log_of B delta (start pi i) (ti i).
Hypothesis tr_ok : forall i j, (i < n)%nat -> (j < n)%nat -> log_of B delta (step A i j) (tr i j).
Hypothesis ob_ok : forall t j, (t < length obs)%nat -> (j < n)%nat -> log_of B delta (emit b j (nth t obs x0)) (ob t j).
Notation K := (2 * INR (length obs)).
Hypothesis K_eps : 8 * K * eps dt <= 1.
Hypothesis K_max : 4 * K * B <= maxpow dt.
Notation weight := (weight E pi A b obs x0).
Notation weight_path := (weight_path E pi A b obs x0 obs_pos).
Notation g := (eps dt * (2 * K * B + 2)).
Notation score := (fl_score dt ti tr ob).

Lemma log_of_add p q a c k : log_of (2 * k * B) (k * (delta + g)) p a -> log_of B delta q c -> 0 <= k <= K - 1 ->
  log_of (2 * (k + 1) * B) ((k + 1) * (delta + g)) (p * q) (fadd dt a c).
Proof.
  intros Ha Hc Hk. pose proof (eps_pos dt) as E0.
  destruct Ha as [(-> & ->)|(P & v & -> & Bv & Dv)].
  { left. split; [ring|]. destruct Hc as [(_ & ->)|(_ & v & -> & _)]; reflexivity. }
  destruct Hc as [(-> & ->)|(Q & u & -> & Bu & Du)]; [left; split; [ring|reflexivity]|].
  right. split; [apply Rmult_lt_0_compat; auto|].
  assert (S : Rabs (v + u) <= 2 * k * B + B) by (eapply Rle_trans; [apply Rabs_triang|lra]).
  destruct (round_fin dt (v + u)) as (r & Er & _ & Hr & _); [nra|].
  exists r. split; [exact Er|].
  assert (X : eps dt * (Rabs (v + u) + 1) <= g).
  { apply Rmult_le_compat_l; [lra|]. nra. }
  assert (Y : g <= B).
  { apply Rle_trans with (eps dt * (8 * K * B)); [|assert (8 * K * eps dt * B <= 1 * B) by (apply Rmult_le_compat_r; lra); lra].
    apply Rmult_le_compat_l; [lra|]. nra. }
  split.
  - replace r with (r - (v + u) + (v + u)) by ring. eapply Rle_trans; [apply Rabs_triang|]. lra.
  - rewrite ln_mult by auto. replace (r - (ln p + ln q)) with ((r - (v + u)) + ((v - ln p) + (u - ln q))) by ring.
    eapply Rle_trans; [apply Rabs_triang|]. apply Rle_trans with (g + (k * (delta + g) + delta)); [|lra].
    apply Rplus_le_compat; [lra|]. eapply Rle_trans; [apply Rabs_triang|]. lra.
Qed.
Lemma log_of_weaken B1 B2 d1 d2 p a : B1 <= B2 -> d1 <= d2 -> log_of B1 d1 p a -> log_of B2 d2 p a.
Proof. intros H1 H2 [H|(P & v & -> & X & Y)]; [left; auto|right]. split; auto. exists v. repeat split; auto; lra. Qed.
Lemma score_log p t : (t < length obs)%nat -> (forall s, (s <= t)%nat -> (nth s p O < n)%nat) ->
  log_of (2 * (2 * INR t + 2) * B) ((2 * INR t + 2) * (delta + g)) (weight p t) (score p t).
Proof.
  pose proof (eps_pos dt) as E0. assert (L1 : 1 <= INR (length obs)) by (change 1 with (INR 1); apply le_INR; destruct obs; [congruence|cbn; lia]).
  assert (G0 : 0 <= g) by (apply Rmult_le_pos; nra).
  induction t as [|t IH]; intros Ht Hp; cbn [FloatViterbi.weight fl_score].
  - pose proof (Hp O ltac:(lia)) as H0. cbn [INR]. replace (2 * 0 + 2) with (1 + 1) by ring. apply log_of_add; auto; [|lra].
    apply log_of_weaken with B delta; auto; lra.
  - specialize (IH ltac:(lia) ltac:(intros; apply Hp; lia)). pose proof (Hp t ltac:(lia)) as H1. pose proof (Hp (S t) ltac:(lia)) as H2.
    pose proof (pos_INR t) as P. assert (LT : INR t + 1 + 1 <= INR (length obs)) by (rewrite <- !S_INR; apply le_INR; lia).
    rewrite S_INR. replace (2 * (INR t + 1) + 2) with (2 * INR t + 2 + 1 + 1) by ring.
    apply log_of_add; auto; [|lra]. apply log_of_add; auto; lra.
Qed.
Lemma log_of_below p a : log_of B delta p a -> fle a (Fin B).
Proof. intros [(_ & ->)|(_ & v & -> & H & _)]; [reflexivity|]. apply fle_fin. apply Rabs_le_inv in H. lra. Qed.
Theorem C100_probability : In (fl_viterbi dt dth o n ti tr ob T) (paths n (length obs)) /\
  forall q, In q (paths n (length obs)) ->
    path_prob pi A b obs q <= exp (2 * K * (delta + g)) * path_prob pi A b obs (fl_viterbi dt dth o n ti tr ob T).
Proof.
  assert (ET : length obs = S T) by (destruct obs; [congruence|cbn; lia]).
  assert (EK : K = 2 * INR T + 2) by (rewrite ET at 1; rewrite S_INR; ring).
  destruct (C100_optimal dt dth o n T ti tr ob B) as (In1 & Opt); auto.
  - intros i Hi. eapply log_of_below; auto.
  - intros i j Hi Hj. eapply log_of_below; auto.
  - intros t j Ht Hj. eapply log_of_below; auto. apply ob_ok; auto. lia.
  - rewrite <- EK. auto.
  - rewrite <- EK. auto.
  - rewrite <- ET in In1, Opt. split; [auto|]. intros q Hq. specialize (Opt q Hq). set (p := fl_viterbi dt dth o n ti tr ob T) in *. clearbody p.
    apply Proofs.HMM.in_paths in In1 as (Lp & Ip). apply Proofs.HMM.in_paths in Hq as (Lq & Iq).
    assert (Sp := score_log p T ltac:(lia) ltac:(intros s Hs; apply Ip, nth_In; lia)).
    assert (Sq := score_log q T ltac:(lia) ltac:(intros s Hs; apply Iq, nth_In; lia)).
    rewrite <- EK, !weight_path in Sp, Sq by lia.
    assert (Pp : 0 <= path_prob pi A b obs p) by (destruct Sp as [(-> & _)|(? & _)]; lra).
    assert (X0 : 0 < exp (2 * K * (delta + g))) by apply exp_pos.
    destruct Sq as [(-> & _)|(Qq & vq & Eq & _ & Dq)]; [apply Rmult_le_pos; lra|].
    rewrite Eq in Opt. destruct Sp as [(_ & Ep)|(Qp & vp & Ep & _ & Dp)]; rewrite Ep in Opt; [discriminate Opt|].
    apply fle_fin in Opt. apply Rabs_le_inv in Dq, Dp.
    rewrite <- (exp_ln _ Qq). rewrite <- (exp_ln (path_prob pi A b obs p)) by auto. rewrite <- exp_plus. apply Raux.exp_le. lra.
Qed.
End Probability.

Lemma sumup : 200 * (/ 2 ^ 19 + / 2 ^ 24 * (2 * 100 * 20 + 2)) <= / 20. Proof. cbn. lra. Qed.
Lemma eps32 : eps float32 = / 2 ^ 24. Proof. cbn. lra. Qed.
(** float32 tables accurate to 2^-19 with entries down to e^-20, up to 50 observations: no path is more than 6% more probable *)
Theorem C100_float32 E pi A (b : E -> list R) obs x0 o ti tr ob : (0 < length pi)%nat -> (Z.of_nat (length pi) <= 2 ^ 24)%Z -> (0 < length obs <= 50)%nat -> adds_all o (length pi) ->
  (forall i, (i < length pi)%nat -> log_of 20 (/ 2 ^ 19) (start pi i) (ti i)) ->
  (forall i j, (i < length pi)%nat -> (j < length pi)%nat -> log_of 20 (/ 2 ^ 19) (step A i j) (tr i j)) ->
  (forall t j, (t < length obs)%nat -> (j < length pi)%nat -> log_of 20 (/ 2 ^ 19) (emit b j (nth t obs x0)) (ob t j)) ->
  forall q, In q (paths (length pi) (length obs)) -> 
    path_prob pi A b obs q <= 1.06 * path_prob pi A b obs (fl_viterbi float32 float32 o (length pi) ti tr ob (length obs - 1)).
Proof.
  intros Hn Hn2 HL Ho H1 H2 H3 q Hq.
  assert (L1 : 1 <= INR (length obs)) by (change 1 with (INR 1); apply le_INR; lia).
  assert (L2 : INR (length obs) <= 50). { apply Rle_trans with (INR 50); [apply le_INR; lia|rewrite INR_IZR_INZ; cbn; lra]. }
  destruct (C100_probability float32 float32 o E pi A b obs x0 ti tr ob 20 (/ 2 ^ 19)) as (I & P); auto; try lra.
  - intros ->. cbn in HL. lia.
  - rewrite eps32. cbn [pow]. lra.
  - apply Rle_trans with (bpow radix2 24). { change (bpow radix2 24) with (IZR (2 ^ 24)). cbn. lra. }
    apply bpow_le. cbn. lia.
  - specialize (P q Hq). eapply Rle_trans; [exact P|]. apply Rmult_le_compat_r.
    + assert (N : forall i j, (i < length pi)%nat -> (j < length pi)%nat -> 0 <= step A i j) by (intros i j Hi Hj; destruct (H2 i j Hi Hj) as [(-> & _)|(? & _)]; lra).
      assert (N0 : forall i, (i < length pi)%nat -> 0 <= start pi i) by (intros i Hi; destruct (H1 i Hi) as [(-> & _)|(? & _)]; lra).
      assert (N1 : forall t j, (t < length obs)%nat -> (j < length pi)%nat -> 0 <= emit b j (nth t obs x0)) by (intros t j Ht Hj; destruct (H3 t j Ht Hj) as [(-> & _)|(? & _)]; lra).
      apply Proofs.HMM.in_paths in I as (Lp & Ip). set (p := fl_viterbi _ _ _ _ _ _ _ _) in *. clearbody p.
      rewrite <- (weight_path E pi A b obs x0) by (auto; intros ->; cbn in HL; lia).
      assert (W : forall t, (t < length obs)%nat -> 0 <= weight E pi A b obs x0 p t).
      { induction t as [|t IH]; intros Ht; cbn [weight]; repeat apply Rmult_le_pos; auto; try (apply IH; lia);
          try (apply N0); try (apply N1); try (apply N); try apply Ip, nth_In; lia. }
      apply W. lia.
    + rewrite eps32. pose proof sumup as SU. 
      apply Rle_trans with (exp (/ 20)).
      * apply Raux.exp_le. eapply Rle_trans; [|exact SU]. 
        apply Rmult_le_compat; try lra.
      * pose proof (exp_ineq1_le (- / 20)) as X. rewrite exp_Ropp in X. pose proof (exp_pos (/ 20)) as Y.
        apply Rmult_le_compat_r with (r := exp (/ 20)) in X; [|lra]. rewrite Rinv_l in X by lra. lra.
Qed.

(** With more than 2^24 states the one-hot product in float32 rounds the state's index, so the path can be impossible. *)
Lemma round_index : fround float32 (Fin (INR (Z.to_nat 16777217))) = Fin (IZR 16777216).
Proof.
  rewrite INR_IZR_INZ, Z2Nat.id by lia.
  assert (A : repr float32 (IZR 16777216)) by (apply FixedDeterministic.repr_IZR; cbn; lia).
  assert (B : rnd float32 (IZR 16777217) = IZR 16777216).
  { unfold rnd, round, scaled_mantissa, cexp.
    assert (M : (mag radix2 (IZR 16777217) = 25 :> Z)%Z).
    { apply mag_unique_pos. cbn. lra. }
    rewrite M. unfold fexp, FLT_exp, emin, F2R. cbn [mant emax float32 Fnum Fexp].
    replace (Z.max (25 - 24) (3 - 128 - 24)) with 1%Z by reflexivity.
    replace (IZR 16777217 * bpow radix2 (- (1))) with (8388608 + / 2) by (cbn; lra).
    assert (N : ZnearestE (8388608 + / 2) = 8388608%Z).
    { unfold Znearest. replace (Zfloor (8388608 + / 2)) with 8388608%Z by (symmetry; apply Zfloor_imp; cbn; lra).
      replace (8388608 + / 2 - IZR 8388608) with (/ 2) by lra. rewrite Rcompare_Eq by lra. reflexivity. }
    rewrite N. cbn. lra. }
  rewrite <- B. apply (fround_ok float32 _ 0 (IZR 16777216)); [apply repr_0|exact A|]. rewrite B. lra.
Qed.
Section Many.
Variables (o : order) (k : nat).
Notation last_state := (repeat 0 k ++ [1]).
Definition only (j : nat) : XR := if Nat.eqb j k then Fin 0 else NInf.
Lemma nth_last j : nth j last_state 0 = if Nat.eqb j k then 1 else 0.
Proof.
  destruct (Nat.eqb_spec j k) as [-> |N].
  - rewrite app_nth2, repeat_length, Nat.sub_diag by (rewrite repeat_length; auto). auto.
  - destruct (lt_dec j k) as [L|L].
    + rewrite app_nth1 by (rewrite repeat_length; auto). apply nth_repeat.
    + apply nth_overflow. rewrite app_length, repeat_length. cbn. lia.
Qed.
Lemma only_log j : log_of 20 0 (nth j last_state 0) (only j).
Proof.
  rewrite nth_last. unfold only. destruct (Nat.eqb j k); [right|left; auto]. split; [lra|]. exists 0. rewrite ln_1, Rminus_0_r, Rabs_R0. repeat split; auto; lra.
Qed.
Lemma one_log : log_of 20 0 1 (Fin 0).
Proof. right. split; [lra|]. exists 0. rewrite ln_1, Rminus_0_r, Rabs_R0. repeat split; auto; lra. Qed.
Lemma zero_r a : (a = Fin 0 \/ a = NInf) -> fadd float32 a (Fin 0) = a.
Proof. intros [-> | ->]; [apply fadd_0_r, repr_0|reflexivity]. Qed.
Lemma only_cases j : only j = Fin 0 \/ only j = NInf. Proof. unfold only. destruct (Nat.eqb j k); auto. Qed.
Notation vmax := (fl_viterbi_max float32 (S k) only (fun _ => only) (fun _ _ => Fin 0)).
Notation source := (fl_viterbi_source float32 (S k) only (fun _ => only) (fun _ _ => Fin 0)).
Lemma logp_only i j : fl_viterbi_logp float32 (fun _ => only) (fun _ _ => Fin 0) 1 (vmax 0) i j = if Nat.eqb i k && Nat.eqb j k then Fin 0 else NInf.
Proof.
  unfold fl_viterbi_logp. cbn [fl_viterbi_max]. rewrite (zero_r (only i)) by apply only_cases. unfold only.
  destruct (Nat.eqb i k), (Nat.eqb j k); cbn [andb]; try reflexivity. rewrite !(zero_r (Fin 0)) by auto. auto.
Qed.
Lemma best_only (f : nat -> XR) : (forall i, f i = Fin 0 \/ f i = NInf) -> f k = Fin 0 -> (forall i, f i = Fin 0 -> i = k) -> argmax (map f (seq 0 (S k))) = k.
Proof.
  intros H1 H2 H3. destruct (argmax_states (S k) f) as (_ & M & _); [lia|intros i _; destruct (H1 i) as [-> | ->]; discriminate|].
  apply H3. specialize (M k ltac:(lia)). rewrite H2 in M. destruct (H1 (argmax (map f (seq 0 (S k))))) as [E|E]; auto. rewrite E in M. discriminate M.
Qed.
Lemma vmax_only j : vmax 1 j = only j.
Proof.
  change (vmax 1 j) with (fl_amax (S k) (fun i => fl_viterbi_logp float32 (fun _ => only) (fun _ _ => Fin 0) 1 (vmax 0) i j)).
  destruct (argmax_states (S k) (fun i => fl_viterbi_logp float32 (fun _ => only) (fun _ _ => Fin 0) 1 (vmax 0) i j)) as (_ & M & <-); [lia| |].
  - intros i _. rewrite logp_only. destruct (_ && _); discriminate.
  - set (m := argmax _) in *. specialize (M k ltac:(lia)). cbv beta in M |- *. rewrite !logp_only, Nat.eqb_refl in *. unfold only.
    destruct (Nat.eqb j k); cbn [andb] in *; [destruct (Nat.eqb m k); auto; discriminate M|destruct (Nat.eqb m k); auto].
Qed.
Lemma source_k : source 0 k = k.
Proof.
  unfold fl_viterbi_source. apply best_only; intros; rewrite logp_only, ?Nat.eqb_refl in *; auto.
  - destruct (_ && _); auto.
  - destruct (Nat.eqb_spec i k) as [E|E]; auto. discriminate.
Qed.
Lemma source_lt j : (source 0 j < S k)%nat.
Proof. apply (argmax_states (S k) (fun i => fl_viterbi_logp float32 (fun _ => only) (fun _ _ => Fin 0) 1 (vmax 0) i j)); [lia|]. intros i _. rewrite logp_only. destruct (_ && _); discriminate. Qed.
Hypothesis Hk : k = Z.to_nat 16777217.
Hypothesis Ho : adds_all o (S k).
Variable r : nat.
Hypothesis Hr : r = Z.to_nat 16777216.
Lemma many_back : fl_viterbi_back float32 o (source 0) k = r.
Proof.
  rewrite back_rounded with (n := S k) (1 := Ho).
  - rewrite source_k, Hk, round_index. unfold fl_as_index. rewrite Ztrunc_IZR. symmetry. exact Hr.
  - intros i Hi. pose proof (source_lt i) as L.
    destruct (fround_between float32 (INR (source 0 i)) 0 (bpow radix2 25)) as (Er & _); [apply repr_0|apply repr_pow; cbn; unfold emin; cbn; lia| |eexists; exact Er].
    split; [apply pos_INR|]. rewrite INR_IZR_INZ. change (bpow radix2 25) with (IZR (2 ^ 25)). apply IZR_le. clear - L Hk. lia.
  - apply Nat.lt_succ_diag_r.
Qed.
Lemma many_path : fl_viterbi float32 float32 o (S k) only (fun _ => only) (fun _ _ => Fin 0) 1 = [r; k].
Proof.
  unfold fl_viterbi. rewrite (best_only (vmax 1)).
  - cbn [fl_viterbi_trace app]. rewrite many_back. reflexivity.
  - intros i. rewrite vmax_only. apply only_cases.
  - rewrite vmax_only. unfold only. rewrite Nat.eqb_refl. auto.
  - intros i. rewrite vmax_only. unfold only. destruct (Nat.eqb_spec i k); auto. discriminate.
Qed.
End Many.
Lemma many_states k r : k = Z.to_nat 16777217 -> r = Z.to_nat 16777216 -> exists (pi : list R) (A : list (list R)) (b : unit -> list R) ti tr ob best,
  (forall i, (i < length pi)%nat -> log_of 20 0 (start pi i) (ti i)) /\
  (forall i j, (i < length pi)%nat -> (j < length pi)%nat -> log_of 20 0 (step A i j) (tr i j)) /\
  (forall t j, (j < length pi)%nat -> log_of 20 0 (emit b j tt) (ob t j)) /\
  In best (paths (length pi) 2) /\ path_prob pi A b [tt; tt] best = 1 /\
  (exists o, adds_all o (length pi)) /\ forall o, adds_all o (length pi) ->
    path_prob pi A b [tt; tt] (fl_viterbi float32 float32 o (length pi) ti tr ob 1) = 0.
Proof.
  intros Hk Hr. pose (l := repeat 0 k ++ [1]). pose (A := repeat l (S k)). pose (b := fun _ : unit => repeat 1 (S k)).
  assert (Ll : length l = S k) by (unfold l; rewrite app_length, repeat_length; cbn; lia).
  assert (St : forall i j, (i < S k)%nat -> step A i j = nth j l 0).
  { intros i j Hi. unfold step, A. rewrite (nth_indep _ [] l) by (rewrite repeat_length; auto). rewrite nth_repeat. auto. }
  assert (Em : forall j, (j < S k)%nat -> emit b j tt = 1).
  { intros j Hj. unfold emit, b. rewrite (nth_indep _ 0 1) by (rewrite repeat_length; auto). apply nth_repeat. }
  exists l, A, b, (only k), (fun _ => only k), (fun _ _ => Fin 0), [k; k]. rewrite Ll. split; [|split; [|split; [|split; [|split; [|split]]]]].
  - intros i _. apply only_log.
  - intros i j Hi _. rewrite St by auto. apply only_log.
  - intros _ j Hj. rewrite Em by auto. apply one_log.
  - apply Proofs.HMM.in_paths. split; [auto|]. intros s [<- |[<- |[]]]; lia.
  - cbn [path_prob continue_prob]. rewrite !Em, St by lia. unfold start, l. rewrite nth_last, Nat.eqb_refl. ring.
  - exists (left_to_right k). apply left_to_right_all.
  - intros o Ho. rewrite (many_path o k Hk Ho r Hr). cbn [path_prob]. unfold start at 1, l at 1. rewrite nth_last.
    destruct (Nat.eqb_spec r k) as [E|_]; [exfalso; clear - E Hk Hr; lia|]. ring.
Qed.

Theorem C100_many_states_refuted : exists (pi : list R) (A : list (list R)) (b : unit -> list R) ti tr ob best,
  (forall i, (i < length pi)%nat -> log_of 20 0 (start pi i) (ti i)) /\
  (forall i j, (i < length pi)%nat -> (j < length pi)%nat -> log_of 20 0 (step A i j) (tr i j)) /\
  (forall t j, (j < length pi)%nat -> log_of 20 0 (emit b j tt) (ob t j)) /\
  In best (paths (length pi) 2) /\ path_prob pi A b [tt; tt] best = 1 /\
  (exists o, adds_all o (length pi)) /\ forall o, adds_all o (length pi) ->
    path_prob pi A b [tt; tt] (fl_viterbi float32 float32 o (length pi) ti tr ob 1) = 0.
Proof. exact (many_states _ _ eq_refl eq_refl). Qed.

(** ** the premises are met: two states, three observations *)
Definition ex_pi : list R := [1; 0].
Definition ex_A : list (list R) := [[/ 2; / 2]; [/ 4; 1]].
Definition ex_b (x : bool) : list R := if x then [/ 2; / 4] else [1; 3].
Definition ex_tab (p : R) : XR := fround float32 (xlog (Fin p)).
Lemma ln_small p : / 4 <= p <= 4 -> Rabs (ln p) <= 3.
Proof.
  intros H. apply Rabs_le. split.
  - replace (ln p) with (- ln (/ p)) by (rewrite ln_Rinv; lra). assert (ln (/ p) <= 3); [|lra].
    assert (/ p <= 4) by (rewrite <- (Rinv_inv 4); apply Rinv_le_contravar; lra).
    apply Rle_trans with (ln (exp 3)); [|rewrite ln_exp; lra].
    assert (0 < / p) by (apply Rinv_0_lt_compat; lra). assert (/ p < exp 3) by (pose proof (exp_ineq1 3 ltac:(lra)); lra). left. apply ln_increasing; lra.
  - apply Rle_trans with (ln (exp 3)); [|rewrite ln_exp; lra]. left. apply ln_increasing; [lra|]. pose proof (exp_ineq1 3 ltac:(lra)). lra.
Qed.
Lemma ex_log p : p = 0 \/ / 4 <= p <= 4 -> log_of 20 (/ 2 ^ 19) p (ex_tab p).
Proof.
  unfold ex_tab. cbn [xlog]. intros [-> |H]; [left; rewrite rlog_0; auto|right]. split; [lra|]. rewrite rlog_pos by lra.
  pose proof (ln_small p H) as L.
  destruct (round_fin float32 (ln p)) as (r & Er & _ & Hr & _).
  { apply Rle_trans with (1 := L). apply Rle_trans with (maxpow float32 / 2); [|lra]. pose proof (maxpow_ge_32 float32). lra. }
  exists r. rewrite eps32 in Hr. assert (Q : / 2 ^ 24 * (Rabs (ln p) + 1) <= / 2 ^ 24 * 4) by (apply Rmult_le_compat_l; [cbn; lra|lra]).
  split; [auto|]. split; [|cbn in *; lra].
  replace r with ((r - ln p) + ln p) by ring. eapply Rle_trans; [apply Rabs_triang|]. cbn in *. lra.
Qed.
Example ex_premises : exists q,
  In q (paths 2 3) /\ path_prob ex_pi ex_A ex_b [true; false; false] q = / 4 * 9 /\
  / 4 * 9 <= 1.06 * path_prob ex_pi ex_A ex_b [true; false; false]
    (fl_viterbi float32 float32 (left_to_right 1) 2 (fun i => ex_tab (start ex_pi i)) (fun i j => ex_tab (step ex_A i j))
       (fun t j => ex_tab (emit ex_b j (nth t [true; false; false] true))) 2).
Proof.
  assert (P : path_prob ex_pi ex_A ex_b [true; false; false] [0; 1; 1]%nat = / 4 * 9) by (cbn; field).
  assert (I : In [0; 1; 1]%nat (paths 2 3)) by (cbn; auto 10).
  exists [0; 1; 1]%nat. split; [exact I|]. split; [exact P|]. rewrite <- P.
  apply (C100_float32 bool ex_pi ex_A ex_b [true; false; false] true (left_to_right 1)); auto.
  - cbn; lia.
  - cbn; lia.
  - cbn. lia.
  - apply (left_to_right_all 1).
  - intros i Hi. apply ex_log. cbn in Hi. destruct i as [|[|i]]; [right|left|lia]; cbn; lra.
  - intros i j Hi Hj. apply ex_log. right. cbn in Hi, Hj. destruct i as [|[|i]]; [| |lia]; destruct j as [|[|j]]; try lia; cbn; lra.
  - intros t j Ht Hj. apply ex_log. right. cbn in Ht, Hj. destruct t as [|[|[|t]]]; try lia; destruct j as [|[|j]]; try lia; cbn; lra.
Qed.
Print Assumptions C100_optimal.
Print Assumptions C100_probability.
Print Assumptions C100_float32.
Print Assumptions C100_many_states_refuted.
