(** C102: logsumexp and MixtureSameFamily.log_prob in floating point. *)
From Coq Require Import Reals Lra Lia List Bool Arith ZArith Permutation.
From Flocq Require Import Core.
From Verif Require Import Base.XR Base.Float Spec.Rounding Spec.Accuracy Proofs.FloatOrder Proofs.FloatLib
  Props.FloatNormalize Props.FloatBij Props.FloatCategorical Props.FloatSoftmax Props.FloatAccuracy.
From Verif Require Import Model.FloatDist Model.FloatReduce Props.FloatReduce Props.FloatViterbi.
Import ListNotations.
Local Open Scope R_scope.

Lemma maxpow_eps dt : 4 <= maxpow dt * eps dt.
Proof.
  unfold maxpow, eps. rewrite <- bpow_plus. change 4 with (bpow radix2 2). apply bpow_le. pose proof (exp_ok dt). lia.
Qed.
Lemma ln_ratio P S z : 0 < P -> 0 <= z <= / 2 -> Rabs (S - P) <= z * P -> 0 < S /\ Rabs (ln S - ln P) <= 2 * z.
Proof.
  intros HP Hz H. apply Rabs_le_inv in H. assert (HS : 0 < S) by nra. split; [auto|]. 
  rewrite <- FloatAccuracy.ln_div by auto. set (q := S / P).
  assert (Q : 1 - z <= q <= 1 + z). { unfold q. split; apply Rmult_le_reg_r with P; auto; unfold Rdiv; rewrite Rmult_assoc, Rinv_l, Rmult_1_r by lra; nra. }
  assert (Q0 : 0 < q) by lra. apply Rabs_le. split.
  - assert (X : ln (/ q) <= / q - 1). { pose proof (exp_ineq1_le (ln (/ q))) as X. rewrite exp_ln in X by (apply Rinv_0_lt_compat; auto). lra. }
    rewrite ln_Rinv in X by auto. assert (/ q <= 1 + 2 * z); [|lra].
    apply Rle_trans with (/ (1 - z)); [apply Rinv_le_contravar; lra|]. apply Rmult_le_reg_r with (1 - z); [lra|]. rewrite Rinv_l by lra. nra.
  - pose proof (exp_ineq1_le (ln q)) as X. rewrite exp_ln in X by auto. lra.
Qed.
Lemma exp_near h : Rabs h <= / 2 -> Rabs (exp h - 1) <= 2 * Rabs h.
Proof.
  intros H. pose proof (exp_ineq1_le h) as A. pose proof (exp_ineq1_le (- h)) as B. rewrite exp_Ropp in B.
  pose proof (exp_pos h) as X. assert (C : exp h * (1 - h) <= 1).
  { apply Rmult_le_compat_l with (r := exp h) in B; [|lra]. rewrite Rinv_r in B by lra. lra. }
  unfold Rabs in *. destruct (Rcase_abs h), (Rcase_abs (exp h - 1)); nra.
Qed.

Section LSE.
Variables (dt : dtype) (k B : R) (L E : XR -> XR) (o : order) (n : nat) (a : nat -> XR).
Notation e := (eps dt).
Notation d := (INR (depth o)).
Notation lam := (ln (INR n)).
Hypothesis k_pos : 0 <= k.
Hypothesis HL : accurate dt k L ln (fun c => 0 < c).
Hypothesis HE : accurate dt k E exp (fun x => x <= 0).
Hypothesis E_ninf : E NInf = Fin 0.
Hypothesis Ho : adds_all o n.
Hypothesis B_pos : 0 <= B.
(** every entry is -inf or at most [B] in size *)
Hypothesis a_ok : forall i, (i < n)%nat -> a i = NInf \/ exists r, a i = Fin r /\ repr dt r /\ Rabs r <= B.
Definition lse_units : R := 5 * k + k * lam + 9 * B + 10 * d + lam + 5.
Hypothesis units_ok : lse_units * e <= 1.
Hypothesis n_max : 16 * INR n <= maxpow dt.
Hypothesis n_tiny : INR n * tiny dt <= e.
(** the exact sum of exponentials *)
Definition xexp0 (v : XR) : R := match v with Fin r => exp r | _ => 0 end.
Definition mass : R := total (fun i => xexp0 (a i)) (seq 0 n).

(** the logarithm of the sum of the shifted exponentials *)
Definition tau : R := (5 * k + k * lam + 8 * B + 10 * d + 3) * e.
Lemma log_sum : (exists i, (i < n)%nat /\ a i <> NInf) -> exists m, fl_amax n a = Fin m /\ repr dt m /\ Rabs m <= B /\
  (forall i r, (i < n)%nat -> a i = Fin r -> r <= m) /\ 0 < mass /\ 0 <= ln mass - m <= lam /\
  close (L (sum_in dt o (fun i => E (fsub dt (a i) (Fin m))))) (ln mass - m) tau /\ 0 <= lam /\ 0 <= k * lam /\ 36 * B <= maxpow dt.
Proof.
  intros (i0 & Hi0 & Ni0). pose proof (eps_pos dt) as E0. pose proof (eps_le dt) as E1. pose proof (pos_INR (depth o)) as D0.
  assert (N1 : 1 <= INR n) by (change 1 with (INR 1); apply le_INR; lia).
  assert (L0 : 0 <= lam). { rewrite <- ln_1. destruct N1 as [N1|<-]; [left; apply ln_increasing; lra|lra]. }
  assert (T0 : 0 <= tiny dt) by (left; apply tiny_pos). 
  assert (KL : 0 <= k * lam) by (apply Rmult_le_pos; lra).
  assert (U1 : 5 * k * e <= 1 /\ k * lam * e <= 1 /\ 9 * B * e <= 1 /\ 8 * d * e <= 1 /\ lam * e <= 1).
  { unfold lse_units in units_ok. repeat split; nra. }
  destruct U1 as (Uk & Ukl & UB & Ud & Ul).
  assert (NN : forall i, (i < n)%nat -> a i <> NaN) by (intros i Hi; destruct (a_ok i Hi) as [-> |(r & -> & _)]; discriminate).
  destruct (amax_spec n a NN) as (_ & Am & At).
  assert (M : exists m j, fl_amax n a = Fin m /\ (j < n)%nat /\ a j = Fin m /\ repr dt m /\ Rabs m <= B).
  { destruct At as [At|(j & Hj & At)].
    - exfalso. specialize (Am i0 Hi0). rewrite At in Am. destruct (a_ok i0 Hi0) as [Q|(r & Q & _)]; [auto|]. rewrite Q in Am. discriminate Am.
    - destruct (a_ok j Hj) as [Q|(r & Q & R1 & R2)].
      + exfalso. specialize (Am i0 Hi0). rewrite At, Q in Am. destruct (a_ok i0 Hi0) as [Q'|(r & Q' & _)]; [auto|]. rewrite Q' in Am. discriminate Am.
      + exists r, j. rewrite At. auto. }
  destruct M as (m & j & Em & Hj & Ej & Rm & Bm).
  assert (MB : 36 * B <= maxpow dt).
  { pose proof (maxpow_eps dt) as Q. assert (36 * B * e <= maxpow dt * e) by lra. apply Rmult_le_reg_r with e; lra. }
  (* the terms *)
  pose (p := fun i => xexp0 (a i) * exp (- m)).
  assert (Pp : forall i, 0 <= p i). { intros i. unfold p. apply Rmult_le_pos; [|left; apply exp_pos]. unfold xexp0. destruct (a i); try lra. left; apply exp_pos. }
  assert (Terms : forall i, (i < n)%nat -> close (E (fsub dt (a i) (Fin m))) (p i) (p i * ((2 * k + 4 * B) * e) + tiny dt) /\ value dt (E (fsub dt (a i) (Fin m)))).
  { intros i Hi. unfold p. destruct (a_ok i Hi) as [Ei|(r & Ei & Rr & Br)]; rewrite Ei; cbn [xexp0].
    - cbn [fsub]. change (fsub dt NInf (Fin m)) with NInf. rewrite E_ninf. split; [|apply repr_0]. exists 0. split; [auto|]. rewrite Rmult_0_l, Rmult_0_l, Rminus_0_r, Rabs_R0. lra.
    - pose proof (Am i Hi) as Li. rewrite Ei, Em in Li. apply fle_fin in Li. rewrite <- exp_plus. change (r + - m) with (r - m).
      apply Rabs_le_inv in Br as Br'. apply Rabs_le_inv in Bm as Bm'.
      assert (Au : Rabs (r - m) <= 2 * B) by (apply Rabs_le; lra).
      unfold fsub. rewrite xsub_fin. destruct (round_fin dt (r - m)) as (s & -> & Rs & _ & Es); [lra|].
      pose proof (sub_rel dt r m Rr Rm) as Sr. rewrite <- Es in Sr.
      assert (S0 : s <= 0) by (rewrite Es; apply rnd_le_F; [apply repr_0|lra]).
      destruct (HE s Rs S0) as (q & Eq & Rq & Bq). rewrite Eq. split; [|exact Rq]. exists q. split; [auto|].
      set (u := r - m) in *. set (h := s - u) in *. assert (Hh : Rabs h <= 2 * B * e) by nra.
      assert (Es2 : exp s = exp u * exp h) by (rewrite <- exp_plus; f_equal; unfold h; ring).
      pose proof (exp_pos u) as Xu. pose proof (exp_pos s) as Xs. pose proof (exp_near h ltac:(lra)) as Xh.
      rewrite (Rabs_pos_eq (exp s)) in Bq by lra.
      assert (D : Rabs (exp s - exp u) <= exp u * (4 * B * e)).
      { rewrite Es2. replace (exp u * exp h - exp u) with (exp u * (exp h - 1)) by ring. rewrite Rabs_mult, (Rabs_pos_eq (exp u)) by lra. apply Rmult_le_compat_l; lra. }
      assert (Sm : exp s <= 2 * exp u). { apply Rabs_le_inv in D. nra. }
      replace (q - exp u) with ((q - exp s) + (exp s - exp u)) by ring. eapply Rle_trans; [apply Rabs_triang|].
      assert (k * e * exp s <= k * e * (2 * exp u)) by (apply Rmult_le_compat_l; [nra|auto]). lra. }
  (* their sum *)
  pose (P := total p (seq 0 n)).
  assert (EP : P = mass * exp (- m)).
  { unfold P, mass, p. induction (seq 0 n) as [|b l IH]; [rewrite !total_nil; ring|]. rewrite !total_cons, IH. ring. }
  assert (P1 : 1 <= P).
  { unfold P. assert (I : In j (seq 0 n)) by (apply in_seq; lia). assert (J : p j = 1) by (unfold p; rewrite Ej; cbn [xexp0]; rewrite <- exp_plus, Rplus_opp_r, exp_0; auto).
    rewrite <- J. clear - I Pp. induction (seq 0 n) as [|b l IH]; [destruct I|]. rewrite total_cons. pose proof (total_nonneg p l ltac:(auto)). pose proof (Pp b). destruct I as [-> |I]; [lra|specialize (IH I); lra]. }
  assert (Pn : P <= INR n).
  { unfold P. apply Rle_trans with (total (fun _ => 0 * 0 + 1) (seq 0 n)).
    - apply total_le. intros i Hi. apply in_seq in Hi. unfold p. destruct (a_ok i ltac:(lia)) as [-> |(r & Ei & _)]; [cbn [xexp0]; lra|].
      pose proof (Am i ltac:(lia)) as Li. rewrite Ei in Li |- *. rewrite Em in Li. apply fle_fin in Li. cbn [xexp0]. rewrite <- exp_plus.
      replace (0 * 0 + 1) with (exp 0) by (rewrite exp_0; ring). apply Raux.exp_le. lra.
    - rewrite (total_lin (fun _ => 0)). rewrite seq_length. assert (total (fun _ : nat => 0) (seq 0 n) = 0) as -> ; [|lra].
      clear. induction (seq 0 n) as [|b l IH]; [auto|rewrite total_cons, IH; ring]. }
  set (c := (2 * k + 4 * B) * e). assert (C0 : 0 <= c <= 1) by (unfold c; nra).
  assert (TT : total (fun i => p i * c + tiny dt) (seq 0 n) = P * c + INR n * tiny dt).
  { replace (total (fun i => p i * c + tiny dt) (seq 0 n)) with (total (fun i => c * p i + tiny dt) (seq 0 n)) by (apply total_ext_in; intros; ring).
    rewrite total_lin, seq_length. unfold P. ring. }
  assert (TA : total (fun i => Rabs (p i) + (p i * c + tiny dt)) (seq 0 n) = P * (1 + c) + INR n * tiny dt).
  { rewrite total_plus, TT. replace (total (fun i => Rabs (p i)) (seq 0 n)) with P by (apply total_ext_in; intros; rewrite Rabs_pos_eq; auto). ring. }
  destruct (C101_sum dt o n (fun i => E (fsub dt (a i) (Fin m))) Ho ltac:(lra) p (fun i => p i * c + tiny dt)) as (S & ES & BS).
  { exact Terms. } { rewrite TA. nra. }
  rewrite TT, TA in BS. fold P in BS. unfold fl_reduce in ES. cbv beta in ES.
  set (z := (2 * k + 4 * B + 1 + 4 * d) * e + 2 * d * e * e).
  assert (Hz : Rabs (S - P) <= ((2 * k + 4 * B + 1 + 5 * d) * e) * P).
  { eapply Rle_trans; [exact BS|]. fold c. 
    assert (Q1 : INR n * tiny dt <= e * P) by nra.
    assert (Q2 : 2 * d * e * (P * (1 + c) + INR n * tiny dt) <= 2 * d * e * (P * (2 + / 2))).
    { apply Rmult_le_compat_l; [nra|]. assert (INR n * tiny dt <= / 2 * P) by nra. nra. }
    unfold c in *. lra. }
  clear z. set (z := (2 * k + 4 * B + 1 + 5 * d) * e) in *.
  assert (Z2 : 0 <= z <= / 2). { unfold lse_units in units_ok. split; [unfold z; nra|]. unfold z. nra. }
  destruct (ln_ratio P S z ltac:(lra) Z2 Hz) as (S0 & LS).
  assert (RS : repr dt S).
  { assert (V : value dt (sum_in dt o (fun i => E (fsub dt (a i) (Fin m))))).
    { apply sum_value. intros i Hi. apply Terms. apply (adds_all_in o n Ho). auto. }
    rewrite ES in V. exact V. }
  destruct (HL S RS S0) as (l & El & _ & Bl).
  assert (LP : 0 <= ln P <= lam).
  { split; [rewrite <- ln_1; destruct P1 as [P1|<-]; [left; apply ln_increasing; lra|lra]|]. destruct Pn as [Pn| ->]; [left; apply ln_increasing; lra|lra]. }
  assert (AS : Rabs (ln S) <= lam + 1). { apply Rabs_le_inv in LS. apply Rabs_le. lra. }
  pose proof (tiny_le_eps dt) as TE.
  assert (Ct : close (L (Fin S)) (ln P) tau).
  { exists l. split; [auto|]. replace (l - ln P) with ((l - ln S) + (ln S - ln P)) by ring. eapply Rle_trans; [apply Rabs_triang|].
    assert (k * e * Rabs (ln S) <= k * e * (lam + 1)) by (apply Rmult_le_compat_l; [nra|auto]). unfold tau, z in *. lra. }
  assert (M0 : 0 < mass). { pose proof (exp_pos (- m)). nra. }
  assert (ML : ln P = ln mass - m). { rewrite EP, ln_mult, ln_exp by (auto; apply exp_pos). ring. }
  rewrite ML in Ct, LP. exists m. do 3 (split; [auto|]). split.
  { intros i r Hi Ei. pose proof (Am i Hi) as Li. rewrite Ei, Em in Li. apply fle_fin in Li. auto. }
  split; [auto|]. split; [auto|]. rewrite ES. auto.
Qed.
Theorem C102_logsumexp : (exists i, (i < n)%nat /\ a i <> NInf) -> close (fl_logsumexp dt L E o n a) (ln mass) (lse_units * e).
Proof.
  intros X. destruct (log_sum X) as (m & Em & Rm & Bm & _ & M0 & LP & Ct & L0 & KL & MB). unfold fl_logsumexp. rewrite Em.
  pose proof (eps_pos dt) as E0. pose proof (pos_INR (depth o)) as D0.
  assert (T1 : tau <= 1). { unfold tau, lse_units in *. nra. }
  assert (Final : close (fadd dt (L (sum_in dt o (fun i => E (fsub dt (a i) (Fin m))))) (Fin m)) (ln mass - m + m) (tau + 0 + e * (lam + B + 1 + 1))).
  { apply close_add; auto using close_exact.
    - rewrite (Rabs_pos_eq (ln mass - m)) by lra. lra.
    - apply Rmult_le_reg_r with e; [auto|]. pose proof (maxpow_eps dt). unfold lse_units in units_ok. nra. }
  replace (ln mass - m + m) with (ln mass) in Final by ring. eapply close_weaken; [exact Final|]. unfold tau, lse_units. lra.
Qed.
End LSE.

(** all entries -inf: -inf, not NaN *)
Theorem C102_all_impossible dt L E o n a : adds_all o n -> E NInf = Fin 0 -> L (Fin 0) = NInf ->
  (forall i, (i < n)%nat -> a i = NInf) -> fl_logsumexp dt L E o n a = NInf.
Proof.
  intros Ho HE HL H. destruct (adds_all_in o n Ho) as (_ & IN).
  assert (M : fl_amax n a = NInf).
  { destruct (amax_spec n a) as (_ & _ & [M|(k & Hk & M)]); [intros i Hi; rewrite H by auto; discriminate|auto|]. rewrite M. auto. }
  unfold fl_logsumexp. rewrite M.
  assert (S : forall o', (forall i, In i (visits o') -> (i < n)%nat) -> sum_in dt o' (fun i => E (fsub dt (a i) (Fin 0))) = Fin 0).
  { induction o' as [i|l IHl r IHr]; cbn [sum_in visits]; intros V.
    - rewrite H by (apply V; left; auto). change (fsub dt NInf (Fin 0)) with NInf. auto.
    - rewrite IHl, IHr by (intros; apply V, in_or_app; auto). apply fadd_0_l, repr_0. }
  rewrite S by (intros i; apply IN). rewrite HL. reflexivity.
Qed.

Section Mixture.
Variables (dt : dtype) (k B delta : R) (L E : XR -> XR) (o : order) (n : nat) (f w : nat -> R) (lp wl : nat -> XR).
Notation e := (eps dt).
Hypothesis k_pos : 0 <= k.
Hypothesis HL : accurate dt k L ln (fun c => 0 < c).
Hypothesis HE : accurate dt k E exp (fun x => x <= 0).
Hypothesis E_ninf : E NInf = Fin 0.
Hypothesis L_zero : L (Fin 0) = NInf.
Hypothesis Ho : adds_all o n.
Hypothesis B_pos : 0 <= B.
Hypothesis delta_pos : 0 <= delta.
(** [lp i], [wl i] are the logarithms of the components' densities [f i] and the weights [w i] up to [delta] *)
Hypothesis f_ok : forall i, (i < n)%nat -> log_of B delta (f i) (lp i).
Hypothesis w_ok : forall i, (i < n)%nat -> log_of B delta (w i) (wl i).
Definition mixture_units : R := lse_units k (2 * B + 1) o n + 2 * B + 1.
Hypothesis units_ok : mixture_units * e <= 1.
Hypothesis n_max : 16 * INR n <= maxpow dt.
Hypothesis n_tiny : INR n * tiny dt <= e.
Notation density := (total (fun i => w i * f i) (seq 0 n)).
Theorem C102_mixture :
  (0 < density -> close (fl_mixture_log_prob dt L E o n lp wl) (ln density) (2 * delta + mixture_units * e)) /\
  (density = 0 -> fl_mixture_log_prob dt L E o n lp wl = NInf).
Proof.
  pose proof (eps_pos dt) as E0.
  destruct (Nat.eq_dec n 0) as [N0|N0].
  { exfalso. destruct (adds_all_in o n Ho) as (_ & IN). assert (V : visits o <> []) by (clear; induction o as [i|l IHl r IHr]; cbn; [discriminate|destruct (visits l); [auto|discriminate]]).
    destruct (visits o) as [|x l] eqn:Q; [auto|]. assert (x < n)%nat by (apply IN; left; auto). lia. }
  assert (N1 : 1 <= INR n) by (change 1 with (INR 1); apply le_INR; lia).
  assert (L0 : 0 <= ln (INR n)). { rewrite <- ln_1. destruct N1 as [N1|<-]; [left; apply ln_increasing; lra|lra]. }
  assert (KL : 0 <= k * ln (INR n)) by (apply Rmult_le_pos; lra). pose proof (pos_INR (depth o)) as D0.
  assert (UB : (2 * B + 1) * e <= 1). { unfold mixture_units, lse_units in units_ok. nra. }
  assert (UL : lse_units k (2 * B + 1) o n * e <= 1). { unfold mixture_units in units_ok. nra. }
  assert (MB : 4 * (2 * B + 1) <= maxpow dt). { pose proof (maxpow_eps dt). apply Rmult_le_reg_r with e; lra. }
  set (a := fun i => fadd dt (lp i) (wl i)). set (g := 2 * delta + (2 * B + 1) * e).
  assert (A : forall i, (i < n)%nat -> 0 <= w i * f i /\ ((w i * f i = 0 /\ a i = NInf) \/
     (0 < w i * f i /\ exists r, a i = Fin r /\ repr dt r /\ Rabs r <= 2 * B + 1 /\ Rabs (r - ln (w i * f i)) <= g))).
  { intros i Hi. unfold a. destruct (f_ok i Hi) as [(-> & ->)|(F0 & v & -> & Bv & Dv)].
    { split; [lra|]. left. split; [ring|]. destruct (w_ok i Hi) as [(_ & ->)|(_ & u & -> & _)]; reflexivity. }
    destruct (w_ok i Hi) as [(-> & ->)|(W0 & u & -> & Bu & Du)]; [split; [lra|]; left; split; [ring|reflexivity]|].
    assert (P : 0 < w i * f i) by (apply Rmult_lt_0_compat; auto). split; [lra|]. right. split; [auto|].
    assert (S : Rabs (v + u) <= 2 * B) by (eapply Rle_trans; [apply Rabs_triang|lra]).
    destruct (round_fin dt (v + u)) as (r & Er & Rr & Hr & _); [lra|]. exists r. split; [exact Er|]. split; [auto|].
    assert (X : e * (Rabs (v + u) + 1) <= (2 * B + 1) * e) by nra.
    split.
    - replace r with ((r - (v + u)) + (v + u)) by ring. eapply Rle_trans; [apply Rabs_triang|]. lra.
    - rewrite ln_mult by auto. replace (r - (ln (w i) + ln (f i))) with ((r - (v + u)) + ((v - ln (f i)) + (u - ln (w i)))) by ring.
      eapply Rle_trans; [apply Rabs_triang|]. unfold g. pose proof (Rabs_triang (v - ln (f i)) (u - ln (w i))). lra. }
  assert (G0 : 0 <= g) by (unfold g; nra).
  split.
  - intros Pos.
    assert (Ex : exists i, (i < n)%nat /\ a i <> NInf).
    { assert (Q : exists i, In i (seq 0 n) /\ w i * f i <> 0).
      { assert (T : forall l, total (fun i => w i * f i) l <> 0 -> exists i, In i l /\ w i * f i <> 0).
        { induction l as [|b l IH]; intros H; [rewrite total_nil in H; lra|]. rewrite total_cons in H.
          destruct (Req_dec (w b * f b) 0) as [Z|Z]; [|exists b; split; [left; auto|auto]]. rewrite Z, Rplus_0_l in H. destruct (IH H) as (i & Hi & Ni). exists i; split; [right; auto|auto]. }
        apply T. lra. }
      destruct Q as (i & Hi & Ni). apply in_seq in Hi. exists i. split; [lia|]. destruct (A i ltac:(lia)) as (_ & [(Z & _)|(_ & r & -> & _)]); [contradiction|discriminate]. }
    assert (C := C102_logsumexp dt k (2 * B + 1) L E o n a k_pos HL HE E_ninf Ho ltac:(lra)).
    specialize (C ltac:(intros i Hi; destruct (A i Hi) as (_ & [(_ & ->)|(_ & r & -> & R1 & R2 & _)]); [left; auto|right; exists r; auto]) UL n_max n_tiny Ex).
    fold a in C. change (fl_mixture_log_prob dt L E o n lp wl) with (fl_logsumexp dt L E o n a). destruct C as (v & Ev & Bv). exists v. split; [auto|].
    (* the exact log-sum is within g of the log-density *)
    assert (M : exp (- g) * density <= mass n a <= exp g * density).
    { unfold mass. rewrite <- !(Rmult_comm density). assert (T : forall l, (forall i, In i l -> (i < n)%nat) ->
        total (fun i => w i * f i) l * exp (- g) <= total (fun i => xexp0 (a i)) l <= total (fun i => w i * f i) l * exp g).
      { induction l as [|b l IH]; intros Hl; [rewrite !total_nil; lra|]. rewrite !total_cons. specialize (IH ltac:(intros; apply Hl; right; auto)).
        assert (Q : w b * f b * exp (- g) <= xexp0 (a b) <= w b * f b * exp g); [|lra].
        destruct (A b (Hl b (or_introl eq_refl))) as (_ & [(Z & ->)|(P & r & -> & _ & _ & D)]); cbn [xexp0]; [rewrite Z; lra|].
        apply Rabs_le_inv in D. rewrite <- (exp_ln _ P). rewrite <- !exp_plus. split; apply Raux.exp_le; lra. }
      apply T. intros i Hi. apply in_seq in Hi. lia. }
    assert (M0 : 0 < mass n a) by (pose proof (exp_pos (- g)); nra).
    assert (D : Rabs (ln (mass n a) - ln density) <= g).
    { apply Rabs_le. destruct M as (M1 & M2). pose proof (exp_pos g) as X1. pose proof (exp_pos (- g)) as X2. split.
      - assert (ln (exp (- g) * density) <= ln (mass n a)) by (destruct M1 as [M1| ->]; [left; apply ln_increasing; [apply Rmult_lt_0_compat; auto|auto]|lra]).
        rewrite ln_mult, ln_exp in H by auto. lra.
      - assert (ln (mass n a) <= ln (exp g * density)) by (destruct M2 as [M2| ->]; [left; apply ln_increasing; auto|lra]).
        rewrite ln_mult, ln_exp in H by auto. lra. }
    replace (v - ln density) with ((v - ln (mass n a)) + (ln (mass n a) - ln density)) by ring. eapply Rle_trans; [apply Rabs_triang|].
    unfold mixture_units, g in *. lra.
  - intros Z. apply C102_all_impossible; auto. intros i Hi. fold (a i).
    assert (T : forall l, (forall i, In i l -> (i < n)%nat) -> total (fun i => w i * f i) l = 0 -> forall i, In i l -> w i * f i = 0).
    { induction l as [|b l IH]; intros Hl H j Hj; [destruct Hj|]. rewrite total_cons in H. destruct (A b (Hl b (or_introl eq_refl))) as (P & _).
      assert (0 <= total (fun i => w i * f i) l) by (apply total_nonneg; intros i' Hi'; apply A, Hl; right; auto).
      destruct Hj as [<- |Hj]; [lra|]. apply IH; auto; [intros; apply Hl; right; auto|lra]. }
    specialize (T (seq 0 n) ltac:(intros j Hj; apply in_seq in Hj; lia) Z i ltac:(apply in_seq; lia)).
    destruct (A i Hi) as (_ & [(_ & Q)|(P & _)]); [auto|lra].
Qed.
End Mixture.

Lemma depth_lt o : (depth o < length (visits o))%nat.
Proof. induction o as [i|l IHl r IHr]; cbn [depth visits]; [cbn; lia|]. rewrite app_length. lia. Qed.
(** float32, correctly rounded exp and log, up to 64 components, log-densities and log-weights of size at most 20 *)
Theorem C102_float32 delta o n f w lp wl : (n <= 64)%nat -> adds_all o n -> 0 <= delta ->
  (forall i, (i < n)%nat -> log_of 20 delta (f i) (lp i)) -> (forall i, (i < n)%nat -> log_of 20 delta (w i) (wl i)) ->
  0 < total (fun i => w i * f i) (seq 0 n) ->
  close (fl_mixture_log_prob float32 (fun a => fround float32 (xlog a)) (r_exp float32) o n lp wl) (ln (total (fun i => w i * f i) (seq 0 n)))
    (2 * delta + / 10000).
Proof.
  intros Hn Ho D0 Hf Hw Pos. pose proof (depth_lt o) as Dl. rewrite (Permutation_length Ho), seq_length in Dl.
  assert (DD : INR (depth o) <= 63) by (apply Rle_trans with (INR 63); [apply le_INR; lia|rewrite INR_IZR_INZ; cbn; lra]).
  assert (N1 : 1 <= INR n) by (change 1 with (INR 1); apply le_INR; lia).
  assert (N2 : INR n <= 64) by (apply Rle_trans with (INR 64); [apply le_INR; lia|rewrite INR_IZR_INZ; cbn; lra]).
  assert (LN : 0 <= ln (INR n) <= 6).
  { split; [rewrite <- ln_1; destruct N1 as [N1|<-]; [left; apply ln_increasing; lra|lra]|].
    apply Rle_trans with (ln (2 ^ 6)).
    - destruct N2 as [N2| ->]; [left; apply ln_increasing; [lra|cbn; lra]|right; f_equal; cbn; lra].
    - rewrite ln_pow by lra. assert (ln 2 <= 1); [|cbn; lra]. rewrite <- (ln_exp 1). left. apply ln_increasing; [lra|]. pose proof (exp_ineq1 1 ltac:(lra)). lra. }
  assert (U : mixture_units 1 20 o n <= 1200). { unfold mixture_units, lse_units. lra. }
  assert (TI : tiny float32 <= / 2 ^ 100). { change (tiny float32) with (/ IZR (Z.pow_pos 2 126)). apply Rinv_le_contravar; cbn; lra. }
  destruct (C102_mixture float32 1 20 delta (fun a => fround float32 (xlog a)) (r_exp float32) o n f w lp wl) as (P & _); auto; try lra.
  - apply log_accurate.
  - intros x Rx Hx. apply exp_accurate_range; auto. assert (exp x <= 1) by (rewrite <- exp_0; apply Raux.exp_le; auto). pose proof (maxpow_ge_32 float32). lra.
  - unfold r_exp. cbn [xexp]. apply fround_repr, repr_0.
  - cbn [xlog]. rewrite rlog_0. reflexivity.
  - rewrite eps32. cbn. lra.
  - apply Rle_trans with (bpow radix2 24); [change (bpow radix2 24) with (IZR (2 ^ 24)); cbn; lra|apply bpow_le; cbn; lia].
  - rewrite eps32. pose proof (tiny_pos float32). apply Rle_trans with (64 * / 2 ^ 100); [apply Rmult_le_compat; lra|cbn; lra].
  - specialize (P Pos). eapply close_weaken; [exact P|]. rewrite eps32. cbn. lra.
Qed.
(** the premises are met, with a component that excludes the value *)
Example ex_mixture : close (fl_mixture_log_prob float32 (fun a => fround float32 (xlog a)) (r_exp float32) (left_to_right 2) 3
    (fun i => ex_tab (nth i [/ 2; 0; 3] 0)) (fun i => ex_tab (nth i [/ 4; / 4; / 2] 0))) (ln (13 / 8)) (2 * / 2 ^ 19 + / 10000).
Proof.
  replace (13 / 8) with (total (fun i => nth i [/ 4; / 4; / 2] 0 * nth i [/ 2; 0; 3] 0) (seq 0 3)) by (unfold total; cbn; field).
  apply C102_float32.
  - lia.
  - apply (left_to_right_all 2).
  - cbn. lra.
  - intros i Hi. apply ex_log. destruct i as [|[|[|i]]]; [right|left|right|lia]; cbn; lra.
  - intros i Hi. apply ex_log. right. destruct i as [|[|[|i]]]; [| | |lia]; cbn; lra.
  - unfold total. cbn. lra.
Qed.
Print Assumptions C102_logsumexp.
Print Assumptions C102_mixture.
Print Assumptions C102_all_impossible.
Print Assumptions C102_float32.
