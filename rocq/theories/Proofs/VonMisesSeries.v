(** The truncated series for the von Mises cdf: a differential equation for its density with one residual term, and the error bound that follows. *)
From Coq Require Import Reals Lra Lia ZArith List Bool Psatz.
From Coquelicot Require Import Coquelicot.
From Verif Require Import Base.XR Base.Gauss Model.MathUtils Model.ScalarDist Model.Multinomial Model.VonMises
  Spec.VonMises Proofs.Density Proofs.GammaFamily Proofs.VonMises Proofs.VonMisesCdf.
Import ListNotations.
Local Open Scope R_scope.

(** Unnormalised coefficients: [wt N k j] is the pair of the coefficients number N-j and N-j+1. *)
Fixpoint wt (N : nat) (k : R) (j : nat) : R * R :=
  match j with O => (1, 0) | S j' => let p := wt N k j' in (2 * INR (N - j') / k * fst p + snd p, fst p) end.
Fixpoint vsum (N : nat) (k x : R) (j : nat) : R :=
  match j with O => 0 | S j' => vsum N k x j' + fst (wt N k j') * (sin (INR (N - j') * x) / INR (N - j')) end.
Fixpoint csum (N : nat) (k x : R) (j : nat) : R :=
  match j with O => 0 | S j' => csum N k x j' + fst (wt N k j') * cos (INR (N - j') * x) end.

Section Series.
Variables (N : nat) (k : R).
Hypothesis Hk : 0 < k.

Lemma wt_pos j : (j <= N)%nat -> 0 < fst (wt N k j) /\ 0 <= snd (wt N k j).
Proof.
  induction j as [|j IH]; intros Hj; cbn [wt fst snd]; [lra|]. destruct IH as [P Q]; [lia|]. cbv zeta. cbn [fst snd]. split; [|lra].
  assert (0 < INR (N - j)) by (apply lt_0_INR; lia). assert (0 < 2 * INR (N - j) / k) by (apply Rdiv_lt_0_compat; lra). nra.
Qed.
Lemma rloop_closed x m : forall s, (m <= N)%nat -> s_r s = snd (wt N k (N - m)) / fst (wt N k (N - m)) -> s_v s = vsum N k x (N - m) / fst (wt N k (N - m)) ->
  s_v (rloop x k m s) = vsum N k x N / fst (wt N k N).
Proof.
  induction m as [|m IH]; intros s Hm Hr Hv.
  - cbn [rloop]. rewrite Hv, Nat.sub_0_r. reflexivity.
  - cbn [rloop]. destruct (wt_pos (N - S m)) as [Pa Pb]; [lia|]. destruct (wt_pos (N - m)) as [Pa' _]; [lia|].
    replace (N - m)%nat with (S (N - S m)) in * by lia. apply IH; [lia| |]; replace (N - m)%nat with (S (N - S m)) by lia;
    destruct s as [[[r dr] v] dv]; cbn [s_r s_v rstep] in *; subst r v; cbn [wt vsum] in *; cbv zeta in *; cbn [fst snd] in *;
    replace (N - (N - S m))%nat with (S m) in * by lia; set (a := fst (wt N k (N - S m))) in *; set (b := snd (wt N k (N - S m))) in *;
    pose proof (INR_S_pos m) as Pn; set (n := INR (S m)) in *.
    + field. repeat split; try lra; apply Rgt_not_eq; replace (2 * n * a + b * k) with (k * (2 * n / k * a + b)) by (field; lra); apply Rmult_lt_0_compat; auto.
    + set (V := vsum N k x (N - S m)). field. repeat split; try lra; apply Rgt_not_eq; replace (2 * n * a + b * k) with (k * (2 * n / k * a + b)) by (field; lra); apply Rmult_lt_0_compat; auto.
Qed.
Lemma rloop_series x : s_v (rloop x k N (0, 0, 0, 0)) = vsum N k x N / fst (wt N k N).
Proof. apply rloop_closed; auto; rewrite Nat.sub_diag; cbn; field. Qed.

(** Derivatives in the angle. *)
Lemma vsum_derive x j : (j <= N)%nat -> is_derive (fun t => vsum N k t j) x (csum N k x j).
Proof.
  induction j as [|j IH]; intros Hj; cbn [vsum csum]; [apply (is_derive_const (K := R_AbsRing) (V := R_NormedModule))|].
  apply (is_derive_plus (fun t => vsum N k t j)); [apply IH; lia|].
  assert (P : 0 < INR (N - j)) by (apply lt_0_INR; lia). set (n := INR (N - j)) in *. set (a := fst (wt N k j)).
  assert (Q : is_derive (fun t => a * (sin (n * t) / n)) x (a * cos (n * x))) by (auto_derive; [lra|field; lra]). exact Q.
Qed.
Fixpoint dsum (x : R) (j : nat) : R :=
  match j with O => 0 | S j' => dsum x j' - fst (wt N k j') * (INR (N - j') * sin (INR (N - j') * x)) end.
Lemma csum_derive x j : is_derive (fun t => csum N k t j) x (dsum x j).
Proof.
  induction j as [|j IH]; cbn [csum dsum]; [apply (is_derive_const (K := R_AbsRing) (V := R_NormedModule))|].
  set (n := INR (N - j)) in *. set (a := fst (wt N k j)).
  assert (Q : is_derive (fun t => a * cos (n * t)) x (- (a * (n * sin (n * x))))) by (auto_derive; [auto|ring]).
  exact (is_derive_plus (fun t => csum N k t j) _ x _ _ IH Q).
Qed.
(** The telescoped equation. *)
Lemma telescoped x j : (j <= N)%nat ->
  2 * dsum x j + 2 * k * sin x * csum N k x j =
  k * (sin (INR (S N) * x) - fst (wt N k j) * sin (INR (S N - j) * x) - snd (wt N k j) * sin (INR (N - j) * x)).
Proof.
  induction j as [|j IH]; intros Hj.
  - cbn [dsum csum wt fst snd]. rewrite Nat.sub_0_r. ring.
  - specialize (IH ltac:(lia)). cbn [dsum csum wt]. cbv zeta. cbn [fst snd].
    replace (S N - S j)%nat with (N - j)%nat by lia. remember (N - S j)%nat as m eqn:Em. replace (N - j)%nat with (S m) in * by lia. replace (S N - j)%nat with (S (S m)) in * by lia.
    set (a := fst (wt N k j)) in *. set (b := snd (wt N k j)) in *.
    assert (E : 2 * sin x * cos (INR (S m) * x) = sin (INR (S (S m)) * x) - sin (INR m * x)).
    { replace (INR (S (S m)) * x) with (INR (S m) * x + x) by (rewrite (S_INR (S m)); ring). replace (INR m * x) with (INR (S m) * x - x) by (rewrite S_INR; ring).
      rewrite sin_plus, sin_minus. ring. }
    assert (E2 : 2 * k * sin x * (a * cos (INR (S m) * x)) = k * a * (sin (INR (S (S m)) * x) - sin (INR m * x))) by (rewrite <- E; ring).
    replace (2 * (dsum x j - a * (INR (S m) * sin (INR (S m) * x))) + 2 * k * sin x * (csum N k x j + a * cos (INR (S m) * x)))
      with ((2 * dsum x j + 2 * k * sin x * csum N k x j) + 2 * k * sin x * (a * cos (INR (S m) * x)) - 2 * a * INR (S m) * sin (INR (S m) * x)) by ring.
    rewrite IH, E2. field. lra.
Qed.
(** The density of the series up to a factor; it solves P' + k sin(x) P = k sin((N+1)x). *)
Definition Pser (x : R) : R := fst (wt N k N) + 2 * csum N k x N.
Lemma Pser_ode x : is_derive Pser x (k * sin (INR (S N) * x) - k * sin x * Pser x).
Proof.
  assert (D : is_derive Pser x (2 * dsum x N)).
  { unfold Pser. pose proof (csum_derive x N) as D. 
    assert (Q : is_derive (fun t => fst (wt N k N) + 2 * csum N k t N) x (0 + 2 * dsum x N)).
    { apply (is_derive_plus (fun _ => fst (wt N k N))); [apply (is_derive_const (K := R_AbsRing) (V := R_NormedModule))|].
      apply (is_derive_scal (fun t => csum N k t N) x 2 _ D). }
    rewrite Rplus_0_l in Q. exact Q. }
  replace (k * sin (INR (S N) * x) - k * sin x * Pser x) with (2 * dsum x N); [exact D|].
  pose proof (telescoped x N (Nat.le_refl N)) as T. replace (S N - N)%nat with 1%nat in T by lia. rewrite Nat.sub_diag in T. change (INR 1) with 1 in T. change (INR 0) with 0 in T.
  rewrite Rmult_1_l, Rmult_0_l, sin_0 in T. unfold Pser. apply (Rplus_eq_reg_r (2 * k * sin x * csum N k x N)). rewrite T. ring.
Qed.
Lemma Pser_even x : Pser (- x) = Pser x.
Proof.
  unfold Pser. f_equal. f_equal. induction N as [|n IH] at 2 4; cbn [csum]; auto. rewrite IH. f_equal. f_equal.
  rewrite <- cos_neg. f_equal. ring.
Qed.
Lemma nondecr (f df : R -> R) a b : a <= b -> (forall x, a <= x <= b -> is_derive f x (df x)) -> (forall x, a <= x <= b -> 0 <= df x) -> f a <= f b.
Proof.
  intros Hab D P. destruct (MVT_gen f a b df) as (c & Hc & E).
  - intros x Hx. rewrite Rmin_left, Rmax_right in Hx by auto. apply D. lra.
  - intros x Hx. rewrite Rmin_left, Rmax_right in Hx by auto. apply continuity_pt_filterlim, (ex_derive_continuous (V := R_NormedModule)). exists (df x). apply D. lra.
  - rewrite Rmin_left, Rmax_right in Hc by auto. pose proof (P c Hc). nra.
Qed.
(** Against the exact exponential: the difference is at most 2k/(N+1). *)
Lemma Pser_close_pos x : 0 <= x <= PI -> Rabs (Pser x - Pser 0 * exp (- k) * exp (k * cos x)) <= 2 * k / INR (S N).
Proof.
  intros Hx. pose proof (INR_S_pos N) as PM. set (M := INR (S N)) in *. pose proof PI_RGT_0 as HP.
  set (E := fun t => exp (- k * cos t)). set (Q := fun t => Pser t * E t). set (H := fun t => Q t + k / M * (E t * cos (M * t))).
  assert (DE : forall t, is_derive E t (k * sin t * E t)) by (intros t; unfold E; auto_derive; [auto|ring]).
  assert (DQ : forall t, is_derive Q t (k * sin (M * t) * E t)).
  { intros t. pose proof (is_derive_mult Pser E t _ _ (Pser_ode t) (DE t) Rmult_comm) as D.
    replace (k * sin (M * t) * E t) with (plus (mult (k * sin (INR (S N) * t) - k * sin t * Pser t) (E t)) (mult (Pser t) (k * sin t * E t))); [exact D|].
    unfold plus, mult; cbn -[INR]. fold M. ring. }
  assert (DC : forall t, is_derive (fun t => E t * cos (M * t)) t (k * sin t * E t * cos (M * t) - E t * (M * sin (M * t)))).
  { intros t. assert (Dc : is_derive (fun t => cos (M * t)) t (- (M * sin (M * t)))) by (auto_derive; [auto|ring]).
    pose proof (is_derive_mult E (fun t => cos (M * t)) t _ _ (DE t) Dc Rmult_comm) as D.
    replace (k * sin t * E t * cos (M * t) - E t * (M * sin (M * t))) with (plus (mult (k * sin t * E t) (cos (M * t))) (mult (E t) (- (M * sin (M * t))))); [exact D|].
    unfold plus, mult; cbn -[M]. ring. }
  assert (DH : forall t, is_derive H t (k / M * (k * sin t * E t * cos (M * t)))).
  { intros t. pose proof (is_derive_plus Q (fun t => k / M * (E t * cos (M * t))) t _ _ (DQ t) (is_derive_scal _ t (k / M) _ (DC t))) as D.
    replace (k / M * (k * sin t * E t * cos (M * t))) with (plus (k * sin (M * t) * E t) (k / M * (k * sin t * E t * cos (M * t) - E t * (M * sin (M * t))))); [exact D|].
    unfold plus; cbn -[M]. field. lra. }
  assert (PE : forall t, 0 < E t) by (intros; apply exp_pos). assert (KM : 0 < k / M) by (apply Rdiv_lt_0_compat; auto).
  assert (Sn : forall t, 0 <= t <= x -> 0 <= sin t) by (intros t Ht; apply sin_ge_0; lra).
  assert (W : forall sg, sg = 1 \/ sg = -1 -> k / M * E 0 + sg * H 0 <= k / M * E x + sg * H x).
  { intros sg Hsg. apply (nondecr (fun t => k / M * E t + sg * H t) (fun t => k / M * (k * sin t * E t) + sg * (k / M * (k * sin t * E t * cos (M * t))))); [lra| |].
    - intros t _. exact (is_derive_plus (fun t => k / M * E t) (fun t => sg * H t) t _ _ (is_derive_scal _ t (k / M) _ (DE t)) (is_derive_scal _ t sg _ (DH t))).
    - intros t Ht. replace (k / M * (k * sin t * E t) + sg * (k / M * (k * sin t * E t * cos (M * t)))) with (k / M * (k * (sin t * E t)) * (1 + sg * cos (M * t))) by ring.
      apply Rmult_le_pos; [apply Rmult_le_pos; [lra|apply Rmult_le_pos; [lra|apply Rmult_le_pos; [apply Sn; auto|apply Rlt_le, PE]]]|].
      pose proof (COS_bound (M * t)). destruct Hsg as [-> | ->]; lra. }
  assert (W1 := W 1 (or_introl eq_refl)). assert (W2 := W (-1) (or_intror eq_refl)). clear W. unfold H in W1, W2.
  rewrite (Rmult_0_r M), cos_0 in W1, W2.
  assert (Bc : - E x <= E x * cos (M * x) <= E x) by (pose proof (COS_bound (M * x)); pose proof (PE x); split; nra).
  assert (U : - (2 * (k / M) * E x) <= Q x - Q 0 <= 2 * (k / M) * E x).
  { pose proof (PE 0). set (u := k / M) in *. set (ec := E x * cos (M * x)) in *. assert (u * (- E x) <= u * ec <= u * E x) by (split; apply Rmult_le_compat_l; lra).
    assert (0 < u * E 0) by (apply Rmult_lt_0_compat; lra). split; lra. }
  assert (Ex : exp (k * cos x) = / E x) by (unfold E; rewrite <- exp_Ropp; f_equal; ring).
  assert (E0 : exp (- k) = E 0) by (unfold E; rewrite cos_0; f_equal; ring).
  rewrite Ex, E0. fold (Q 0). pose proof (PE x) as PEx.
  replace (Pser x - Q 0 * / E x) with ((Q x - Q 0) / E x) by (unfold Q; field; lra).
  unfold Rdiv at 1. rewrite Rabs_mult, (Rabs_pos_eq (/ E x)) by (apply Rlt_le, Rinv_0_lt_compat; auto).
  apply (Rmult_le_reg_r (E x)); auto. rewrite Rmult_assoc, Rinv_l, Rmult_1_r by lra. replace (2 * k / M * E x) with (2 * (k / M) * E x) by (field; lra).
  apply Rabs_le. exact U.
Qed.
Lemma Pser_close x : - PI <= x <= PI -> Rabs (Pser x - Pser 0 * exp (- k) * exp (k * cos x)) <= 2 * k / INR (S N).
Proof.
  intros Hx. destruct (Rle_dec 0 x); [apply Pser_close_pos; lra|]. rewrite <- (Ropp_involutive x), Pser_even, cos_neg. apply Pser_close_pos. lra.
Qed.
End Series.

Lemma vm_density_continuous a k x : continuous (vm_density a 0 k) x.
Proof.
  unfold vm_density. apply (continuous_mult (fun x => exp (k * cos (x - 0))) (fun _ => / (2 * PI * a))); [|apply continuous_const].
  apply (ex_derive_continuous (V := R_NormedModule)). auto_derive. auto.
Qed.
Lemma vm_density_ex a k u v : ex_RInt (vm_density a 0 k) u v.
Proof. apply (ex_RInt_continuous (V := R_CompleteNormedModule)). intros. apply vm_density_continuous. Qed.
Lemma half_mass k a : is_I0 k a -> RInt (vm_density a 0 k) 0 PI = 1 / 2 /\ RInt (vm_density a 0 k) (- PI) 0 = 1 / 2.
Proof.
  intros H0. set (d := vm_density a 0 k). assert (N1 : RInt d (- PI) PI = 1) by (apply is_RInt_unique, (vd_normal k a 0 H0)).
  assert (C : RInt d (- PI) 0 + RInt d 0 PI = RInt d (- PI) PI) by (apply (RInt_Chasles d); apply vm_density_ex).
  assert (E : RInt d (- PI) 0 = RInt d 0 PI).
  { pose proof (RInt_comp_lin d (-1) 0 PI 0) as L. replace (-1 * PI + 0) with (- PI) in L by ring. replace (-1 * 0 + 0) with 0 in L by ring.
    rewrite <- L by apply vm_density_ex. rewrite <- (opp_RInt_swap d PI 0) by apply vm_density_ex.
    rewrite <- (RInt_opp (V := R_CompleteNormedModule) d PI 0) by apply vm_density_ex. apply RInt_ext. intros x _. unfold scal, opp; cbn. unfold mult; cbn. unfold d, vm_density.
    replace (-1 * x + 0 - 0) with (- (x - 0)) by ring. rewrite cos_neg. ring. }
  lra.
Qed.
Section Accuracy.
Variables (N : nat) (k a : R).
Hypothesis Hk : 0 < k.
Hypothesis H0 : is_I0 k a.
Definition sraw (x : R) : R := 1 / 2 + x / (2 * PI) + vsum N k x N / fst (wt N k N) / PI.
Lemma sraw_derive x : is_derive sraw x (Pser N k x / (2 * PI * fst (wt N k N))).
Proof.
  destruct (wt_pos N k Hk N (Nat.le_refl N)) as [Pw _]. pose proof PI_RGT_0 as HP. unfold sraw, Pser. set (w := fst (wt N k N)) in *.
  pose proof (vsum_derive N k x N (Nat.le_refl N)) as D. set (f := fun t => vsum N k t N) in *.
  assert (D1 : is_derive (fun t => 1 / 2 + t / (2 * PI)) x (1 / (2 * PI))) by (auto_derive; [auto|field; lra]).
  pose proof (is_derive_plus (fun t => 1 / 2 + t / (2 * PI)) (fun t => / (w * PI) * f t) x _ _ D1 (is_derive_scal f x (/ (w * PI)) _ D)) as D2.
  replace ((w + 2 * csum N k x N) / (2 * PI * w)) with (plus (1 / (2 * PI)) (/ (w * PI) * csum N k x N)) by (unfold plus; cbn; field; lra).
  eapply is_derive_ext; [|exact D2]. intros t. unfold plus; cbn. unfold f. field. lra.
Qed.
Lemma sraw_0 : sraw 0 = 1 / 2.
Proof.
  unfold sraw. assert (V : forall j, vsum N k 0 j = 0).
  { induction j as [|j IH]; cbn [vsum]; auto. rewrite IH, Rmult_0_r, sin_0. unfold Rdiv. ring. }
  rewrite V. unfold Rdiv. ring.
Qed.
Lemma sraw_odd x : sraw (- x) = 1 - sraw x.
Proof.
  unfold sraw. assert (V : forall j, vsum N k (- x) j = - vsum N k x j).
  { induction j as [|j IH]; cbn [vsum]; [ring|]. rewrite IH. replace (INR (N - j) * - x) with (- (INR (N - j) * x)) by ring. rewrite sin_neg. unfold Rdiv. ring. }
  rewrite V. unfold Rdiv. field. pose proof PI_RGT_0. destruct (wt_pos N k Hk N (Nat.le_refl N)) as [Pw _]. split; lra.
Qed.
Lemma sraw_PI : sraw PI = 1.
Proof.
  unfold sraw. pose proof PI_RGT_0. assert (V : forall j, vsum N k PI j = 0).
  { induction j as [|j IH]; cbn [vsum]; auto. rewrite IH, sin_INR_PI. unfold Rdiv. ring. }
  rewrite V. field. destruct (wt_pos N k Hk N (Nat.le_refl N)) as [Pw _]. split; lra.
Qed.
Let d := vm_density a 0 k.
Lemma series_accuracy_pos x : 0 <= x <= PI -> Rabs (sraw x - RInt d (- PI) x) <= 2 * k / (INR (S N) * fst (wt N k N)).
Proof.
  intros Hx. destruct (wt_pos N k Hk N (Nat.le_refl N)) as [Pw _]. pose proof PI_RGT_0 as HP. pose proof (INR_S_pos N) as PM. pose proof (I0_pos k a H0) as Pa.
  set (w := fst (wt N k N)) in *. set (M := INR (S N)) in *. destruct (half_mass k a H0) as [HM1 HM2]. fold d in HM1, HM2.
  set (B := fun t => RInt d 0 t). set (lam := Pser N k 0 * exp (- k) * a / w). set (del := k / (PI * (M * w))).
  assert (DB : forall t, is_derive B t (d t)).
  { intros t. apply (is_derive_RInt d B 0 t); [|apply vm_density_continuous]. apply filter_forall. intros y. apply (RInt_correct d), vm_density_ex. }
  assert (Cl : forall t, 0 <= t <= PI -> Rabs (Pser N k t / (2 * PI * w) - lam * d t) <= del).
  { intros t Ht. pose proof (Pser_close_pos N k Hk t Ht) as P. fold M in P.
    replace (Pser N k t / (2 * PI * w) - lam * d t) with (/ (2 * PI * w) * (Pser N k t - Pser N k 0 * exp (- k) * exp (k * cos t)))
      by (unfold lam, d, vm_density; rewrite Rminus_0_r; field; repeat split; lra).
    assert (Pi : 0 < / (2 * PI * w)) by (apply Rinv_0_lt_compat, Rmult_lt_0_compat; lra).
    rewrite Rabs_mult, (Rabs_pos_eq (/ (2 * PI * w))) by lra. replace del with (/ (2 * PI * w) * (2 * k / M)) by (unfold del; field; repeat split; lra).
    apply Rmult_le_compat_l; lra. }
  assert (W : forall sg t, sg = 1 \/ sg = -1 -> 0 <= t <= PI -> sg * (sraw t - 1 / 2 - lam * B t) <= del * t).
  { intros sg t Hs Ht. 
    pose proof (nondecr (fun t => del * t + - sg * (sraw t - 1 / 2 - lam * B t)) (fun t => del + - sg * (Pser N k t / (2 * PI * w) - lam * d t)) 0 t ltac:(lra)) as Nd.
    assert (B0 : B 0 = 0) by (unfold B; apply (RInt_point (V := R_CompleteNormedModule))).
    cbv beta in Nd. rewrite sraw_0, B0 in Nd.
    cut (del * 0 + - sg * (1 / 2 - 1 / 2 - lam * 0) <= del * t + - sg * (sraw t - 1 / 2 - lam * B t)); [intros; lra|]. apply Nd.
    - intros u _. assert (D1 : is_derive (fun u => del * u) u del) by (auto_derive; [auto|ring]).
      assert (D2 : is_derive (fun u => sraw u - 1 / 2 - lam * B u) u (Pser N k u / (2 * PI * w) - lam * d u)).
      { apply (is_derive_minus (fun u => sraw u - 1 / 2) (fun u => lam * B u)); [|apply (is_derive_scal B u lam _ (DB u))].
        replace (Pser N k u / (2 * PI * w)) with (minus (Pser N k u / (2 * PI * w)) 0) by (unfold minus, plus, opp; cbn; ring).
        apply (is_derive_minus sraw (fun _ => 1 / 2)); [apply sraw_derive|apply (is_derive_const (K := R_AbsRing) (V := R_NormedModule))]. }
      exact (is_derive_plus (fun u => del * u) (fun u => - sg * (sraw u - 1 / 2 - lam * B u)) u _ _ D1 (is_derive_scal _ u (- sg) _ D2)).
    - intros u Hu. pose proof (proj1 (Rabs_le_between _ _) (Cl u ltac:(lra))) as C. destruct Hs as [-> | ->]; lra. }
  assert (A1 : forall t, 0 <= t <= PI -> - (del * t) <= sraw t - 1 / 2 - lam * B t <= del * t).
  { intros t Ht. pose proof (W 1 t (or_introl eq_refl) Ht). pose proof (W (-1) t (or_intror eq_refl) Ht). lra. }
  pose proof (A1 PI ltac:(lra)) as AP. rewrite sraw_PI in AP. unfold B in AP. rewrite HM1 in AP.
  assert (Ch : RInt d (- PI) x = 1 / 2 + B x).
  { rewrite <- HM2. symmetry. apply (RInt_Chasles d); apply vm_density_ex. }
  rewrite Ch. assert (Bb : 0 <= B x <= 1 / 2).
  { assert (B0 : B 0 = 0) by (unfold B; apply (RInt_point (V := R_CompleteNormedModule))). rewrite <- B0 at 1. rewrite <- HM1. fold (B PI).
    split; apply (nondecr B d); try lra; intros; try apply DB; apply Rlt_le, (vd_pos k a 0 H0). }
  pose proof (A1 x Hx) as AX. assert (Pd : 0 < del) by (unfold del; apply Rdiv_lt_0_compat; [exact Hk|]; apply Rmult_lt_0_compat; [exact HP|]; apply Rmult_lt_0_compat; [exact PM|exact Pw]).
  replace (2 * k / (M * w)) with (2 * PI * del) by (unfold del; field; repeat split; lra).
  apply Rabs_le. assert (del * x <= del * PI) by (apply Rmult_le_compat_l; lra).
  assert (L : - (2 * (del * PI)) <= lam - 1 <= 2 * (del * PI)) by lra.
  assert (LB : - (del * PI) <= (lam - 1) * B x <= del * PI) by (split; nra).
  split; nra.
Qed.
Lemma series_accuracy x : - PI <= x <= PI -> Rabs (sraw x - RInt d (- PI) x) <= 2 * k / (INR (S N) * fst (wt N k N)).
Proof.
  intros Hx. destruct (Rle_dec 0 x) as [P|P]; [apply series_accuracy_pos; lra|].
  pose proof (series_accuracy_pos (- x) ltac:(lra)) as A. rewrite sraw_odd in A.
  assert (S1 : RInt d (- PI) (- x) = 1 - RInt d (- PI) x).
  { assert (N1 : RInt d (- PI) PI = 1) by (apply is_RInt_unique, (vd_normal k a 0 H0)).
    assert (C : RInt d (- PI) x + RInt d x PI = RInt d (- PI) PI) by (apply (RInt_Chasles d); apply vm_density_ex).
    assert (E : RInt d (- PI) (- x) = RInt d x PI); [|lra].
    pose proof (RInt_comp_lin d (-1) 0 PI x) as L. replace (-1 * PI + 0) with (- PI) in L by ring. replace (-1 * x + 0) with (- x) in L by ring.
    rewrite <- L by apply vm_density_ex. rewrite <- (opp_RInt_swap d PI x) by apply vm_density_ex.
    rewrite <- (RInt_opp (V := R_CompleteNormedModule) d PI x) by apply vm_density_ex. apply RInt_ext. intros y _. unfold scal, opp; cbn. unfold mult; cbn. unfold d, vm_density.
    replace (-1 * y + 0 - 0) with (- (y - 0)) by ring. rewrite cos_neg. ring. }
  rewrite S1 in A. replace (1 - sraw x - (1 - RInt d (- PI) x)) with (- (sraw x - RInt d (- PI) x)) in A by ring. rewrite Rabs_Ropp in A. exact A.
Qed.
End Accuracy.

(** The 20 terms of the code. *)
Lemma wt_mono N k k' j : 0 < k <= k' -> (j <= N)%nat -> fst (wt N k' j) <= fst (wt N k j) /\ snd (wt N k' j) <= snd (wt N k j).
Proof.
  intros Hk. induction j as [|j IH]; intros Hj; cbn [wt fst snd]; [lra|]. destruct IH as [P Q]; [lia|]. cbv zeta. cbn [fst snd]. split; [|exact P].
  destruct (wt_pos N k' ltac:(lra) j ltac:(lia)) as [P' _]. assert (Pn : 0 < INR (N - j)) by (apply lt_0_INR; lia).
  assert (2 * INR (N - j) / k' <= 2 * INR (N - j) / k) by (apply Rmult_le_compat_l; [lra|]; apply Rinv_le_contravar; lra).
  assert (0 < 2 * INR (N - j) / k') by (apply Rdiv_lt_0_compat; lra).
  apply Rplus_le_compat; auto. apply Rmult_le_compat; lra.
Qed.
Fixpoint zw (N j : nat) : Z * Z :=
  match j with O => (1, 0)%Z | S j' => let p := zw N j' in (4 * Z.of_nat (N - j') * fst p + 21 * snd p, 21 * fst p)%Z end.
Lemma zw_wt N j : fst (wt N (21 / 2) j) = IZR (fst (zw N j)) / 21 ^ j /\ snd (wt N (21 / 2) j) = IZR (snd (zw N j)) / 21 ^ j.
Proof.
  induction j as [|j [I1 I2]]; cbn [wt zw fst snd]; [cbn; split; field|]. cbv zeta. cbn [fst snd]. rewrite I1, I2.
  rewrite plus_IZR, !mult_IZR, <- INR_IZR_INZ. assert (P : 21 ^ j <> 0) by (apply pow_nonzero; lra). cbn [pow]. split; field; auto.
Qed.
Local Opaque wt vsum INR zw.
Lemma wt_20 k : 0 < k <= 21 / 2 -> 10 ^ 7 <= fst (wt 20 k 20).
Proof.
  intros Hk. destruct (wt_mono 20 k (21 / 2) 20 Hk (Nat.le_refl _)) as [M _]. eapply Rle_trans; [|exact M].
  destruct (zw_wt 20 20) as [-> _]. apply Rmult_le_reg_r with (21 ^ 20); [apply pow_lt; lra|]. unfold Rdiv. rewrite Rmult_assoc, Rinv_l, Rmult_1_r by (apply pow_nonzero; lra).
  rewrite !pow_IZR, <- mult_IZR. apply IZR_le. apply Z.leb_le. vm_compute. reflexivity.
Qed.
Lemma ser_raw_sraw x k : 0 < k -> ser_raw x k = sraw 20 k x.
Proof. intros Hk. unfold ser_raw, ser_v, sraw. rewrite rloop_series by auto. pose proof PI_RGT_0. destruct (wt_pos 20 k Hk 20 (Nat.le_refl _)) as [P _]. field. split; lra. Qed.
Lemma rclip_near y F e : 0 <= F <= 1 -> Rabs (y - F) <= e -> Rabs (rclip y - F) <= e.
Proof. intros HF H. apply Rabs_le_between in H. apply Rabs_le. unfold rclip, Rmin, Rmax. repeat destruct Rle_dec; lra. Qed.
Lemma period_accuracy k a x : is_I0 k a -> 0 < k < 10.5 -> - PI <= x <= PI -> Rabs (rclip (ser_raw x k) - RInt (vm_density a 0 k) (- PI) x) <= / 10 ^ 7.
Proof.
  intros H0 Hk Hx. pose proof PI_RGT_0 as HP. assert (Pd : forall t, 0 < vm_density a 0 k t) by (apply (vd_pos k a 0 H0)).
  assert (N1 : RInt (vm_density a 0 k) (- PI) PI = 1) by (apply is_RInt_unique, (vd_normal k a 0 H0)).
  apply rclip_near.
  - pose proof (RInt_ge_0 (vm_density a 0 k) (- PI) x ltac:(lra) (vm_density_ex _ _ _ _) ltac:(intros; apply Rlt_le; auto)).
    pose proof (RInt_ge_0 (vm_density a 0 k) x PI ltac:(lra) (vm_density_ex _ _ _ _) ltac:(intros; apply Rlt_le; auto)).
    assert (C : RInt (vm_density a 0 k) (- PI) x + RInt (vm_density a 0 k) x PI = RInt (vm_density a 0 k) (- PI) PI) by (apply (RInt_Chasles (vm_density a 0 k)); apply vm_density_ex). lra.
  - rewrite ser_raw_sraw by lra. eapply Rle_trans; [apply (series_accuracy 20 k a ltac:(lra) H0 x Hx)|].
    pose proof (wt_20 k ltac:(lra)) as W. set (w := fst (wt 20 k 20)) in *. clearbody w.
    assert (E : INR 21 = 21) by (rewrite INR_IZR_INZ; reflexivity). rewrite E.
    assert (P7 : 0 < 10 ^ 7) by (apply pow_lt; lra). assert (/ w <= / 10 ^ 7) by (apply Rinv_le_contravar; auto).
    assert (Pw : 0 < w) by (apply (Rlt_le_trans _ _ _ P7 W)). assert (0 < / w) by (apply Rinv_0_lt_compat, Pw).
    replace (2 * k / (21 * w)) with (2 * k / 21 * / w) by (field; lra). apply Rle_trans with (1 * / w); [|lra]. apply Rmult_le_compat_r; lra.
Qed.
