(** The computed von Mises cdf on real arguments: the continued-fraction series and the normal approximation. *)
From Coq Require Import Reals Lra Lia ZArith List Bool Psatz.
From Coquelicot Require Import Coquelicot.
From Verif Require Import Base.XR Base.Gauss Model.MathUtils Model.ScalarDist Model.Multinomial Model.VonMises
  Spec.VonMises Proofs.Density Proofs.GammaFamily Proofs.VonMises.
Import ListNotations.
Local Open Scope R_scope.

(** ** The series on reals *)
Definition rst := (R * R * R * R)%type.
Definition rstep (x k : R) (n : nat) (s : rst) : rst :=
  let '(r, dr, v, dv) := s in
  let d := 2 * INR n / k + r in
  let dd := -2 * INR n / (k * k) + dr in
  let m := sin (INR n * x) / INR n + v in
  (1 / d, - dd / (d * d), 1 / d * m, - dd / (d * d) * m + 1 / d * dv).
Fixpoint rloop (x k : R) (n : nat) (s : rst) : rst := match n with O => s | S m => rloop x k m (rstep x k (S m) s) end.
Definition xst (s : rst) : XR * XR * XR * XR := let '(r, dr, v, dv) := s in (Fin r, Fin dr, Fin v, Fin dv).
Definition s_r (s : rst) := let '(r, _, _, _) := s in r.
Definition s_dr (s : rst) := let '(_, dr, _, _) := s in dr.
Definition s_v (s : rst) := let '(_, _, v, _) := s in v.
Definition s_dv (s : rst) := let '(_, _, _, dv) := s in dv.

Lemma INR_S_pos n : 0 < INR (S n). Proof. apply lt_0_INR. lia. Qed.
Lemma den_pos k n r : 0 < k -> 0 <= r -> 0 < 2 * INR (S n) / k + r.
Proof. intros. pose proof (INR_S_pos n). assert (0 < 2 * INR (S n) / k) by (apply Rdiv_lt_0_compat; lra). lra. Qed.
Lemma rstep_r x k n s : 0 < k -> 0 <= s_r s -> 0 <= s_r (rstep x k (S n) s).
Proof. destruct s as [[[r dr] v] dv]. cbn [s_r rstep]. intros. pose proof (den_pos k n r H H0). apply Rlt_le, Rdiv_lt_0_compat; lra. Qed.
Lemma step_fin x k n s : 0 < k -> 0 <= s_r s -> vm_series_step (Fin x) (Fin k) (S n) (xst s) = xst (rstep x k (S n) s).
Proof.
  destruct s as [[[r dr] v] dv]. cbn [s_r]. intros Hk Hr. pose proof (den_pos k n r Hk Hr) as D. pose proof (INR_S_pos n) as P.
  cbn [xst vm_series_step rstep]. unfold xsquare. cbn [xmul].
  rewrite (xdiv_fin (2 * INR (S n)) k) by lra. rewrite (xdiv_fin (-2 * INR (S n)) (k * k)) by nra. cbn [xadd xopp xmul xsin].
  rewrite (xdiv_fin 1) by lra. rewrite (xdiv_fin (- _)) by nra. rewrite (xdiv_fin (sin _)) by lra. reflexivity.
Qed.
Lemma loop_fin x k n : 0 < k -> forall s, 0 <= s_r s -> vm_series_loop (Fin x) (Fin k) n (xst s) = xst (rloop x k n s).
Proof. intros Hk. induction n as [|n IH]; intros s Hs; auto. cbn [vm_series_loop rloop]. rewrite step_fin, IH; auto using rstep_r. Qed.

Definition neg_v (s : rst) : rst := let '(r, dr, v, dv) := s in (r, dr, - v, - dv).
Lemma rloop_odd x k n : forall s, rloop (- x) k n (neg_v s) = neg_v (rloop x k n s).
Proof.
  induction n as [|n IH]; intros s; auto. cbn [rloop]. rewrite <- IH. f_equal. destruct s as [[[r dr] v] dv]. cbn [neg_v rstep].
  replace (INR (S n) * - x) with (- (INR (S n) * x)) by ring. rewrite sin_neg. pose proof (INR_S_pos n).
  replace (- sin (INR (S n) * x) / INR (S n) + - v) with (- (sin (INR (S n) * x) / INR (S n) + v)) by (field; lra).
  f_equal; [f_equal|]; ring.
Qed.
Lemma rloop_zero x k n : (forall m, sin (INR (S m) * x) = 0) -> forall r dr, exists r' dr', rloop x k n (r, dr, 0, 0) = (r', dr', 0, 0).
Proof.
  intros Hs. induction n as [|n IH]; intros r dr; [exists r, dr; reflexivity|]. cbn [rloop rstep]. rewrite Hs. pose proof (INR_S_pos n).
  replace (0 / INR (S n) + 0) with 0 by (field; lra). rewrite !Rmult_0_r, Rplus_0_l. apply IH.
Qed.
Lemma sin_INR_PI n : sin (INR n * PI) = 0.
Proof. apply sin_eq_0_1. exists (Z.of_nat n). rewrite INR_IZR_INZ. reflexivity. Qed.

(** [v] after the loop, and its formal derivative *)
Definition ser_v (x k : R) : R := s_v (rloop x k 20 (0, 0, 0, 0)).
Definition ser_dv (x k : R) : R := s_dv (rloop x k 20 (0, 0, 0, 0)).
Definition rclip (x : R) : R := Rmin (Rmax x 0) 1.
Lemma rclip_bd x : 0 <= rclip x <= 1.
Proof. unfold rclip, Rmin, Rmax. repeat destruct Rle_dec; lra. Qed.
Lemma rclip_in x : 0 <= x <= 1 -> rclip x = x.
Proof. unfold rclip, Rmin, Rmax. repeat destruct Rle_dec; lra. Qed.
Lemma rclip_lo x : x <= 0 -> rclip x = 0.
Proof. unfold rclip, Rmin, Rmax. repeat destruct Rle_dec; lra. Qed.
Lemma rclip_hi x : 1 <= x -> rclip x = 1.
Proof. unfold rclip, Rmin, Rmax. repeat destruct Rle_dec; lra. Qed.
Lemma rclip_flip x : rclip (1 - x) = 1 - rclip x.
Proof. unfold rclip, Rmin, Rmax. repeat destruct Rle_dec; lra. Qed.
Lemma xclip_fin x : xclip (Fin x) (Fin 0) (Fin 1) = Fin (rclip x).
Proof.
  unfold xclip, xmax, xmin, rclip, Rmin, Rmax. cbn [xis_nan orb xltb]. destruct (Rlt_dec x 0); cbn [xis_nan orb xltb]; repeat destruct Rlt_dec; repeat destruct Rle_dec; f_equal; lra.
Qed.
Definition ser_raw (x k : R) : R := 1 / 2 + x / (2 * PI) + ser_v x k / PI.
Lemma series_fin x k : 0 < k -> vm_cdf_series 20 (Fin x) (Fin k) =
  (Fin (rclip (ser_raw x k)), Fin (ser_dv x k / PI * (if xleb (Fin 0) (Fin (ser_raw x k)) && xleb (Fin (ser_raw x k)) (Fin 1) then 1 else 0))).
Proof.
  intros Hk. unfold vm_cdf_series. change (Fin 0, Fin 0, Fin 0, Fin 0) with (xst (0, 0, 0, 0)). rewrite loop_fin by (cbn; lra).
  unfold ser_raw, ser_v, ser_dv. destruct (rloop x k 20 (0, 0, 0, 0)) as [[[r dr] v] dv]. cbn [xst s_v s_dv].
  pose proof PI_RGT_0. unfold two_pi. rewrite !xdiv_fin by lra. cbn [xadd]. rewrite xclip_fin. f_equal.
  destruct (xleb (Fin 0) _ && _); reflexivity.
Qed.
Lemma ser_v_odd x k : ser_v (- x) k = - ser_v x k.
Proof.
  unfold ser_v. replace (0, 0, 0, 0) with (neg_v (0, 0, 0, 0)) at 1 by (cbn; rewrite Ropp_0; reflexivity). rewrite rloop_odd.
  destruct (rloop x k 20 (0, 0, 0, 0)) as [[[r dr] v] dv]. reflexivity.
Qed.
Lemma ser_v_PI k : ser_v PI k = 0.
Proof. unfold ser_v. destruct (rloop_zero PI k 20 (fun m => sin_INR_PI (S m)) 0 0) as (r & dr & ->). reflexivity. Qed.

(** at concentration 0 the value is the uniform one and the tangent is NaN *)
Lemma loop_zero_conc x n : exists r v dr dv, vm_series_loop (Fin x) (Fin 0) (S n) (Fin 0, Fin 0, Fin 0, Fin 0) = (Fin r, dr, Fin v, dv) /\ v = 0 /\ dr = NaN /\ dv = NaN.
Proof.
  assert (S1 : forall m r v dr dv, (dr = Fin 0 \/ dr = NaN) -> vm_series_step (Fin x) (Fin 0) (S m) (Fin r, dr, Fin v, dv) = (Fin 0, NaN, Fin 0, NaN)).
  { intros m r v dr dv D. pose proof (INR_S_pos m). cbn [vm_series_step]. unfold xsquare. cbn [xmul]. rewrite Rmult_0_l.
    cbn [xdiv]. destruct (Req_EM_T 0 0); [|lra]. unfold inf_times. destruct (Rlt_dec 0 (2 * INR (S m))); [|lra].
    destruct (Rlt_dec 0 (-2 * INR (S m))); [lra|]. destruct (Rlt_dec (-2 * INR (S m)) 0); [|lra].
    cbn [xadd xdiv xmul xopp xsin]. destruct (Req_EM_T (INR (S m)) 0); [lra|]. cbn [xadd xmul]. rewrite Rmult_0_l.
    destruct D as [-> | ->]; cbn [xadd xopp xdiv xmul]; unfold inf_times; repeat (destruct Rlt_dec; try lra); reflexivity. }
  assert (L : forall n r v dr dv, (dr = Fin 0 \/ dr = NaN) -> vm_series_loop (Fin x) (Fin 0) (S n) (Fin r, dr, Fin v, dv) = (Fin 0, NaN, Fin 0, NaN)).
  { clear n. induction n as [|n IH]; intros.
    - cbn [vm_series_loop]. apply S1; auto.
    - change (vm_series_loop (Fin x) (Fin 0) (S (S n)) (Fin r, dr, Fin v, dv)) with (vm_series_loop (Fin x) (Fin 0) (S n) (vm_series_step (Fin x) (Fin 0) (S (S n)) (Fin r, dr, Fin v, dv))).
      rewrite S1 by auto. apply IH. auto. }
  exists 0, 0, NaN, NaN. rewrite L by auto. auto.
Qed.
Lemma series_zero x : vm_cdf_series 20 (Fin x) (Fin 0) = (Fin (rclip (1 / 2 + x / (2 * PI))), NaN).
Proof.
  unfold vm_cdf_series. destruct (loop_zero_conc x 19) as (r & v & dr & dv & E & -> & -> & ->). rewrite E. pose proof PI_RGT_0. unfold two_pi.
  rewrite !xdiv_fin by lra. cbn [xadd xdiv]. rewrite xclip_fin. f_equal. f_equal. f_equal. field. lra.
Qed.

(** ** The derivative carried by the loop is the derivative in the concentration *)
Definition tracks (s : R -> rst) (k : R) : Prop :=
  (forall t, 0 < t -> 0 <= s_r (s t)) /\
  (forall t, 0 < t -> is_derive (fun u => s_r (s u)) t (s_dr (s t))) /\ (forall t, 0 < t -> is_derive (fun u => s_v (s u)) t (s_dv (s t))).
Lemma step_tracks x n s k : tracks s k -> tracks (fun t => rstep x t (S n) (s t)) k.
Proof.
  intros (Hr & Dr & Dv). split; [intros t Ht; apply rstep_r; auto|].
  assert (E : forall t, rstep x t (S n) (s t) = (1 / (2 * INR (S n) / t + s_r (s t)),
    - (-2 * INR (S n) / (t * t) + s_dr (s t)) / ((2 * INR (S n) / t + s_r (s t)) * (2 * INR (S n) / t + s_r (s t))),
    1 / (2 * INR (S n) / t + s_r (s t)) * (sin (INR (S n) * x) / INR (S n) + s_v (s t)),
    - (-2 * INR (S n) / (t * t) + s_dr (s t)) / ((2 * INR (S n) / t + s_r (s t)) * (2 * INR (S n) / t + s_r (s t))) * (sin (INR (S n) * x) / INR (S n) + s_v (s t))
      + 1 / (2 * INR (S n) / t + s_r (s t)) * s_dv (s t))).
  { intros t. destruct (s t) as [[[r dr] v] dv]. reflexivity. }
  pose proof (INR_S_pos n) as Pn. set (N := INR (S n)) in *. set (c := sin (N * x) / N) in *.
  assert (D1 : forall t, 0 < t -> is_derive (fun u => 1 / (2 * N / u + s_r (s u))) t (- (-2 * N / (t * t) + s_dr (s t)) / ((2 * N / t + s_r (s t)) * (2 * N / t + s_r (s t))))).
  { intros t Ht. pose proof (den_pos t n (s_r (s t)) Ht (Hr t Ht)) as Dp. fold N in Dp.
    assert (I : is_derive (fun u => 2 * N / u + s_r (s u)) t (-2 * N / (t * t) + s_dr (s t))).
    { apply (is_derive_plus (fun u => 2 * N / u) (fun u => s_r (s u))); [|apply Dr; auto].
      assert (Q : is_derive (fun u : R => 2 * N / u) t (-2 * N / (t * t))) by (auto_derive; [lra|field; lra]). exact Q. }
    pose proof (is_derive_inv (fun u => 2 * N / u + s_r (s u)) t _ I ltac:(lra)) as J.
    apply (is_derive_ext (fun u => / (2 * N / u + s_r (s u)))); [intros u; symmetry; apply Rmult_1_l|].
    replace (- (-2 * N / (t * t) + s_dr (s t)) / ((2 * N / t + s_r (s t)) * (2 * N / t + s_r (s t)))) with (- (-2 * N / (t * t) + s_dr (s t)) / (2 * N / t + s_r (s t)) ^ 2); [exact J|].
    f_equal. ring. }
  split; intros t Ht; rewrite E; cbn [s_dr s_dv].
  - apply (is_derive_ext (fun u => 1 / (2 * N / u + s_r (s u)))); [intros u; rewrite E; reflexivity|]. apply D1; auto.
  - apply (is_derive_ext (fun u => 1 / (2 * N / u + s_r (s u)) * (c + s_v (s u)))); [intros u; rewrite E; reflexivity|].
    assert (I : is_derive (fun u => c + s_v (s u)) t (s_dv (s t))).
    { replace (s_dv (s t)) with (0 + s_dv (s t)) by ring. apply (is_derive_plus (fun _ => c) (fun u => s_v (s u))); [|apply Dv; auto].
      apply (is_derive_const (K := R_AbsRing) (V := R_NormedModule)). }
    pose proof (is_derive_mult (fun u => 1 / (2 * N / u + s_r (s u))) (fun u => c + s_v (s u)) t _ _ (D1 t Ht) I Rmult_comm) as J. exact J.
Qed.
Lemma loop_tracks x n k : forall s, tracks s k -> tracks (fun t => rloop x t n (s t)) k.
Proof. induction n as [|n IH]; intros s H; auto. cbn [rloop]. apply (IH (fun t => rstep x t (S n) (s t))). apply step_tracks; auto. Qed.
Lemma ser_v_derive x k : 0 < k -> is_derive (fun t => ser_v x t) k (ser_dv x k).
Proof.
  intros Hk. assert (T : tracks (fun t => rloop x t 20 (0, 0, 0, 0)) k).
  { apply (loop_tracks x 20 k (fun _ => (0, 0, 0, 0))). split; [cbn; intros; lra|].
    split; intros; apply (is_derive_const (K := R_AbsRing) (V := R_NormedModule)). }
  destruct T as (_ & _ & D). apply D. auto.
Qed.

(** ** The normal approximation is finite for concentrations of at least 10.5 *)
Lemma PI_upper : PI < 3.47.
Proof. pose proof (PI_ineq 1) as [_ H]. unfold tg_alt, PI_tg in H. cbn in H. lra. Qed.
Lemma cos_lower t : 1 - t * t / 2 <= cos t.
Proof.
  assert (W : forall u, 0 <= u -> 1 - u * u / 2 <= cos u).
  { intros u Hu. replace u with (2 * (u / 2)) at 3 by field. rewrite cos_2a_sin.
    destruct (Rle_dec u 2) as [H|H].
    - assert (sin (u / 2) <= u / 2). { destruct Hu as [Hu|<-]; [apply Rlt_le, sin_lt_x; lra|]. replace (0 / 2) with 0 by field. rewrite sin_0. lra. }
      assert (0 <= sin (u / 2)). { apply sin_ge_0; pose proof PI_RGT_0; pose proof PI2_1; lra. } nra.
    - pose proof (SIN_bound (u / 2)). nra. }
  destruct (Rle_dec 0 t) as [H|H]; auto. rewrite <- (Ropp_involutive t). rewrite cos_neg. replace (- - t * - - t) with (- t * - t) by ring. apply W. lra.
Qed.
Lemma exp_le' x y : x <= y -> exp x <= exp y.
Proof. intros [H| ->]; [apply Rlt_le, exp_increasing; auto|lra]. Qed.
(** i0e(k) >= 16 / (15 pi sqrt k) *)
Lemma i0e_lower k a : 1 <= k -> is_I0 k a -> 16 / (15 * PI) <= exp (- k) * a * sqrt k.
Proof.
  intros Hk H. pose proof PI_RGT_0 as HP. assert (Sk : 1 <= sqrt k) by (rewrite <- sqrt_1; apply sqrt_le_1; lra).
  assert (Sq : sqrt k * sqrt k = k) by (apply sqrt_sqrt; lra). set (q := sqrt k) in *.
  set (h := 2 / q). assert (Hq : h * q = 2) by (unfold h; field; lra). assert (Hh : 0 < h <= 2) by (split; nra).
  assert (P2 : 2 < PI) by (pose proof PI2_3_2; lra).
  set (f := fun t => exp (k * cos t) / (2 * PI)).
  assert (Cf : forall u v, ex_RInt f u v) by (intros; apply (ex_RInt_continuous (V := R_CompleteNormedModule)); intros; apply ecos_cont).
  assert (Pf : forall t, 0 < f t) by (intros; unfold f; apply Rdiv_lt_0_compat; [apply exp_pos|lra]).
  set (g := fun t => exp k * ((1 - k * t * t / 4) * (1 - k * t * t / 4)) / (2 * PI)).
  set (G := fun t => exp k * (t - k * t ^ 3 / 6 + k * k * t ^ 5 / 80) / (2 * PI)).
  assert (Ig : is_RInt g (- h) h (G h - G (- h))).
  { apply (is_RInt_derive G g).
    - intros t _. unfold G, g. auto_derive; [lra|]. field. lra.
    - intros t _. unfold g. apply (ex_derive_continuous (V := R_NormedModule)). auto_derive. lra. }
  assert (L : G h - G (- h) <= RInt f (- h) h).
  { apply (is_RInt_le g f (- h) h); [lra|exact Ig|apply (RInt_correct f), Cf|]. intros t Ht. unfold g, f.
    apply Rmult_le_compat_r; [apply Rlt_le, Rinv_0_lt_compat; lra|].
    replace (k * cos t) with (k + k * (cos t - 1)) by ring. rewrite exp_plus. apply Rmult_le_compat_l; [apply Rlt_le, exp_pos|].
    assert (Bt : k * t * t <= 4). { rewrite <- Sq. assert (- 2 <= q * t <= 2) by (split; nra). nra. }
    apply Rle_trans with (exp (- (k * t * t / 4)) * exp (- (k * t * t / 4))).
    - pose proof (exp_ineq1_le (- (k * t * t / 4))). apply Rmult_le_compat; lra.
    - rewrite <- exp_plus. apply exp_le'. pose proof (cos_lower t). nra. }
  assert (M : RInt f (- h) h <= a).
  { assert (Ea : a = RInt f (- PI) PI) by (symmetry; apply (is_RInt_unique f); exact H).
    assert (E : plus (plus (RInt f (- PI) (- h)) (RInt f (- h) h)) (RInt f h PI) = RInt f (- PI) PI) by (rewrite (RInt_Chasles f (- PI) (- h) h), (RInt_Chasles f (- PI) h PI); auto; apply Cf).
    rewrite Ea. assert (E' : RInt f (- PI) (- h) + RInt f (- h) h + RInt f h PI = RInt f (- PI) PI) by exact E.
    assert (0 <= RInt f (- PI) (- h)) by (apply RInt_ge_0; [lra|apply Cf|intros; apply Rlt_le; auto]).
    assert (0 <= RInt f h PI) by (apply RInt_ge_0; [lra|apply Cf|intros; apply Rlt_le; auto]). lra. }
  assert (V : G h - G (- h) = exp k * (16 / 15) * h / (2 * PI)).
  { assert (K1 : k * h ^ 2 = 4) by (rewrite <- Sq; replace (q * q * h ^ 2) with ((h * q) * (h * q)) by ring; rewrite Hq; ring).
    unfold G. replace (k * h ^ 3) with (k * h ^ 2 * h) by ring. replace (k * k * h ^ 5) with ((k * h ^ 2) * (k * h ^ 2) * h) by ring.
    replace (k * (- h) ^ 3) with (- (k * h ^ 2 * h)) by ring. replace (k * k * (- h) ^ 5) with (- ((k * h ^ 2) * (k * h ^ 2) * h)) by ring.
    rewrite K1. field. lra. }
  assert (E1 : exp (- k) * exp k = 1) by (rewrite <- exp_plus; replace (- k + k) with 0 by ring; apply exp_0).
  pose proof (exp_pos (- k)). assert (B : exp k * (16 / 15) * h / (2 * PI) <= a) by lra.
  apply Rmult_le_compat_l with (r := exp (- k) * q) in B; [|nra].
  replace (exp (- k) * q * (exp k * (16 / 15) * h / (2 * PI))) with ((exp (- k) * exp k) * (h * q) * (16 / 15) / (2 * PI)) in B by (field; lra).
  rewrite E1, Hq in B. replace (16 / (15 * PI)) with (1 * 2 * (16 / 15) / (2 * PI)) by (field; lra). nra.
Qed.

Definition nz (e x : R) : R := sqrt (2 / PI) / e * sin (1 / 2 * x).
Definition nden (k z2 : R) : R := (24 * k - 2 * z2 - 16) / 3 - (z2 * z2 + 7 / 4 * z2 + 167 / 2) / (24 * k - 56 - z2 + 3).
Definition nxi (e k x : R) : R := let z := nz e x in z - z * z * z / (nden k (z * z) * nden k (z * z)).
Lemma nden_pos k Z : 10.5 <= k -> 0 <= Z <= 6.1 * k -> 0 < 24 * k - 56 - Z + 3 /\ 0 < nden k Z.
Proof.
  intros Hk HZ. assert (Q : 0 < 24 * k - 56 - Z + 3) by lra. split; auto. unfold nden.
  assert (N : 3 * (Z * Z + 7 / 4 * Z + 167 / 2) < (24 * k - 2 * Z - 16) * (24 * k - 56 - Z + 3)).
  { assert (A1 : 11.8 * k - 16 <= 24 * k - 2 * Z - 16) by lra. assert (A2 : 17.9 * k - 53 <= 24 * k - 56 - Z + 3) by lra.
    assert (B : (11.8 * k - 16) * (17.9 * k - 53) <= (24 * k - 2 * Z - 16) * (24 * k - 56 - Z + 3)) by (apply Rmult_le_compat; lra).
    assert (C : Z * Z <= 6.1 * k * (6.1 * k)) by (apply Rmult_le_compat; lra). nra. }
  apply Rlt_Rminus. apply (Rmult_lt_reg_r (24 * k - 56 - Z + 3)); auto. unfold Rdiv at 1. rewrite Rmult_assoc, Rinv_l by lra. lra.
Qed.
Lemma nz_bound k a x : 10.5 <= k -> is_I0 k a -> 0 <= nz (exp (- k) * a) x * nz (exp (- k) * a) x <= 6.1 * k.
Proof.
  intros Hk H. pose proof PI_RGT_0 as HP. pose proof PI_upper as HU. pose proof (I0_pos k a H) as Pa. pose proof (exp_pos (- k)) as Pe.
  pose proof (i0e_lower k a ltac:(lra) H) as L. set (e := exp (- k) * a) in *. assert (Pe' : 0 < e) by (apply Rmult_lt_0_compat; auto).
  assert (Sk : 0 < sqrt k) by (apply sqrt_lt_R0; lra). assert (Sq : sqrt k * sqrt k = k) by (apply sqrt_sqrt; lra).
  assert (S2 : sqrt (2 / PI) * sqrt (2 / PI) = 2 / PI) by (apply sqrt_sqrt, Rlt_le, Rdiv_lt_0_compat; lra).
  unfold nz. replace (sqrt (2 / PI) / e * sin (1 / 2 * x) * (sqrt (2 / PI) / e * sin (1 / 2 * x))) with ((sqrt (2 / PI) * sqrt (2 / PI)) * / (e * e) * (sin (1 / 2 * x) * sin (1 / 2 * x))) by (field; lra).
  rewrite S2. pose proof (SIN_bound (1 / 2 * x)) as SB. assert (B2 : 0 <= sin (1 / 2 * x) * sin (1 / 2 * x) <= 1) by nra.
  assert (Pi : 0 < / (e * e)) by (apply Rinv_0_lt_compat; nra). assert (P2 : 0 < 2 / PI) by (apply Rdiv_lt_0_compat; lra).
  assert (Pp : 0 < 2 / PI * / (e * e)) by (apply Rmult_lt_0_compat; auto). split; [nra|]. apply Rle_trans with (2 / PI * / (e * e)); [nra|].
  assert (Q : 16 / (15 * PI) * (16 / (15 * PI)) <= e * sqrt k * (e * sqrt k)). { assert (0 < 16 / (15 * PI)) by (apply Rdiv_lt_0_compat; lra). apply Rmult_le_compat; lra. }
  replace (e * sqrt k * (e * sqrt k)) with (e * e * k) in Q by (rewrite <- Sq at 1; ring).
  apply (Rmult_le_reg_r (e * e)); [nra|]. replace (2 / PI * / (e * e) * (e * e)) with (2 / PI) by (field; lra).
  apply Rle_trans with (6.1 * (16 / (15 * PI) * (16 / (15 * PI)))); [|nra].
  apply (Rmult_le_reg_r (PI * PI)); [nra|]. replace (2 / PI * (PI * PI)) with (2 * PI) by (field; lra).
  replace (6.1 * (16 / (15 * PI) * (16 / (15 * PI))) * (PI * PI)) with (6.1 * (16 / 15) * (16 / 15)) by (field; lra). lra.
Qed.
Lemma normal_fin i0e k a x : 10.5 <= k -> is_I0 k a -> i0e (Fin k) = Fin (exp (- k) * a) ->
  vm_cdf_normal i0e (Fin x) (Fin k) = Fin (ncdf (nxi (exp (- k) * a) k x)).
Proof.
  intros Hk H E. pose proof (nz_bound k a x Hk H) as B. pose proof (I0_pos k a H) as Pa. pose proof (exp_pos (- k)) as Pe.
  assert (Pe' : 0 < exp (- k) * a) by (apply Rmult_lt_0_compat; auto). destruct (nden_pos k _ Hk B) as [D1 D2].
  unfold vm_cdf_normal, xsquare. rewrite E. pose proof PI_RGT_0. assert (0 <= 2 / PI) by (apply Rlt_le, Rdiv_lt_0_compat; lra).
  cbn [xsqrt]. destruct (Rle_dec 0 (2 / PI)); [|lra]. rewrite xdiv_fin by lra. cbn [xmul xsin xsub xadd xopp].
  change (sqrt (2 / PI) / (exp (- k) * a) * sin (1 / 2 * x)) with (nz (exp (- k) * a) x). set (z := nz (exp (- k) * a) x) in *.
  rewrite (xdiv_fin _ 3) by lra. rewrite (xdiv_fin _ (24 * k + - (56) + - (z * z) + 3)) by lra. cbn [xmul xsin xsub xadd xopp].
  match goal with |- context [xdiv _ (Fin (?d * ?d))] => replace d with (nden k (z * z)) by reflexivity end.
  rewrite xdiv_fin by nra. cbn [xsub xadd xopp xndtr]. unfold nxi. fold z. reflexivity.
Qed.
Lemma nxi_odd e k x : nxi e k (- x) = - nxi e k x.
Proof.
  assert (Z : nz e (- x) = - nz e x). { unfold nz. replace (1 / 2 * - x) with (- (1 / 2 * x)) by ring. rewrite sin_neg. ring. }
  unfold nxi. cbn zeta. rewrite Z. replace (- nz e x * - nz e x) with (nz e x * nz e x) by ring. unfold Rdiv. ring.
Qed.
