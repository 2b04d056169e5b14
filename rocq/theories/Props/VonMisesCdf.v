(** C58: the cdf and survival function of VonMises, and their tangents. *)
From Coq Require Import Reals Lra Lia ZArith List Bool.
From Coquelicot Require Import Coquelicot.
From Verif Require Import Base.XR Base.Gauss Model.MathUtils Model.ScalarDist Model.Multinomial Model.VonMises
  Spec.VonMises Proofs.Density Proofs.GammaFamily Proofs.VonMises Proofs.VonMisesCdf Proofs.VonMisesSeries Props.GammaBeta Props.VonMises.
Import ListNotations.
Local Open Scope R_scope.

(** ** Unwrapping: a value on one period becomes a function on the line *)
Definition turns (x : R) : R := rround (x / (2 * PI)).
Definition red (x : R) : R := x - 2 * PI * turns x.
Definition unwrap (p : R -> R) (x : R) : R := p (red x) + turns x.
Lemma div2pi x : x = 2 * PI * (x / (2 * PI)). Proof. pose proof PI_RGT_0. field. lra. Qed.
Lemma red_bd x : - PI <= red x <= PI.
Proof. pose proof PI_RGT_0. unfold red, turns. destruct (rround_spec (x / (2 * PI))) as (n & E & B). rewrite E. pose proof (div2pi x). set (q := x / (2 * PI)) in *. nra. Qed.
Lemma std_fin period k p x : (forall y, - PI <= y <= PI -> period (Fin y) (Fin k) = Fin (p y)) -> vm_cdf_std period (Fin x) (Fin k) = Fin (unwrap p x).
Proof.
  intros H. pose proof two_pi_pos. unfold vm_cdf_std, two_pi. rewrite xdiv_fin by lra. cbn [xround xmul xsub xopp xadd].
  change (x + - (2 * PI * rround (x / (2 * PI)))) with (red x). rewrite (H _ (red_bd x)). reflexivity.
Qed.
Lemma cdf_fin period k p v loc : (forall y, - PI <= y <= PI -> period (Fin y) (Fin k) = Fin (p y)) ->
  vm_cdf period (Fin v) (Fin loc) (Fin k) = Fin (rclip (unwrap p (v - red loc) - unwrap p (- PI - red loc))) /\
  vm_survival period (Fin v) (Fin loc) (Fin k) = Fin (rclip (unwrap p (PI - red loc) - unwrap p (v - red loc))).
Proof.
  intros H. unfold vm_cdf, vm_survival. rewrite convert_fin. change (loc - 2 * PI * rround (loc / (2 * PI))) with (red loc).
  cbn [xsub xopp xadd]. rewrite !(std_fin period k p _ H). cbn [xsub xopp xadd]. rewrite !xclip_fin. auto.
Qed.
Lemma turns_shift x : (forall m : Z, x / (2 * PI) <> IZR m + 1 / 2) -> turns (x + 2 * PI) = turns x + 1.
Proof.
  intros H. pose proof PI_RGT_0. unfold turns. replace ((x + 2 * PI) / (2 * PI)) with (x / (2 * PI) + 1) by (field; lra).
  destruct (rround_cases (x / (2 * PI))) as [[n E]|[n E]]; [contradiction (H n E)|].
  rewrite (rround_unique _ n E), (rround_unique _ (n + 1)); rewrite plus_IZR; lra.
Qed.
Lemma unwrap_shift_gen p x : (forall m : Z, x / (2 * PI) <> IZR m + 1 / 2) -> unwrap p (x + 2 * PI) = unwrap p x + 1.
Proof. intros H. unfold unwrap, red. rewrite (turns_shift x H). replace (x + 2 * PI - 2 * PI * (turns x + 1)) with (x - 2 * PI * turns x) by ring. ring. Qed.
Lemma unwrap_shift p x : p PI = p (- PI) + 1 -> unwrap p (x + 2 * PI) = unwrap p x + 1.
Proof.
  intros Hp. pose proof PI_RGT_0 as HP. destruct (rround_cases (x / (2 * PI))) as [[m E]|[m E]].
  - assert (Ex : x = 2 * PI * (IZR m + 1 / 2)) by (rewrite <- E; apply div2pi).
    assert (E2 : (x + 2 * PI) / (2 * PI) = IZR (m + 1) + 1 / 2) by (rewrite plus_IZR, Ex; field; lra).
    unfold unwrap, red, turns. rewrite E, E2, !rround_half. replace (Z.even (m + 1)) with (negb (Z.even m)) by (rewrite Z.even_add; destruct (Z.even m); reflexivity).
    rewrite Ex. destruct (Z.even m); cbn [negb]; rewrite ?plus_IZR.
    + replace (2 * PI * (IZR m + 1 / 2) + 2 * PI - 2 * PI * (IZR m + 1 + 1)) with (- PI) by field. replace (2 * PI * (IZR m + 1 / 2) - 2 * PI * IZR m) with PI by field. lra.
    + replace (2 * PI * (IZR m + 1 / 2) + 2 * PI - 2 * PI * (IZR m + 1)) with PI by field. replace (2 * PI * (IZR m + 1 / 2) - 2 * PI * (IZR m + 1)) with (- PI) by field. lra.
  - apply unwrap_shift_gen. intros n En. rewrite En in E. assert (-1 < IZR (n - m) < 0) as [A B] by (rewrite minus_IZR; lra). apply lt_IZR in A, B. lia.
Qed.
Lemma unwrap_opp p x : (forall y, p (- y) = 1 - p y) -> unwrap p (- x) = 1 - unwrap p x.
Proof.
  intros H. unfold unwrap, red. assert (T : turns (- x) = - turns x). { unfold turns. replace (- x / (2 * PI)) with (- (x / (2 * PI))) by (field; pose proof PI_RGT_0; lra). apply rround_opp. }
  rewrite T. replace (- x - 2 * PI * - turns x) with (- (x - 2 * PI * turns x)) by ring. rewrite H. ring.
Qed.
Lemma red_opp x : red (- x) = - red x.
Proof. unfold red, turns. replace (- x / (2 * PI)) with (- (x / (2 * PI))) by (field; pose proof PI_RGT_0; lra). rewrite rround_opp. ring. Qed.
Lemma unwrap_loose p x y : (forall z, 0 <= p z <= 1) -> x <= y -> unwrap p x <= unwrap p y + 1.
Proof.
  intros H Hxy. unfold unwrap. pose proof (H (red x)). pose proof (H (red y)). assert (turns x <= turns y).
  { apply rround_mono. apply Rmult_le_compat_r; auto. apply Rlt_le, Rinv_0_lt_compat, two_pi_pos. } lra.
Qed.

(** ** The value the code computes on one period *)
Lemma ncdf_01 z : 0 <= ncdf z <= 1.
Proof. pose proof (density_range_strict npdf ncdf std_normal_density npdf_pos z). lra. Qed.
Lemma period_fin i0 i0e i1e k : is_bessel i0 i0e i1e -> 0 <= k -> exists p,
  (forall x, vm_cdf_period i0e (Fin x) (Fin k) = Fin (p x)) /\ (forall x, 0 <= p x <= 1) /\ (forall x, p (- x) = 1 - p x) /\
  (k < 10.5 -> p PI = 1 /\ p (- PI) = 0) /\ (k = 0 -> forall x, - PI <= x <= PI -> p x = 1 / 2 + x / (2 * PI)).
Proof.
  intros B Hk. pose proof PI_RGT_0 as HP. destruct (Rlt_dec k 10.5) as [L|L].
  - destruct Hk as [Hk|<-].
    + exists (fun x => rclip (ser_raw x k)).
      assert (O : forall x, rclip (ser_raw (- x) k) = 1 - rclip (ser_raw x k)).
      { intros x. rewrite <- rclip_flip. f_equal. unfold ser_raw. rewrite ser_v_odd. field. lra. }
      assert (P1 : rclip (ser_raw PI k) = 1). { apply rclip_hi. unfold ser_raw. rewrite ser_v_PI. apply Req_le. field. lra. }
      split; [intros x; unfold vm_cdf_period; rewrite xltb_t by auto; rewrite series_fin by auto; reflexivity|].
      split; [intros; apply rclip_bd|]. split; auto. split; [intros _; rewrite O, P1; split; ring|]. intros ->. lra.
    + exists (fun x => rclip (1 / 2 + x / (2 * PI))).
      assert (O : forall x, rclip (1 / 2 + - x / (2 * PI)) = 1 - rclip (1 / 2 + x / (2 * PI))). { intros x. rewrite <- rclip_flip. f_equal. field. lra. }
      assert (P1 : rclip (1 / 2 + PI / (2 * PI)) = 1). { apply rclip_hi. apply Req_le. field. lra. }
      split; [intros x; unfold vm_cdf_period; rewrite xltb_t by auto; rewrite series_zero; reflexivity|].
      split; [intros; apply rclip_bd|]. split; auto. split; [intros _; rewrite O, P1; split; ring|].
      intros _ x Hx. apply rclip_in. assert (E : x = 2 * PI * (x / (2 * PI))) by apply div2pi. split; nra.
  - destruct (B k Hk) as (a & b & H0 & _ & _ & E & _). exists (fun x => ncdf (nxi (exp (- k) * a) k x)).
    split; [intros x; unfold vm_cdf_period; rewrite xltb_f by lra; apply normal_fin; auto; lra|].
    split; [intros; apply ncdf_01|]. split; [intros x; rewrite nxi_odd; apply ncdf_opp|]. split; intros; lra.
Qed.

(** ** cdf and survival are probabilities, 0 and 0 at their ends of the support, and complementary.  Complementarity is exact when the
    series is used (concentration below 10.5) or loc is not a whole number of turns; otherwise both ends carry the error of the normal approximation. *)
Theorem C58_cdf_partial i0 i0e i1e loc k : is_bessel i0 i0e i1e -> 0 <= k -> exists c s : R -> R,
  (forall v, vm_cdf (vm_cdf_period i0e) (Fin v) (Fin loc) (Fin k) = Fin (c v) /\ vm_survival (vm_cdf_period i0e) (Fin v) (Fin loc) (Fin k) = Fin (s v)) /\
  (forall v, 0 <= c v <= 1 /\ 0 <= s v <= 1) /\ c (- PI) = 0 /\ s PI = 0 /\
  (k < 10.5 \/ ~ congruent loc 0 -> (forall v, c v + s v = 1) /\ c PI = 1 /\ s (- PI) = 1 /\
     (forall v, v <= - 3 * PI -> c v = 0) /\ (forall v, 3 * PI <= v -> c v = 1)).
Proof.
  intros B Hk. pose proof PI_RGT_0 as HP. destruct (period_fin i0 i0e i1e k B Hk) as (p & F & Bd & Od & En & _).
  set (G := unwrap p). set (l := red loc).
  exists (fun v => rclip (G (v - l) - G (- PI - l))), (fun v => rclip (G (PI - l) - G (v - l))).
  split; [intros v; apply cdf_fin; intros; apply F|]. split; [intros; split; apply rclip_bd|].
  split; [apply rclip_lo; lra|]. split; [apply rclip_lo; lra|]. intros C.
  assert (S1 : G (PI - l) = G (- PI - l) + 1).
  { replace (PI - l) with (- PI - l + 2 * PI) by ring. destruct C as [C|C].
    - apply unwrap_shift. destruct (En C) as [-> ->]. ring.
    - apply unwrap_shift_gen. intros m Em. apply C. destruct (rround_spec (loc / (2 * PI))) as (n & E & _). exists (- m - 1 + n)%Z. rewrite plus_IZR, minus_IZR, opp_IZR, <- E.
      assert (Q : - PI - l = 2 * PI * (IZR m + 1 / 2)) by (rewrite <- Em; apply div2pi). unfold l, red, turns in Q. lra. }
  assert (CS : forall v, rclip (G (v - l) - G (- PI - l)) + rclip (G (PI - l) - G (v - l)) = 1).
  { intros v. rewrite S1. replace (G (- PI - l) + 1 - G (v - l)) with (1 - (G (v - l) - G (- PI - l))) by ring. rewrite rclip_flip. ring. }
  assert (C1 : rclip (G (PI - l) - G (- PI - l)) = 1) by (apply rclip_hi; lra).
  split; auto. split; auto. split; auto.
  assert (Lo : forall x y, x <= y -> G x <= G y + 1) by (intros; apply unwrap_loose; auto).
  assert (Sm : forall x, (forall m : Z, x / (2 * PI) <> IZR m + 1 / 2) \/ k < 10.5 -> G (x + 2 * PI) = G x + 1).
  { intros x [D|D]; [apply unwrap_shift_gen; auto|]. apply unwrap_shift. destruct (En D) as [-> ->]. ring. }
  assert (Hl : forall n : Z, (forall m : Z, (IZR n * PI * 2 + PI - l) / (2 * PI) <> IZR m + 1 / 2) \/ k < 10.5).
  { intros n. destruct C as [C|C]; auto. left. intros m Em. apply C. destruct (rround_spec (loc / (2 * PI))) as (j & E & _). exists (n - m + j)%Z. rewrite plus_IZR, minus_IZR, <- E.
    assert (Q : IZR n * PI * 2 + PI - l = 2 * PI * (IZR m + 1 / 2)) by (rewrite <- Em; apply div2pi). unfold l, red, turns in Q. lra. }
  split; intros v Hv.
  - apply rclip_lo. pose proof (Lo (v - l) (-3 * PI - l) ltac:(lra)).
    assert (G (- PI - l) = G (-3 * PI - l) + 1) by (replace (- PI - l) with (-3 * PI - l + 2 * PI) by ring; apply Sm; replace (-3 * PI - l) with (IZR (-2) * PI * 2 + PI - l) by ring; apply Hl). lra.
  - apply rclip_hi. pose proof (Lo (3 * PI - l) (v - l) ltac:(lra)).
    assert (G (3 * PI - l) = G (PI - l) + 1) by (replace (3 * PI - l) with (PI - l + 2 * PI) by ring; apply Sm; replace (PI - l) with (IZR 0 * PI * 2 + PI - l) by ring; apply Hl). lra.
Qed.
(** reflection: P(X <= -v) under loc = -m is P(X >= v) under loc = m *)
Theorem C58_cdf_reflect i0 i0e i1e v loc k : is_bessel i0 i0e i1e -> 0 <= k ->
  vm_cdf (vm_cdf_period i0e) (Fin (- v)) (Fin (- loc)) (Fin k) = vm_survival (vm_cdf_period i0e) (Fin v) (Fin loc) (Fin k).
Proof.
  intros B Hk. destruct (period_fin i0 i0e i1e k B Hk) as (p & F & Bd & Od & _).
  destruct (cdf_fin (vm_cdf_period i0e) k p (- v) (- loc) ltac:(intros; apply F)) as [-> _].
  destruct (cdf_fin (vm_cdf_period i0e) k p v loc ltac:(intros; apply F)) as [_ ->]. rewrite red_opp. f_equal. f_equal.
  replace (- v - - red loc) with (- (v - red loc)) by ring. replace (- PI - - red loc) with (- (PI - red loc)) by ring.
  rewrite !unwrap_opp by auto. ring.
Qed.
(** concentration 0: exactly the uniform distribution's cdf *)
Theorem C58_cdf_uniform i0 i0e i1e v loc : is_bessel i0 i0e i1e -> exists c, vm_cdf (vm_cdf_period i0e) (Fin v) (Fin loc) (Fin 0) = Fin c /\
  (v <= - PI -> c = 0) /\ (- PI <= v <= PI -> c = (v + PI) / (2 * PI)) /\ (PI <= v -> c = 1).
Proof.
  intros B. pose proof PI_RGT_0 as HP. destruct (period_fin i0 i0e i1e 0 B ltac:(lra)) as (p & F & Bd & Od & _ & U).
  assert (G : forall x, unwrap p x = 1 / 2 + x / (2 * PI)). { intros x. unfold unwrap. rewrite (U eq_refl _ (red_bd x)). unfold red. field. lra. }
  exists (rclip ((v + PI) / (2 * PI))). split.
  { destruct (cdf_fin (vm_cdf_period i0e) 0 p v loc ltac:(intros; apply F)) as [-> _]. rewrite !G. f_equal. f_equal. field. lra. }
  assert (E : v + PI = 2 * PI * ((v + PI) / (2 * PI))) by apply div2pi. set (q := (v + PI) / (2 * PI)) in *.
  split; [|split]; intros; [apply rclip_lo|apply rclip_in|apply rclip_hi]; nra.
Qed.

(** ** The reduction around the period is exact: were the value on one period the true integral of the density, cdf would be the true one,
    for every loc, and constant outside [-pi, pi] *)
Lemma density_int_ex a k u v : ex_RInt (vm_density a 0 k) u v.
Proof.
  apply (ex_RInt_continuous (V := R_CompleteNormedModule)). intros t _. unfold vm_density.
  apply (continuous_mult (fun x => exp (k * cos (x - 0))) (fun _ => / (2 * PI * a))); [|apply continuous_const].
  apply (ex_derive_continuous (V := R_NormedModule)). auto_derive. auto.
Qed.
Lemma density_shift a k n : forall u v, RInt (vm_density a 0 k) (u + 2 * PI * IZR n) (v + 2 * PI * IZR n) = RInt (vm_density a 0 k) u v.
Proof.
  intros u v. pose proof (RInt_comp_lin (vm_density a 0 k) 1 (2 * PI * IZR n) u v) as L.
  replace (u + 2 * PI * IZR n) with (1 * u + 2 * PI * IZR n) by ring. replace (v + 2 * PI * IZR n) with (1 * v + 2 * PI * IZR n) by ring.
  rewrite <- L by apply density_int_ex. apply RInt_ext. intros x _. unfold scal, vm_density; cbn. unfold mult; cbn. rewrite Rmult_1_l.
  replace (1 * x + 2 * PI * IZR n - 0) with (x - 0 + 2 * PI * IZR n) by ring. rewrite cos_congruent. reflexivity.
Qed.
Theorem C58_cdf_exact period a loc k (F : R -> R) : is_I0 k a ->
  (forall x, - PI <= x <= PI -> period (Fin x) (Fin k) = Fin (F x) /\ is_RInt (vm_density a 0 k) (- PI) x (F x)) ->
  exists c s : R -> R, (forall v, vm_cdf period (Fin v) (Fin loc) (Fin k) = Fin (c v) /\ vm_survival period (Fin v) (Fin loc) (Fin k) = Fin (s v)) /\
  (forall v, c v + s v = 1) /\ (forall v, v <= - PI -> c v = 0) /\ (forall v, PI <= v -> c v = 1) /\
  (forall v, - PI <= v <= PI -> is_RInt (vm_density a loc k) (- PI) v (c v) /\ is_RInt (vm_density a loc k) v PI (s v)).
Proof.
  intros H0 HF. pose proof PI_RGT_0 as HP. set (d := vm_density a 0 k). set (l := red loc).
  assert (Ex : forall u v, ex_RInt d u v) by (apply density_int_ex). assert (Pd : forall x, 0 < d x) by (apply (vd_pos k a 0 H0)).
  assert (N1 : RInt d (- PI) PI = 1) by (apply is_RInt_unique, (vd_normal k a 0 H0)).
  assert (Ch : forall u v w, RInt d u v + RInt d v w = RInt d u w) by (intros; apply (RInt_Chasles d u v w); auto).
  assert (Sh : forall n u v, RInt d (u + 2 * PI * IZR n) (v + 2 * PI * IZR n) = RInt d u v) by (apply density_shift).
  assert (Turns : forall n : nat, RInt d (- PI) (- PI + 2 * PI * INR n) = INR n).
  { induction n as [|n IH]; [rewrite Rmult_0_r, Rplus_0_r; apply (RInt_point (V := R_CompleteNormedModule))|]. rewrite S_INR.
    rewrite <- (Ch _ (- PI + 2 * PI * INR n)), IH. f_equal. rewrite INR_IZR_INZ. transitivity (RInt d (- PI) PI); [|exact N1].
    rewrite <- (Sh (Z.of_nat n) (- PI) PI). f_equal. ring. }
  assert (TZ : forall n, RInt d (- PI) (- PI + 2 * PI * IZR n) = IZR n).
  { intros n. destruct (Z_le_gt_dec 0 n) as [H|H]; [rewrite <- (Z2Nat.id n) by lia; rewrite <- INR_IZR_INZ; apply Turns|].
    pose proof (Turns (Z.to_nat (- n))) as T. rewrite INR_IZR_INZ, Z2Nat.id in T by lia.
    rewrite <- (Sh n) in T. replace (- PI + 2 * PI * IZR (- n) + 2 * PI * IZR n) with (- PI) in T by (rewrite opp_IZR; ring).
    pose proof (Ch (- PI) (- PI + 2 * PI * IZR n) (- PI)) as C. rewrite T, opp_IZR in C.
    assert (Z : RInt d (- PI) (- PI) = 0) by (apply (RInt_point (V := R_CompleteNormedModule))). lra. }
  assert (G : forall x, unwrap F x = RInt d (- PI) x).
  { intros x. unfold unwrap. destruct (HF _ (red_bd x)) as [_ I]. assert (I' : RInt d (- PI) (red x) = F (red x)) by (apply (is_RInt_unique d); exact I). rewrite <- I'.
    destruct (rround_spec (x / (2 * PI))) as (n & E & _). assert (T : turns x = IZR n) by exact E.
    rewrite <- (Ch (- PI) (- PI + 2 * PI * IZR n) x), TZ, T. rewrite Rplus_comm. f_equal.
    replace x with (red x + 2 * PI * IZR n) at 2 by (unfold red; rewrite T; ring). symmetry. apply Sh. }
  assert (D : forall v, unwrap F (v - l) - unwrap F (- PI - l) = RInt d (- PI - l) (v - l)).
  { intros v. rewrite !G. pose proof (Ch (- PI) (- PI - l) (v - l)). lra. }
  assert (Full : RInt d (- PI - l) (PI - l) = 1).
  { pose proof (Ch (- PI) (- PI - l) (PI - l)) as C1. pose proof (Ch (- PI) PI (PI - l)) as C2. rewrite N1 in C2.
    pose proof (Sh 1%Z (- PI) (- PI - l)) as S1. replace (- PI + 2 * PI * 1) with PI in S1 by ring. replace (- PI - l + 2 * PI * 1) with (PI - l) in S1 by ring. lra. }
  assert (D' : forall v, unwrap F (PI - l) - unwrap F (v - l) = RInt d (v - l) (PI - l)).
  { intros v. rewrite !G. pose proof (Ch (- PI) (v - l) (PI - l)). lra. }
  assert (DC : forall v, RInt d (- PI - l) (v - l) + RInt d (v - l) (PI - l) = 1) by (intros v; rewrite (Ch (- PI - l)); auto).
  assert (Pos : forall u v, u <= v -> 0 <= RInt d u v) by (intros; apply RInt_ge_0; auto; intros; apply Rlt_le; auto).
  exists (fun v => rclip (RInt d (- PI - l) (v - l))), (fun v => rclip (RInt d (v - l) (PI - l))).
  split. { intros v. destruct (cdf_fin period k F v loc ltac:(intros y Hy; apply HF; auto)) as [-> ->]. fold l. rewrite D, D'. auto. }
  split. { intros v. specialize (DC v). replace (RInt d (v - l) (PI - l)) with (1 - RInt d (- PI - l) (v - l)) by lra. rewrite rclip_flip. ring. }
  split. { intros v Hv. apply rclip_lo. pose proof (Ch (v - l) (- PI - l) (v - l)) as C. pose proof (Pos (v - l) (- PI - l) ltac:(lra)).
    assert (Z : RInt d (v - l) (v - l) = 0) by (apply (RInt_point (V := R_CompleteNormedModule))). lra. }
  split. { intros v Hv. apply rclip_hi. rewrite <- (Ch _ (PI - l)), Full. pose proof (Pos (PI - l) (v - l) ltac:(lra)). lra. }
  intros v Hv. assert (B1 : 0 <= RInt d (- PI - l) (v - l)) by (apply Pos; lra). assert (B2 : 0 <= RInt d (v - l) (PI - l)) by (apply Pos; lra). specialize (DC v).
  rewrite !rclip_in by lra.
  assert (Sub : forall u w, is_RInt (vm_density a loc k) u w (RInt d (u - l) (w - l))).
  { intros u w. apply (is_RInt_ext (fun x => scal 1 (d (1 * x + - l)))).
    - intros x _. unfold scal; cbn; unfold mult; cbn. rewrite Rmult_1_l. unfold d, vm_density. f_equal. f_equal. f_equal.
      destruct (rround_spec (loc / (2 * PI))) as (n & E & _). unfold l, red, turns. rewrite E.
      replace (1 * x + - (loc - 2 * PI * IZR n) - 0) with (x - loc + 2 * PI * IZR n) by ring. apply cos_congruent.
    - apply (is_RInt_comp_lin d). replace (1 * u + - l) with (u - l) by ring. replace (1 * w + - l) with (w - l) by ring. apply (RInt_correct d). auto. }
  split; apply Sub.
Qed.
(** such a period function exists *)
Example C58_cdf_exact_premise k a : is_I0 k a -> exists period F, forall x, - PI <= x <= PI ->
  period (Fin x) (Fin k) = Fin (F x) /\ is_RInt (vm_density a 0 k) (- PI) x (F x).
Proof.
  intros H. exists (fun a' k' => match a' with Fin x => Fin (RInt (vm_density a 0 k) (- PI) x) | _ => NaN end), (fun x => RInt (vm_density a 0 k) (- PI) x).
  intros x _. split; auto. apply (RInt_correct (vm_density a 0 k)), density_int_ex.
Qed.

(** ** Accuracy: below concentration 10.5 (the series branch) cdf and survival are within 2e-7 of the integrals of the density, for every loc and value *)
Lemma rclip_lip x y : Rabs (rclip x - rclip y) <= Rabs (x - y).
Proof. unfold rclip, Rmin, Rmax, Rabs. repeat destruct Rle_dec; repeat destruct Rcase_abs; lra. Qed.
Lemma unwrap_near p q e x : (forall y, - PI <= y <= PI -> Rabs (p y - q y) <= e) -> Rabs (unwrap p x - unwrap q x) <= e.
Proof. intros H. unfold unwrap. replace (p (red x) + turns x - (q (red x) + turns x)) with (p (red x) - q (red x)) by ring. apply H, red_bd. Qed.
Lemma flat_integral a x : is_I0 0 a -> RInt (vm_density a 0 0) (- PI) x = 1 / 2 + x / (2 * PI).
Proof.
  intros H0. pose proof PI_RGT_0 as HP. pose proof (I0_pos 0 a H0) as Pa.
  assert (E : forall y, RInt (vm_density a 0 0) (- PI) y = (y - - PI) * / (2 * PI * a)).
  { intros y. rewrite (RInt_ext _ (fun _ => / (2 * PI * a))); [|intros; unfold vm_density; rewrite Rmult_0_l, exp_0; match goal with |- @eq _ ?x ?y => change (@eq R x y) end; field; split; lra].
    rewrite RInt_const. reflexivity. }
  assert (N1 : RInt (vm_density a 0 0) (- PI) PI = 1) by (apply is_RInt_unique, (vd_normal 0 a 0 H0)).
  rewrite E in N1. replace ((PI - - PI) * / (2 * PI * a)) with (/ a) in N1 by (field; split; lra).
  assert (A1 : a = 1). { apply Rmult_eq_reg_l with (/ a); [rewrite Rinv_l; lra|apply Rgt_not_eq, Rinv_0_lt_compat; auto]. }
  subst a. rewrite E. match goal with |- @eq _ ?x ?y => change (@eq R x y) end. field. lra.
Qed.
Theorem C58_cdf_accurate i0 i0e i1e loc k : is_bessel i0 i0e i1e -> 0 <= k < 10.5 -> exists (a : R) (c s : R -> R), is_I0 k a /\
  (forall v, vm_cdf (vm_cdf_period i0e) (Fin v) (Fin loc) (Fin k) = Fin (c v) /\ vm_survival (vm_cdf_period i0e) (Fin v) (Fin loc) (Fin k) = Fin (s v)) /\
  (forall v, - PI <= v <= PI -> Rabs (c v - RInt (vm_density a loc k) (- PI) v) <= 2 / 10 ^ 7 /\ Rabs (s v - RInt (vm_density a loc k) v PI) <= 2 / 10 ^ 7) /\
  (forall v, v <= - PI -> c v <= 2 / 10 ^ 7 /\ 1 - 2 / 10 ^ 7 <= s v) /\ (forall v, PI <= v -> 1 - 2 / 10 ^ 7 <= c v /\ s v <= 2 / 10 ^ 7).
Proof.
  intros B Hk. pose proof PI_RGT_0 as HP. destruct (B k ltac:(lra)) as (a & b & H0 & _). exists a.
  set (F := RInt (vm_density a 0 k) (- PI)).
  set (per0 := fun z _ : XR => match z with Fin x => Fin (F x) | _ => NaN end).
  assert (HF : forall x, - PI <= x <= PI -> per0 (Fin x) (Fin k) = Fin (F x) /\ is_RInt (vm_density a 0 k) (- PI) x (F x))
    by (intros x _; split; [reflexivity|apply (RInt_correct (vm_density a 0 k)), density_int_ex]).
  destruct (C58_cdf_exact per0 a loc k F H0 HF) as (c0 & s0 & E0 & CS & Lo & Hi & In).
  assert (exists p, (forall x, vm_cdf_period i0e (Fin x) (Fin k) = Fin (p x)) /\ forall x, - PI <= x <= PI -> Rabs (p x - F x) <= / 10 ^ 7) as (p & Ep & Np).
  { destruct (Rle_lt_or_eq_dec 0 k ltac:(lra)) as [P|Z].
    - exists (fun x => rclip (ser_raw x k)). split; [|intros; apply period_accuracy; auto; lra].
      intros x. unfold vm_cdf_period. rewrite xltb_t by lra. rewrite series_fin by auto. reflexivity.
    - subst k. destruct (period_fin i0 i0e i1e 0 B ltac:(lra)) as (p & Fp & _ & _ & _ & U). exists p. split; auto.
      intros x Hx. rewrite (U eq_refl x Hx). unfold F. rewrite flat_integral by auto. rewrite Rminus_eq_0, Rabs_R0. apply Rlt_le, Rinv_0_lt_compat, pow_lt. lra. }
  set (l := red loc). exists (fun v => rclip (unwrap p (v - l) - unwrap p (- PI - l))), (fun v => rclip (unwrap p (PI - l) - unwrap p (v - l))).
  split; auto. split; [intros v; apply cdf_fin; intros; apply Ep|].
  assert (N : forall x y, Rabs (rclip (unwrap p x - unwrap p y) - rclip (unwrap F x - unwrap F y)) <= 2 / 10 ^ 7).
  { intros x y. eapply Rle_trans; [apply rclip_lip|]. pose proof (unwrap_near p F _ x Np) as N1. pose proof (unwrap_near p F _ y Np) as N2.
    apply Rabs_le_between in N1. apply Rabs_le_between in N2. apply Rabs_le. unfold Rdiv. lra. }
  assert (Ec : forall v, rclip (unwrap F (v - l) - unwrap F (- PI - l)) = c0 v /\ rclip (unwrap F (PI - l) - unwrap F (v - l)) = s0 v).
  { intros v. destruct (E0 v) as [X Y]. destruct (cdf_fin per0 k F v loc ltac:(intros; apply HF; auto)) as [X' Y']. rewrite X in X'. rewrite Y in Y'. injection X' as ->. injection Y' as ->. auto. }
  assert (Nc : forall v, Rabs (rclip (unwrap p (v - l) - unwrap p (- PI - l)) - c0 v) <= 2 / 10 ^ 7 /\ Rabs (rclip (unwrap p (PI - l) - unwrap p (v - l)) - s0 v) <= 2 / 10 ^ 7).
  { intros v. destruct (Ec v) as [<- <-]. split; apply N. }
  split; [|split]; intros v Hv; destruct (Nc v) as [N1 N2]; specialize (CS v).
  - destruct (In v Hv) as [I1 I2]. rewrite (is_RInt_unique _ _ _ _ I1), (is_RInt_unique _ _ _ _ I2). auto.
  - rewrite (Lo v Hv) in *. apply Rabs_le_between in N1. apply Rabs_le_between in N2. split; lra.
  - rewrite (Hi v Hv) in *. apply Rabs_le_between in N1. apply Rabs_le_between in N2. split; lra.
Qed.

(** ** Tangents.  In the value: the density.  In the concentration (series branch): the derivative of the computed cdf. *)
Theorem C58_cdf_tangent i0 i0e i1e dnormal x k dx : is_bessel i0 i0e i1e -> 0 < k -> (k < 10.5 \/ exists r, forall y, dnormal (Fin y) (Fin k) = Fin r) ->
  exists a, is_I0 k a /\ vm_cdf_jvp i0e dnormal (Fin x) (Fin k) (Fin dx) (Fin 0) = Fin (dx * vm_density a 0 k x).
Proof.
  intros B Hk Hn. destruct (B k ltac:(lra)) as (a & b & H0 & _ & _ & E & _). exists a. split; auto. pose proof (I0_pos k a H0) as Pa. pose proof PI_RGT_0 as HP.
  pose proof (exp_pos (- k)) as Pe. assert (Pd : 0 < 2 * PI * (exp (- k) * a)) by (apply pos2pi, Rmult_lt_0_compat; auto).
  assert (Dn : forall r, xadd (xmul (Fin 0) (Fin r)) (xmul (Fin dx) (xdiv (xexp (xmul (Fin k) (xsub (xcos (Fin (red x))) (Fin 1)))) (xmul two_pi (Fin (exp (- k) * a))))) = Fin (dx * vm_density a 0 k x)).
  { intros r. unfold two_pi. cbn [xmul xsub xopp xadd xcos xexp]. rewrite xdiv_fin by lra. cbn [xmul xadd]. f_equal. rewrite Rmult_0_l, Rplus_0_l. f_equal.
    destruct (rround_spec (x / (2 * PI))) as (n & En & _). assert (C : cos (red x) = cos x) by (unfold red, turns; rewrite En; replace (x - 2 * PI * IZR n) with (x + 2 * PI * IZR (- n)) by (rewrite opp_IZR; ring); apply cos_congruent).
    rewrite C. unfold vm_density. rewrite Rminus_0_r. replace (k * (cos x + - (1))) with (k * cos x + - k) by ring. rewrite exp_plus. field. repeat split; lra. }
  unfold vm_cdf_jvp. rewrite E. unfold two_pi. rewrite (xdiv_fin x) by lra. cbn [xround xmul xsub xopp xadd]. fold two_pi.
  change (x + - (2 * PI * rround (x / (2 * PI)))) with (red x). destruct (Rlt_dec k 10.5) as [L|L].
  - rewrite xltb_t by auto. rewrite series_fin by auto. cbn [snd]. apply Dn.
  - destruct Hn as [Hn|[r Hr]]; [contradiction|]. rewrite xltb_f by lra. rewrite Hr. apply Dn.
Qed.
Theorem C58_cdf_conc_tangent i0e dnormal x k : 0 < k < 10.5 -> - PI < x < PI -> finite (i0e (Fin k)) -> toR (i0e (Fin k)) <> 0 ->
  exists c : R -> R, (forall t, 0 < t < 10.5 -> vm_cdf_std (vm_cdf_period i0e) (Fin x) (Fin t) = Fin (c t)) /\
  (0 < c k < 1 -> exists d, vm_cdf_jvp i0e dnormal (Fin x) (Fin k) (Fin 0) (Fin 1) = Fin d /\ is_derive c k d).
Proof.
  intros Hk Hx Fi Nz. pose proof PI_RGT_0 as HP. destruct (i0e (Fin k)) as [e| | |] eqn:Ee; try contradiction. cbn in Nz.
  assert (T : turns x = 0). { unfold turns. apply (rround_unique _ 0%Z). pose proof (div2pi x). set (q := x / (2 * PI)) in *. split; nra. }
  assert (Rx : red x = x) by (unfold red; rewrite T; ring).
  exists (fun t => rclip (ser_raw x t)). split.
  { intros t Ht. rewrite (std_fin _ t (fun y => rclip (ser_raw y t))); [unfold unwrap; rewrite Rx, T; f_equal; ring|].
    intros y _. unfold vm_cdf_period. rewrite xltb_t by lra. rewrite series_fin by lra. reflexivity. }
  intros Hc. assert (Raw : 0 < ser_raw x k < 1). { revert Hc. unfold rclip, Rmin, Rmax. repeat destruct Rle_dec; lra. }
  exists (ser_dv x k / PI). split.
  - unfold vm_cdf_jvp. rewrite Ee. unfold two_pi. rewrite (xdiv_fin x) by lra. cbn [xround xmul xsub xopp xadd]. change (x + - (2 * PI * rround (x / (2 * PI)))) with (red x). rewrite Rx.
    rewrite xltb_t by lra. rewrite series_fin by lra. cbn [snd xcos xsub xopp xadd xmul xexp]. rewrite xdiv_fin by (apply Rmult_integral_contrapositive_currified; auto; lra).
    rewrite !xleb_t by lra. cbn [andb xmul xadd]. f_equal. ring.
  - apply (is_derive_ext_loc (fun t => ser_raw x t)).
    + assert (Cr : continuous (fun t => ser_raw x t) k).
      { apply (ex_derive_continuous (V := R_NormedModule)). exists (0 + ser_dv x k / PI). unfold ser_raw.
        apply (is_derive_plus (fun _ : R => 1 / 2 + x / (2 * PI)) (fun t => ser_v x t / PI)); [apply (is_derive_const (K := R_AbsRing) (V := R_NormedModule))|].
        apply (is_derive_ext (fun t => scal (/ PI) (ser_v x t))); [intros t; unfold scal; cbn; unfold mult; cbn; apply Rmult_comm|].
        replace (ser_dv x k / PI) with (scal (/ PI) (ser_dv x k)) by (unfold scal; cbn; unfold mult; cbn; apply Rmult_comm).
        apply (is_derive_scal (fun t => ser_v x t)). apply ser_v_derive. lra. }
      assert (L1 : locally k (fun t => 0 < ser_raw x t)) by (apply (Cr (fun y => 0 < y)), (open_gt 0); lra).
      assert (L2 : locally k (fun t => ser_raw x t < 1)) by (apply (Cr (fun y => y < 1)), (open_lt 1); lra).
      apply (filter_imp (fun t => 0 < ser_raw x t /\ ser_raw x t < 1)); [intros t Ht; symmetry; apply rclip_in; lra|]. apply filter_and; auto.
    + replace (ser_dv x k / PI) with (0 + ser_dv x k / PI) by ring. unfold ser_raw.
      apply (is_derive_plus (fun _ : R => 1 / 2 + x / (2 * PI)) (fun t => ser_v x t / PI)); [apply (is_derive_const (K := R_AbsRing) (V := R_NormedModule))|].
      apply (is_derive_ext (fun t => scal (/ PI) (ser_v x t))); [intros t; unfold scal; cbn; unfold mult; cbn; apply Rmult_comm|].
      replace (ser_dv x k / PI) with (scal (/ PI) (ser_dv x k)) by (unfold scal; cbn; unfold mult; cbn; apply Rmult_comm).
      apply (is_derive_scal (fun t => ser_v x t)). apply ser_v_derive. lra.
Qed.
(** the tangent of a sample: along it, the cdf of the standard distribution stays constant to first order (implicit reparameterization) *)
Theorem C58_sample_tangent i0 i0e i1e dnormal x k dk : is_bessel i0 i0e i1e -> 0 < k -> (k < 10.5 \/ exists r, forall y, dnormal (Fin y) (Fin k) = Fin r) ->
  exists t, vm_sample_jvp i0e dnormal (Fin x) (Fin k) (Fin dk) = Fin t /\ vm_cdf_jvp i0e dnormal (Fin x) (Fin k) (Fin t) (Fin dk) = Fin 0.
Proof.
  intros B Hk Hn. destruct (B k ltac:(lra)) as (a & b & H0 & _ & _ & E & _). pose proof (I0_pos k a H0) as Pa. pose proof PI_RGT_0 as HP.
  pose proof (exp_pos (- k)) as Pe. assert (Pd : 0 < 2 * PI * (exp (- k) * a)) by (apply pos2pi, Rmult_lt_0_compat; auto).
  assert (J : exists r, forall u w, vm_cdf_jvp i0e dnormal (Fin x) (Fin k) (Fin u) (Fin w) = Fin (w * r + u * (exp (k * (cos x + - (1))) / (2 * PI * (exp (- k) * a))))).
  { unfold vm_cdf_jvp. rewrite E. unfold two_pi. rewrite (xdiv_fin x) by lra. cbn [xround xmul xsub xopp xadd].
    change (x + - (2 * PI * rround (x / (2 * PI)))) with (red x).
    destruct (rround_spec (x / (2 * PI))) as (n & En & _). assert (C : cos (red x) = cos x) by (unfold red, turns; rewrite En; replace (x - 2 * PI * IZR n) with (x + 2 * PI * IZR (- n)) by (rewrite opp_IZR; ring); apply cos_congruent).
    cbn [xcos xsub xadd xopp xmul xexp]. rewrite C.
    rewrite xdiv_fin by lra. destruct (Rlt_dec k 10.5) as [L|L].
    - rewrite xltb_t by auto. rewrite series_fin by auto. cbn [snd]. eexists. intros u w. cbn [xmul xadd]. reflexivity.
    - destruct Hn as [Hn|[r Hr]]; [contradiction|]. rewrite xltb_f by lra. exists r. intros u w. rewrite Hr. reflexivity. }
  destruct J as [r J]. unfold vm_sample_jvp. rewrite J, E. unfold two_pi. cbn [xopp xcos xsub xadd xmul xexp]. eexists. split; [reflexivity|]. rewrite J. f_equal.
  assert (X : exp (- k * (cos x + - (1))) * exp (k * (cos x + - (1))) = 1) by (rewrite <- exp_plus; replace (- k * (cos x + - (1)) + k * (cos x + - (1))) with 0 by ring; apply exp_0).
  set (p := exp (k * (cos x + - (1)))) in *. set (q := exp (- k * (cos x + - (1)))) in *. set (N := 2 * PI * (exp (- k) * a)) in *.
  replace (dk * r + dk * (- (q * N) * (1 * r + 0 * (p / N))) * (p / N)) with (dk * r * (1 - q * p)) by (field; lra). rewrite X. ring.
Qed.
(** concentration 0 is a documented value (the uniform distribution), but the tangent of the cdf is NaN there, even for a change of the
    value alone (dconc = 0), where the derivative is 1/(2 pi) *)
Theorem C58_cdf_tangent_zero_refuted i0e dnormal x dx dk : vm_cdf_jvp i0e dnormal (Fin x) (Fin 0) (Fin dx) (Fin dk) = NaN.
Proof.
  unfold vm_cdf_jvp. pose proof PI_RGT_0. unfold two_pi. rewrite (xdiv_fin x) by lra. cbn [xround xmul xsub xopp xadd].
  rewrite xltb_t by lra. rewrite series_zero. reflexivity.
Qed.
Example C58_cdf_tangent_meets : exists a, is_I0 1 a /\ vm_cdf_jvp the_i0e (fun _ _ => NaN) (Fin 2) (Fin 1) (Fin 3) (Fin 0) = Fin (3 * vm_density a 0 1 2).
Proof. apply (C58_cdf_tangent the_i0 the_i0e the_i1e); [apply C58_bessel_exists|lra|left; lra]. Qed.
