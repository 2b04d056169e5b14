(** C108: Tanh and Sigmoid as layers of a chain in floating point. *)
From Coq Require Import Reals Lra Lia List Bool Arith ZArith.
From Coquelicot Require Import Coquelicot.
From Flocq Require Import Core.
From Verif Require Import Base.XR Base.Float Spec.Rounding Spec.Layers Model.ScalarBij Proofs.ScalarBij Proofs.FloatOrder Proofs.FloatLib
  Model.FloatDist Model.FloatBij Model.FloatTransformed Props.FloatBij Props.FloatAccuracy Props.FloatTransformed.
Import Verif.Spec.Accuracy.
Import ListNotations.
Local Open Scope R_scope.

(** A function whose derivative is bounded on an interval is Lipschitz there. *)
Lemma lip_from_derivative (F f : R -> R) K lo hi : (forall x, lo <= x <= hi -> is_derive F x (f x)) -> (forall x, lo <= x <= hi -> Rabs (f x) <= K) ->
  forall x y, lo <= x <= hi -> lo <= y <= hi -> Rabs (F x - F y) <= K * Rabs (x - y).
Proof.
  intros D B x y Hx Hy. assert (I : forall t, Rmin y x <= t <= Rmax y x -> lo <= t <= hi) by (intros t Ht; unfold Rmin, Rmax in Ht; destruct (Rle_dec y x); lra).
  destruct (MVT_gen F y x f) as (c & Hc & Eq).
  - intros t Ht. apply D, I. lra.
  - intros t Ht. apply derivable_continuous_pt. exists (f t). apply is_derive_Reals, D, I, Ht.
  - rewrite Eq, Rabs_mult. apply Rmult_le_compat_r; [apply Rabs_pos|]. apply B, I, Hc.
Qed.
Lemma tanh_range' x : - 1 < tanh x < 1. Proof. apply (tanh_range x). Qed.
Lemma tanh_lip x y : Rabs (tanh x - tanh y) <= 1 * Rabs (x - y).
Proof.
  apply (lip_from_derivative tanh (fun x => 1 - tanh x ^ 2) 1 (Rmin x y) (Rmax x y)); try (unfold Rmin, Rmax; destruct (Rle_dec x y); lra).
  - intros t _. apply is_derive_tanh.
  - intros t _. pose proof (tanh_range' t). rewrite Rabs_pos_eq; nra.
Qed.
Lemma sp_incr x y : x <= y -> sp x <= sp y.
Proof.
  intros [H| ->]; [|lra]. unfold sp. pose proof (exp_increasing _ _ H). pose proof (exp_pos x). left. apply ln_increasing; lra.
Qed.
Lemma two_sp_lip x y : Rabs ((sp (- x) + sp x) - (sp (- y) + sp y)) <= 1 * Rabs (x - y).
Proof.
  assert (G : forall p q, p <= q -> Rabs ((sp (- p) + sp p) - (sp (- q) + sp q)) <= q - p).
  { intros p q H. pose proof (sp_sub p). pose proof (sp_sub q). pose proof (sp_incr p q H). pose proof (sp_incr (- q) (- p) ltac:(lra)). apply Rabs_le. lra. }
  destruct (Rle_lt_dec x y) as [H|H].
  - rewrite (Rabs_left1 (x - y)) by lra. pose proof (G x y H). lra.
  - rewrite (Rabs_pos_eq (x - y)) by lra. rewrite <- Rabs_Ropp. replace (- (sp (- x) + sp x - (sp (- y) + sp y))) with (sp (- y) + sp y - (sp (- x) + sp x)) by ring. pose proof (G y x ltac:(lra)). lra.
Qed.
Lemma tanh_ld_lip x y : Rabs (ln (1 - tanh x ^ 2) - ln (1 - tanh y ^ 2)) <= 2 * Rabs (x - y).
Proof.
  assert (E : forall t, ln (1 - tanh t ^ 2) = 2 * ln 2 - (sp (- (2 * t)) + sp (2 * t))).
  { intros t. rewrite tanh_ld. pose proof (sp_sub (2 * t)). replace (- (2) * t) with (- (2 * t)) by ring. lra. }
  rewrite !E. pose proof (two_sp_lip (2 * x) (2 * y)) as H. rewrite <- Rabs_Ropp in H.
  replace (2 * ln 2 - (sp (- (2 * x)) + sp (2 * x)) - (2 * ln 2 - (sp (- (2 * y)) + sp (2 * y)))) with (- (sp (- (2 * x)) + sp (2 * x) - (sp (- (2 * y)) + sp (2 * y)))) by ring.
  replace (2 * x - 2 * y) with (2 * (x - y)) in H by ring. rewrite Rabs_mult, (Rabs_pos_eq 2) in H by lra. lra.
Qed.
Lemma logistic_lip x y : Rabs (logistic x - logistic y) <= 1 * Rabs (x - y).
Proof.
  apply (lip_from_derivative logistic (fun x => exp (- x) / (1 + exp (- x)) ^ 2) 1 (Rmin x y) (Rmax x y)); try (unfold Rmin, Rmax; destruct (Rle_dec x y); lra).
  - intros t _. apply is_derive_sigmoid.
  - intros t _. pose proof (exp_pos (- t)) as P. assert (0 < (1 + exp (- t)) ^ 2) by nra. rewrite Rabs_pos_eq; [|left; apply Rdiv_lt_0_compat; auto].
    apply Rmult_le_reg_r with ((1 + exp (- t)) ^ 2); [auto|]. unfold Rdiv. rewrite Rmult_assoc, Rinv_l by lra. nra.
Qed.
Lemma logistic_ld_lip x y : Rabs (ln (logistic x * (1 - logistic x)) - ln (logistic y * (1 - logistic y))) <= 1 * Rabs (x - y).
Proof.
  rewrite !sigmoid_ld. pose proof (two_sp_lip x y) as H. rewrite <- Rabs_Ropp in H. replace (- sp (- x) - sp x - (- sp (- y) - sp y)) with (- (sp (- x) + sp x - (sp (- y) + sp y))) by ring. exact H.
Qed.

(** Tanh, forward, on the inputs of size at most [X]. *)
Definition tanh_layer (dt : dtype) (k X : R) : layer := {|
  map_of := tanh; log_der x := ln (1 - tanh x ^ 2); dom x := Rabs x <= X; lip := 1; lip_ld := 2;
  err := k * eps dt + tiny dt; err_ld := (5 * k + 13) * eps dt * (1 + X) |}.
(** Tanh, inverse, on the values of size at most [tanh X]. *)
Definition tanh_inverse_layer (dt : dtype) (k X : R) : layer := {|
  map_of := arctanh; log_der y := - ln (1 - y ^ 2); dom y := Rabs y <= tanh X; lip := / (1 - tanh X ^ 2); lip_ld := 2 / (1 - tanh X ^ 2);
  err := k * eps dt * X + tiny dt; err_ld := (5 * k + 13) * eps dt * (1 + 2 * X + tiny dt) + 2 * (k * eps dt * X + tiny dt) |}.
(** Sigmoid, forward, from [- 9] (below it the code returns exp(x) instead) to [X]. *)
Definition sigmoid_layer (dt : dtype) (k X : R) : layer := {|
  map_of := logistic; log_der x := ln (logistic x * (1 - logistic x)); dom x := - 9 <= x <= X; lip := 1; lip_ld := 1;
  err := k * eps dt + tiny dt; err_ld := (10 * k + 8) * eps dt * (10 + X) |}.
Lemma arctanh_odd y : - 1 < y < 1 -> arctanh (- y) = - arctanh y.
Proof.
  intros H. unfold arctanh. replace (1 + - y) with (1 - y) by ring. replace (1 - - y) with (1 + y) by ring. rewrite !ln_div by lra. ring.
Qed.
Lemma tanh_mono x y : x <= y -> tanh x <= tanh y.
Proof.
  intros [H| ->]; [|lra]. rewrite !tanh_alt. pose proof (exp_increasing (- (2) * y) (- (2) * x) ltac:(lra)). pose proof (exp_pos (- (2) * x)). pose proof (exp_pos (- (2) * y)).
  set (a := exp (- (2) * x)) in *. set (b := exp (- (2) * y)) in *. clearbody a b.
  apply Rmult_le_reg_r with ((1 + a) * (1 + b)); [nra|]. replace ((1 - a) / (1 + a) * ((1 + a) * (1 + b))) with ((1 - a) * (1 + b)) by (field; lra). replace ((1 - b) / (1 + b) * ((1 + a) * (1 + b))) with ((1 - b) * (1 + a)) by (field; lra). nra.
Qed.
Lemma arctanh_size y X : Rabs y <= tanh X -> Rabs (arctanh y) <= X.
Proof.
  intros H. pose proof (tanh_range' X) as B. apply Rabs_le_inv in H. assert (Ht : tanh (arctanh y) = y) by (apply tanh_arctanh; lra).
  assert (G : forall a b, tanh a <= tanh b -> a <= b).
  { intros a b Hab. apply Rnot_lt_le. intros C. pose proof (tanh_mono b a ltac:(lra)). assert (E : tanh a = tanh b) by lra. apply (f_equal arctanh) in E. rewrite !arctanh_tanh in E. lra. }
  apply Rabs_le. split; apply G; rewrite Ht; [|lra]. assert (O : tanh (- X) = - tanh X) by (unfold tanh, sinh, cosh; rewrite Ropp_involutive; pose proof (exp_pos X); pose proof (exp_pos (- X)); field; lra). lra.
Qed.

Section Layers.
Variables (dt : dtype) (k : R).
Notation e := (eps dt).
Hypothesis Hk : 0 <= k.
Hypothesis Hke : k * e <= / 2.

Theorem C108_tanh_forward T A S c X : accurate dt k T tanh (fun _ => True) -> accurate dt k S (fun x => ln (1 + exp x)) (fun _ => True) -> Rabs (c - ln 2) <= e ->
  0 <= X <= maxpow dt / 64 -> faithful dt (tanh_layer dt k X) (fl_fwd (fl_tanh_bijector dt T A S (Fin c))).
Proof.
  intros HT HS Hc HX. unfold faithful, tanh_layer; cbn [map_of log_der dom lip lip_ld err err_ld]. split; [lra|]. split; [lra|].
  split; [intros; apply tanh_lip|]. split; [intros; apply tanh_ld_lip|]. intros x Rx Hx. pose proof (eps_pos dt) as E0.
  destruct (HT x Rx I) as (y & Ey & Ry & Hy). destruct (C93_tanh_log_det dt k S c x Hk ltac:(lra) HS Hc Rx ltac:(lra)) as (t & Et & Ht).
  exists y, t. cbn [fl_tanh_bijector fl_fwd]. unfold fl_tanh_forward_and_log_det. rewrite Ey, Et. split; [auto|]. split; [auto|]. split.
  - eapply Rle_trans; [exact Hy|]. assert (Rabs (tanh x) <= 1) by (apply Rabs_le; pose proof (tanh_range' x); lra). assert (0 <= k * e) by nra. assert (k * e * Rabs (tanh x) <= k * e * 1) by (apply Rmult_le_compat_l; auto). lra.
  - eapply Rle_trans; [exact Ht|]. apply Rmult_le_compat_l; [nra|lra].
Qed.
Theorem C108_tanh_inverse T A S c X : accurate dt k A arctanh (fun y => Rabs y <= tanh X) -> accurate dt k S (fun x => ln (1 + exp x)) (fun _ => True) -> Rabs (c - ln 2) <= e ->
  0 <= X <= maxpow dt / 256 -> faithful dt (tanh_inverse_layer dt k X) (fl_inv (fl_tanh_bijector dt T A S (Fin c))).
Proof.
  intros HA HS Hc HX. pose proof (tanh_range' X) as BX. assert (D0 : forall y, - tanh X <= y <= tanh X -> 0 < 1 - tanh X ^ 2 <= 1 - y ^ 2) by (intros y Hy; split; nra).
  assert (T0 : 0 <= tanh X). { pose proof (tanh_mono 0 X ltac:(lra)) as H. replace (tanh 0) with 0 in H; [auto|]. unfold tanh. rewrite sinh_0. field. rewrite cosh_0. lra. }
  assert (DX : 0 < 1 - tanh X ^ 2) by (apply (D0 0); lra). pose proof (Rinv_0_lt_compat _ DX) as IX.
  unfold faithful, tanh_inverse_layer; cbn [map_of log_der dom lip lip_ld err err_ld]. split; [lra|]. split; [unfold Rdiv; lra|]. split; [|split].
  - intros x y Hx Hy. apply Rabs_le_inv in Hx, Hy. apply (lip_from_derivative arctanh (fun y => / (1 - y ^ 2)) (/ (1 - tanh X ^ 2)) (- tanh X) (tanh X)); auto.
    + intros t Ht. pose proof (D0 t Ht). assert (0 < (1 + t) / (1 - t)) by (apply Rdiv_lt_0_compat; lra). unfold arctanh. auto_derive; [split; [lra|auto]|]. field. repeat split; try lra; nra.
    + intros t Ht. pose proof (D0 t Ht). rewrite Rabs_pos_eq; [apply Rinv_le_contravar; lra|]. left. apply Rinv_0_lt_compat. lra.
  - intros x y Hx Hy. apply Rabs_le_inv in Hx, Hy. apply (lip_from_derivative (fun y => - ln (1 - y ^ 2)) (fun y => 2 * y / (1 - y ^ 2)) (2 / (1 - tanh X ^ 2)) (- tanh X) (tanh X)); auto.
    + intros t Ht. pose proof (D0 t Ht). auto_derive; [lra|]. field. lra.
    + intros t Ht. pose proof (D0 t Ht) as D. unfold Rdiv. rewrite Rabs_mult, Rabs_Rinv by lra. rewrite (Rabs_pos_eq (1 - t ^ 2)) by lra. apply Rmult_le_compat; try apply Rabs_pos; [left; apply Rinv_0_lt_compat; lra| |apply Rinv_le_contravar; lra].
      apply Rabs_le. lra.
  - intros y Ry Hy. pose proof (arctanh_size y X Hy) as Sx. pose proof (eps_pos dt) as E0. pose proof (tiny_pos dt) as T1. pose proof (tiny_le_eps dt) as TE. pose proof (eps_le dt) as E4. pose proof (maxpow_ge_32 dt) as M32.
    destruct (HA y Ry Hy) as (x & Ex & Rx & Hx). assert (Ke : 0 <= k * e) by nra. assert (Kx : k * e * Rabs (arctanh y) <= k * e * X) by (apply Rmult_le_compat_l; auto). assert (KX : k * e * X <= / 2 * X) by (apply Rmult_le_compat_r; lra).
    assert (Bx : Rabs x <= 2 * X + tiny dt). { replace x with ((x - arctanh y) + arctanh y) by ring. eapply Rle_trans; [apply Rabs_triang|]. lra. }
    destruct (C93_tanh_log_det dt k S c x Hk ltac:(lra) HS Hc Rx ltac:(lra)) as (t & Et & Ht). exists x, (- t). cbn [fl_tanh_bijector fl_inv]. unfold fl_tanh_inverse_and_log_det. rewrite Ex, Et.
    split; [reflexivity|]. split; [auto|]. split; [lra|]. apply Rabs_le_inv in Hy. assert (Ey : tanh (arctanh y) = y) by (apply tanh_arctanh; lra). rewrite <- Ey at 1.
    pose proof (tanh_ld_lip x (arctanh y)) as Lp. replace (- t - - ln (1 - tanh (arctanh y) ^ 2)) with (- ((t - ln (1 - tanh x ^ 2)) + (ln (1 - tanh x ^ 2) - ln (1 - tanh (arctanh y) ^ 2)))) by ring.
    rewrite Rabs_Ropp. eapply Rle_trans; [apply Rabs_triang|]. assert ((5 * k + 13) * e * (1 + Rabs x) <= (5 * k + 13) * e * (1 + 2 * X + tiny dt)) by (apply Rmult_le_compat_l; [nra|lra]). lra.
Qed.
Theorem C108_sigmoid_forward E G L LP S X : accurate dt k G logistic (fun _ => True) -> accurate dt k S (fun x => ln (1 + exp x)) (fun _ => True) ->
  accurate dt k E exp (fun x => x < - 9) -> (forall x, repr dt x -> fle (Fin 0) (E (Fin x))) -> accurate dt k LP (fun v => ln (1 + v)) (fun v => 0 <= v) ->
  0 <= X <= maxpow dt / 128 -> 9 <= maxpow dt / 128 -> faithful dt (sigmoid_layer dt k X) (fl_fwd (fl_sigmoid_bijector dt E G L LP S)).
Proof.
  intros HG HS HE HE0 HLP HX H9. unfold faithful, sigmoid_layer; cbn [map_of log_der dom lip lip_ld err err_ld]. split; [lra|]. split; [lra|].
  split; [intros; apply logistic_lip|]. split; [intros; apply logistic_ld_lip|]. intros x Rx Hx. pose proof (eps_pos dt) as E0.
  destruct (HG x Rx I) as (y & Ey & Ry & Hy). assert (Ax : Rabs x <= 9 + X) by (apply Rabs_le; lra).
  destruct (C93_sigmoid_log_det dt k E LP S Hk ltac:(lra) HS HE HE0 HLP x Rx) as (t & Et & Ht); [apply Rabs_le; lra|].
  exists y, t. cbn [fl_sigmoid_bijector fl_fwd]. unfold fl_sigmoid_forward_and_log_det, fl_more_stable_sigmoid. rewrite (proj2 (xltb_fin_f x (- 9)) ltac:(lra)), Ey, Et. split; [auto|]. split; [auto|]. split.
  - eapply Rle_trans; [exact Hy|]. assert (Rabs (logistic x) <= 1) by (apply Rabs_le; pose proof (sigmoid_range x) as Q; change (sigmoid x) with (logistic x) in Q; lra). assert (0 <= k * e) by nra. assert (k * e * Rabs (logistic x) <= k * e * 1) by (apply Rmult_le_compat_l; auto). lra.
  - eapply Rle_trans; [exact Ht|]. apply Rmult_le_compat_l; [nra|lra].
Qed.
End Layers.

(** Correctly rounded functions qualify. *)
Definition r_logistic dt (a : XR) : XR := match a with Fin x => fround dt (Fin (logistic x)) | PInf => Fin 1 | NInf => Fin 0 | NaN => NaN end.
Lemma tanh_accurate dt : accurate dt 1 (r_tanh dt) tanh (fun _ => True).
Proof.
  intros x Rx _. pose proof (tanh_range' x). destruct (fround_between dt (tanh x) (- 1) 1 (repr_opp dt 1 (repr_1 dt)) (repr_1 dt) ltac:(lra)) as (Q & _).
  exists (rnd dt (tanh x)). split; [exact Q|]. eapply rounded_accurate; eauto.
Qed.
Lemma logistic_accurate dt : accurate dt 1 (r_logistic dt) logistic (fun _ => True).
Proof.
  intros x Rx _. pose proof (sigmoid_range x) as B. change (sigmoid x) with (logistic x) in B. destruct (fround_between dt (logistic x) 0 1 (repr_0 dt) (repr_1 dt) ltac:(lra)) as (Q & _).
  exists (rnd dt (logistic x)). split; [exact Q|]. eapply rounded_accurate; eauto.
Qed.
Lemma arctanh_accurate dt X : X <= maxpow dt / 2 -> accurate dt 1 (r_arctanh dt) arctanh (fun y => Rabs y <= tanh X).
Proof.
  intros HX y Ry H. pose proof (arctanh_size y X H) as Sz. pose proof (tanh_range' X) as B. assert (Hy : Rabs y < 1) by lra. pose proof (Rabs_def2 _ _ Hy).
  unfold r_arctanh. destruct (Req_EM_T y 1); [lra|]. destruct (Req_EM_T y (- 1)); [lra|]. destruct (Rlt_dec (Rabs y) 1); [|lra].
  destruct (round_fin dt (arctanh y)) as (q & Eq & _); [lra|]. exists q. split; [exact Eq|]. eapply rounded_accurate; eauto.
Qed.
Notation e32 := (eps float32).
Notation tanh32 := (fl_tanh_bijector float32 (r_tanh float32) (r_arctanh float32) (r_softplus float32) (Fin (rnd float32 (ln 2)))).
Example C108_layers_float32 :
  faithful float32 (tanh_layer float32 1 10) (fl_fwd tanh32) /\ faithful float32 (tanh_inverse_layer float32 1 3) (fl_inv tanh32) /\
  faithful float32 (sigmoid_layer float32 1 10) (fl_fwd (fl_sigmoid_bijector float32 (r_exp float32) (r_logistic float32) log32 (r_log1p float32) (r_softplus float32))).
Proof.
  destruct C93_rounded as (HS & HE & HE0 & HL & He & Hc & _). assert (M : 1048576 <= maxpow float32) by (change 1048576 with (bpow radix2 20); apply bpow_le; cbn; lia).
  split; [|split].
  - apply C108_tanh_forward; auto using tanh_accurate; lra.
  - apply C108_tanh_inverse; auto; try lra. apply arctanh_accurate. lra.
  - apply C108_sigmoid_forward; auto using logistic_accurate; lra.
Qed.

(** A squashed policy in float32, Transformed(base, Chain([Tanh(), ScalarAffine(1, 2)])): the sample and its log-probability, for every base
    sample of size at most 4. *)
Example C108_squashed_float32 x lpx t : repr float32 x -> Rabs x <= 4 -> close lpx t e32 -> Rabs t <= 1000 ->
  let r := fl_transformed_sample_and_log_prob float32 (fl_fwd (fl_chain float32 [tanh32; twice_plus_one])) (Fin x) lpx in
  close (fst r) (tanh (2 * x + 1)) (42 * e32) /\ close (snd r) (t - (ln 2 + ln (1 - tanh (2 * x + 1) ^ 2))) ((450 + Rabs t) * e32).
Proof.
  intros Rx Hx HC Ht. pose proof ln2_bounds as L2. pose proof (eps_pos float32) as E0. pose proof (tiny_le_eps float32) as TE. pose proof (tiny_pos float32) as T0.
  assert (Es : 16777216 * e32 = 1). { unfold eps. change 16777216 with (bpow radix2 24). rewrite <- bpow_plus. reflexivity. }
  assert (M : 1048576 <= maxpow float32) by (change 1048576 with (bpow radix2 20); apply bpow_le; cbn; lia).
  assert (R1 : repr float32 1) by apply repr_1. assert (R2 : repr float32 2) by (change 2 with (bpow radix2 1); apply repr_pow; cbn; unfold emin; cbn; lia).
  set (ls := [affine_layer float32 1 1 2 4; tanh_layer float32 1 10]).
  assert (HF : Forall2 (faithful float32) ls (map fl_fwd (rev [tanh32; twice_plus_one]))).
  { constructor; [|constructor; [|constructor]].
    - apply C108_affine_forward; auto using (log_accurate float32); try lra. rewrite Rabs_R1. lra.
    - apply C108_layers_float32. }
  assert (Y : -7 <= 2 * x + 1 <= 9) by (apply Rabs_le_inv in Hx; lra).
  assert (HI : inside ls x 0).
  { cbn [ls inside dom affine_layer tanh_layer map_of err lip]. rewrite Rabs_R1. repeat split.
    - intros u Hu. pose proof (Rabs_pos (u - x)). assert (Rabs (u - x) = 0) as Z by lra. destruct (Req_dec (u - x) 0) as [Z'|Z']; [|apply Rabs_no_R0 in Z'; lra]. replace u with x by lra. auto.
    - intros u Hu. apply Rabs_le_inv in Hu. apply Rabs_le. lra. }
  assert (B : Rabs (ln (1 - tanh (2 * x + 1) ^ 2)) <= 18). { pose proof (tanh_ld_bound (2 * x + 1)) as Q. assert (Rabs (2 * x + 1) <= 9) by (apply Rabs_le; lra). rewrite Rabs_left1; lra. }
  pose proof (Rabs_pos (ln (1 - tanh (2 * x + 1) ^ 2))) as B0. pose proof (Rabs_pos t) as Pt.
  pose proof (C108_sample_and_log_prob float32 [tanh32; twice_plus_one] ls x lpx t e32 HF ltac:(discriminate) Rx HI HC ltac:(lra)) as K. cbv zeta in K.
  cbn [ls length size_log_der total_log_der image image_err log_der_err map_of log_der err err_ld lip lip_ld affine_layer tanh_layer] in K. rewrite Rabs_R1, (Rabs_pos_eq (ln 2)) in K by lra. replace (INR 2) with 2 in K by (cbn; lra).
  set (w := ln (1 - tanh (2 * x + 1) ^ 2)) in *. clearbody w. replace (ln 2 + (w + 0)) with (ln 2 + w) in K by ring. set (u := Rabs w) in *. clearbody u. set (v := Rabs t) in *. assert (El : 0 <= e32 * ln 2 <= e32) by nra. assert (Eu : 0 <= e32 * u <= e32 * 18) by nra. assert (Eq : e32 * e32 <= / 1048576 * e32) by (apply Rmult_le_compat_r; lra). assert (0 <= e32 * e32) by nra. assert (Et : 0 <= e32 * tiny float32 <= e32 * e32) by nra. assert (Eel : 0 <= e32 * (e32 * ln 2) <= e32 * e32) by nra. assert (Eev : 0 <= e32 * v <= e32 * 1000) by nra. assert (Eeq : 0 <= e32 * (e32 * u) <= 18 * (e32 * e32)) by nra. 
  assert (Ee3 : 0 <= e32 * (e32 * e32) <= e32 * e32) by nra. assert (Ee4 : 0 <= e32 * (e32 * tiny float32) <= e32 * e32) by nra. assert (Ee5 : 0 <= e32 * (e32 * (e32 * ln 2)) <= e32 * e32) by nra.
  destruct K as (K1 & K2).
  - lra.
  - lra.
  - lra.
  - split; (eapply close_weaken; [eassumption|]); lra.
Qed.
Print Assumptions C108_tanh_forward.
Print Assumptions C108_tanh_inverse.
Print Assumptions C108_sigmoid_forward.
Print Assumptions C108_squashed_float32.
