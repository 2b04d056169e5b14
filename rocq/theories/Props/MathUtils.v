(** C65: the NaN-safe arithmetic of utils/math.py. *)
From Coq Require Import Reals List ZArith Bool Lia Lra.
From Verif Require Import Base.XR Model.MathUtils Model.MathMore.
Import ListNotations.
Local Open Scope R_scope.

(** ** Values *)
Theorem C65_multiply_no_nan :
  (forall x, multiply_no_nan x (Fin 0) = Fin 0) /\
  (forall x y, y <> Fin 0 -> multiply_no_nan x y = xmul x y) /\
  (forall x y, multiply_no_nan (Fin x) (Fin y) = Fin (x * y)) /\
  (* the convention is one-sided *)
  multiply_no_nan (Fin 0) PInf = NaN.
Proof.
  assert (H0 : xeqb (Fin 0) (Fin 0) = true) by (apply xeqb_fin; auto).
  split; [intros x; unfold multiply_no_nan; rewrite H0; auto|]. split; [|split].
  - intros x y Hy. unfold multiply_no_nan. destruct (xeqb y (Fin 0)) eqn:E; auto.
    destruct y; try discriminate. apply xeqb_fin in E. congruence.
  - intros x y. unfold multiply_no_nan. destruct (xeqb (Fin y) (Fin 0)) eqn:E; [|reflexivity].
    apply xeqb_fin in E. subst. f_equal. ring.
  - unfold multiply_no_nan. cbn. unfold inf_times. destruct (Rlt_dec 0 0); [lra|]. reflexivity.
Qed.

Theorem C65_mul_exp :
  (forall x, mul_exp x NInf = Fin 0) /\
  (forall x l, mul_exp (Fin x) (Fin l) = Fin (x * exp l)) /\
  (forall x l, l <> NInf -> mul_exp x l = xmul x (xexp l)).
Proof.
  split; [|split].
  - intros x. unfold mul_exp. cbn. destruct (Req_EM_T 0 0); [|lra]. cbn. f_equal. ring.
  - intros x l. unfold mul_exp. cbn. pose proof (exp_pos l). destruct (Req_EM_T (exp l) 0); [lra|]. reflexivity.
  - intros x l Hl. unfold mul_exp. destruct l; cbn; try congruence; try reflexivity.
    pose proof (exp_pos r). destruct (Req_EM_T (exp r) 0); [lra|]. reflexivity.
Qed.

Lemma Int_part_INR n : Int_part (INR n) = Z.of_nat n.
Proof.
  rewrite INR_IZR_INZ. unfold Int_part. rewrite <- (tech_up (IZR (Z.of_nat n)) (Z.of_nat n + 1)); [lia| |]; rewrite plus_IZR; lra.
Qed.
Lemma exp_ln_pow x n : 0 < x -> exp (INR n * ln x) = x ^ n.
Proof. intros H. rewrite <- Rpower_pow by auto. reflexivity. Qed.
Lemma pow_opp x n : (- x) ^ n = if Nat.odd n then - x ^ n else x ^ n.
Proof.
  induction n; [cbn; ring|]. rewrite <- !tech_pow_Rmult, IHn, Nat.odd_succ, <- Nat.negb_odd. destruct (Nat.odd n); cbn [negb]; ring.
Qed.
Lemma odd_of_nat n : Z.odd (Z.of_nat n) = Nat.odd n.
Proof.
  induction n; [reflexivity|]. rewrite Nat2Z.inj_succ, Z.odd_succ, Nat.odd_succ, <- Z.negb_odd, <- Nat.negb_odd, IHn. reflexivity.
Qed.
Theorem C65_power_no_nan :
  (forall x, power_no_nan x (Fin 0) = Fin 1) /\
  (forall x y, 0 < x -> power_no_nan (Fin x) (Fin y) = Fin (Rpower x y)) /\
  (forall x n, power_no_nan (Fin x) (Fin (INR n)) = Fin (x ^ n)) /\
  (forall x y, y <> Fin 0 -> power_no_nan x y = xpow x y).
Proof.
  assert (H0 : forall x, power_no_nan x (Fin 0) = Fin 1).
  { intros x. unfold power_no_nan. assert (E : xeqb (Fin 0) (Fin 0) = true) by (apply xeqb_fin; auto). rewrite E. auto. }
  assert (H1 : forall x y, y <> Fin 0 -> power_no_nan x y = xpow x y).
  { intros x y Hy. unfold power_no_nan. destruct (xeqb y (Fin 0)) eqn:E; auto. destruct y; try discriminate. apply xeqb_fin in E. congruence. }
  split; [auto|]. split; [|split; [|auto]].
  - intros x y Hx. destruct (Req_EM_T y 0) as [-> |Hy]; [rewrite H0, Rpower_O; auto|].
    rewrite H1 by congruence. cbn. destruct (Req_EM_T y 0); [lra|]. destruct (Rlt_dec 0 x); [|lra]. reflexivity.
  - intros x n. destruct n as [|n]; [rewrite H0; reflexivity|]. set (k := S n).
    assert (Hk : 0 < INR k) by (apply lt_0_INR; unfold k; lia).
    rewrite H1 by (intros E; apply (f_equal toR) in E; cbn [toR] in E; lra). cbn [xpow].
    destruct (Req_EM_T (INR k) 0); [lra|]. destruct (Rlt_dec 0 x) as [Hx|Hx]; [rewrite exp_ln_pow; auto|].
    destruct (Req_EM_T x 0) as [-> |Hx0].
    + destruct (Rlt_dec 0 (INR k)); [|lra]. unfold k. cbn [pow]. f_equal. ring.
    + unfold is_integer. rewrite Int_part_INR, <- INR_IZR_INZ. destruct (Req_EM_T (INR k) (INR k)); [|congruence].
      rewrite exp_ln_pow by lra. rewrite odd_of_nat, pow_opp. destruct (Nat.odd k); f_equal; ring.
Qed.

(** [log(exp big - exp small)] for [small <= big], with [exp(-inf) = 0] and [log 0 = -inf] *)
Theorem C65_log_diff :
  (forall a b, b <= a -> log_expbig_minus_expsmall (Fin a) (Fin b) = rlog (exp a - exp b)) /\
  (forall a, log_expbig_minus_expsmall (Fin a) NInf = Fin a) /\
  (forall b, log_expbig_minus_expsmall PInf (Fin b) = PInf).
Proof.
  split; [|split].
  - intros a b Hab. unfold log_expbig_minus_expsmall, xlog1p. cbn [xsub xadd xopp xexp xlog].
    assert (E : exp a - exp b = exp a * (1 + - exp (b + - a))).
    { rewrite exp_plus, exp_Ropp. pose proof (exp_pos a). field. lra. }
    pose proof (exp_pos a). rewrite E. destruct Hab as [Hab| ->].
    + assert (exp (b + - a) < 1) by (rewrite <- exp_0; apply exp_increasing; lra).
      rewrite !rlog_pos; [|apply Rmult_lt_0_compat; lra|lra]. cbn. rewrite ln_mult by lra. rewrite ln_exp. auto.
    + replace (a + - a) with 0 by ring. rewrite exp_0. replace (1 + - (1)) with 0 by ring. rewrite Rmult_0_r, rlog_0. reflexivity.
  - intros a. unfold log_expbig_minus_expsmall, xlog1p. cbn. replace (1 + - 0) with 1 by ring.
    rewrite rlog_pos by lra. cbn. rewrite ln_1. f_equal. ring.
  - intros b. unfold log_expbig_minus_expsmall, xlog1p. cbn. replace (1 + - 0) with 1 by ring.
    rewrite rlog_pos by lra. reflexivity.
Qed.
(** [log(0 - 0)] should be [-inf]. *)
Theorem C65_log_diff_refuted : log_expbig_minus_expsmall NInf NInf = NaN.
Proof. reflexivity. Qed.

(** ** Derivatives.  A tangent stands for the number [d]. *)
Definition tangent_is (t : tangent) (d : R) : Prop :=
  match t with SymZero => d = 0 | Dot e => e = Fin d end.
(** Along all differentiable curves of finite arguments, the tangent returned is the derivative of the value returned. *)
Theorem C65_multiply_jvp (f g : R -> R) t f' g' tf tg :
  derivable_pt_lim f t f' -> derivable_pt_lim g t g' -> tangent_is tf f' -> tangent_is tg g' ->
  exists h d, (forall s, multiply_no_nan (Fin (f s)) (Fin (g s)) = Fin (h s)) /\
    fst (multiply_no_nan_jvp (Fin (f t)) (Fin (g t)) tf tg) = Fin (h t) /\
    derivable_pt_lim h t d /\ tangent_is (snd (multiply_no_nan_jvp (Fin (f t)) (Fin (g t)) tf tg)) d.
Proof.
  intros Hf Hg Tf Tg. destruct C65_multiply_no_nan as (_ & _ & M & _).
  exists (fun s => f s * g s), (f' * g t + f t * g').
  split; [intros; apply M|]. split; [apply M|]. split; [apply (derivable_pt_lim_mult f g t f' g' Hf Hg)|].
  unfold multiply_no_nan_jvp. cbn [snd]. destruct tf as [|e], tg as [|e']; cbn in *; subst; cbn; try ring; f_equal; ring.
Qed.
(** With a factor [y] that is not differentiated, the other factor may be anything: if [y = 0] the tangent is 0. *)
Theorem C65_multiply_jvp_constant :
  (forall x d, snd (multiply_no_nan_jvp x (Fin 0) (Dot (Fin d)) SymZero) = Dot (Fin 0)) /\
  (forall x y d, snd (multiply_no_nan_jvp x y (Dot d) SymZero) = Dot (xmul d y)) /\
  (forall x y d, snd (multiply_no_nan_jvp x y SymZero (Dot d)) = Dot (xmul d x)) /\
  (* a zero array instead of a symbolic zero would spoil the result at infinity *)
  snd (multiply_no_nan_jvp NInf (Fin 0) (Dot (Fin 1)) (Dot (Fin 0))) = Dot NaN.
Proof.
  split; [intros; cbn; do 2 f_equal; ring|]. split; [reflexivity|]. split; [reflexivity|].
  cbn. unfold inf_times. destruct (Rlt_dec 0 (- 0)); [lra|]. destruct (Rlt_dec (- 0) 0); [lra|]. reflexivity.
Qed.

Theorem C65_mul_exp_jvp (f g : R -> R) t f' g' :
  derivable_pt_lim f t f' -> derivable_pt_lim g t g' ->
  exists h d, (forall s, mul_exp (Fin (f s)) (Fin (g s)) = Fin (h s)) /\
    mul_exp_jvp (Fin (f t)) (Fin (g t)) (Fin f') (Fin g') = (Fin (h t), Fin d) /\ derivable_pt_lim h t d.
Proof.
  intros Hf Hg. destruct C65_mul_exp as (_ & M & _).
  exists (fun s => f s * exp (g s)), (f' * exp (g t) + f t * (exp (g t) * g')).
  split; [intros; apply M|]. split.
  - unfold mul_exp_jvp. cbn. pose proof (exp_pos (g t)). destruct (Req_EM_T (exp (g t)) 0); [lra|]. cbn. f_equal. f_equal. ring.
  - apply (derivable_pt_lim_mult f (fun s => exp (g s))); auto.
    apply (derivable_pt_lim_comp g exp t g' (exp (g t))); auto. apply derivable_pt_lim_exp.
Qed.
(** zero output and zero gradient when [exp(logp) = 0], whatever [x] and its tangent *)
Theorem C65_mul_exp_jvp_zero x x_dot d : mul_exp_jvp x NInf x_dot (Fin d) = (Fin 0, Fin 0).
Proof. unfold mul_exp_jvp. cbn. destruct (Req_EM_T 0 0); [|lra]. cbn. f_equal; f_equal; ring. Qed.

(** Full statement: wherever the power of two curves is differentiable, the tangent is the derivative.
    Proved where the base is positive; refuted below where it is not. *)
Theorem C65_power_jvp_partial (f g : R -> R) t f' g' :
  (forall s, 0 < f s) -> derivable_pt_lim f t f' -> derivable_pt_lim g t g' ->
  exists h d, (forall s, power_no_nan (Fin (f s)) (Fin (g s)) = Fin (h s)) /\
    power_no_nan_jvp (Fin (f t)) (Fin (g t)) (Fin f') (Fin g') = (Fin (h t), Fin d) /\ derivable_pt_lim h t d.
Proof.
  intros Hpos Hf Hg. destruct C65_power_no_nan as (_ & M & _).
  exists (fun s => Rpower (f s) (g s)), (g t * Rpower (f t) (g t - 1) * f' + Rpower (f t) (g t) * ln (f t) * g').
  split; [intros; apply M; auto|]. split.
  - unfold power_no_nan_jvp. cbn [xsub xadd xopp]. rewrite !M by auto. cbn. rewrite rlog_pos by auto. cbn.
    do 2 f_equal. 
  - unfold Rpower.
    assert (Hd : derivable_pt_lim (fun s => exp (g s * ln (f s))) t (exp (g t * ln (f t)) * (g' * ln (f t) + g t * (/ f t * f')))).
    { apply (derivable_pt_lim_comp (fun s => g s * ln (f s)) exp); [|apply derivable_pt_lim_exp].
      apply (derivable_pt_lim_mult g (fun s => ln (f s))); auto.
      apply (derivable_pt_lim_comp f ln); auto. apply derivable_pt_lim_ln; auto. }
    replace (g t * exp ((g t - 1) * ln (f t)) * f' + exp (g t * ln (f t)) * ln (f t) * g')
      with (exp (g t * ln (f t)) * (g' * ln (f t) + g t * (/ f t * f'))); [exact Hd|].
    replace ((g t - 1) * ln (f t)) with (g t * ln (f t) + - ln (f t)) by ring.
    rewrite (exp_plus (g t * ln (f t))), exp_Ropp, exp_ln by auto. ring.
Qed.
(** The square is differentiable everywhere, and so is the constant [x ** 0 = 1]; the tangents are NaN. *)
Theorem C65_power_jvp_refuted :
  (forall s, power_no_nan (Fin s) (Fin 2) = Fin (s * s)) /\ (forall t, derivable_pt_lim (fun s => s * s) t (2 * t)) /\
  (forall t, t <= 0 -> snd (power_no_nan_jvp (Fin t) (Fin 2) (Fin 1) (Fin 0)) = NaN) /\
  (forall s, power_no_nan (Fin s) (Fin 0) = Fin 1) /\
  (forall t, t <= 0 -> snd (power_no_nan_jvp (Fin t) (Fin 0) (Fin 1) (Fin 0)) = NaN).
Proof.
  destruct C65_power_no_nan as (M0 & _ & M & _).
  assert (M2 : forall s, power_no_nan (Fin s) (Fin 2) = Fin (s * s)).
  { intros s. replace 2 with (INR 2) by (cbn; ring). rewrite M. f_equal. ring. }
  assert (Hz : forall w, w = 0 -> inf_times w = NaN).
  { intros w ->. unfold inf_times. destruct (Rlt_dec 0 0); [lra|auto]. }
  split; [auto|]. split.
  { intros t. replace (2 * t) with (1 * t + t * 1) by ring. apply (derivable_pt_lim_mult id id); apply derivable_pt_lim_id. }
  split; [|split; [auto|]].
  - intros t Ht. unfold power_no_nan_jvp. cbn [snd]. rewrite M2. destruct Ht as [Ht| ->].
    + cbn [xlog]. rewrite (rlog_neg t Ht). cbn. match goal with |- xadd ?a NaN = _ => destruct a; reflexivity end.
    + cbn [xlog]. rewrite rlog_0. cbn [xmul]. rewrite (Hz (- (0 * 0))) by ring. match goal with |- xadd ?a (xmul NaN _) = _ => destruct a; reflexivity end.
  - intros t Ht. unfold power_no_nan_jvp. cbn [snd]. rewrite M0. destruct Ht as [Ht| ->].
    + cbn [xlog]. rewrite (rlog_neg t Ht). cbn. match goal with |- xadd ?a NaN = _ => destruct a; reflexivity end.
    + cbn [xsub xadd xopp]. destruct C65_power_no_nan as (_ & _ & _ & MP).
      rewrite MP by (intros E; apply (f_equal toR) in E; cbn [toR] in E; lra). cbn.
      destruct (Req_EM_T (0 + - (1)) 0); [lra|]. destruct (Rlt_dec 0 0); [lra|]. destruct (Req_EM_T 0 0); [|lra].
      destruct (Rlt_dec 0 (0 + - (1))); [lra|]. cbn. rewrite (Hz 0) by auto. reflexivity.
Qed.

(** Non-vacuity: the hypotheses are met by curves through non-trivial points. *)
Example C65_nonvacuous :
  (exists h d, (forall s, multiply_no_nan (Fin (id s)) (Fin (id s)) = Fin (h s)) /\ derivable_pt_lim h 3 d) /\
  (exists h d, (forall s, power_no_nan (Fin (exp s)) (Fin (id s)) = Fin (h s)) /\ derivable_pt_lim h 3 d).
Proof.
  split.
  - destruct (C65_multiply_jvp id id 3 1 1 (Dot (Fin 1)) (Dot (Fin 1))) as (h & d & H1 & _ & H2 & _);
      try apply derivable_pt_lim_id; try reflexivity. exists h, d; auto.
  - destruct (C65_power_jvp_partial exp id 3 (exp 3) 1) as (h & d & H1 & _ & H2);
      [intros; apply exp_pos|apply derivable_pt_lim_exp|apply derivable_pt_lim_id|]. exists h, d; auto.
Qed.
