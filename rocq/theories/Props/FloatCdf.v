(** C107: cdf, survival function and their logarithms in floating point. *)
From Coq Require Import Reals Lra Lia List Bool Arith ZArith.
From Flocq Require Import Core.
From Verif Require Import Base.XR Base.Float Spec.Rounding Spec.Accuracy Spec.Tails Proofs.FloatOrder Proofs.FloatLib
  Model.FloatDist Model.FloatCdf Props.FloatBij Props.FloatAccuracy.
From Coquelicot Require Import Coquelicot.
From Verif Require Import Base.Gauss Proofs.Density.
Import Verif.Spec.Accuracy Verif.Spec.Rounding.
From Flocq Require Import IEEE754.BinarySingleNaN.
From Verif Require Import Proofs.FloatIEEE Props.FixedDeterministic.
From Verif Require Props.FloatCatInfo Props.FloatViterbi.
From Verif Require Proofs.Laplace Props.Laplace.
Local Open Scope R_scope.

Section Order.
Variable dt : dtype.
Lemma value_round a : value dt (fround dt a).
Proof. unfold value. destruct (fround dt a) eqn:E; auto. apply (fround_value dt _ _ E). Qed.
Lemma value_opp a : value dt a -> value dt (xopp a).
Proof. destruct a; cbn; auto. apply repr_opp. Qed.
Lemma opp_nan a : a <> NaN -> xopp a <> NaN.
Proof. destruct a; cbn; congruence. Qed.
Lemma up_opp f a b : decreasing_from_to dt f a b -> increasing_from_to dt (fun x => xopp (f x)) (xopp a) (xopp b).
Proof. intros (M & <- & <-). split; [|auto]. intros v w V W H. apply xopp_anti, M; auto. Qed.
Lemma down_opp f a b : increasing_from_to dt f a b -> decreasing_from_to dt (fun x => xopp (f x)) (xopp a) (xopp b).
Proof. intros (M & <- & <-). split; [|auto]. intros v w V W H. apply xopp_anti, M; auto. Qed.
Lemma down_mirror f a b : increasing_from_to dt f a b -> decreasing_from_to dt (fun x => f (xopp x)) b a.
Proof. intros (M & A & B). split; [|auto]. intros v w V W H. apply M; auto using value_opp, xopp_anti. Qed.
Lemma up_mirror f a b : decreasing_from_to dt f a b -> increasing_from_to dt (fun x => f (xopp x)) b a.
Proof. intros (M & A & B). split; [|auto]. intros v w V W H. apply M; auto using value_opp, xopp_anti. Qed.

Variables loc s : R.
Hypothesis s_pos : 0 < s.
Notation Z v := (fl_standardize dt v (Fin loc) (Fin s)).
Lemma Z_value v : value dt (Z v). Proof. apply value_round. Qed.
Lemma Z_nan v : v <> NaN -> Z v <> NaN.
Proof.
  intros N. apply fround_nan. assert (fsub dt v (Fin loc) <> NaN) by (apply fround_nan; destruct v; cbn; congruence).
  destruct (fsub dt v (Fin loc)); cbn; try congruence; repeat destruct (Req_EM_T _ _); repeat destruct (Rlt_dec _ _); try congruence; lra.
Qed.
Lemma Z_mono v w : fle v w -> fle (Z v) (Z w).
Proof. intros H. apply fround_mono, xdiv_mono; auto. apply fround_mono. unfold xsub. apply xadd_mono; auto; cbn; congruence. Qed.
Lemma Z_ninf : Z NInf = NInf.
Proof. unfold fl_standardize, fsub, fdiv. cbn. repeat destruct (Req_EM_T _ _); repeat destruct (Rlt_dec _ _); try lra; reflexivity. Qed.
Lemma Z_pinf : Z PInf = PInf.
Proof. unfold fl_standardize, fsub, fdiv. cbn. repeat destruct (Req_EM_T _ _); repeat destruct (Rlt_dec _ _); try lra; reflexivity. Qed.
Lemma up_Z f a b : increasing_from_to dt f a b -> increasing_from_to dt (fun v => f (Z v)) a b.
Proof. intros (M & A & B). split; [|now rewrite Z_ninf, Z_pinf]. intros v w V W H. apply M; auto using Z_value, Z_mono. Qed.
Lemma down_Z f a b : decreasing_from_to dt f a b -> decreasing_from_to dt (fun v => f (Z v)) a b.
Proof. intros (M & A & B). split; [|now rewrite Z_ninf, Z_pinf]. intros v w V W H. apply M; auto using Z_value, Z_mono. Qed.
End Order.

Section Families.
Variables (dt : dtype) (loc s : R).
Hypothesis s_pos : 0 < s.

(** ** Normal *)
Theorem C107_normal N LN : cdf_fn dt N -> log_cdf_fn dt LN ->
  let t := fl_normal_tails dt N LN (Fin loc) (Fin s) in proper_tails dt (t_cdf t) (t_log_cdf t) (t_sf t) (t_log_sf t).
Proof.
  intros [NR NU] [LR LU] t. subst t. cbn [t_cdf t_log_cdf t_sf t_log_sf fl_normal_tails]. split; intros.
  - apply NR; [apply Z_value|apply Z_nan; auto].
  - apply NR; [apply value_opp, Z_value|apply opp_nan, Z_nan; auto].
  - apply LR; [apply Z_value|apply Z_nan; auto].
  - apply LR; [apply value_opp, Z_value|apply opp_nan, Z_nan; auto].
  - apply up_Z; auto.
  - apply (down_Z dt loc s s_pos (fun x => N (xopp x))); auto. apply down_mirror; auto.
  - apply up_Z; auto.
  - apply (down_Z dt loc s s_pos (fun x => LN (xopp x))); auto. apply down_mirror; auto.
Qed.

(** ** Logistic *)
Lemma softplus_range S : softplus_fn dt S -> forall z, value dt z -> z <> NaN -> value dt (S z) /\ fle (Fin 0) (S z).
Proof.
  intros HS z V N. destruct z as [z| | |]; try congruence.
  - destruct (softplus_fn_finite _ _ HS z V) as (r & -> & R & P & _). split; [exact R|apply fle_fin; auto].
  - rewrite (softplus_fn_inf _ _ HS). split; [exact I|reflexivity].
  - rewrite (softplus_fn_ninf _ _ HS). split; [apply repr_0|apply fle_fin; lra].
Qed.
Lemma softplus_up S : softplus_fn dt S -> increasing_from_to dt S (Fin 0) PInf.
Proof.
  intros HS. split; [|split; [apply softplus_fn_ninf with dt|apply softplus_fn_inf with dt]; auto].
  intros v w V W H. pose proof (fle_nan_l _ _ H) as Nv. pose proof (fle_nan_r _ _ H) as Nw.
  pose proof (softplus_range S HS v V Nv) as (_ & Pv). pose proof (softplus_range S HS w W Nw) as (_ & Pw).
  destruct v as [x| | |], w as [y| | |]; try discriminate H; rewrite ?(softplus_fn_ninf _ _ HS), ?(softplus_fn_inf _ _ HS); auto; try reflexivity.
  - apply (softplus_fn_mono _ _ HS); auto. apply fle_fin; auto.
  - apply fle_PInf. apply (fle_nan_r _ _ Pv).
  - apply fle_fin; lra.
Qed.
Lemma minus_softplus_range S : softplus_fn dt S -> forall z, value dt z -> z <> NaN -> log_probability dt (xopp (S z)).
Proof.
  intros HS z V N. destruct (softplus_range S HS z V N) as (A & B). split; [apply value_opp; auto|].
  apply xopp_anti in B. cbn in B. rewrite Ropp_0 in B. auto.
Qed.
Theorem C107_logistic G S : cdf_fn dt G -> softplus_fn dt S ->
  let t := fl_logistic_tails dt G S (Fin loc) (Fin s) in proper_tails dt (t_cdf t) (t_log_cdf t) (t_sf t) (t_log_sf t).
Proof.
  intros [NR NU] HS t. subst t. cbn [t_cdf t_log_cdf t_sf t_log_sf fl_logistic_tails]. pose proof (softplus_up S HS) as SU. split; intros.
  - apply NR; [apply Z_value|apply Z_nan; auto].
  - apply NR; [apply value_opp, Z_value|apply opp_nan, Z_nan; auto].
  - apply minus_softplus_range; auto; [apply value_opp, Z_value|apply opp_nan, Z_nan; auto].
  - apply minus_softplus_range; auto; [apply Z_value|apply Z_nan; auto].
  - apply up_Z; auto.
  - apply (down_Z dt loc s s_pos (fun x => G (xopp x))); auto. apply down_mirror; auto.
  - apply (up_Z dt loc s s_pos (fun x => xopp (S (xopp x)))); auto. replace (Fin 0) with (xopp (Fin 0)) by (cbn; f_equal; lra). apply (up_opp dt (fun x => S (xopp x)) PInf (Fin 0)). apply down_mirror; auto.
  - apply (down_Z dt loc s s_pos (fun x => xopp (S x))); auto. replace (Fin 0) with (xopp (Fin 0)) by (cbn; f_equal; lra). apply (down_opp dt S (Fin 0) PInf); auto.
Qed.

(** ** Gumbel *)
Lemma one_minus_probability c : probability dt c -> probability dt (fl_default_sf dt c).
Proof.
  intros (r & -> & R & B). unfold fl_default_sf, fsub. rewrite xsub_fin. rewrite (fround_ok dt (1 - r) 0 1); [|apply repr_0|apply repr_1|].
  - eexists. split; [auto|]. assert (B1 : 0 <= rnd dt (1 - r) <= 1) by (split; [apply rnd_nonneg; lra|apply rnd_le_F; [apply F_1|lra]]).
    split; [|auto]. split; [apply F_rnd|]. rewrite Rabs_pos_eq by lra. pose proof (maxpow_ge_2 dt). lra.
  - split; [apply rnd_nonneg; lra|apply rnd_le_F; [apply F_1|lra]].
Qed.
Lemma one_minus_down c d : probability dt c -> probability dt d -> fle c d -> fle (fl_default_sf dt d) (fl_default_sf dt c).
Proof. intros (x & -> & _) (y & -> & _) H. apply fle_fin in H. apply fround_mono. rewrite !xsub_fin. apply fle_fin. lra. Qed.
Lemma sf_of_cdf f : (forall v, value dt v -> v <> NaN -> probability dt (f v)) -> increasing_from_to dt f (Fin 0) (Fin 1) ->
  decreasing_from_to dt (fun v => fl_default_sf dt (f v)) (Fin 1) (Fin 0).
Proof.
  intros R (M & A & B). split; [|split].
  - intros v w V W H. apply one_minus_down; [apply R|apply R|apply M]; auto; [apply (fle_nan_l _ _ H)|apply (fle_nan_r _ _ H)].
  - rewrite A. unfold fl_default_sf, fsub. rewrite xsub_fin, Rminus_0_r. apply fround_repr, repr_1.
  - rewrite B. unfold fl_default_sf, fsub. rewrite xsub_fin, Rminus_diag_eq by auto. apply fround_0.
Qed.
Lemma log1p_neg_probability L1 c : log1p_fn dt L1 -> probability dt c -> log_probability dt (fl_default_log_sf L1 c).
Proof. intros HL (r & -> & R & B). unfold fl_default_log_sf. cbn [xopp]. apply (log1p_fn_range _ _ HL); [apply repr_opp; auto|lra]. Qed.
Lemma log_sf_of_cdf L1 f : log1p_fn dt L1 -> (forall v, value dt v -> v <> NaN -> probability dt (f v)) -> increasing_from_to dt f (Fin 0) (Fin 1) ->
  decreasing_from_to dt (fun v => fl_default_log_sf L1 (f v)) (Fin 0) NInf.
Proof.
  intros HL R (M & A & B). split; [|split].
  - intros v w V W H. destruct (R v V (fle_nan_l _ _ H)) as (x & Ex & Rx & Bx). destruct (R w W (fle_nan_r _ _ H)) as (y & Ey & Ry & By).
    specialize (M v w V W H). rewrite Ex, Ey in *. apply fle_fin in M. unfold fl_default_log_sf. cbn [xopp]. apply (log1p_fn_mono _ _ HL); [apply repr_opp; auto|apply repr_opp; auto|lra|lra].
  - rewrite A. unfold fl_default_log_sf. cbn [xopp]. rewrite Ropp_0. apply (log1p_fn_zero _ _ HL).
  - rewrite B. unfold fl_default_log_sf. cbn [xopp]. apply (log1p_fn_minus_one _ _ HL).
Qed.
Lemma exp_nonneg E : exp_fn dt E -> forall x, value dt x -> x <> NaN -> fle (Fin 0) (E x).
Proof. intros HE x V N. rewrite <- (exp_fn_ninf _ _ HE). apply (exp_fn_mono _ _ HE); auto; [exact I|apply fle_NInf; auto]. Qed.
Lemma exp_le_1 E : exp_fn dt E -> forall x, value dt x -> fle x (Fin 0) -> probability dt (E x).
Proof.
  intros HE x V H. pose proof (exp_nonneg E HE x V (fle_nan_l _ _ H)) as P. pose proof (exp_fn_mono _ _ HE x (Fin 0) V (repr_0 dt) H) as U.
  rewrite (exp_fn_zero _ _ HE) in U. pose proof (exp_fn_value _ _ HE x V) as Vx. destruct (E x) as [r| | |]; try discriminate P; try discriminate U.
  apply fle_fin in P, U. exists r. auto.
Qed.
Lemma gumbel_log_range E : exp_fn dt E -> forall v, value dt v -> v <> NaN -> log_probability dt (fl_gumbel_log_cdf dt E v (Fin loc) (Fin s)).
Proof.
  intros HE v V N. unfold fl_gumbel_log_cdf. split; [apply value_opp, (exp_fn_value _ _ HE), value_opp, Z_value|].
  assert (P : fle (Fin 0) (E (xopp (fl_standardize dt v (Fin loc) (Fin s))))) by (apply exp_nonneg; auto; [apply value_opp, Z_value|apply opp_nan, Z_nan; auto]).
  apply xopp_anti in P. cbn in P. rewrite Ropp_0 in P. auto.
Qed.
Lemma gumbel_log_up E : exp_fn dt E -> increasing_from_to dt (fun v => fl_gumbel_log_cdf dt E v (Fin loc) (Fin s)) NInf (Fin 0).
Proof.
  intros HE. unfold fl_gumbel_log_cdf. apply (up_Z dt loc s s_pos (fun z => xopp (E (xopp z)))); auto.
  replace (Fin 0) with (xopp (Fin 0)) by (cbn; f_equal; lra). apply (up_opp dt (fun z => E (xopp z)) PInf (Fin 0)). apply down_mirror; auto.
  split; [apply (exp_fn_mono _ _ HE)|split; [apply (exp_fn_ninf _ _ HE)|apply (exp_fn_inf _ _ HE)]].
Qed.
Theorem C107_gumbel E L1 : exp_fn dt E -> log1p_fn dt L1 ->
  let t := fl_gumbel_tails dt E L1 (Fin loc) (Fin s) in proper_tails dt (t_cdf t) (t_log_cdf t) (t_sf t) (t_log_sf t).
Proof.
  intros HE HL t. subst t. cbn [t_cdf t_log_cdf t_sf t_log_sf fl_gumbel_tails]. pose proof (gumbel_log_range E HE) as LR. pose proof (gumbel_log_up E HE) as LU.
  assert (CR : forall v, value dt v -> v <> NaN -> probability dt (fl_default_cdf E (fl_gumbel_log_cdf dt E v (Fin loc) (Fin s)))).
  { intros v V N. destruct (LR v V N). apply exp_le_1; auto. }
  assert (CU : increasing_from_to dt (fun v => fl_default_cdf E (fl_gumbel_log_cdf dt E v (Fin loc) (Fin s))) (Fin 0) (Fin 1)).
  { destruct LU as (M & A & B). split; [|split].
    - intros v w V W H. apply (exp_fn_mono _ _ HE); auto; [apply LR|apply LR]; auto; [apply (fle_nan_l _ _ H)|apply (fle_nan_r _ _ H)].
    - rewrite A. apply (exp_fn_ninf _ _ HE). - rewrite B. apply (exp_fn_zero _ _ HE). }
  split; intros; auto.
  - apply one_minus_probability; auto.
  - apply log1p_neg_probability; auto.
  - apply (sf_of_cdf (fun v => fl_default_cdf E (fl_gumbel_log_cdf dt E v (Fin loc) (Fin s)))); auto.
  - apply (log_sf_of_cdf L1 (fun v => fl_default_cdf E (fl_gumbel_log_cdf dt E v (Fin loc) (Fin s)))); auto.
Qed.

(** ** Laplace *)
Lemma repr_phalf : repr dt (1 / 2).
Proof.
  pose proof (mant_ok dt). pose proof (exp_ok dt). pose proof (maxpow_ge_2 dt). split; [|rewrite Rabs_pos_eq; lra].
  replace (1 / 2) with (bpow radix2 (-1)) by (cbn; lra). apply F_bpow. unfold emin. lia.
Qed.
Lemma repr_mhalf : repr dt (- (1 / 2)).
Proof. apply repr_opp, repr_phalf. Qed.
Lemma half_fround x : fround dt (Fin (1 / 2 * x)) = fround dt (xmul (Fin (1 / 2)) (Fin x)). Proof. reflexivity. Qed.
Lemma round_in x a b : repr dt a -> repr dt b -> a <= x <= b -> exists r, fround dt (Fin x) = Fin r /\ repr dt r /\ a <= r <= b.
Proof.
  intros Ra Rb H. pose proof (fround_between dt x a b Ra Rb H). rewrite (fround_ok dt x a b); auto.
  - exists (rnd dt x). split; [auto|]. assert (a <= rnd dt x <= b) by (split; [apply rnd_ge_F; [apply Ra|lra]|apply rnd_le_F; [apply Rb|lra]]). split; [|auto].
    split; [apply F_rnd|]. destruct Ra as [_ Ba], Rb as [_ Bb]. apply Rabs_def2 in Ba, Bb. apply Rabs_def1; lra.
  - split; [apply rnd_ge_F; [apply Ra|lra]|apply rnd_le_F; [apply Rb|lra]].
Qed.
Section Laplace.
Variables (E X L1 : XR -> XR) (c : R).
Hypothesis HE : exp_fn dt E.
Hypothesis HX : expm1_fn dt X.
Hypothesis HL : log1p_fn dt L1.
Hypothesis Rc : repr dt c.
Hypothesis c_pos : 0 <= c.
(** the dtype's value of [log 2] is not below the library's [- log1p(-1/2)] *)
Hypothesis meet : fle (Fin (- c)) (L1 (Fin (- (1 / 2)))).

Lemma upper z : value dt z -> fle (Fin 0) z -> exists r, fmul dt (Fin (- (1 / 2))) (E (xopp (xabs z))) = Fin r /\ repr dt r /\ - (1 / 2) <= r <= 0 /\
  forall w, value dt w -> fle z w -> fle (Fin r) (fmul dt (Fin (- (1 / 2))) (E (xopp (xabs w)))).
Proof.
  intros V P. assert (A : forall w, fle (Fin 0) w -> xopp (xabs w) = xopp w).
  { intros [w| | |] H; try discriminate H; try reflexivity. apply fle_fin in H. cbn. rewrite Rabs_pos_eq; auto. }
  assert (N : fle (xopp z) (Fin 0)) by (apply xopp_anti in P; cbn in P; rewrite Ropp_0 in P; auto).
  destruct (exp_le_1 E HE (xopp z)) as (r & Er & Rr & B); [apply value_opp; auto|auto|]. rewrite A, Er by auto. unfold fmul. rewrite xmul_fin.
  destruct (round_in (- (1 / 2) * r) (- (1 / 2)) 0) as (q & Eq & Rq & Bq); [apply repr_mhalf|apply repr_0|lra|].
  exists q. split; [auto|]. split; [auto|]. split; [auto|]. intros w W H. assert (P' : fle (Fin 0) w) by (eapply fle_trans; eauto). rewrite A by auto.
  rewrite <- Eq. apply fround_mono. rewrite <- xmul_fin. apply xmul_neg_anti; [lra|]. rewrite <- Er. apply (exp_fn_mono _ _ HE); [apply value_opp; auto|apply value_opp; auto|apply xopp_anti; auto].
Qed.
Lemma log_laplace_range z : value dt z -> z <> NaN -> log_probability dt (fl_log_cdf_laplace dt E L1 (Fin c) z).
Proof.
  intros V N. unfold fl_log_cdf_laplace. destruct (xleb z (Fin 0)) eqn:Q.
  - split; [apply value_round|]. apply fround_nonpos. destruct z as [z| | |]; try discriminate Q; try congruence; [|reflexivity].
    apply xleb_fin in Q. rewrite xsub_fin. apply fle_fin. lra.
  - assert (P : fle (Fin 0) z). { destruct z as [z| | |]; try discriminate Q; try congruence; try reflexivity. apply xleb_fin_f in Q. apply fle_fin; lra. }
    destruct (upper z V P) as (r & -> & Rr & B & _). apply (log1p_fn_range _ _ HL); auto; lra.
Qed.
Lemma log_laplace_up : increasing_from_to dt (fl_log_cdf_laplace dt E L1 (Fin c)) NInf (Fin 0).
Proof.
  split; [|split].
  - intros v w V W H. unfold fl_log_cdf_laplace. destruct (xleb v (Fin 0)) eqn:Qv, (xleb w (Fin 0)) eqn:Qw.
    + apply fround_mono. apply xadd_mono; auto; cbn; congruence.
    + assert (P : fle (Fin 0) w). { pose proof (fle_nan_r _ _ H). destruct w as [w| | |]; try discriminate Qw; try congruence; try reflexivity. apply xleb_fin_f in Qw. apply fle_fin; lra. }
      destruct (upper w W P) as (r & -> & Rr & B & _). apply fle_trans with (Fin (- c)).
      * rewrite <- (fround_repr dt (- c)) by (apply repr_opp; auto). apply fround_mono. destruct v as [v| | |]; try discriminate Qv; [|reflexivity].
        apply xleb_fin in Qv. rewrite xsub_fin. apply fle_fin. lra.
      * eapply fle_trans; [apply meet|]. apply (log1p_fn_mono _ _ HL); auto; [apply repr_mhalf|lra|lra].
    + exfalso. assert (T : fle v (Fin 0)) by (eapply fle_trans; eauto). unfold fle in T. congruence.
    + assert (P : fle (Fin 0) v). { pose proof (fle_nan_l _ _ H). destruct v as [v| | |]; try discriminate Qv; try congruence; try reflexivity. apply xleb_fin_f in Qv. apply fle_fin; lra. }
      destruct (upper v V P) as (r & Er & Rr & B & M). specialize (M w W H). rewrite Er. destruct (upper w W) as (q & Eq & Rq & Bq & _); [eapply fle_trans; eauto|].
      rewrite Eq in *. apply fle_fin in M. apply (log1p_fn_mono _ _ HL); auto; lra.
  - reflexivity.
  - unfold fl_log_cdf_laplace. cbn [xabs xopp]. rewrite (exp_fn_ninf _ _ HE). unfold fmul. rewrite xmul_fin, Rmult_0_r, fround_0. apply (log1p_fn_zero _ _ HL).
Qed.
Lemma laplace_cdf_form z : value dt z -> z <> NaN -> exists h, repr dt h /\ 0 <= h <= 1 / 2 /\
  fl_laplace_cdf dt X z = fround dt (Fin (if xltb z (Fin 0) then 1 / 2 - h else 1 / 2 + h)) /\
  fround dt (Fin (1 / 2 * toR (X (xopp (xabs z))))) = Fin (- h) /\ (z = Fin 0 -> h = 0).
Proof.
  intros V N. set (a := xopp (xabs z)). assert (Va : value dt a) by (apply value_opp; destruct z; cbn; auto; unfold Rabs; destruct Rcase_abs; auto; apply repr_opp; auto).
  assert (La : fle a (Fin 0)). { destruct z as [r| | |]; try congruence; try reflexivity. cbn. pose proof (Rabs_pos r). apply fle_fin. lra. }
  destruct (expm1_fn_range _ _ HX a Va La) as (x & Ex & Rx & Bx). rewrite Ex. cbn [toR].
  destruct (round_in (1 / 2 * x) (- (1 / 2)) 0) as (q & Eq & Rq & Bq); [apply repr_mhalf|apply repr_0|lra|]. exists (- q). rewrite Ropp_involutive.
  split; [apply repr_opp; auto|]. split; [lra|]. split; [|split; [auto|]].
  - unfold fl_laplace_cdf. fold a. rewrite Ex. unfold fl_sign. destruct z as [r| | |]; try congruence.
    + destruct (xltb (Fin 0) (Fin r)) eqn:P1; [|destruct (xltb (Fin r) (Fin 0)) eqn:P2].
      * apply xltb_fin in P1. rewrite (proj2 (xltb_fin_f r 0)) by lra. unfold fmul. rewrite xmul_fin, Rmult_1_r, (fround_repr dt (1 / 2)) by apply repr_phalf. rewrite xmul_fin, Eq. unfold fsub. rewrite xsub_fin. do 2 f_equal; lra.
      * unfold fmul. rewrite xmul_fin. replace (1 / 2 * -1) with (- (1 / 2)) by lra. rewrite (fround_repr dt (- (1 / 2))) by apply repr_mhalf. rewrite xmul_fin.
        replace (Fin (- (1 / 2) * x)) with (xopp (Fin (1 / 2 * x))) by (cbn; f_equal; lra). rewrite fround_opp', Eq. cbn [xopp]. unfold fsub. rewrite xsub_fin. do 2 f_equal; lra.
      * apply xltb_fin_f in P1, P2. assert (r = 0) by lra. subst r. assert (x = 0).
        { unfold a in Ex. cbn in Ex. rewrite Rabs_R0, Ropp_0, (expm1_fn_zero _ _ HX) in Ex. congruence. } subst x. rewrite Rmult_0_r, fround_0 in Eq. injection Eq as <-.
        unfold fmul. rewrite xmul_fin, Rmult_0_r, fround_0, xmul_fin, Rmult_0_r, fround_0. unfold fsub. rewrite xsub_fin. do 2 f_equal; lra.
    + cbn [xltb]. unfold fmul. rewrite xmul_fin, Rmult_1_r, (fround_repr dt (1 / 2)) by apply repr_phalf. rewrite xmul_fin, Eq. unfold fsub. rewrite xsub_fin. do 2 f_equal; lra.
    + cbn [xltb]. unfold fmul. rewrite xmul_fin. replace (1 / 2 * -1) with (- (1 / 2)) by lra. rewrite (fround_repr dt (- (1 / 2))) by apply repr_mhalf. rewrite xmul_fin.
      replace (Fin (- (1 / 2) * x)) with (xopp (Fin (1 / 2 * x))) by (cbn; f_equal; lra). rewrite fround_opp', Eq. cbn [xopp]. unfold fsub. rewrite xsub_fin. do 2 f_equal; lra.
  - intros ->. unfold a in Ex. cbn in Ex. rewrite Rabs_R0, Ropp_0, (expm1_fn_zero _ _ HX) in Ex. injection Ex as <-. rewrite Rmult_0_r, fround_0 in Eq. injection Eq as <-. lra.
Qed.
Lemma laplace_cdf_range z : value dt z -> z <> NaN -> probability dt (fl_laplace_cdf dt X z).
Proof.
  intros V N. destruct (laplace_cdf_form z V N) as (h & Rh & Bh & -> & _). destruct (round_in (if xltb z (Fin 0) then 1 / 2 - h else 1 / 2 + h) 0 1) as (q & Eq & Rq & Bq); [apply repr_0|apply repr_1| |exists q; auto].
  destruct (xltb z (Fin 0)); lra.
Qed.
Lemma h_mono z w h k : value dt z -> value dt w -> fle (xabs z) (xabs w) ->
  fround dt (Fin (1 / 2 * toR (X (xopp (xabs z))))) = Fin (- h) -> fround dt (Fin (1 / 2 * toR (X (xopp (xabs w))))) = Fin (- k) -> h <= k.
Proof.
  intros V W H Hh Hk. assert (G : forall u, value dt u -> value dt (xopp (xabs u))) by (intros u Vu; apply value_opp; destruct u; cbn; auto; unfold Rabs; destruct Rcase_abs; auto; apply repr_opp; auto).
  assert (L : forall u, u <> NaN -> fle (xopp (xabs u)) (Fin 0)) by (intros [r| | |] Nu; try congruence; try reflexivity; cbn; pose proof (Rabs_pos r); apply fle_fin; lra).
  assert (Nz : z <> NaN) by (intros ->; discriminate H). assert (Nw : w <> NaN) by (intros ->; destruct (xabs z); discriminate H).
  destruct (expm1_fn_range _ _ HX _ (G z V) (L z Nz)) as (x & Ex & _). destruct (expm1_fn_range _ _ HX _ (G w W) (L w Nw)) as (y & Ey & _).
  pose proof (expm1_fn_mono _ _ HX _ _ (G w W) (G z V) (xopp_anti _ _ H) (L z Nz)) as M. rewrite Ex, Ey in *. cbn [toR] in *. apply fle_fin in M.
  assert (T : fle (Fin (- k)) (Fin (- h))). { rewrite <- Hh, <- Hk. apply fround_mono, fle_fin. lra. } apply fle_fin in T. lra.
Qed.
Lemma laplace_cdf_up : increasing_from_to dt (fl_laplace_cdf dt X) (Fin 0) (Fin 1).
Proof.
  split; [|split].
  - intros v w V W H. pose proof (fle_nan_l _ _ H) as Nv. pose proof (fle_nan_r _ _ H) as Nw.
    destruct (laplace_cdf_form v V Nv) as (h & Rh & Bh & -> & Eh & _). destruct (laplace_cdf_form w W Nw) as (k & Rk & Bk & -> & Ek & _).
    apply fround_mono, fle_fin. destruct (xltb v (Fin 0)) eqn:Qv, (xltb w (Fin 0)) eqn:Qw; try lra.
    + assert (k <= h); [|lra]. apply (h_mono w v); auto. destruct v as [v| | |], w as [w| | |]; try discriminate Qv; try discriminate Qw; try discriminate H; try reflexivity.
      apply xltb_fin in Qv, Qw. apply fle_fin in H. apply fle_fin. rewrite (Rabs_left w), (Rabs_left v) by auto. lra.
    + exfalso. destruct v as [v| | |], w as [w| | |]; try discriminate Qv; try discriminate Qw; try discriminate H; try congruence. apply xltb_fin_f in Qv. apply xltb_fin in Qw. apply fle_fin in H. lra.
    + assert (h <= k); [|lra]. apply (h_mono v w); auto. destruct v as [v| | |], w as [w| | |]; try discriminate Qv; try discriminate Qw; try discriminate H; try congruence; try reflexivity.
      apply xltb_fin_f in Qv, Qw. apply fle_fin in H. apply fle_fin. rewrite (Rabs_pos_eq w), (Rabs_pos_eq v) by auto. lra.
  - unfold fl_laplace_cdf. cbn [xabs xopp fl_sign xltb]. rewrite (expm1_fn_ninf _ _ HX). unfold fmul. rewrite xmul_fin. replace (1 / 2 * -1) with (- (1 / 2)) by lra. rewrite (fround_repr dt _ repr_mhalf), xmul_fin.
    replace (- (1 / 2) * -1) with (1 / 2) by lra. rewrite (fround_repr dt _ repr_phalf). unfold fsub. rewrite xsub_fin, Rminus_diag_eq by auto. apply fround_0.
  - unfold fl_laplace_cdf. cbn [xabs xopp fl_sign xltb]. rewrite (expm1_fn_ninf _ _ HX). unfold fmul. rewrite xmul_fin, Rmult_1_r. rewrite (fround_repr dt _ repr_phalf), xmul_fin.
    replace (1 / 2 * -1) with (- (1 / 2)) by lra. rewrite (fround_repr dt _ repr_mhalf). unfold fsub. rewrite xsub_fin. replace (1 / 2 - - (1 / 2)) with 1 by lra. apply fround_repr, repr_1.
Qed.
Theorem C107_laplace :
  let t := fl_laplace_tails dt E X L1 (Fin c) (Fin loc) (Fin s) in proper_tails dt (t_cdf t) (t_log_cdf t) (t_sf t) (t_log_sf t).
Proof.
  intros t. subst t. cbn [t_cdf t_log_cdf t_sf t_log_sf fl_laplace_tails]. pose proof laplace_cdf_up as CU. pose proof log_laplace_up as LU.
  assert (CR : forall v, value dt v -> v <> NaN -> probability dt (fl_laplace_cdf dt X (fl_standardize dt v (Fin loc) (Fin s)))) by (intros v V N; apply laplace_cdf_range; [apply Z_value|apply Z_nan; auto]).
  pose proof (up_Z dt loc s s_pos _ _ _ CU) as CZ. cbv beta in CZ. split; intros; auto.
  - apply one_minus_probability; auto.
  - apply log_laplace_range; [apply Z_value|apply Z_nan; auto].
  - apply log_laplace_range; [apply value_opp, Z_value|apply opp_nan, Z_nan; auto].
  - apply (sf_of_cdf (fun v => fl_laplace_cdf dt X (fl_standardize dt v (Fin loc) (Fin s)))); auto.
  - apply up_Z; auto.
  - apply (down_Z dt loc s s_pos (fun z => fl_log_cdf_laplace dt E L1 (Fin c) (xopp z))). apply (down_mirror dt (fl_log_cdf_laplace dt E L1 (Fin c)) NInf (Fin 0)); auto.
Qed.
End Laplace.
End Families.

(** The upper tail of the law is the lower tail of the mirrored law, bit for bit. *)
Lemma Z_mirror dt loc s v : 0 < s -> fl_standardize dt (xopp v) (Fin (- loc)) (Fin s) = xopp (fl_standardize dt v (Fin loc) (Fin s)).
Proof.
  intros P. unfold fl_standardize, fsub, fdiv. rewrite <- fround_opp', <- xdiv_opp by auto. rewrite <- fround_opp'. do 4 f_equal.
  destruct v; cbn; try reflexivity. f_equal. lra.
Qed.
Theorem C107_mirror dt N LN G S E X L1 c loc s v : 0 < s ->
  let nt l := fl_normal_tails dt N LN (Fin l) (Fin s) in let lt l := fl_logistic_tails dt G S (Fin l) (Fin s) in
  let pt l := fl_laplace_tails dt E X L1 c (Fin l) (Fin s) in
  t_sf (nt loc) v = t_cdf (nt (- loc)) (xopp v) /\ t_log_sf (nt loc) v = t_log_cdf (nt (- loc)) (xopp v) /\
  t_sf (lt loc) v = t_cdf (lt (- loc)) (xopp v) /\ t_log_sf (lt loc) v = t_log_cdf (lt (- loc)) (xopp v) /\
  t_log_sf (pt loc) v = t_log_cdf (pt (- loc)) (xopp v).
Proof.
  intros P nt lt pt. subst nt lt pt. cbn [t_cdf t_log_cdf t_sf t_log_sf fl_normal_tails fl_logistic_tails fl_laplace_tails].
  rewrite Z_mirror by auto. repeat split; auto. do 2 f_equal. destruct (fl_standardize dt v (Fin loc) (Fin s)); cbn; try reflexivity. f_equal. lra.
Qed.

(** ** Correctly rounded functions satisfy the assumptions, in every dtype *)
Lemma up_rounded dt (F : R -> R) a b : (forall x y, x <= y -> F x <= F y) -> (forall x, a <= F x <= b) -> repr dt a -> repr dt b ->
  increasing_from_to dt (fun x => match x with Fin z => fround dt (Fin (F z)) | NInf => Fin a | PInf => Fin b | NaN => NaN end) (Fin a) (Fin b).
Proof.
  intros M B Ra Rb. split; [|auto]. assert (T : forall z, fle (Fin a) (fround dt (Fin (F z))) /\ fle (fround dt (Fin (F z))) (Fin b)).
  { intros z. rewrite <- (fround_repr dt a), <- (fround_repr dt b) by auto. split; apply fround_mono, fle_fin, B. }
  assert (a <= b) by (pose proof (B 0); lra).
  intros [v| | |] [w| | |] _ _ H'; try discriminate H'; try apply T; try (apply fle_fin; lra). apply fround_mono, fle_fin, M, fle_fin, H'.
Qed.
Definition r_cdf dt (F : R -> R) (x : XR) : XR := match x with Fin z => fround dt (Fin (F z)) | NInf => Fin 0 | PInf => Fin 1 | NaN => NaN end.
Definition r_log_cdf dt (F : R -> R) (x : XR) : XR := match x with Fin z => fround dt (xlog (Fin (F z))) | NInf => NInf | PInf => Fin 0 | NaN => NaN end.
Definition r_expm1 dt (x : XR) : XR := fround dt (xsub (xexp x) (Fin 1)).
Definition r_log1p dt (x : XR) : XR := fround dt (xlog (xadd (Fin 1) x)).
Lemma rounded_cdf dt F : (forall x y, x <= y -> F x <= F y) -> (forall x, 0 <= F x <= 1) -> cdf_fn dt (r_cdf dt F).
Proof.
  intros M B. split; [|apply (up_rounded dt F 0 1); auto; [apply repr_0|apply repr_1]].
  intros [z| | |] _ N; try congruence; cbn; [|exists 1; split; [auto|split; [apply repr_1|lra]]|exists 0; split; [auto|split; [apply repr_0|lra]]].
  destruct (round_in dt (F z) 0 1) as (q & Eq & Rq & Bq); [apply repr_0|apply repr_1|apply B|exists q; auto].
Qed.
Lemma rounded_log_cdf dt F : (forall x y, x <= y -> F x <= F y) -> (forall x, 0 < F x <= 1) -> log_cdf_fn dt (r_log_cdf dt F).
Proof.
  intros M B. assert (U : forall z, ln (F z) <= 0). { intros z. destruct (B z) as [P [Q|Q]]; [rewrite <- ln_1; left; apply ln_increasing; auto|rewrite Q, ln_1; lra]. }
  assert (T : forall z, fle (fround dt (rlog (F z))) (Fin 0)) by (intros z; rewrite rlog_pos by apply B; apply fround_nonpos, fle_fin, U). split.
  - intros [z| | |] _ N; try congruence; cbn; (split; [try apply value_round; try apply repr_0; try exact I|]); try apply T; try reflexivity. apply fle_fin; lra.
  - split; [|auto]. intros [v| | |] [w| | |] _ _ H'; try discriminate H'; cbn [r_log_cdf xlog]; try apply T; try (apply fle_fin; lra); try reflexivity.
    + apply fround_mono. rewrite !rlog_pos by apply B. apply fle_fin. apply fle_fin in H'. destruct (M _ _ H') as [Q| ->]; [left; apply ln_increasing; [apply B|auto]|lra].
    + apply fle_NInf. apply fround_nan. rewrite rlog_pos by apply B. discriminate.
Qed.
Lemma rounded_expm1 dt : expm1_fn dt (r_expm1 dt).
Proof.
  assert (Rm : repr dt (-1)) by (replace (-1) with (- (1)) by lra; apply repr_opp, repr_1). split.
  - intros [x| | |] _ H; try discriminate H.
    + apply fle_fin in H. unfold r_expm1. cbn [xexp]. rewrite xsub_fin. pose proof (exp_pos x). assert (exp x <= 1) by (rewrite <- exp_0; destruct H as [H| ->]; [left; apply exp_increasing; auto|lra]).
      apply round_in; [auto|apply repr_0|lra].
    + exists (-1). unfold r_expm1. cbn [xexp]. rewrite xsub_fin. replace (0 - 1) with (-1) by lra. rewrite fround_repr by auto. split; [auto|]. split; [auto|lra].
  - intros x y _ _ H _. apply fround_mono. apply (xadd_mono _ _ (Fin (- (1)))); try discriminate. destruct x as [x| | |], y as [y| | |]; try discriminate H; try reflexivity; cbn.
    + apply fle_fin in H. apply fle_fin. destruct H as [H| ->]; [left; apply exp_increasing; auto|lra].
    + apply fle_fin. left. apply exp_pos.
    + apply fle_fin. lra.
  - unfold r_expm1. cbn [xexp]. rewrite exp_0, xsub_fin, Rminus_diag_eq by auto. apply fround_0.
  - unfold r_expm1. cbn [xexp]. rewrite xsub_fin. replace (0 - 1) with (-1) by lra. apply fround_repr; auto.
Qed.
Lemma log1p_form x : -1 <= x -> xlog (xadd (Fin 1) (Fin x)) = if Rlt_dec (-1) x then Fin (ln (1 + x)) else NInf.
Proof. intros H. rewrite xadd_fin. cbn [xlog]. destruct (Rlt_dec (-1) x); [apply rlog_pos; lra|]. replace (1 + x) with 0 by lra. apply rlog_0. Qed.
Lemma rounded_log1p dt : log1p_fn dt (r_log1p dt).
Proof.
  split.
  - intros x R H. split; [apply value_round|]. unfold r_log1p. rewrite log1p_form by lra. apply fround_nonpos. destruct (Rlt_dec _ _); [|reflexivity]. apply fle_fin.
    destruct (Req_dec x 0) as [-> |N]; [rewrite Rplus_0_r, ln_1; lra|]. rewrite <- ln_1. left. apply ln_increasing; lra.
  - intros x y _ _ H Hy. unfold r_log1p. rewrite !log1p_form by lra. apply fround_mono. destruct (Rlt_dec (-1) x), (Rlt_dec (-1) y); try lra; try reflexivity.
    apply fle_fin. destruct (Req_dec x y) as [-> |N]; [lra|]. left. apply ln_increasing; lra.
  - unfold r_log1p. rewrite log1p_form by lra. destruct (Rlt_dec _ _); [|lra]. rewrite Rplus_0_r, ln_1. apply fround_0.
  - unfold r_log1p. rewrite log1p_form by lra. destruct (Rlt_dec _ _); [lra|]. reflexivity.
Qed.

(** ** Accuracy *)
Lemma slope F f z zf e t : (forall x, is_derive F x (f x)) -> (forall x, 0 <= f x <= / 2) -> (forall x, f x * Rabs x <= / 2) ->
  0 <= e <= / 32 -> 0 <= t <= e -> Rabs (zf - z) <= 9 / 4 * e * Rabs z + t -> Rabs (F zf - F z) <= 2 * e.
Proof.
  intros D B Q He Ht Hz. destruct (MVT_gen F z zf f) as (c & Hc & Eq).
  - intros x _. apply D.
  - intros x _. apply derivable_continuous_pt. exists (f x). apply is_derive_Reals, D.
  - rewrite Eq, Rabs_mult, (Rabs_pos_eq (f c)) by apply B. pose proof (B c) as Bc. pose proof (Q c) as Qc. pose proof (Rabs_pos z) as Pz. pose proof (Rabs_pos c) as Pc.
    assert (S : Rabs (c - z) <= Rabs (zf - z)).
    { unfold Rmin, Rmax in Hc. destruct (Rle_dec z zf); [rewrite !Rabs_pos_eq by lra; lra|]. rewrite !Rabs_left1 by lra. lra. }
    assert (S2 : Rabs z <= Rabs c + Rabs (c - z)). { replace z with (c - (c - z)) at 1 by ring. eapply Rle_trans; [apply Rabs_triang|]. rewrite Rabs_Ropp. lra. }
    assert (Hz2 : e * Rabs z <= / 32 * Rabs z) by (apply Rmult_le_compat_r; lra).
    assert (Bz : Rabs z <= 128 / 119 * (Rabs c + e)) by lra.
    apply Rle_trans with (f c * (9 / 4 * e * Rabs z + t)); [apply Rmult_le_compat_l; lra|].
    assert (f c * (9 / 4 * e * Rabs z) <= f c * (9 / 4 * e * (128 / 119 * (Rabs c + e)))).
    { apply Rmult_le_compat_l; [lra|]. apply Rmult_le_compat_l; lra. }
    assert (f c * (9 / 4 * e * (128 / 119 * (Rabs c + e))) = 288 / 119 * e * (f c * Rabs c) + 288 / 119 * e * (f c * e)) by field.
    assert (e * (f c * Rabs c) <= e * / 2) by (apply Rmult_le_compat_l; lra).
    assert (f c * e <= / 2 * / 32) by (apply Rmult_le_compat; lra). assert (e * (f c * e) <= e * (/ 2 * / 32)) by (apply Rmult_le_compat_l; lra).
    assert (f c * t <= / 2 * e) by (apply Rmult_le_compat; lra). lra.
Qed.
Lemma t_exp_neg t : 0 <= t -> t * exp (- t) <= / 2.
Proof.
  intros H. assert (E : (1 + t / 2) * (1 + t / 2) <= exp t).
  { replace t with (t / 2 + t / 2) at 3 by field. rewrite exp_plus. pose proof (exp_ineq1_le (t / 2)). apply Rmult_le_compat; lra. }
  rewrite exp_Ropp. apply Rmult_le_reg_r with (exp t); [apply exp_pos|]. rewrite Rmult_assoc, Rinv_l by (pose proof (exp_pos t); lra). pose proof (pow2_ge_0 (1 - t / 2)). nra.
Qed.
Lemma npdf_bounds z : 0 <= npdf z <= / 2 /\ npdf z * Rabs z <= / 2.
Proof.
  pose proof (npdf_pos z) as P. assert (Q : 2 <= sqrt (2 * PI)). { rewrite <- (sqrt_square 2) at 1 by lra. apply sqrt_le_1_alt. pose proof PI_4. pose proof PI2_1. unfold PI2 in *. lra. }
  assert (I : 0 < / sqrt (2 * PI) <= / 2) by (split; [apply Rinv_0_lt_compat; lra|apply Rinv_le_contravar; lra]).
  unfold npdf, Rdiv in *. assert (E1 : exp (- (z ^ 2 * / 2)) <= 1) by (rewrite <- exp_0; apply Raux.exp_le; pose proof (pow2_ge_0 z); lra). pose proof (exp_pos (- (z ^ 2 * / 2))) as E0.
  assert (E2 : exp (- (z ^ 2 * / 2)) * Rabs z <= 1).
  { rewrite exp_Ropp. apply Rmult_le_reg_r with (exp (z ^ 2 * / 2)); [apply exp_pos|]. pose proof (exp_pos (z ^ 2 * / 2)). rewrite Rmult_assoc, (Rmult_comm (Rabs z)), <- Rmult_assoc, Rinv_l by lra.
    pose proof (exp_ineq1_le (z ^ 2 * / 2)). rewrite <- (pow2_abs z) in *. pose proof (Rabs_pos z). pose proof (pow2_ge_0 (1 - Rabs z)). nra. }
  split; [split; [left; auto|]|].
  - apply Rle_trans with (1 * / 2); [apply Rmult_le_compat; lra|lra].
  - replace (exp (- (z ^ 2 * / 2)) * / sqrt (2 * PI) * Rabs z) with (exp (- (z ^ 2 * / 2)) * Rabs z * / sqrt (2 * PI)) by ring.
    apply Rle_trans with (1 * / 2); [|lra]. apply Rmult_le_compat; try lra. apply Rmult_le_pos; [lra|apply Rabs_pos].
Qed.
Definition sig z := / (1 + exp (- z)).
Definition dsig z := exp (- z) * (/ (1 + exp (- z))) ^ 2.
Lemma sig_derive z : is_derive sig z (dsig z).
Proof. unfold sig, dsig. pose proof (exp_pos (- z)). auto_derive; [lra|]. field. lra. Qed.
Lemma dsig_even z : dsig (- z) = dsig z.
Proof. unfold dsig. rewrite Ropp_involutive, exp_Ropp. pose proof (exp_pos z). field. split; lra. Qed.
Lemma sig_opp z : sig (- z) = 1 - sig z.
Proof. unfold sig. rewrite Ropp_involutive, exp_Ropp. pose proof (exp_pos z). field. split; lra. Qed.
Lemma sig_01 z : 0 < sig z < 1.
Proof. unfold sig. pose proof (exp_pos (- z)). split; [apply Rinv_0_lt_compat; lra|]. rewrite <- Rinv_1. apply Rinv_lt_contravar; lra. Qed.
Lemma dsig_exp z : 0 <= dsig z <= / 2 /\ dsig z <= exp (- Rabs z).
Proof.
  assert (G : forall t, 0 <= t -> 0 <= dsig t <= / 2 /\ dsig t <= exp (- t)).
  { intros t _. pose proof (sig_01 t) as (A & B). unfold dsig. fold (sig t). pose proof (exp_pos (- t)) as P. assert (E : exp (- t) = / sig t - 1) by (unfold sig; rewrite Rinv_involutive by lra; ring).
    assert (D : exp (- t) * sig t ^ 2 = sig t * (1 - sig t)) by (rewrite E; field; lra). assert (sig t ^ 2 <= 1) by nra. rewrite D at 1 2. split; [nra|]. rewrite <- (Rmult_1_r (exp (- t))) at 2. apply Rmult_le_compat_l; lra. }
  unfold Rabs. destruct (Rcase_abs z) as [H|H]; [|apply G; lra]. rewrite <- dsig_even. apply (G (- z)). lra.
Qed.
Lemma dsig_bounds z : 0 <= dsig z <= / 2 /\ dsig z * Rabs z <= / 2.
Proof.
  destruct (dsig_exp z) as (A & B). split; [auto|]. pose proof (Rabs_pos z). pose proof (t_exp_neg (Rabs z) H). rewrite Rmult_comm. eapply Rle_trans; [|exact H0]. apply Rmult_le_compat_l; auto.
Qed.
Definition two_sided (z : R) : R := if Rle_dec z 0 then exp z / 2 else 1 - exp (- z) / 2.
Lemma two_sided_derive z : is_derive two_sided z (exp (- Rabs z) / 2).
Proof. rewrite <- Laplace.lap_pdf_abs. apply Laplace.lap_density. Qed.
Lemma lap_bounds z : 0 <= exp (- Rabs z) / 2 <= / 2 /\ exp (- Rabs z) / 2 * Rabs z <= / 2.
Proof.
  pose proof (Rabs_pos z) as P. pose proof (exp_pos (- Rabs z)). assert (exp (- Rabs z) <= 1) by (rewrite <- exp_0; apply Raux.exp_le; lra). pose proof (t_exp_neg _ P). split; [lra|]. nra.
Qed.
Lemma two_sided_opp z : two_sided (- z) = 1 - two_sided z.
Proof. apply Props.Laplace.lap_cdf_opp. Qed.

Section Accuracy.
Variables (dt : dtype) (v loc s k : R).
Notation e := (eps dt).
Notation z := ((v - loc) / s).
Hypothesis s_pos : 0 < s.
Hypothesis Rv : repr dt v.
Hypothesis Rl : repr dt loc.
Hypothesis Rs : repr dt s.
Hypothesis Hd : Rabs (v - loc) <= maxpow dt / 2.
Hypothesis Hz : Rabs z <= maxpow dt / 4.
Hypothesis k_pos : 0 <= k.
Hypothesis e_small : e <= / 32.

Lemma the_z : exists zf, fl_standardize dt (Fin v) (Fin loc) (Fin s) = Fin zf /\ repr dt zf /\ Rabs (zf - z) <= 9 / 4 * e * Rabs z + tiny dt.
Proof. destruct (C94_standardize dt v loc s Rv Rl Rs s_pos Hd Hz) as (zf & Ez & B). exists zf. split; [auto|]. split; [|auto]. apply (fround_value dt _ _ Ez). Qed.
Lemma slope_z F f : (forall x, is_derive F x (f x)) -> (forall x, 0 <= f x <= / 2 /\ f x * Rabs x <= / 2) -> forall zf, Rabs (zf - z) <= 9 / 4 * e * Rabs z + tiny dt -> Rabs (F zf - F z) <= 2 * e.
Proof.
  intros D B zf H. pose proof (eps_pos dt). pose proof (tiny_pos dt). pose proof (tiny_le_eps dt). apply (slope F f z zf e (tiny dt)); auto; try (intros; apply B); lra.
Qed.
Lemma chain N F f zf : (forall x, is_derive F x (f x)) -> (forall x, 0 <= f x <= / 2 /\ f x * Rabs x <= / 2) ->
  (forall x, repr dt x -> close (N (Fin x)) (F x) (k * e)) -> repr dt zf -> Rabs (zf - z) <= 9 / 4 * e * Rabs z + tiny dt -> close (N (Fin zf)) (F z) ((k + 2) * e).
Proof.
  intros D B HN Rz H. destruct (HN zf Rz) as (r & -> & Hr). exists r. split; [auto|]. pose proof (slope_z F f D B zf H). replace (r - F z) with ((r - F zf) + (F zf - F z)) by ring. eapply Rle_trans; [apply Rabs_triang|]. lra.
Qed.
Lemma chain_opp N F f zf : (forall x, is_derive F x (f x)) -> (forall x, 0 <= f x <= / 2 /\ f x * Rabs x <= / 2) -> (forall x, F (- x) = 1 - F x) ->
  (forall x, repr dt x -> close (N (Fin x)) (F x) (k * e)) -> repr dt zf -> Rabs (zf - z) <= 9 / 4 * e * Rabs z + tiny dt -> close (N (Fin (- zf))) (1 - F z) ((k + 2) * e).
Proof.
  intros D B M HN Rz H. destruct (HN (- zf) (repr_opp _ _ Rz)) as (r & -> & Hr). exists r. split; [auto|]. pose proof (slope_z F f D B zf H). rewrite M in Hr. replace (r - (1 - F z)) with ((r - (1 - F zf)) - (F zf - F z)) by ring. eapply Rle_trans; [apply Rabs_triang|]. rewrite Rabs_Ropp. lra.
Qed.

(** Normal: the error of cdf and survival_function is at most [k + 2] units of roundoff of 1, however large the standardised value. *)
Theorem C107_normal_accuracy N LN : (forall x, repr dt x -> close (N (Fin x)) (ncdf x) (k * e)) ->
  let t := fl_normal_tails dt N LN (Fin loc) (Fin s) in close (t_cdf t (Fin v)) (ncdf z) ((k + 2) * e) /\ close (t_sf t (Fin v)) (1 - ncdf z) ((k + 2) * e).
Proof.
  intros HN t. subst t. cbn [t_cdf t_sf fl_normal_tails]. destruct the_z as (zf & -> & Rz & Bz). cbn [xopp]. split.
  - apply (chain N ncdf npdf); auto; [apply ncdf_derive|apply npdf_bounds].
  - apply (chain_opp N ncdf npdf); auto; [apply ncdf_derive|apply npdf_bounds|apply ncdf_opp].
Qed.
(** Logistic: the same for cdf and survival_function, and an error of (k + 4) (1 + |z|) units for their logarithms. *)
Theorem C107_logistic_accuracy G S : (forall x, repr dt x -> close (G (Fin x)) (/ (1 + exp (- x))) (k * e)) -> accurate dt k S (fun x => ln (1 + exp x)) (fun _ => True) ->
  let t := fl_logistic_tails dt G S (Fin loc) (Fin s) in let F := / (1 + exp (- z)) in
  close (t_cdf t (Fin v)) F ((k + 2) * e) /\ close (t_sf t (Fin v)) (1 - F) ((k + 2) * e) /\
  close (t_log_cdf t (Fin v)) (ln F) ((2 * k + 5) * e * (1 + Rabs z)) /\ close (t_log_sf t (Fin v)) (ln (1 - F)) ((2 * k + 5) * e * (1 + Rabs z)).
Proof.
  intros HG HS t F. subst t. cbn [t_cdf t_sf t_log_cdf t_log_sf fl_logistic_tails]. destruct the_z as (zf & -> & Rz & Bz). cbn [xopp]. change (forall x, repr dt x -> close (G (Fin x)) (sig x) (k * e)) in HG. change F with (sig z).
  split; [apply (chain G sig dsig); auto; [apply sig_derive|apply dsig_bounds]|]. split; [apply (chain_opp G sig dsig); auto; [apply sig_derive|apply dsig_bounds|apply sig_opp]|].
  assert (LS : forall x, ln (sig x) = - sp (- x)). { intros x. unfold sig, sp. rewrite ln_Rinv by (pose proof (exp_pos (- x)); lra). auto. }
  assert (W : forall x xf, repr dt xf -> Rabs (xf - x) <= 9 / 4 * e * Rabs x + tiny dt -> close (xopp (S (Fin xf))) (- sp x) ((2 * k + 5) * e * (1 + Rabs x))).
  { intros x xf Rx Bx. destruct (HS xf Rx I) as (r & -> & _ & Hr). fold (sp xf) in Hr. pose proof (sp_lip xf x) as Lp. pose proof (sp_pos xf) as Sp. rewrite (Rabs_pos_eq (sp xf)) in Hr by lra.
    exists (- r). split; [auto|]. replace (- r - - sp x) with (- ((r - sp xf) + (sp xf - sp x))) by ring. rewrite Rabs_Ropp. eapply Rle_trans; [apply Rabs_triang|].
    pose proof (eps_pos dt) as E0. pose proof (tiny_le_eps dt). pose proof (tiny_pos dt). pose proof (Rabs_pos x) as Px. pose proof (softplus_le xf) as U. fold (sp xf) in U. pose proof ln2_bounds.
    assert (Bf : Rabs xf <= 3 / 2 * Rabs x + / 32). { replace xf with ((xf - x) + x) by ring. eapply Rle_trans; [apply Rabs_triang|]. assert (e * Rabs x <= / 32 * Rabs x) by (apply Rmult_le_compat_r; lra). lra. }
    assert (Rmax xf 0 <= Rabs xf) by (apply Rmax_lub; [apply Rle_abs|apply Rabs_pos]).
    assert (K : k * e * sp xf <= k * e * (2 * (1 + Rabs x))) by (apply Rmult_le_compat_l; [apply Rmult_le_pos; lra|lra]). assert (0 <= e * Rabs x) by (apply Rmult_le_pos; lra). lra. }
  split.
  - rewrite LS. replace (Rabs z) with (Rabs (- z)) by apply Rabs_Ropp. apply W; [apply repr_opp; auto|]. replace (- zf - - z) with (- (zf - z)) by ring. rewrite !Rabs_Ropp. auto.
  - rewrite <- sig_opp, LS, Ropp_involutive. apply W; auto.
Qed.
(** Laplace: cdf within [k + 6] units and survival_function within [k + 7]. *)
Theorem C107_laplace_accuracy E X L1 c : expm1_fn dt X -> (forall x, repr dt x -> x <= 0 -> close (X (Fin x)) (exp x - 1) (k * e)) ->
  let t := fl_laplace_tails dt E X L1 c (Fin loc) (Fin s) in let F := if Rle_dec z 0 then exp z / 2 else 1 - exp (- z) / 2 in
  close (t_cdf t (Fin v)) F ((k + 6) * e) /\ close (t_sf t (Fin v)) (1 - F) ((k + 7) * e).
Proof.
  intros HX HA t F. subst t. cbn [t_cdf t_sf fl_laplace_tails]. destruct the_z as (zf & -> & Rz & Bz). change F with (two_sided z). pose proof (eps_pos dt) as E0. pose proof (tiny_le_eps dt). pose proof (tiny_pos dt). assert (K0 : 0 <= k * e) by (apply Rmult_le_pos; lra). pose proof (maxpow_ge_32 dt) as M32.
  destruct (laplace_cdf_form dt X HX (Fin zf) Rz ltac:(discriminate)) as (h & Rh & Bh & EC & Eh & _). rewrite EC. cbn [xabs xopp] in Eh.
  destruct (HA (- Rabs zf)) as (x & Ex & Hx); [apply repr_opp; unfold Rabs; destruct Rcase_abs; auto; apply repr_opp; auto|pose proof (Rabs_pos zf); lra|]. rewrite Ex in Eh. cbn [toR] in Eh.
  assert (Q : Rabs (h - (1 - exp (- Rabs zf)) / 2) <= k * e / 2 + e * (1 / 2 * Rabs x) + tiny dt).
  { destruct (rounded_accurate dt _ _ _ Eh eq_refl) as (_ & B). rewrite Rabs_mult, (Rabs_pos_eq (1 / 2)) in B by lra. replace (h - (1 - exp (- Rabs zf)) / 2) with (- ((- h - 1 / 2 * x) + 1 / 2 * (x - (exp (- Rabs zf) - 1)))) by field. rewrite Rabs_Ropp. eapply Rle_trans; [apply Rabs_triang|]. rewrite (Rabs_mult (1 / 2)), (Rabs_pos_eq (1 / 2)) by lra. lra. }
  assert (Xb : Rabs x <= 1).
  { destruct (expm1_fn_range _ _ HX (Fin (- Rabs zf))) as (x' & Ex' & _ & Bx); [cbn; apply repr_opp; unfold Rabs; destruct Rcase_abs; auto; apply repr_opp; auto|apply fle_fin; pose proof (Rabs_pos zf); lra|]. rewrite Ex in Ex'. injection Ex' as ->. apply Rabs_le. lra. }
  assert (e * (1 / 2 * Rabs x) <= e * (1 / 2)) by (apply Rmult_le_compat_l; lra).
  set (y := if xltb (Fin zf) (Fin 0) then 1 / 2 - h else 1 / 2 + h) in *.
  assert (Y : Rabs (y - two_sided zf) <= k * e / 2 + 3 / 2 * e).
  { unfold y, two_sided. destruct (xltb (Fin zf) (Fin 0)) eqn:Qs.
    - apply xltb_fin in Qs. rewrite (Rabs_left zf) in Q by auto. rewrite Ropp_involutive in Q. destruct (Rle_dec zf 0); [|lra]. replace (1 / 2 - h - exp zf / 2) with (- (h - (1 - exp zf) / 2)) by field. rewrite Rabs_Ropp. lra.
    - apply xltb_fin_f in Qs. rewrite (Rabs_pos_eq zf) in Q by auto. destruct (Rle_dec zf 0).
      + assert (zf = 0) by lra. subst zf. rewrite Ropp_0 in Q. rewrite exp_0 in *. replace (1 / 2 + h - 1 / 2) with (h - (1 - 1) / 2) by field. lra.
      + replace (1 / 2 + h - (1 - exp (- zf) / 2)) with (h - (1 - exp (- zf)) / 2) by field. lra. }
  assert (Yb : Rabs y <= 1) by (unfold y; destruct (xltb _ _); apply Rabs_le; lra).
  pose proof (slope_z two_sided (fun x => exp (- Rabs x) / 2) two_sided_derive lap_bounds zf Bz) as Sz.
  destruct (round_fin dt y) as (q & Eq & _ & Bq & _); [lra|]. rewrite Eq. clearbody y. assert (e * (Rabs y + 1) <= e * 2) by (apply Rmult_le_compat_l; lra).
  assert (Cq : Rabs (q - two_sided z) <= k * e / 2 + 11 / 2 * e).
  { replace (q - two_sided z) with ((q - y) + ((y - two_sided zf) + (two_sided zf - two_sided z))) by ring. eapply Rle_trans; [apply Rabs_triang|]. pose proof (Rabs_triang (y - two_sided zf) (two_sided zf - two_sided z)). lra. }
  split; [exists q; split; [auto|lra]|]. pose proof (laplace_cdf_range dt X HX (Fin zf) Rz ltac:(discriminate)) as (q' & E1 & Rq & Bq'). rewrite EC, Eq in E1. injection E1 as <-.
  unfold fl_default_sf, fsub. rewrite xsub_fin. destruct (round_in dt (1 - q) 0 1) as (w & Ew & _ & _); [apply repr_0|apply repr_1|lra|]. rewrite Ew. exists w. split; [auto|].
  apply fround_fin_inv in Ew as (-> & _). pose proof (sub_rel dt 1 q (repr_1 dt) Rq) as Sr. assert (e * Rabs (1 - q) <= e * 1) by (apply Rmult_le_compat_l; [lra|rewrite Rabs_pos_eq; lra]).
  replace (rnd dt (1 - q) - (1 - two_sided z)) with ((rnd dt (1 - q) - (1 - q)) - (q - two_sided z)) by ring. eapply Rle_trans; [apply Rabs_triang|]. rewrite Rabs_Ropp. lra.
Qed.
End Accuracy.

(** Laplace: log_cdf and log_survival_function are within (2 k + 11) (1 + |z|) units of roundoff, on both sides of the branch. *)
Lemma two_sided_pos x : 0 < two_sided x /\ exp (- Rabs x) / 2 <= two_sided x.
Proof.
  unfold two_sided. pose proof (exp_pos x). pose proof (exp_pos (- x)). destruct (Rle_dec x 0); [rewrite Rabs_left1, Ropp_involutive by auto; lra|]. rewrite Rabs_pos_eq by lra. assert (exp (- x) <= 1) by (rewrite <- exp_0; apply Raux.exp_le; lra). lra.
Qed.
Lemma log_two_sided_lip x y : Rabs (ln (two_sided y) - ln (two_sided x)) <= Rabs (y - x).
Proof.
  set (G := fun x => ln (two_sided x)). set (g := fun x => (exp (- Rabs x) / 2) * / two_sided x). assert (D : forall x, is_derive G x (g x)).
  { intros u. unfold G, g. apply (is_derive_comp ln two_sided u (/ two_sided u) (exp (- Rabs u) / 2)); [|apply two_sided_derive]. apply is_derive_Reals, derivable_pt_lim_ln, two_sided_pos. }
  destruct (MVT_gen G x y g) as (c & _ & Eq); [intros; apply D|intros u _; apply derivable_continuous_pt; exists (g u); apply is_derive_Reals, D|].
  change (Rabs (G y - G x) <= Rabs (y - x)). rewrite Eq, Rabs_mult. rewrite <- (Rmult_1_l (Rabs (y - x))) at 2. apply Rmult_le_compat_r; [apply Rabs_pos|]. unfold g.
  destruct (two_sided_pos c) as (A & B). pose proof (exp_pos (- Rabs c)). rewrite Rabs_pos_eq; [|apply Rmult_le_pos; [lra|left; apply Rinv_0_lt_compat; auto]]. apply Rmult_le_reg_r with (two_sided c); [auto|]. rewrite Rmult_assoc, Rinv_l by lra. lra.
Qed.
Lemma ln_half_near x y : - (1 / 2) <= x <= 0 -> - (1 / 2) <= y <= 0 -> Rabs (ln (1 + x) - ln (1 + y)) <= 2 * Rabs (x - y).
Proof.
  assert (G : forall x y, - (1 / 2) <= x <= y -> y <= 0 -> 0 <= ln (1 + y) - ln (1 + x) <= 2 * (y - x)).
  { intros u w Hu Hw. destruct (Req_dec u w) as [-> |N]; [lra|]. assert (L : ln (1 + u) < ln (1 + w)) by (apply ln_increasing; lra). split; [lra|].
    rewrite <- ln_div by lra. pose proof (exp_ineq1_le (ln ((1 + w) / (1 + u)))) as Q. rewrite exp_ln in Q by (apply Rdiv_lt_0_compat; lra).
    assert ((1 + w) / (1 + u) - 1 <= 2 * (w - u)); [|lra]. replace ((1 + w) / (1 + u) - 1) with ((w - u) * / (1 + u)) by (field; lra). rewrite (Rmult_comm 2). apply Rmult_le_compat_l; [lra|]. rewrite <- (Rinv_involutive 2) by lra. apply Rinv_le_contravar; lra. }
  intros Hx Hy. destruct (Rle_lt_dec x y) as [H|H]; [pose proof (G x y ltac:(lra) ltac:(lra))|pose proof (G y x ltac:(lra) ltac:(lra))].
  - rewrite (Rabs_left1 (x - y)) by lra. apply Rabs_le. lra. - rewrite (Rabs_pos_eq (x - y)) by lra. apply Rabs_le. lra.
Qed.
Section LogLaplace.
Variables (dt : dtype) (v loc s k c : R) (E X L1 : XR -> XR).
Notation e := (eps dt).
Notation z := ((v - loc) / s).
Hypothesis s_pos : 0 < s.
Hypothesis Rv : repr dt v.
Hypothesis Rl : repr dt loc.
Hypothesis Rs : repr dt s.
Hypothesis Hd : Rabs (v - loc) <= maxpow dt / 2.
Hypothesis Hz : Rabs z <= maxpow dt / 8.
Hypothesis k_pos : 0 <= k.
Hypothesis e_small : e <= / 32.
Hypothesis HE : exp_fn dt E.
Hypothesis AE : accurate dt k E exp (fun x => x <= 0).
Hypothesis AL : accurate dt k L1 (fun x => ln (1 + x)) (fun x => - (1 / 2) <= x <= 0).
Hypothesis Hc : Rabs (c - ln 2) <= 2 * e.

Lemma log_laplace_close x xf : repr dt xf -> Rabs x <= maxpow dt / 8 -> Rabs (xf - x) <= 9 / 4 * e * Rabs x + tiny dt ->
  close (fl_log_cdf_laplace dt E L1 (Fin c) (Fin xf)) (ln (two_sided x)) ((2 * k + 11) * e * (1 + Rabs x)).
Proof.
  intros Rx Bx Hx. pose proof (eps_pos dt) as E0. pose proof (tiny_le_eps dt). pose proof (tiny_pos dt). pose proof (Rabs_pos x) as Px. pose proof ln2_bounds as L2. pose proof (maxpow_ge_32 dt) as M32. assert (K0 : 0 <= k * e) by (apply Rmult_le_pos; lra).
  assert (K1 : 0 <= k * e * Rabs x) by (apply Rmult_le_pos; lra). assert (X1 : 0 <= e * Rabs x) by (apply Rmult_le_pos; lra).
  pose proof (log_two_sided_lip x xf) as Lp.
  assert (Bf : Rabs xf <= 3 / 2 * Rabs x + / 32). { replace xf with ((xf - x) + x) by ring. eapply Rle_trans; [apply Rabs_triang|]. assert (e * Rabs x <= / 32 * Rabs x) by (apply Rmult_le_compat_r; lra). lra. }
  assert (T : close (fl_log_cdf_laplace dt E L1 (Fin c) (Fin xf)) (ln (two_sided xf)) (2 * k * e + 3 / 2 * e * Rabs x + 10 * e)).
  { unfold fl_log_cdf_laplace. destruct (xleb (Fin xf) (Fin 0)) eqn:Q.
    - apply xleb_fin in Q. unfold two_sided. destruct (Rle_dec xf 0); [|lra]. rewrite ln_div, ln_exp by (try apply exp_pos; lra). unfold fsub. rewrite xsub_fin. apply Rabs_le_inv in Hc.
      assert (Bc : Rabs (xf - c) <= Rabs xf + 17 / 16). { unfold Rminus. eapply Rle_trans; [apply Rabs_triang|]. rewrite Rabs_Ropp. assert (Rabs c <= 17 / 16) by (apply Rabs_le; lra). lra. }
      destruct (round_close dt (xf - c)) as (q & Eq & Bq); [lra|]. rewrite Eq. exists q. split; [auto|]. assert (e * (Rabs (xf - c) + 1) <= e * (3 / 2 * Rabs x + 3)) by (apply Rmult_le_compat_l; lra).
      replace (q - (xf - ln 2)) with ((q - (xf - c)) - (c - ln 2)) by ring. eapply Rle_trans; [apply Rabs_triang|]. rewrite Rabs_Ropp. assert (Rabs (c - ln 2) <= 2 * e) by (apply Rabs_le; lra). lra.
    - apply xleb_fin_f in Q. destruct (upper dt E HE (Fin xf) Rx ltac:(apply fle_fin; lra)) as (y & Ey & Ry & By & _). rewrite Ey. cbn [xabs xopp] in Ey. rewrite (Rabs_pos_eq xf) in Ey by lra.
      destruct (AE (- xf) (repr_opp _ _ Rx) ltac:(lra)) as (w & Ew & _ & Bw). rewrite Ew in Ey. unfold fmul in Ey. rewrite xmul_fin in Ey. destruct (rounded_accurate dt _ _ _ Ey eq_refl) as (_ & Br). rewrite (Rabs_mult (- (1 / 2))), (Rabs_left (- (1 / 2))), Ropp_involutive in Br by lra.
      pose proof (exp_pos (- xf)) as P1. assert (P2 : exp (- xf) <= 1) by (rewrite <- exp_0; apply Raux.exp_le; lra). rewrite (Rabs_pos_eq (exp (- xf))) in Bw by lra. assert (k * e * exp (- xf) <= k * e * 1) by (apply Rmult_le_compat_l; lra).
      (* the computed exponential is at most 1 *)
      assert (W1 : Rabs w <= 1). { destruct (exp_le_1 dt E HE (Fin (- xf)) (repr_opp _ _ Rx)) as (w' & Ew' & _ & B'); [apply fle_fin; lra|]. rewrite Ew in Ew'. injection Ew' as ->. rewrite Rabs_pos_eq; lra. }
      assert (e * (1 / 2 * Rabs w) <= e * (1 / 2)) by (apply Rmult_le_compat_l; lra).
      assert (Dy : Rabs (y - - (exp (- xf) / 2)) <= k * e / 2 + 2 * e).
      { replace (y - - (exp (- xf) / 2)) with ((y - - (1 / 2) * w) + - (1 / 2) * (w - exp (- xf))) by field. eapply Rle_trans; [apply Rabs_triang|]. rewrite (Rabs_mult (- (1 / 2))), (Rabs_left (- (1 / 2))) by lra. lra. }
      destruct (AL y Ry By) as (r & -> & _ & Hr). exists r. split; [auto|]. unfold two_sided. destruct (Rle_dec xf 0); [lra|].
      pose proof (ln_half_near y (- (exp (- xf) / 2)) By ltac:(lra)) as D. replace (1 + - (exp (- xf) / 2)) with (1 - exp (- xf) / 2) in D by ring.
      assert (Ly : Rabs (ln (1 + y)) <= 1). { pose proof (ln_half_near y 0 By ltac:(lra)) as D0. rewrite Rplus_0_r, ln_1, !Rminus_0_r in D0. assert (Rabs y <= 1 / 2) by (apply Rabs_le; lra). lra. }
      assert (k * e * Rabs (ln (1 + y)) <= k * e * 1) by (apply Rmult_le_compat_l; lra).
      replace (r - ln (1 - exp (- xf) / 2)) with ((r - ln (1 + y)) + (ln (1 + y) - ln (1 - exp (- xf) / 2))) by ring. eapply Rle_trans; [apply Rabs_triang|]. lra. }
  destruct T as (r & -> & Br). exists r. split; [auto|]. replace (r - ln (two_sided x)) with ((r - ln (two_sided xf)) + (ln (two_sided xf) - ln (two_sided x))) by ring. eapply Rle_trans; [apply Rabs_triang|]. lra.
Qed.
Theorem C107_laplace_log_accuracy :
  let t := fl_laplace_tails dt E X L1 (Fin c) (Fin loc) (Fin s) in let F := if Rle_dec z 0 then exp z / 2 else 1 - exp (- z) / 2 in
  close (t_log_cdf t (Fin v)) (ln F) ((2 * k + 12) * e * (1 + Rabs z)) /\ close (t_log_sf t (Fin v)) (ln (1 - F)) ((2 * k + 12) * e * (1 + Rabs z)).
Proof.
  intros t F. subst t. cbn [t_log_cdf t_log_sf fl_laplace_tails]. pose proof (maxpow_pos dt). destruct (the_z dt v loc s s_pos Rv Rl Rs Hd ltac:(lra)) as (zf & -> & Rz & Bz). cbn [xopp]. change F with (two_sided z).
  pose proof (eps_pos dt). pose proof (Rabs_pos z). assert (0 <= e * Rabs z) by (apply Rmult_le_pos; lra). split.
  - eapply close_weaken; [apply log_laplace_close; auto|lra].
  - rewrite <- two_sided_opp. eapply close_weaken; [apply (log_laplace_close (- z)); [apply repr_opp; auto|rewrite Rabs_Ropp; auto|]|rewrite Rabs_Ropp; lra].
    replace (- zf - - z) with (- (zf - z)) by ring. rewrite !Rabs_Ropp. auto.
Qed.
End LogLaplace.

(** Gumbel: cdf and survival_function. *)
Lemma gum_derive x : is_derive (fun x => exp (- exp (- x))) x (exp (- x) * exp (- exp (- x))).
Proof. auto_derive; [auto|]. ring. Qed.
Lemma gum_bounds x : 0 <= exp (- x) * exp (- exp (- x)) <= / 2 /\ exp (- x) * exp (- exp (- x)) * Rabs x <= / 2.
Proof.
  pose proof (exp_pos (- x)) as P. set (w := exp (- x)) in *. pose proof (exp_pos (- w)) as Q. pose proof (t_exp_neg w ltac:(lra)) as T. split; [split; [|auto]; apply Rmult_le_pos; lra|].
  destruct (Rle_lt_dec 0 x) as [H|H].
  - rewrite Rabs_pos_eq by auto. pose proof (t_exp_neg x H) as U. fold w in U. assert (exp (- w) <= 1) by (rewrite <- exp_0; apply Raux.exp_le; lra). assert (w * exp (- w) <= w * 1) by (apply Rmult_le_compat_l; lra).
    assert (w * exp (- w) * x <= w * 1 * x) by (apply Rmult_le_compat_r; lra). lra.
  - rewrite Rabs_left by auto. pose proof (t_exp_neg (- x) ltac:(lra)) as U. rewrite Ropp_involutive in U. assert (Ew : w * exp x = 1) by (unfold w; rewrite <- exp_plus, Rplus_opp_l, exp_0; auto).
    assert (Hx : - x <= w / 2). { assert (- x * exp x * w <= / 2 * w) by (apply Rmult_le_compat_r; lra). replace (- x * exp x * w) with (- x * (w * exp x)) in H0 by ring. rewrite Ew in H0. lra. }
    pose proof (t_exp_neg (w / 2) ltac:(lra)) as V. assert (Eh : exp (- w) = exp (- (w / 2)) * exp (- (w / 2))) by (rewrite <- exp_plus; f_equal; field). pose proof (exp_pos (- (w / 2))).
    apply Rle_trans with (w * exp (- w) * (w / 2)); [apply Rmult_le_compat_l; [apply Rmult_le_pos; lra|auto]|]. rewrite Eh. replace (w * (exp (- (w / 2)) * exp (- (w / 2))) * (w / 2)) with (2 * ((w / 2 * exp (- (w / 2))) * (w / 2 * exp (- (w / 2))))) by field.
    assert (0 <= w / 2 * exp (- (w / 2))) by (apply Rmult_le_pos; lra). assert (w / 2 * exp (- (w / 2)) * (w / 2 * exp (- (w / 2))) <= / 2 * / 2) by (apply Rmult_le_compat; auto). lra.
Qed.
Lemma exp_diff d : Rabs (exp d - 1) <= Rabs d * exp (Rabs d).
Proof.
  pose proof (exp_ineq1_le d). pose proof (exp_ineq1_le (- d)). pose proof (exp_pos d). assert (Ed : exp (- d) * exp d = 1) by (rewrite <- exp_plus, Rplus_opp_l, exp_0; auto). pose proof (exp_ineq1_le (Rabs d)). pose proof (Rabs_pos d).
  destruct (Rle_lt_dec 0 d) as [D|D].
  - rewrite (Rabs_pos_eq d) in * by auto. rewrite Rabs_pos_eq by lra. assert ((1 + - d) * exp d <= exp (- d) * exp d) by (apply Rmult_le_compat_r; lra). lra.
  - rewrite (Rabs_left d) in * by auto. assert (exp d <= 1) by (rewrite <- exp_0; apply Raux.exp_le; lra). rewrite Rabs_left1 by lra. assert (- d * 1 <= - d * exp (- d)) by (apply Rmult_le_compat_l; lra). lra.
Qed.
Theorem C107_gumbel_accuracy dt v loc s k B E L1 : 0 < s -> repr dt v -> repr dt loc -> repr dt s -> Rabs (v - loc) <= maxpow dt / 2 -> Rabs ((v - loc) / s) <= maxpow dt / 4 ->
  0 <= k -> eps dt <= / 32 -> k * eps dt <= / 2 -> exp_fn dt E -> accurate dt k E exp (fun x => x <= B) -> 1 <= B -> 1 - (v - loc) / s + Rabs ((v - loc) / s) / 8 <= B ->
  let t := fl_gumbel_tails dt E L1 (Fin loc) (Fin s) in let F := exp (- exp (- ((v - loc) / s))) in
  close (t_cdf t (Fin v)) F ((4 * k + 5) * eps dt) /\ close (t_sf t (Fin v)) (1 - F) ((4 * k + 6) * eps dt).
Proof.
  intros P Rv Rl Rs Hd Hz K0 Es Ke HE HA B1 HB t F. subst t. cbn [t_cdf t_sf fl_gumbel_tails]. unfold fl_gumbel_log_cdf. destruct (the_z dt v loc s P Rv Rl Rs Hd Hz) as (zf & -> & Rz & Bz). unfold F. set (z := (v - loc) / s) in *. cbn [xopp].
  pose proof (eps_pos dt) as E0. pose proof (tiny_le_eps dt) as T1. pose proof (tiny_pos dt) as T0. pose proof (Rabs_pos z) as Pz. assert (Kp : 0 <= k * eps dt) by (apply Rmult_le_pos; lra).
  assert (Bf : - zf <= B). { apply Rabs_le_inv in Bz. assert (eps dt * Rabs z <= / 32 * Rabs z) by (apply Rmult_le_compat_r; lra). lra. }
  pose proof (slope (fun x => exp (- exp (- x))) (fun x => exp (- x) * exp (- exp (- x))) z zf (eps dt) (tiny dt) gum_derive (fun x => proj1 (gum_bounds x)) (fun x => proj2 (gum_bounds x)) ltac:(lra) ltac:(lra) Bz) as Sl. cbv beta in Sl.
  destruct (HA (- zf) (repr_opp _ _ Rz) Bf) as (w & Ew & Rw & Bw). pose proof (exp_pos (- zf)) as Pw. set (y := exp (- zf)) in *. rewrite (Rabs_pos_eq y) in Bw by lra.
  assert (W0 : 0 <= w). { pose proof (exp_nonneg dt E HE (Fin (- zf)) (repr_opp _ _ Rz) ltac:(discriminate)) as Q. rewrite Ew in Q. apply fle_fin in Q. auto. }
  rewrite Ew. cbn [xopp]. unfold fl_default_cdf. destruct (exp_le_1 dt E HE (Fin (- w)) (repr_opp _ _ Rw)) as (c & Ec & Rc & Bc); [apply fle_fin; lra|]. rewrite Ec.
  destruct (HA (- w) (repr_opp _ _ Rw) ltac:(lra)) as (c' & Ec' & _ & Bc'). rewrite Ec in Ec'. injection Ec' as <-. pose proof (exp_pos (- w)) as Pe. rewrite (Rabs_pos_eq (exp (- w))) in Bc' by lra. assert (exp (- w) <= 1) by (rewrite <- exp_0; apply Raux.exp_le; lra). assert (k * eps dt * exp (- w) <= k * eps dt * 1) by (apply Rmult_le_compat_l; lra).
  assert (Dw : Rabs (exp (- w) - exp (- y)) <= 2 * (k * eps dt) + 2 * eps dt).
  { set (d := - w + y). assert (Ed : exp (- w) = exp (- y) * exp d) by (rewrite <- exp_plus; f_equal; unfold d; ring). rewrite Ed. replace (exp (- y) * exp d - exp (- y)) with (exp (- y) * (exp d - 1)) by ring. rewrite Rabs_mult, (Rabs_pos_eq (exp (- y))) by (left; apply exp_pos).
    assert (Hd' : Rabs d <= k * eps dt * y + tiny dt) by (unfold d; replace (- w + y) with (- (w - y)) by ring; rewrite Rabs_Ropp; auto). pose proof (Rabs_pos d) as Pd. pose proof (exp_pos (- y)) as Py. pose proof (exp_pos (Rabs d)).
    assert (E1 : exp (Rabs d) <= exp (y / 2) * exp (tiny dt)). { rewrite <- exp_plus. apply Raux.exp_le. assert (k * eps dt * y <= / 2 * y) by (apply Rmult_le_compat_r; lra). lra. }
    assert (E2 : exp (tiny dt) <= 2). { pose proof (exp_ineq1_le (- tiny dt)) as Q. rewrite <- (Ropp_involutive (tiny dt)), exp_Ropp. rewrite <- (Rinv_involutive 2) by lra. apply Rinv_le_contravar; lra. }
    assert (E3 : exp (- y) * exp (y / 2) = exp (- (y / 2))) by (rewrite <- exp_plus; f_equal; field). pose proof (t_exp_neg (y / 2) ltac:(lra)) as U. pose proof (exp_pos (- (y / 2))). pose proof (exp_pos (y / 2)). assert (exp (- (y / 2)) <= 1) by (rewrite <- exp_0; apply Raux.exp_le; lra).
    apply Rle_trans with (exp (- y) * (Rabs d * (exp (y / 2) * 2))).
    - apply Rmult_le_compat_l; [lra|]. eapply Rle_trans; [apply exp_diff|]. apply Rmult_le_compat_l; [auto|]. eapply Rle_trans; [exact E1|]. apply Rmult_le_compat_l; lra.
    - replace (exp (- y) * (Rabs d * (exp (y / 2) * 2))) with (2 * (Rabs d * (exp (- y) * exp (y / 2)))) by ring. rewrite E3. apply Rle_trans with (2 * ((k * eps dt * y + tiny dt) * exp (- (y / 2)))); [apply Rmult_le_compat_l; [lra|]; apply Rmult_le_compat_r; lra|].
      replace (2 * ((k * eps dt * y + tiny dt) * exp (- (y / 2)))) with (4 * (k * eps dt) * (y / 2 * exp (- (y / 2))) + 2 * (tiny dt * exp (- (y / 2)))) by field.
      assert (4 * (k * eps dt) * (y / 2 * exp (- (y / 2))) <= 4 * (k * eps dt) * / 2) by (apply Rmult_le_compat_l; lra). assert (tiny dt * exp (- (y / 2)) <= tiny dt * 1) by (apply Rmult_le_compat_l; lra). lra. }
  assert (Cd : Rabs (c - exp (- exp (- z))) <= (4 * k + 5) * eps dt).
  { replace (c - exp (- exp (- z))) with ((c - exp (- w)) + ((exp (- w) - exp (- y)) + (exp (- y) - exp (- exp (- z))))) by ring. eapply Rle_trans; [apply Rabs_triang|]. pose proof (Rabs_triang (exp (- w) - exp (- y)) (exp (- y) - exp (- exp (- z)))). lra. }
  split; [exists c; auto|]. unfold fl_default_sf, fsub. rewrite xsub_fin. destruct (round_in dt (1 - c) 0 1) as (q & Eq & _ & _); [apply repr_0|apply repr_1|lra|]. rewrite Eq. exists q. split; [auto|].
  apply fround_fin_inv in Eq as (-> & _). pose proof (sub_rel dt 1 c (repr_1 dt) Rc) as Sr. assert (eps dt * Rabs (1 - c) <= eps dt * 1) by (apply Rmult_le_compat_l; [lra|rewrite Rabs_pos_eq; lra]).
  replace (rnd dt (1 - c) - (1 - exp (- exp (- z)))) with ((rnd dt (1 - c) - (1 - c)) - (c - exp (- exp (- z)))) by ring. eapply Rle_trans; [apply Rabs_triang|]. rewrite Rabs_Ropp. lra.
Qed.

(** ** Limits: the upper tail of Gumbel and Laplace, and Laplace's lower tail, in float32 *)
Lemma exp_m24 : / 2 ^ 39 <= exp (-24) <= / 2 ^ 30.
Proof.
  assert (A : 2.44 <= exp 1 <= 3).
  { split; [|apply exp_le_3]. replace 1 with (/ 4 + / 4 + (/ 4 + / 4)) by field. rewrite !exp_plus. pose proof (exp_ineq1_le (/ 4)) as Q. assert (1.5625 <= exp (/ 4) * exp (/ 4)) by nra. nra. }
  assert (B : exp 24 = exp 1 ^ 24). { rewrite <- (Props.FloatCatInfo.exp_nat 24). f_equal. rewrite INR_IZR_INZ. reflexivity. }
  replace (-24) with (- (24)) by lra. rewrite exp_Ropp, B. assert (C : 2.44 ^ 24 <= exp 1 ^ 24 <= 3 ^ 24) by (split; apply pow_incr; lra).
  assert (D1 : 2 ^ 30 <= 2.44 ^ 24) by (cbn; lra). assert (D2 : 3 ^ 24 <= 2 ^ 39) by (cbn; lra). assert (0 < 2 ^ 30) by (apply pow_lt; lra).
  split; apply Rinv_le_contravar; lra.
Qed.
Lemma near_one x : 1 - / 2 ^ 30 <= x <= 1 -> fround float32 (Fin x) = Fin 1.
Proof.
  intros H. assert (Q0 : fsub float32 (Fin 1) (Fin (/ 2 ^ 30)) = Fin 1).
  { assert (Ep : / 2 ^ 30 = bpow radix2 (-30)) by (change (bpow radix2 (-30)) with (/ IZR (Z.pow_pos 2 30)); f_equal; cbn; lra).
    assert (V1 : Fin (/ 2 ^ 30) = of_ieee float32 (@BinarySingleNaN.B754_finite 24 128 false 8388608 (-53) eq_refl)) by (rewrite Ep; cbn; f_equal; unfold F2R; cbn; lra).
    assert (V2 : Fin 1 = of_ieee float32 (@BinarySingleNaN.B754_finite 24 128 false 8388608 (-23) eq_refl)) by (cbn; f_equal; unfold F2R; cbn; lra).
    rewrite V2 at 1. rewrite V1, fsub_ieee, V2. apply (f_equal (of_ieee float32)). apply BinarySingleNaN.B2SF_inj. vm_compute. reflexivity. }
  apply fle_antisym.
  - rewrite <- (fround_repr float32 1) by apply repr_1. apply fround_mono, fle_fin. lra.
  - unfold fsub in Q0. rewrite xsub_fin in Q0. rewrite <- Q0 at 1. apply fround_mono, fle_fin. lra.
Qed.
Lemma near_minus_one x : -1 <= x <= -1 + / 2 ^ 30 -> fround float32 (Fin x) = Fin (-1).
Proof. intros H. replace (Fin x) with (xopp (Fin (- x))) by (cbn; f_equal; lra). rewrite fround_opp', near_one by lra. reflexivity. Qed.
Lemma int_repr n : (Z.abs n <= 1024)%Z -> repr float32 (IZR n).
Proof. intros H. apply repr_IZR; cbn; lia. Qed.
Lemma std_id n : (Z.abs n <= 1024)%Z -> fl_standardize float32 (Fin (IZR n)) (Fin 0) (Fin 1) = Fin (IZR n).
Proof. intros H. unfold fl_standardize, fsub, fdiv. rewrite xsub_fin, Rminus_0_r, fround_repr, xdiv_fin' by (try lra; apply int_repr; auto). unfold Rdiv. rewrite Rinv_1, Rmult_1_r. apply fround_repr, int_repr; auto. Qed.

(** At 24 scales above the location, Gumbel's upper tail is a normal float32 number of at least 2^-40, but survival_function is 0 and
    its logarithm minus infinity, even with correctly rounded exp and log1p: both are computed from [1 - cdf]. *)
Theorem C107_gumbel_upper_tail_refuted : let t := fl_gumbel_tails float32 (fun a => fround float32 (xexp a)) (r_log1p float32) (Fin 0) (Fin 1) in
  t_sf t (Fin 24) = Fin 0 /\ t_log_sf t (Fin 24) = NInf /\ tiny float32 < / 2 ^ 40 <= 1 - exp (- exp (- (24))).
Proof.
  intros t. subst t. cbn [t_sf t_log_sf fl_gumbel_tails]. unfold fl_gumbel_log_cdf. rewrite (std_id 24) by lia. cbn [xopp xexp]. change (- (24)) with (-24) in *. replace (- (24)) with (-24) by lra.
  pose proof exp_m24 as W. set (w := exp (-24)) in *. clearbody w. assert (P39 : / 2 ^ 39 = 2 * / 2 ^ 40) by (cbn; field). assert (P0 : 0 < / 2 ^ 40) by (apply Rinv_0_lt_compat, pow_lt; lra).
  assert (P30 : / 2 ^ 30 <= / 1024) by (apply Rinv_le_contravar; cbn; lra).
  destruct (round_in float32 w 0 (/ 2 ^ 30)) as (q & Eq & Rq & Bq); [apply repr_0| |lra|].
  { replace (/ 2 ^ 30) with (bpow radix2 (-30)) by (change (bpow radix2 (-30)) with (/ IZR (Z.pow_pos 2 30)); f_equal; cbn; lra). apply repr_pow; cbn; unfold emin; cbn; lia. }
  rewrite Eq. cbn [xopp]. unfold fl_default_cdf. cbn [xexp]. rewrite near_one.
  2: { split; [pose proof (exp_ineq1_le (- q)); lra|]. rewrite <- exp_0. apply Raux.exp_le. lra. }
  split; [|split].
  - unfold fl_default_sf, fsub. rewrite xsub_fin, Rminus_diag_eq by auto. apply fround_0.
  - unfold fl_default_log_sf. cbn [xopp]. replace (- (1)) with (-1) by lra. apply (log1p_fn_minus_one _ _ (rounded_log1p float32)).
  - split.
    + replace (/ 2 ^ 40) with (bpow radix2 (-40)) by (change (bpow radix2 (-40)) with (/ IZR (Z.pow_pos 2 40)); f_equal; cbn; lra). apply bpow_lt. reflexivity.
    + pose proof (exp_ineq1_le w) as Q. assert (exp (- w) <= / (1 + w)) by (rewrite exp_Ropp; apply Rinv_le_contravar; lra).
      assert (/ (1 + w) <= 1 - w / 2); [|lra]. apply Rmult_le_reg_l with (1 + w); [lra|]. rewrite Rinv_r by lra. nra.
Qed.
(** At 24 scales below the location, Laplace's cdf is reported as 0, although its value is a normal float32 number of at least 2^-40 and
    the same object's log_cdf is right; at 24 scales above, survival_function is 0 and log_survival_function right. *)
Theorem C107_laplace_tails_refuted : let c := Fin (rnd float32 (ln 2)) in
  let t := fl_laplace_tails float32 (fun a => fround float32 (xexp a)) (r_expm1 float32) (r_log1p float32) c (Fin 0) (Fin 1) in
  t_cdf t (Fin (-24)) = Fin 0 /\ close (t_log_cdf t (Fin (-24))) (ln (exp (-24) / 2)) (/ 2 ^ 10) /\
  t_sf t (Fin 24) = Fin 0 /\ close (t_log_sf t (Fin 24)) (ln (exp (-24) / 2)) (/ 2 ^ 10) /\ tiny float32 < / 2 ^ 40 <= exp (-24) / 2.
Proof.
  intros c t. subst t. cbn [t_cdf t_log_cdf t_sf t_log_sf fl_laplace_tails]. rewrite (std_id 24), (std_id (-24)) by lia. cbn [xopp]. replace (- (24)) with (-24) by lra. pose proof exp_m24 as W.
  assert (X : r_expm1 float32 (Fin (-24)) = Fin (-1)). { unfold r_expm1. cbn [xexp]. rewrite xsub_fin. apply near_minus_one. pose proof (exp_pos (-24)). lra. }
  assert (A : Rabs (-24) = 24) by (rewrite Rabs_left; lra). assert (A' : Rabs 24 = 24) by (rewrite Rabs_pos_eq; lra).
  assert (LC : close (fl_log_cdf_laplace float32 (fun a => fround float32 (xexp a)) (r_log1p float32) c (Fin (-24))) (ln (exp (-24) / 2)) (/ 2 ^ 10)).
  { unfold fl_log_cdf_laplace. rewrite (proj2 (xleb_fin (-24) 0)) by lra. pose proof ln2_bounds as L2. rewrite ln_div, ln_exp by (try apply exp_pos; lra). unfold c.
    pose proof (eps_pos float32). pose proof (Props.FloatViterbi.eps32) as E32. pose proof (Props.FloatCatInfo.rnd_rel float32 (ln 2)) as Hc. rewrite (Rabs_pos_eq (ln 2)) in Hc by lra. pose proof Props.FloatCatInfo.tiny32 as T. pose proof Props.FloatCatInfo.max32 as M.
    assert (T' : / 2 ^ 60 <= / 2 ^ 20) by (apply Rinv_le_contravar; [apply pow_lt; lra|apply Rle_pow; [lra|lia]]). assert (P20 : / 2 ^ 20 = / 1024 * / 1024) by (cbn; field). assert (P10 : / 2 ^ 10 = / 1024) by (cbn; field).
    assert (eps float32 * ln 2 <= eps float32 * 1) by (apply Rmult_le_compat_l; lra).
    set (l := ln 2) in *. clearbody l. set (r := rnd float32 l) in *. clearbody r. rewrite E32 in *. assert (P24 : / 2 ^ 24 = / 16 * / 2 ^ 20) by (cbn; field). apply Rabs_le_inv in Hc. assert (P20' : / 2 ^ 20 <= / 1024 * / 1024) by lra.
    unfold fsub. rewrite xsub_fin. destruct (round_close float32 (-24 - r)) as (q & Eq & Bq); [apply Rabs_le; cbn [pow] in M; lra|]. rewrite Eq. exists q. split; [auto|]. rewrite E32 in Bq.
    assert (Rabs (-24 - r) <= 26) by (apply Rabs_le; lra). assert (/ 2 ^ 24 * (Rabs (-24 - r) + 1) <= / 2 ^ 24 * 27) by (apply Rmult_le_compat_l; lra). apply Rabs_le_inv in Bq. apply Rabs_le. lra. }
  split; [|split; [exact LC|split; [|split; [exact LC|]]]].
  - unfold fl_laplace_cdf, fl_sign. rewrite (proj2 (xltb_fin_f 0 (-24))), (proj2 (xltb_fin (-24) 0)) by lra. cbn [xabs xopp]. rewrite A. replace (- (24)) with (-24) by lra. rewrite X. unfold fmul. rewrite xmul_fin. replace (1 / 2 * -1) with (- (1 / 2)) by lra. rewrite (fround_repr _ _ (repr_mhalf _)), xmul_fin.
    replace (- (1 / 2) * -1) with (1 / 2) by lra. rewrite (fround_repr _ _ (repr_phalf _)). unfold fsub. rewrite xsub_fin, Rminus_diag_eq by auto. apply fround_0.
  - unfold fl_laplace_cdf, fl_sign. rewrite (proj2 (xltb_fin 0 24)) by lra. cbn [xabs xopp]. rewrite A'. replace (- (24)) with (-24) by lra. rewrite X. unfold fmul. rewrite xmul_fin, Rmult_1_r, (fround_repr _ _ (repr_phalf _)), xmul_fin.
    replace (1 / 2 * -1) with (- (1 / 2)) by lra. rewrite (fround_repr _ _ (repr_mhalf _)). unfold fsub at 1. rewrite xsub_fin. replace (1 / 2 - - (1 / 2)) with 1 by lra. rewrite fround_repr by apply repr_1.
    unfold fl_default_sf, fsub. rewrite xsub_fin, Rminus_diag_eq by auto. apply fround_0.
  - split.
    + replace (/ 2 ^ 40) with (bpow radix2 (-40)) by (change (bpow radix2 (-40)) with (/ IZR (Z.pow_pos 2 40)); f_equal; cbn; lra). apply bpow_lt. reflexivity.
    + replace (/ 2 ^ 40) with (/ 2 ^ 39 / 2) by (cbn; field). lra.
Qed.

(** In every dtype the correctly rounded functions meet all assumptions, with [k = 2] where accuracy is assumed. *)
Lemma meet_rounded dt : fle (Fin (- rnd dt (ln 2))) (r_log1p dt (Fin (- (1 / 2)))).
Proof.
  unfold r_log1p. rewrite log1p_form by lra. destruct (Rlt_dec _ _); [|lra]. replace (1 + - (1 / 2)) with (/ 2) by lra. rewrite ln_Rinv by lra. change (Fin (- ln 2)) with (xopp (Fin (ln 2))). rewrite fround_opp'.
  pose proof ln2_bounds as L. destruct (round_in dt (ln 2) 0 1) as (q & Eq & Rq & Bq); [apply repr_0|apply repr_1|lra|]. rewrite Eq. apply fround_fin_inv in Eq as (-> & _). cbn [xopp]. apply fle_fin. lra.
Qed.
Lemma rounded_close dt F : (forall x, 0 <= F x <= 1) -> forall x, repr dt x -> close (r_cdf dt F (Fin x)) (F x) (2 * eps dt).
Proof.
  intros B x _. cbn [r_cdf]. destruct (round_in dt (F x) 0 1) as (q & Eq & Rq & Bq); [apply repr_0|apply repr_1|apply B|]. rewrite Eq. exists q. split; [auto|].
  destruct (rounded_accurate dt _ _ _ Eq eq_refl) as (_ & Q). pose proof (B x). rewrite (Rabs_pos_eq (F x)) in Q by lra. pose proof (eps_pos dt). pose proof (tiny_le_eps dt). assert (eps dt * F x <= eps dt * 1) by (apply Rmult_le_compat_l; lra). lra.
Qed.
Theorem C107_correctly_rounded dt loc s : 0 < s ->
  let E := fun a => fround dt (xexp a) in let c := Fin (rnd dt (ln 2)) in
  let ok t := proper_tails dt (t_cdf t) (t_log_cdf t) (t_sf t) (t_log_sf t) in
  ok (fl_normal_tails dt (r_cdf dt ncdf) (r_log_cdf dt ncdf) (Fin loc) (Fin s)) /\
  ok (fl_laplace_tails dt E (r_expm1 dt) (r_log1p dt) c (Fin loc) (Fin s)) /\
  ok (fl_logistic_tails dt (r_cdf dt (fun x => / (1 + exp (- x)))) (fun a => fround dt (xsoftplus a)) (Fin loc) (Fin s)) /\
  ok (fl_gumbel_tails dt E (r_log1p dt) (Fin loc) (Fin s)).
Proof.
  intros P E c ok. subst E c ok. cbv beta. assert (Nm : forall x y, x <= y -> ncdf x <= ncdf y) by (apply (density_increasing _ _ std_normal_density)).
  assert (N1 : forall x, 0 < ncdf x < 1) by (apply (density_range_strict _ _ std_normal_density); apply npdf_pos).
  assert (Sm : forall x y, x <= y -> sig x <= sig y). { intros x y H. unfold sig. apply Rinv_le_contravar; [pose proof (exp_pos (- y)); lra|]. apply Rplus_le_compat_l, Raux.exp_le. lra. }
  pose proof ln2_bounds as L2. assert (Rc : repr dt (rnd dt (ln 2)) /\ 0 <= rnd dt (ln 2)).
  { destruct (round_in dt (ln 2) 0 1) as (q & Eq & Rq & Bq); [apply repr_0|apply repr_1|lra|]. apply fround_fin_inv in Eq as (-> & _). split; [auto|lra]. }
  split; [|split; [|split]].
  - apply C107_normal; auto; [apply rounded_cdf|apply rounded_log_cdf]; auto; intros x; specialize (N1 x); lra.
  - apply C107_laplace; try apply Rc; auto using exp_rounded, rounded_expm1, rounded_log1p, meet_rounded.
  - apply C107_logistic; auto; [|apply softplus_rounded]. apply (rounded_cdf dt sig); auto. intros x. pose proof (sig_01 x). lra.
  - apply C107_gumbel; auto; [apply exp_rounded|apply rounded_log1p].
Qed.
Example C107_float32_numbers : forall N LN G S X E L1 c, (forall x, repr float32 x -> close (N (Fin x)) (ncdf x) (2 * eps float32)) ->
  (forall x, repr float32 x -> close (G (Fin x)) (/ (1 + exp (- x))) (2 * eps float32)) -> accurate float32 2 S (fun x => ln (1 + exp x)) (fun _ => True) ->
  expm1_fn float32 X -> (forall x, repr float32 x -> x <= 0 -> close (X (Fin x)) (exp x - 1) (2 * eps float32)) ->
  close (t_cdf (fl_normal_tails float32 N LN (Fin 1) (Fin 2)) (Fin 7)) (ncdf 3) (/ 2 ^ 21) /\
  close (t_cdf (fl_logistic_tails float32 G S (Fin 1) (Fin 2)) (Fin 7)) (/ (1 + exp (- (3)))) (/ 2 ^ 21) /\
  close (t_cdf (fl_laplace_tails float32 E X L1 c (Fin 1) (Fin 2)) (Fin 7)) (1 - exp (- (3)) / 2) (/ 2 ^ 21).
Proof.
  intros N LN G S X E L1 c HN HG HS HX HA. pose proof (Props.FloatViterbi.eps32) as E32. pose proof Props.FloatCatInfo.max32 as M. cbn [pow] in M. assert (P : / 2 ^ 24 = / 8 * / 2 ^ 21) by (cbn; field).
  assert (P21 : 0 < / 2 ^ 21) by (apply Rinv_0_lt_compat, pow_lt; lra). assert (Es : eps float32 <= / 32) by (rewrite E32; apply Rinv_le_contravar; cbn; lra). assert (Z : (7 - 1) / 2 = 3) by field.
  assert (A : Rabs (7 - 1) <= maxpow float32 / 2) by (rewrite Rabs_pos_eq; lra). assert (B : Rabs ((7 - 1) / 2) <= maxpow float32 / 4) by (rewrite Z, Rabs_pos_eq; lra).
  assert (R7 : repr float32 7) by (apply int_repr; lia). assert (R2 : repr float32 2) by (apply int_repr; lia). pose proof (repr_1 float32) as R1.
  destruct (C107_normal_accuracy float32 7 1 2 2 ltac:(lra) R7 R1 R2 A B Es N LN HN) as (Q1 & _).
  destruct (C107_logistic_accuracy float32 7 1 2 2 ltac:(lra) R7 R1 R2 A B ltac:(lra) Es G S HG HS) as (Q2 & _).
  destruct (C107_laplace_accuracy float32 7 1 2 2 ltac:(lra) R7 R1 R2 A B ltac:(lra) Es E X L1 c HX HA) as (Q3 & _).
  rewrite Z in *. destruct (Rle_dec 3 0); [lra|]. repeat split; (eapply close_weaken; [eassumption|lra]).
Qed.
Print Assumptions C107_correctly_rounded.
Print Assumptions C107_logistic_accuracy.
Print Assumptions C107_laplace_tails_refuted.
