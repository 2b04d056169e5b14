(** C93, continued: the value returned by Sigmoid.forward in floating point, against the logistic function. *)
From Coq Require Import Reals Lra Lia.
From Flocq Require Import Core.
From Verif Require Import Base.XR Base.Float Spec.Rounding Spec.Accuracy Model.FloatBij Props.FloatBij.
Local Open Scope R_scope.

(** From -9 upwards the error is that of the library's sigmoid; below -9 the value is exp(x), larger than the
    logistic by the relative amount exp(x) < 1 / 500. *)
Theorem C93_sigmoid_forward dt k E G x : 0 <= k ->
  accurate dt k E exp (fun x => x < - 9) -> accurate dt k G logistic (fun x => - 9 <= x) -> repr dt x ->
  exists y, fl_more_stable_sigmoid E G (Fin x) = Fin y /\ repr dt y /\
    (- 9 <= x -> Rabs (y - logistic x) <= k * eps dt * logistic x + tiny dt) /\
    (x < - 9 -> Rabs (y - logistic x) <= (exp x + k * eps dt * (1 + exp x)) * logistic x + tiny dt /\ exp x < / 500).
Proof.
  intros Hk HE HG Rx. unfold fl_more_stable_sigmoid. pose proof (exp_pos x) as X0. pose proof (exp_pos (- x)) as X1.
  assert (P : 0 < logistic x) by (apply Rinv_0_lt_compat; lra).
  destruct (xltb (Fin x) (Fin (- 9))) eqn:H.
  - apply xltb_fin in H. destruct (HE x Rx H) as (y & Ey & Ry & By). exists y. split; [auto|]. split; [auto|]. split; [lra|]. intros _.
    assert (EL : exp x = (1 + exp x) * logistic x).
    { unfold logistic. rewrite exp_Ropp. field. split; lra. }
    split.
    + rewrite (Rabs_pos_eq (exp x)) in By by lra. replace (y - logistic x) with ((y - exp x) + (exp x - logistic x)) by ring.
      eapply Rle_trans; [apply Rabs_triang|]. assert (D : exp x - logistic x = exp x * logistic x) by lra.
      rewrite D, (Rabs_pos_eq (exp x * logistic x)) by (apply Rmult_le_pos; lra).
      rewrite EL in By at 2. lra.
    + apply Rlt_trans with (exp (- (9))); [apply exp_increasing; lra|]. rewrite exp_Ropp. apply Rinv_lt_contravar; [pose proof (exp_pos 9); lra|].
      pose proof (exp_ineq1 1 ltac:(lra)) as E1. assert (2 ^ 9 <= exp 1 ^ 9) by (apply pow_incr; lra).
      replace (exp 9) with (exp 1 ^ 9); [lra|]. cbn [pow]. rewrite Rmult_1_r, <- !exp_plus. f_equal. lra.
  - assert (H' : - 9 <= x) by (apply Rnot_lt_le; intros C; apply (proj2 (xltb_fin x (- 9))) in C; congruence).
    destruct (HG x Rx H') as (y & Ey & Ry & By). exists y. rewrite (Rabs_pos_eq (logistic x)) in By by lra. split; [auto|]. split; [auto|]. split; [auto|lra].
Qed.
(** the correctly rounded functions meet the hypotheses *)
Example C93_sigmoid_forward_float32 : exists y, fl_more_stable_sigmoid (r_exp float32) (fun a => match a with Fin x => fround float32 (Fin (logistic x)) | _ => NaN end) (Fin 0) = Fin y /\
  Rabs (y - / 2) <= eps float32.
Proof.
  assert (L0 : logistic 0 = / 2) by (unfold logistic; rewrite Ropp_0, exp_0; lra).
  pose proof (eps_pos float32) as E0. pose proof (tiny_le_eps float32) as Te.
  assert (HG : accurate float32 1 (fun a => match a with Fin x => fround float32 (Fin (logistic x)) | _ => NaN end) logistic (fun x => - 9 <= x)).
  { intros x _ _. pose proof (exp_pos (- x)). assert (0 < logistic x < 1) by (unfold logistic; split; [apply Rinv_0_lt_compat; lra|rewrite <- Rinv_1; apply Rinv_lt_contravar; lra]).
    destruct (fround_between float32 (logistic x) 0 1 (repr_0 _) (repr_1 _) ltac:(lra)) as (Q & _ & R1). eexists. split; [exact Q|]. eapply rounded_accurate; eauto. }
  destruct (C93_sigmoid_forward float32 1 (r_exp float32) _ 0 ltac:(lra) (exp_accurate float32) HG (repr_0 _)) as (y & Ey & _ & H & _).
  exists y. split; [exact Ey|]. rewrite L0 in H. specialize (H ltac:(lra)).
  apply Rle_trans with (1 := H). assert (tiny float32 <= / 2 * eps float32).
  { apply Rle_trans with (bpow radix2 (-25)); [apply bpow_le; unfold emin; cbn; lia|]. unfold eps. cbn. lra. }
  lra.
Qed.
Print Assumptions C93_sigmoid_forward.
