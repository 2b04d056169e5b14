(** Infrastructure: floating-point values idealised as exact reals plus the three special values
    of IEEE arithmetic.  Rounding, overflow and the sign of zero are not modelled (a zero divisor
    counts as +0). *)
From Coq Require Import Reals Lra List Bool.
Import ListNotations.
Local Open Scope R_scope.

Inductive XR : Type := Fin (r : R) | PInf | NInf | NaN.

Definition xopp (a : XR) : XR := match a with Fin r => Fin (- r) | PInf => NInf | NInf => PInf | NaN => NaN end.
Definition xadd (a b : XR) : XR :=
  match a, b with
  | NaN, _ | _, NaN => NaN
  | Fin x, Fin y => Fin (x + y)
  | PInf, NInf | NInf, PInf => NaN
  | PInf, _ | _, PInf => PInf
  | NInf, _ | _, NInf => NInf
  end.
Definition xsub (a b : XR) : XR := xadd a (xopp b).
(** the sign of a real as used for inf * x *)
Definition inf_times (x : R) : XR :=
  if Rlt_dec 0 x then PInf else if Rlt_dec x 0 then NInf else NaN.
Definition xmul (a b : XR) : XR :=
  match a, b with
  | NaN, _ | _, NaN => NaN
  | Fin x, Fin y => Fin (x * y)
  | PInf, Fin x | Fin x, PInf => inf_times x
  | NInf, Fin x | Fin x, NInf => inf_times (- x)
  | PInf, PInf | NInf, NInf => PInf
  | PInf, NInf | NInf, PInf => NInf
  end.
Definition xdiv (a b : XR) : XR :=
  match a, b with
  | NaN, _ | _, NaN => NaN
  | Fin x, Fin y => if Req_EM_T y 0 then inf_times x else Fin (x / y)
  | Fin _, _ => Fin 0
  | PInf, Fin y => if Rlt_dec y 0 then NInf else PInf
  | NInf, Fin y => if Rlt_dec y 0 then PInf else NInf
  | _, _ => NaN
  end.
Definition xexp (a : XR) : XR :=
  match a with Fin x => Fin (exp x) | PInf => PInf | NInf => Fin 0 | NaN => NaN end.
Definition rlog (x : R) : XR := if Rlt_dec 0 x then Fin (ln x) else if Req_EM_T x 0 then NInf else NaN.
Definition xlog (a : XR) : XR :=
  match a with Fin x => rlog x | PInf => PInf | NInf => NaN | NaN => NaN end.
Definition xlog1p (a : XR) : XR := xlog (xadd (Fin 1) a).
Definition xsqrt (a : XR) : XR :=
  match a with Fin x => if Rle_dec 0 x then Fin (sqrt x) else NaN | PInf => PInf | _ => NaN end.
Definition xabs (a : XR) : XR := match a with Fin x => Fin (Rabs x) | PInf | NInf => PInf | NaN => NaN end.
Definition xltb (a b : XR) : bool :=
  match a, b with
  | Fin x, Fin y => if Rlt_dec x y then true else false
  | NInf, Fin _ | NInf, PInf | Fin _, PInf => true
  | _, _ => false
  end.
Definition xeqb (a b : XR) : bool :=
  match a, b with
  | Fin x, Fin y => if Req_EM_T x y then true else false
  | PInf, PInf | NInf, NInf => true
  | _, _ => false
  end.
Definition xleb (a b : XR) : bool := xltb a b || xeqb a b.
Definition xis_nan (a : XR) : bool := match a with NaN => true | _ => false end.
(** jnp.maximum / jnp.minimum propagate NaN *)
Definition xmax (a b : XR) : XR := if xis_nan a || xis_nan b then NaN else if xltb a b then b else a.
Definition xmin (a b : XR) : XR := if xis_nan a || xis_nan b then NaN else if xltb b a then b else a.
(** jnp.logaddexp: [m + log(exp(a-m) + exp(b-m))] with the infinite cases as in NumPy *)
Definition xlogaddexp (a b : XR) : XR := xlog (xadd (xexp a) (xexp b)).
(** jax.scipy.special.logsumexp over a list *)
Definition xsum (l : list XR) : XR := fold_right xadd (Fin 0) l.
Definition xlogsumexp (l : list XR) : XR := xlog (xsum (map xexp l)).
Definition finite (a : XR) : Prop := exists r, a = Fin r.
Definition toR (a : XR) : R := match a with Fin r => r | _ => 0 end.

Lemma xadd_comm a b : xadd a b = xadd b a.
Proof. destruct a, b; cbn; try reflexivity. rewrite Rplus_comm; auto. Qed.
Lemma xadd_0_l a : xadd (Fin 0) a = a.
Proof. destruct a; cbn; try reflexivity. rewrite Rplus_0_l; auto. Qed.
Lemma xadd_0_r a : xadd a (Fin 0) = a. Proof. rewrite xadd_comm; apply xadd_0_l. Qed.
Lemma xmul_comm a b : xmul a b = xmul b a.
Proof. destruct a, b; cbn; try reflexivity. rewrite Rmult_comm; auto. Qed.
Lemma xmul_1_l a : xmul (Fin 1) a = a.
Proof.
  destruct a; cbn; try reflexivity; [rewrite Rmult_1_l; auto| |]; unfold inf_times.
  - destruct (Rlt_dec 0 1); [auto|lra].
  - destruct (Rlt_dec 0 (- (1))); [lra|]. destruct (Rlt_dec (- (1)) 0); [auto|lra].
Qed.
Lemma rlog_pos x : 0 < x -> rlog x = Fin (ln x).
Proof. intros H; unfold rlog; destruct (Rlt_dec 0 x); [auto|lra]. Qed.
Lemma rlog_0 : rlog 0 = NInf.
Proof. unfold rlog; destruct (Rlt_dec 0 0); [lra|]. destruct (Req_EM_T 0 0); [auto|lra]. Qed.
Lemma rlog_neg x : x < 0 -> rlog x = NaN.
Proof. intros H; unfold rlog; destruct (Rlt_dec 0 x); [lra|]. destruct (Req_EM_T x 0); [lra|auto]. Qed.
Lemma xexp_rlog x : 0 <= x -> xexp (rlog x) = Fin x.
Proof.
  intros [H|<-]; [rewrite rlog_pos by auto; cbn; rewrite exp_ln; auto|rewrite rlog_0; reflexivity].
Qed.
Lemma xlog_xexp a : xlog (xexp a) = a.
Proof. destruct a; cbn; auto; [rewrite rlog_pos by apply exp_pos; rewrite ln_exp; auto|apply rlog_0]. Qed.
Lemma xltb_fin x y : xltb (Fin x) (Fin y) = true <-> x < y.
Proof. cbn; destruct (Rlt_dec x y); split; auto; congruence. Qed.
Lemma xltb_fin_f x y : xltb (Fin x) (Fin y) = false <-> y <= x.
Proof. cbn; destruct (Rlt_dec x y); split; auto; try congruence; lra. Qed.
Lemma xeqb_fin x y : xeqb (Fin x) (Fin y) = true <-> x = y.
Proof. cbn; destruct (Req_EM_T x y); split; auto; congruence. Qed.
Lemma xleb_fin x y : xleb (Fin x) (Fin y) = true <-> x <= y.
Proof.
  unfold xleb; rewrite orb_true_iff, xltb_fin, xeqb_fin. split; [intros []; lra|intros []; auto].
Qed.
Lemma xleb_fin_f x y : xleb (Fin x) (Fin y) = false <-> y < x.
Proof.
  destruct (xleb (Fin x) (Fin y)) eqn:E; [apply xleb_fin in E|]; split; intros H; try congruence; try lra.
  apply Rnot_le_lt. intros K. apply xleb_fin in K. congruence.
Qed.
Lemma xsum_fin l : xsum (map Fin l) = Fin (fold_right Rplus 0 l).
Proof. induction l as [|a l IH]; cbn; [auto|]. fold (xsum (map Fin l)). rewrite IH; auto. Qed.
