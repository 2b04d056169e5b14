(** Infrastructure: binary floating point, for the properties that are about rounding.

    A value of a dtype is an [XR] (a real or one of the three special values) whose real part is
    representable.  Every arithmetic operation is the exact operation of Base/XR.v followed by ONE
    rounding to nearest, ties to even, with gradual underflow and overflow to infinity: this is
    IEEE 754 binary arithmetic except that the two zeros are identified.  Proofs/FloatIEEE.v proves
    that addition, subtraction, multiplication and division here are those of Flocq's IEEE 754
    formalisation. *)
From Coq Require Import Reals Lra Lia List Bool ZArith.
From Flocq Require Import Core Plus_error Relative.
From Verif.Base Require Import XR.
Import ListNotations.
Local Open Scope R_scope.

(** A floating-point dtype: bits of the significand (the hidden one included) and the exponent of
    the first power of two that overflows. *)
Record dtype := Dtype { mant : Z; emax : Z; mant_ok : (2 < mant)%Z; exp_ok : (mant + 1 < emax)%Z }.
Definition float16 : dtype := Dtype 11 16 eq_refl eq_refl.
Definition bfloat16 : dtype := Dtype 8 128 eq_refl eq_refl.
Definition float32 : dtype := Dtype 24 128 eq_refl eq_refl.
Definition float64 : dtype := Dtype 53 1024 eq_refl eq_refl.

(** exponent of the smallest positive (subnormal) value *)
Definition emin (dt : dtype) : Z := (3 - emax dt - mant dt)%Z.
Definition fexp (dt : dtype) : Z -> Z := FLT_exp (emin dt) (mant dt).
Definition rnd (dt : dtype) (x : R) : R := round radix2 (fexp dt) ZnearestE x.
Definition maxpow (dt : dtype) : R := bpow radix2 (emax dt).
(** [x] is a finite value of the dtype. *)
Definition repr (dt : dtype) (x : R) : Prop := generic_format radix2 (fexp dt) x /\ Rabs x < maxpow dt.
(** unit roundoff and [jnp.finfo(dt).tiny], the smallest positive normal number *)
Definition eps (dt : dtype) : R := bpow radix2 (- mant dt).
Definition tiny (dt : dtype) : R := bpow radix2 (emin dt + mant dt - 1).

Definition fround (dt : dtype) (a : XR) : XR :=
  match a with
  | Fin r => if Rlt_dec (Rabs (rnd dt r)) (maxpow dt) then Fin (rnd dt r)
             else if Rlt_dec r 0 then NInf else PInf
  | _ => a
  end.
Definition fadd dt a b := fround dt (xadd a b).
Definition fsub dt a b := fround dt (xsub a b).
Definition fmul dt a b := fround dt (xmul a b).
Definition fdiv dt a b := fround dt (xdiv a b).
(** [fma a b c]: [a * b + c] with a single rounding, as compilers may contract it *)
Definition ffma dt a b c := fround dt (xadd (xmul a b) c).

Section Facts.
Variable dt : dtype.
Notation F := (generic_format radix2 (fexp dt)).
Notation RN := (rnd dt).

Global Instance mant_gt_0 : Prec_gt_0 (mant dt).
Proof. unfold Prec_gt_0. pose proof (mant_ok dt). lia. Qed.
Global Instance fexp_valid : Valid_exp (fexp dt).
Proof. unfold fexp. typeclasses eauto. Qed.
Global Instance fexp_monotone : Monotone_exp (fexp dt).
Proof. unfold fexp. typeclasses eauto. Qed.

Lemma emin_lt : (emin dt + mant dt < emax dt)%Z.
Proof. unfold emin. pose proof (mant_ok dt). pose proof (exp_ok dt). lia. Qed.
Lemma maxpow_pos : 0 < maxpow dt. Proof. apply bpow_gt_0. Qed.
Lemma tiny_pos : 0 < tiny dt. Proof. apply bpow_gt_0. Qed.
Lemma eps_pos : 0 < eps dt. Proof. apply bpow_gt_0. Qed.
Lemma eps_le : eps dt <= / 4.
Proof.
  unfold eps. replace (/ 4) with (bpow radix2 (-2)) by (cbn; lra).
  apply bpow_le. pose proof (mant_ok dt). lia.
Qed.

Lemma F_0 : F 0. Proof. apply generic_format_0. Qed.
Lemma F_bpow e : (emin dt <= e)%Z -> F (bpow radix2 e).
Proof. intros H. apply generic_format_FLT_bpow; auto. typeclasses eauto. Qed.
Lemma F_1 : F 1.
Proof. change 1 with (bpow radix2 0). apply F_bpow. unfold emin. pose proof (mant_ok dt); pose proof (exp_ok dt); lia. Qed.
Lemma F_opp x : F x -> F (- x). Proof. apply generic_format_opp. Qed.
Lemma F_rnd x : F (RN x). Proof. apply generic_format_round; typeclasses eauto. Qed.
Lemma rnd_id x : F x -> RN x = x. Proof. intros; apply round_generic; auto; typeclasses eauto. Qed.
Lemma rnd_le x y : x <= y -> RN x <= RN y. Proof. apply round_le; typeclasses eauto. Qed.
Lemma rnd_le_F x y : F y -> x <= y -> RN x <= y. Proof. intros; apply round_le_generic; auto; typeclasses eauto. Qed.
Lemma rnd_ge_F x y : F x -> x <= y -> x <= RN y. Proof. intros; apply round_ge_generic; auto; typeclasses eauto. Qed.
Lemma rnd_0 : RN 0 = 0. Proof. apply rnd_id, F_0. Qed.
Lemma rnd_1 : RN 1 = 1. Proof. apply rnd_id, F_1. Qed.
Lemma rnd_nonneg x : 0 <= x -> 0 <= RN x. Proof. apply rnd_ge_F, F_0. Qed.
Lemma rnd_opp x : RN (- x) = - RN x. Proof. apply round_NE_opp. Qed.
(** a difference of two representable numbers rounds to zero only if it is zero *)
Lemma rnd_sub_pos x y : F x -> F y -> x < y -> 0 < RN (y - x).
Proof.
  intros Fx Fy L. destruct (rnd_nonneg (y - x)) as [|E]; [lra|auto|]. exfalso.
  symmetry in E. unfold Rminus in E.
  pose proof (round_plus_neq_0 radix2 (fexp dt) ZnearestE y (- x)) as N.
  apply N; auto; [apply F_opp; auto|lra].
Qed.
Lemma F_small_sub x y : F x -> F y -> Rabs (x - y) <= bpow radix2 (mant dt + emin dt) -> F (x - y).
Proof.
  intros Fx Fy H. apply FLT_format_plus_small; auto; try typeclasses eauto. apply F_opp; auto.
Qed.

Lemma maxpow_ge_2 : 2 <= maxpow dt.
Proof.
  unfold maxpow. change 2 with (bpow radix2 1). apply bpow_le. pose proof (exp_ok dt); pose proof (mant_ok dt); lia.
Qed.
Lemma repr_0 : repr dt 0. Proof. split; [apply F_0|]. rewrite Rabs_R0. apply maxpow_pos. Qed.
Lemma repr_1 : repr dt 1. Proof. split; [apply F_1|]. rewrite Rabs_R1. pose proof maxpow_ge_2; lra. Qed.

(** rounding a real that lies between two finite values cannot overflow *)
Lemma fround_between x a b : repr dt a -> repr dt b -> a <= x <= b ->
  fround dt (Fin x) = Fin (RN x) /\ a <= RN x <= b /\ repr dt (RN x).
Proof.
  intros [Fa Ha] [Fb Hb] [L1 L2]. assert (B : a <= RN x <= b) by (split; [apply rnd_ge_F|apply rnd_le_F]; auto).
  assert (M : Rabs (RN x) < maxpow dt).
  { apply Rabs_def1; [apply Rle_lt_trans with b; [apply B|]|apply Rlt_le_trans with a; [|apply B]];
      [apply Rle_lt_trans with (2 := Hb), Rle_abs|].
    apply Rabs_def2 in Ha. lra. }
  cbn. destruct (Rlt_dec _ _) as [|N]; [|contradiction]. repeat split; auto; try apply B. apply F_rnd.
Qed.
Lemma fround_ok x a b : repr dt a -> repr dt b -> a <= RN x <= b -> fround dt (Fin x) = Fin (RN x).
Proof.
  intros [Fa Ha] [Fb Hb] B. cbn. destruct (Rlt_dec _ _) as [|N]; [auto|]. exfalso; apply N.
  apply Rabs_def2 in Ha. apply Rabs_def2 in Hb. apply Rabs_def1; lra.
Qed.
Lemma fround_fin_inv x r : fround dt (Fin x) = Fin r -> r = RN x /\ repr dt r.
Proof.
  cbn. destruct (Rlt_dec _ _) as [L|]; [|destruct (Rlt_dec _ _); discriminate].
  intros [= <-]. split; auto. split; auto. apply F_rnd.
Qed.
Lemma fround_repr x : repr dt x -> fround dt (Fin x) = Fin x.
Proof. intros [Fx Hx]. cbn. rewrite rnd_id by auto. destruct (Rlt_dec _ _); [auto|contradiction]. Qed.

Lemma xadd_fin a b : xadd (Fin a) (Fin b) = Fin (a + b). Proof. reflexivity. Qed.
Lemma xsub_fin a b : xsub (Fin a) (Fin b) = Fin (a - b). Proof. reflexivity. Qed.
Lemma xmul_fin a b : xmul (Fin a) (Fin b) = Fin (a * b). Proof. reflexivity. Qed.
Lemma xdiv_fin' a b : b <> 0 -> xdiv (Fin a) (Fin b) = Fin (a / b).
Proof. intros N; cbn; destruct (Req_EM_T b 0); [contradiction|auto]. Qed.

(** error of one rounding: relative above the underflow threshold, absolute below *)
Lemma rnd_err x : tiny dt <= Rabs x -> Rabs (RN x - x) <= eps dt * Rabs x.
Proof.
  intros H. pose proof (relative_error_N_FLT radix2 (emin dt) (mant dt) mant_gt_0 (fun t => negb (Z.even t)) x) as E.
  unfold rnd, fexp, eps. assert (E' := E H). clear E.
  replace (bpow radix2 (- mant dt)) with (/ 2 * bpow radix2 (- mant dt + 1)); [exact E'|].
  rewrite bpow_plus. cbn. lra.
Qed.
Lemma rnd_err_sub x : Rabs x < tiny dt -> Rabs (RN x - x) <= / 2 * bpow radix2 (emin dt).
Proof.
  intros H. pose proof (error_le_half_ulp radix2 (fexp dt) (fun t => negb (Z.even t)) x) as E.
  unfold fexp in E. rewrite (ulp_FLT_small radix2 (emin dt) (mant dt)) in E; [exact E|].
  apply Rlt_le_trans with (1 := H). apply bpow_le. lia.
Qed.
End Facts.
