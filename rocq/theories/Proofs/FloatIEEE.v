(** The floating-point operations of Base/Float.v are those of IEEE 754 as formalised by Flocq
    (round to nearest even), the sign of zero apart. *)
From Coq Require Import Reals Lra Lia Bool ZArith.
From Flocq Require Import Core BinarySingleNaN.
From Verif.Base Require Import XR Float.
Local Open Scope R_scope.

Section IEEE.
Variable dt : dtype.
Notation B := (binary_float (mant dt) (emax dt)).
Global Instance mant_lt_emax : Prec_lt_emax (mant dt) (emax dt). Proof. unfold Prec_lt_emax. pose proof (exp_ok dt). lia. Qed.

Definition of_ieee (x : B) : XR :=
  match x with
  | B754_zero _ => Fin 0
  | B754_infinity s => if s then NInf else PInf
  | B754_nan => NaN
  | B754_finite _ _ _ _ => Fin (B2R x)
  end.

Lemma of_finite x : is_finite x = true -> of_ieee x = Fin (B2R x).
Proof. destruct x; cbn; auto; discriminate. Qed.
Lemma B2R_repr (x : B) : repr dt (B2R x).
Proof. split; [apply (generic_format_B2R (mant dt) (emax dt))|apply abs_B2R_lt_emax]. Qed.
Lemma fin_sign (s : bool) m e (H : SpecFloat.bounded (mant dt) (emax dt) m e = true) : if s then B2R (B754_finite s m e H : B) < 0 else 0 < B2R (B754_finite s m e H : B).
Proof.
  destruct s; cbn; [apply F2R_lt_0|apply F2R_gt_0]; cbn; lia.
Qed.
Lemma of_overflow (z : B) s : B2SF z = binary_overflow (mant dt) (emax dt) mode_NE s -> of_ieee z = if s then NInf else PInf.
Proof. unfold binary_overflow; cbn. destruct z; cbn; try discriminate. intros [= ->]. auto. Qed.

(** common shape of the finite cases *)
Lemma finish (z : B) (r : R) (s : bool) :
  (if Rlt_bool (Rabs (rnd dt r)) (maxpow dt) then B2R z = rnd dt r /\ is_finite z = true
   else B2SF z = binary_overflow (mant dt) (emax dt) mode_NE s) ->
  (if s then r <= 0 else 0 <= r) -> fround dt (Fin r) = of_ieee z.
Proof.
  intros H S. cbn. destruct (Rlt_bool_spec (Rabs (rnd dt r)) (maxpow dt)) as [L|L].
  - destruct H as [E Fz]. rewrite (of_finite _ Fz), E. destruct (Rlt_dec _ _); [auto|lra].
  - rewrite (of_overflow _ _ H). destruct (Rlt_dec _ _) as [|_]; [lra|].
    destruct s; destruct (Rlt_dec r 0) as [K|K]; auto; try lra.
    assert (r = 0) by lra. subst r. rewrite rnd_0, Rabs_R0 in L. pose proof (maxpow_pos dt); lra.
Qed.
Lemma sign_le (x : B) : is_finite x = true -> if Bsign x then B2R x <= 0 else 0 <= B2R x.
Proof.
  destruct x as [s|s| |s m e H]; try discriminate; intros _; [cbn; destruct s; lra|].
  pose proof (fin_sign s m e H) as S. change (Bsign (B754_finite s m e H)) with s. destruct s; lra.
Qed.

Lemma fadd_finite x y : is_finite x = true -> is_finite y = true ->
  fadd dt (of_ieee x) (of_ieee y) = of_ieee (Bplus mode_NE x y).
Proof.
  intros Fx Fy. rewrite (of_finite x), (of_finite y) by auto. unfold fadd; rewrite xadd_fin.
  pose proof (Bplus_correct (mant dt) (emax dt) _ _ mode_NE x y Fx Fy) as C.
  change (Rabs (round radix2 (SpecFloat.fexp (mant dt) (emax dt)) (round_mode mode_NE) (B2R x + B2R y)))
    with (Rabs (rnd dt (B2R x + B2R y))) in C.
  change (bpow radix2 (emax dt)) with (maxpow dt) in C.
  pose proof (sign_le x Fx) as Sx. pose proof (sign_le y Fy) as Sy.
  destruct (Rlt_bool (Rabs (rnd dt (B2R x + B2R y))) (maxpow dt)) eqn:E.
  - destruct C as (C1 & C2 & _).
    apply (finish _ _ (if Rle_dec (B2R x + B2R y) 0 then true else false)); [rewrite E; auto|].
    destruct (Rle_dec _ _); lra.
  - destruct C as (C1 & C2). apply (finish _ _ (Bsign x)); [rewrite E; auto|].
    rewrite <- C2 in Sy. destruct (Bsign x); lra.
Qed.

Theorem fadd_ieee x y : fadd dt (of_ieee x) (of_ieee y) = of_ieee (Bplus mode_NE x y).
Proof.
  destruct (is_finite x) eqn:Fx, (is_finite y) eqn:Fy; [apply fadd_finite; auto| | |].
  all: destruct x as [[|]|[|]| |[|] ? ? ?], y as [[|]|[|]| |[|] ? ? ?]; try discriminate; reflexivity.
Qed.
Theorem fsub_ieee x y : fsub dt (of_ieee x) (of_ieee y) = of_ieee (Bminus mode_NE x y).
Proof.
  assert (E : of_ieee (Bopp y) = xopp (of_ieee y)).
  { destruct y as [s|[|]| |s m e H]; cbn; auto; [f_equal; lra|]. f_equal.
    change (B2R (B754_finite (negb s) m e H : B) = - B2R (B754_finite s m e H : B)).
    apply (B2R_Bopp (mant dt) (emax dt) (B754_finite s m e H)). }
  unfold fsub, xsub. rewrite <- E. change (fround dt (xadd ?a ?b)) with (fadd dt a b). rewrite fadd_ieee.
  destruct x as [[|]|[|]| |[|] ? ? ?], y as [[|]|[|]| |[|] ? ? ?]; reflexivity.
Qed.
Lemma inf_times_sign (s : bool) m e (H : SpecFloat.bounded (mant dt) (emax dt) m e = true) : inf_times (B2R (B754_finite s m e H : B)) = if s then NInf else PInf.
Proof.
  pose proof (fin_sign s m e H) as S. unfold inf_times. destruct s.
  - destruct (Rlt_dec 0 _); [lra|]. destruct (Rlt_dec _ 0); [auto|lra].
  - destruct (Rlt_dec 0 _); [auto|lra].
Qed.
Lemma inf_times_opp_sign (s : bool) m e (H : SpecFloat.bounded (mant dt) (emax dt) m e = true) : inf_times (- B2R (B754_finite s m e H : B)) = if s then PInf else NInf.
Proof.
  pose proof (fin_sign s m e H) as S. unfold inf_times. destruct s.
  - destruct (Rlt_dec 0 _); [auto|lra].
  - destruct (Rlt_dec 0 _); [lra|]. destruct (Rlt_dec _ 0); [auto|lra].
Qed.
Lemma inf_times_0 : inf_times 0 = NaN.
Proof. unfold inf_times. destruct (Rlt_dec 0 0); [lra|]. reflexivity. Qed.
Lemma inf_times_opp_0 : inf_times (- 0) = NaN.
Proof. rewrite Ropp_0. apply inf_times_0. Qed.

Theorem fmul_ieee x y : fmul dt (of_ieee x) (of_ieee y) = of_ieee (Bmult mode_NE x y).
Proof.
  destruct (is_finite x && is_finite y) eqn:Fxy.
  - apply andb_true_iff in Fxy as [Fx Fy].
    rewrite (of_finite x), (of_finite y) by auto. unfold fmul; rewrite xmul_fin.
    pose proof (Bmult_correct (mant dt) (emax dt) _ _ mode_NE x y) as C.
    change (Rabs (round radix2 (SpecFloat.fexp (mant dt) (emax dt)) (round_mode mode_NE) (B2R x * B2R y)))
      with (Rabs (rnd dt (B2R x * B2R y))) in C.
    change (bpow radix2 (emax dt)) with (maxpow dt) in C.
    pose proof (sign_le x Fx) as Sx. pose proof (sign_le y Fy) as Sy.
    apply (finish _ _ (xorb (Bsign x) (Bsign y))).
    + destruct (Rlt_bool (Rabs (rnd dt (B2R x * B2R y))) (maxpow dt)); [|auto].
      destruct C as (C1 & C2 & _). rewrite C2, Fx, Fy; auto.
    + destruct (Bsign x), (Bsign y); cbn; nra.
  - destruct x as [s|s| |s m e H], y as [s'|s'| |s' m' e' H']; try discriminate; cbn [of_ieee Bmult]; auto;
      unfold fmul; try (destruct s, s'; reflexivity); try (destruct s; reflexivity).
    all: try (destruct s; cbn [xmul]; rewrite ?inf_times_0, ?inf_times_opp_0; reflexivity).
    all: try (destruct s'; cbn [xmul]; rewrite ?inf_times_0, ?inf_times_opp_0; reflexivity).
    + destruct s; cbn [xmul]; rewrite ?inf_times_sign, ?inf_times_opp_sign; destruct s'; reflexivity.
    + destruct s'; cbn [xmul]; rewrite ?inf_times_sign, ?inf_times_opp_sign; destruct s; reflexivity.
Qed.

(** a zero divisor is +0 in the model *)
Theorem fdiv_ieee x y : y <> B754_zero true -> fdiv dt (of_ieee x) (of_ieee y) = of_ieee (Bdiv mode_NE x y).
Proof.
  intros Ny. destruct y as [s'|s'| |s' m' e' H'].
  - destruct s'; [congruence|]. destruct x as [s|s| |s m e H]; cbn [of_ieee Bdiv]; unfold fdiv, xdiv; auto.
    + destruct (Req_EM_T 0 0); [|lra]. rewrite inf_times_0. auto.
    + destruct s; destruct (Rlt_dec 0 0); try lra; auto.
    + destruct (Req_EM_T 0 0); [|lra]. rewrite inf_times_sign. destruct s; auto.
  - destruct x as [s|s| |s m e H]; cbn [of_ieee Bdiv]; unfold fdiv; auto.
    + destruct s'; apply fround_repr, repr_0.
    + destruct s, s'; reflexivity.
    + destruct s'; apply fround_repr, repr_0.
  - destruct x as [s|s| |s m e H]; cbn [of_ieee Bdiv]; auto. destruct s; auto.
  - pose proof (fin_sign s' m' e' H') as S'.
    destruct (is_finite x) eqn:Fx.
    + rewrite (of_finite x), (of_finite (B754_finite _ _ _ _)) by auto.
      assert (N : B2R (B754_finite s' m' e' H' : B) <> 0) by (destruct s'; lra).
      unfold fdiv. rewrite (xdiv_fin' _ _ N).
      pose proof (Bdiv_correct (mant dt) (emax dt) _ _ mode_NE x (B754_finite s' m' e' H') N) as C.
      change (Rabs (round radix2 (SpecFloat.fexp (mant dt) (emax dt)) (round_mode mode_NE)
        (B2R x / B2R (B754_finite s' m' e' H' : B))))
        with (Rabs (rnd dt (B2R x / B2R (B754_finite s' m' e' H' : B)))) in C.
      change (bpow radix2 (emax dt)) with (maxpow dt) in C.
      pose proof (sign_le x Fx) as Sx.
      apply (finish _ _ (xorb (Bsign x) s')).
      * destruct (Rlt_bool _ _); [|exact C]. destruct C as (C1 & C2 & _). rewrite C2, Fx; auto.
      * set (b := B2R (B754_finite s' m' e' H')) in *. clearbody b.
        assert (I : if s' then / b < 0 else 0 < / b) by (destruct s'; [apply Rinv_lt_0_compat|apply Rinv_0_lt_compat]; auto).
        unfold Rdiv. destruct (Bsign x), s'; cbn; nra.
    + destruct x as [s|s| |s m e H]; try discriminate; [|reflexivity].
      cbn [of_ieee Bdiv]. unfold fdiv. destruct s, s'; cbn [xdiv];
        destruct (Rlt_dec _ 0); try lra; reflexivity.
Qed.
End IEEE.
