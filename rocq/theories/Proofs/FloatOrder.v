(** Order of floating-point values and monotonicity of the rounded operations. *)
From Coq Require Import Reals List Bool Lra Lia ZArith.
From Flocq Require Import Core.
From Verif Require Import Base.XR Base.Float Spec.Rounding.
Import ListNotations.
Local Open Scope R_scope.

Lemma fle_fin x y : fle (Fin x) (Fin y) <-> x <= y. Proof. apply xleb_fin. Qed.
Lemma fle_NInf b : b <> NaN -> fle NInf b. Proof. destruct b; try reflexivity. congruence. Qed.
Lemma fle_PInf a : a <> NaN -> fle a PInf. Proof. destruct a; try reflexivity. congruence. Qed.
Lemma fle_refl a : a <> NaN -> fle a a.
Proof. destruct a; intros N; try reflexivity; [apply fle_fin; lra|congruence]. Qed.
Lemma fle_trans a b c : fle a b -> fle b c -> fle a c.
Proof.
  destruct a, b, c; try (intros H1 H2; discriminate H1 || discriminate H2 || reflexivity).
  rewrite !fle_fin. lra.
Qed.
Lemma fle_antisym a b : fle a b -> fle b a -> a = b.
Proof.
  destruct a, b; try (intros H1 H2; discriminate H1 || discriminate H2 || reflexivity).
  rewrite !fle_fin. intros; f_equal; lra.
Qed.
Lemma fle_nan_l a b : fle a b -> a <> NaN. Proof. intros H ->. discriminate H. Qed.
Lemma fle_nan_r a b : fle a b -> b <> NaN. Proof. intros H ->. destruct a; discriminate H. Qed.

Lemma fround_nan dt a : a <> NaN -> fround dt a <> NaN.
Proof.
  destruct a as [r| | |]; intros N; cbn; try discriminate; [|congruence].
  destruct (Rlt_dec _ _); [discriminate|]. destruct (Rlt_dec _ _); discriminate.
Qed.
Lemma fround_mono dt a b : fle a b -> fle (fround dt a) (fround dt b).
Proof.
  destruct a as [x| | |], b as [y| | |]; intros H; try discriminate H; try reflexivity;
    try (apply fle_PInf, fround_nan; discriminate); try (apply fle_NInf, fround_nan; discriminate).
  apply fle_fin in H. pose proof (rnd_le dt _ _ H) as R. cbn [fround].
  assert (Sg : forall z, ~ Rabs (rnd dt z) < maxpow dt -> (z < 0 -> rnd dt z <= - maxpow dt) /\ (0 <= z -> maxpow dt <= rnd dt z)).
  { intros z Nz. apply Rnot_lt_le in Nz. split; intros Z.
    - pose proof (rnd_le dt z 0 ltac:(lra)) as Q. rewrite rnd_0 in Q. rewrite Rabs_left1 in Nz by auto. lra.
    - pose proof (rnd_nonneg dt z Z) as Q. rewrite Rabs_pos_eq in Nz by auto. lra. }
  pose proof (maxpow_pos dt).
  destruct (Rlt_dec (Rabs (rnd dt x)) (maxpow dt)) as [Lx|Nx], (Rlt_dec (Rabs (rnd dt y)) (maxpow dt)) as [Ly|Ny].
  - apply fle_fin; auto.
  - destruct (Rlt_dec y 0) as [Y|Y]; [|reflexivity]. exfalso. destruct (Sg y Ny) as [S1 _]. specialize (S1 Y). apply Rabs_def2 in Lx. lra.
  - destruct (Rlt_dec x 0) as [X|X]; [reflexivity|]. exfalso. destruct (Sg x Nx) as [_ S1]. specialize (S1 ltac:(lra)). apply Rabs_def2 in Ly. lra.
  - destruct (Rlt_dec x 0), (Rlt_dec y 0); try reflexivity. lra.
Qed.
Lemma fround_opp dt a : a <> Fin 0 -> fround dt (xopp a) = xopp (fround dt a).
Proof.
  destruct a as [x| | |]; intros N; try reflexivity. cbn [xopp fround]. rewrite rnd_opp, Rabs_Ropp.
  destruct (Rlt_dec _ _); [reflexivity|]. assert (x <> 0) by congruence.
  destruct (Rlt_dec (- x) 0), (Rlt_dec x 0); cbn; try reflexivity; lra.
Qed.
Lemma fround_0 dt : fround dt (Fin 0) = Fin 0. Proof. apply fround_repr, repr_0. Qed.
Lemma fround_opp' dt a : fround dt (xopp a) = xopp (fround dt a).
Proof.
  destruct a as [x| | |]; try reflexivity. destruct (Req_EM_T x 0) as [-> |N]; [|apply fround_opp; congruence].
  cbn [xopp]. rewrite Ropp_0, fround_0. cbn. f_equal; lra.
Qed.
Lemma fround_nonneg dt a : fle (Fin 0) a -> fle (Fin 0) (fround dt a).
Proof. intros H. rewrite <- (fround_0 dt). apply fround_mono; auto. Qed.
Lemma fround_nonpos dt a : fle a (Fin 0) -> fle (fround dt a) (Fin 0).
Proof. intros H. rewrite <- (fround_0 dt). apply fround_mono; auto. Qed.
(** the result of an operation is a value of the dtype *)
Lemma fround_value dt a r : fround dt a = Fin r -> repr dt r.
Proof. destruct a as [x| | |]; try discriminate. intros H. apply (fround_fin_inv dt _ _ H). Qed.

(** exact operations *)
Lemma xopp_anti a b : fle a b -> fle (xopp b) (xopp a).
Proof. destruct a, b; intros H; try discriminate H; try reflexivity. apply fle_fin in H. apply fle_fin. lra. Qed.
Lemma xadd_mono a b c : fle a b -> c <> PInf -> c <> NInf -> c <> NaN -> fle (xadd a c) (xadd b c).
Proof.
  destruct c as [z| | |]; try congruence. intros H _ _ _.
  destruct a, b; try discriminate H; try reflexivity. apply fle_fin in H. apply fle_fin. lra.
Qed.
Lemma xadd_mono2 a b c d : fle a b -> fle c d -> xadd a c <> NaN -> xadd b d <> NaN -> fle (xadd a c) (xadd b d).
Proof.
  destruct a, b, c, d; intros H1 H2 N1 N2; try discriminate H1; try discriminate H2; try reflexivity; try (cbn in *; congruence).
  apply fle_fin in H1, H2. apply fle_fin. lra.
Qed.
Lemma xdiv_mono a b s : 0 < s -> fle a b -> fle (xdiv a (Fin s)) (xdiv b (Fin s)).
Proof.
  intros P H. destruct a, b; try discriminate H; cbn [xdiv]; repeat destruct (Req_EM_T _ _); repeat destruct (Rlt_dec _ _); try lra; try reflexivity.
  apply fle_fin in H. apply fle_fin. apply Rmult_le_compat_r; auto. left; apply Rinv_0_lt_compat; auto.
Qed.
Lemma xdiv_nonneg a s : 0 < s -> fle (Fin 0) a -> fle (Fin 0) (xdiv a (Fin s)).
Proof.
  intros P H. pose proof (xdiv_mono _ _ _ P H) as M. rewrite xdiv_fin' in M by lra. replace (0 / s) with 0 in M by (field; lra). exact M.
Qed.
Lemma xdiv_opp a s : 0 < s -> xdiv (xopp a) (Fin s) = xopp (xdiv a (Fin s)).
Proof.
  intros P. destruct a; cbn [xdiv xopp]; repeat destruct (Req_EM_T _ _); repeat destruct (Rlt_dec _ _); try lra; try reflexivity.
  cbn. f_equal. field. lra.
Qed.
Lemma xmul_sq_nonneg a : a <> NaN -> fle (Fin 0) (xmul a a).
Proof. destruct a; intros N; try reflexivity; [|congruence]. apply fle_fin. nra. Qed.
Lemma xmul_sq_opp a : xmul (xopp a) (xopp a) = xmul a a.
Proof. destruct a; try reflexivity. cbn. f_equal. ring. Qed.
Lemma xmul_sq_mono a b : fle (Fin 0) a -> fle a b -> fle (xmul a a) (xmul b b).
Proof.
  intros P H. destruct a, b; try discriminate H; try discriminate P; try reflexivity.
  apply fle_fin in H, P. apply fle_fin. nra.
Qed.
(** scaling by a positive or negative constant *)
Lemma xmul_pos_mono c a b : 0 < c -> fle a b -> fle (xmul (Fin c) a) (xmul (Fin c) b).
Proof.
  intros P H. destruct a, b; try discriminate H; cbn [xmul]; unfold inf_times; repeat destruct (Rlt_dec _ _); try lra; try reflexivity.
  apply fle_fin in H. apply fle_fin. nra.
Qed.
Lemma xmul_neg_anti c a b : c < 0 -> fle a b -> fle (xmul (Fin c) b) (xmul (Fin c) a).
Proof.
  intros P H. destruct a, b; try discriminate H; cbn [xmul]; unfold inf_times; repeat destruct (Rlt_dec _ _); try lra; try reflexivity.
  apply fle_fin in H. apply fle_fin. nra.
Qed.
Lemma xmax_fle a b : a <> NaN -> b <> NaN -> fle a (xmax a b) /\ fle b (xmax a b) /\ (xmax a b = a \/ xmax a b = b).
Proof.
  intros Na Nb. unfold xmax. assert (xis_nan a || xis_nan b = false) as -> by (destruct a, b; try reflexivity; congruence).
  destruct (xltb a b) eqn:L.
  - split; [unfold fle, xleb; rewrite L; reflexivity|]. split; [apply fle_refl; auto|auto].
  - split; [apply fle_refl; auto|]. split; [|auto]. destruct a, b; try discriminate L; try reflexivity; try congruence.
    apply xltb_fin_f in L. apply fle_fin; auto.
Qed.
