From Coq Require Import Reals Lra List.
From Coquelicot Require Import Coquelicot.
From Verif Require Import Base.XR Base.Integral Base.Gauss Model.ScalarDist Spec.Density Proofs.Density.
Local Open Scope R_scope.

Definition lap_pdf (z : R) : R := if Rle_dec z 0 then exp z / 2 else exp (- z) / 2.
Definition lap_cdf (z : R) : R := if Rle_dec z 0 then exp z / 2 else 1 - exp (- z) / 2.
Lemma lap_pdf_abs z : lap_pdf z = exp (- Rabs z) / 2.
Proof.
  unfold lap_pdf. destruct (Rle_dec z 0).
  - rewrite Rabs_left1 by auto. rewrite Ropp_involutive; auto.
  - rewrite Rabs_right by lra; auto.
Qed.
Lemma lap_pdf_pos z : 0 < lap_pdf z.
Proof. rewrite lap_pdf_abs. pose proof (exp_pos (- Rabs z)). lra. Qed.

(** antiderivative of [lap_pdf z * (a + b z + c |z| + d z^2)] *)
Definition lapG (a b c d z : R) : R :=
  if Rle_dec z 0 then exp z / 2 * (a + (b - c) * (z - 1) + d * (z ^ 2 - 2 * z + 2))
  else (a + c + 2 * d) - exp (- z) / 2 * (a + (b + c) * (z + 1) + d * (z ^ 2 + 2 * z + 2)).
Lemma lapG_derive a b c d z : is_derive (lapG a b c d) z (lap_pdf z * (a + b * z + c * Rabs z + d * z ^ 2)).
Proof.
  evar_last.
  - apply (is_derive_piece
      (fun z => exp z / 2 * (a + (b - c) * (z - 1) + d * (z ^ 2 - 2 * z + 2)))
      (fun z => (a + c + 2 * d) - exp (- z) / 2 * (a + (b + c) * (z + 1) + d * (z ^ 2 + 2 * z + 2)))
      (fun z => exp z / 2 * (a + (b - c) * z + d * z ^ 2))
      (fun z => exp (- z) / 2 * (a + (b + c) * z + d * z ^ 2)) 0).
    + rewrite Ropp_0, exp_0. field.
    + rewrite Ropp_0, exp_0. field.
    + intros x _. auto_derive; auto. cbn. field.
    + intros x _. auto_derive; auto. cbn. field.
  - cbv beta. unfold lap_pdf. destruct (Rle_dec z 0).
    + rewrite Rabs_left1 by auto. ring.
    + rewrite Rabs_right by lra. ring.
Qed.
Lemma lap_cont z : continuous lap_pdf z.
Proof.
  apply (continuous_piece (fun z => exp z / 2) (fun z => exp (- z) / 2) 0).
  - rewrite Ropp_0; auto.
  - intros x. apply (@ex_derive_continuous R_AbsRing R_NormedModule). auto_derive; auto.
  - intros x. apply (@ex_derive_continuous R_AbsRing R_NormedModule). auto_derive; auto.
Qed.
Lemma abs_cont z : continuous Rabs z.
Proof. apply continuity_pt_filterlim, Rcontinuity_abs. Qed.
Lemma lap_int_cont a b c d z : continuous (fun z => lap_pdf z * (a + b * z + c * Rabs z + d * z ^ 2)) z.
Proof.
  apply (continuous_mult lap_pdf (fun z => a + b * z + c * Rabs z + d * z ^ 2)); [apply lap_cont|].
  apply (continuous_plus (fun z => a + b * z + c * Rabs z) (fun z => d * z ^ 2)).
  - apply (continuous_plus (fun z => a + b * z) (fun z => c * Rabs z)).
    + apply (@ex_derive_continuous R_AbsRing R_NormedModule). auto_derive; auto.
    + apply (continuous_mult (fun _ => c) Rabs); [apply continuous_const|apply abs_cont].
  - apply (@ex_derive_continuous R_AbsRing R_NormedModule). auto_derive; auto.
Qed.
(** z^2 e^{-z} vanishes *)
Lemma lim_x2_exp_neg : is_lim (fun x => x ^ 2 * exp (- x)) p_infty 0.
Proof.
  apply (is_lim_ext (fun x => 4 * ((fun y => y * exp (- y)) ((x - 0) / 2) * (fun y => y * exp (- y)) ((x - 0) / 2)))).
  { intros x. cbv beta. rewrite Rminus_0_r. replace (- x) with (- (x / 2) + - (x / 2)) by field. rewrite exp_plus. field. }
  apply (is_lim_val _ _ (4 * (0 * 0))); [ring|]. apply (is_lim_scal_l (fun x => _ * _) 4 p_infty (0 * 0)).
  apply (is_lim_mult' (fun x => (fun y => y * exp (- y)) ((x - 0) / 2)) (fun x => (fun y => y * exp (- y)) ((x - 0) / 2)));
    apply (is_lim_affine_p (fun y => y * exp (- y)) 0 2 0); try lra; apply lim_x_exp_neg.
Qed.
Lemma lim_poly_exp_p c0 c1 c2 : is_lim (fun z => exp (- z) / 2 * (c0 + c1 * z + c2 * z ^ 2)) p_infty 0.
Proof.
  apply (is_lim_ext (fun z => c0 / 2 * exp (- z) + c1 / 2 * (z * exp (- z)) + c2 / 2 * (z ^ 2 * exp (- z)))); [intros; field|].
  apply (is_lim_val _ _ (c0 / 2 * 0 + c1 / 2 * 0 + c2 / 2 * 0)); [ring|].
  apply (is_lim_plus' (fun z => c0 / 2 * exp (- z) + c1 / 2 * (z * exp (- z))) (fun z => c2 / 2 * (z ^ 2 * exp (- z)))).
  - apply (is_lim_plus' (fun z => c0 / 2 * exp (- z)) (fun z => c1 / 2 * (z * exp (- z)))).
    + apply (is_lim_scal_l (fun z => exp (- z)) (c0 / 2) p_infty 0), lim_exp_neg.
    + apply (is_lim_scal_l (fun z => z * exp (- z)) (c1 / 2) p_infty 0), lim_x_exp_neg.
  - apply (is_lim_scal_l (fun z => z ^ 2 * exp (- z)) (c2 / 2) p_infty 0), lim_x2_exp_neg.
Qed.
Lemma lapG_lim_p a b c d : is_lim (lapG a b c d) p_infty (a + c + 2 * d).
Proof.
  apply (is_lim_tail_p (fun z => (a + c + 2 * d) - exp (- z) / 2 * ((a + (b + c) + 2 * d) + (b + c + 2 * d) * z + d * z ^ 2)) _ 0).
  - intros z Hz. unfold lapG. destruct (Rle_dec z 0); [lra|]. ring.
  - apply (is_lim_val _ _ (a + c + 2 * d - 0)); [ring|].
    apply (is_lim_minus' (fun _ => a + c + 2 * d)); [apply is_lim_const|apply lim_poly_exp_p].
Qed.
Lemma lapG_lim_m a b c d : is_lim (lapG a b c d) m_infty 0.
Proof.
  apply (is_lim_tail_m (fun z => (fun y => exp (- y) / 2 * ((a - (b - c) + 2 * d) + (2 * d - (b - c)) * y + d * y ^ 2)) (- z)) _ 0).
  - intros z Hz. unfold lapG. destruct (Rle_dec z 0); [|lra]. rewrite Ropp_involutive. ring.
  - apply (is_lim_opp_pm (fun y => exp (- y) / 2 * ((a - (b - c) + 2 * d) + (2 * d - (b - c)) * y + d * y ^ 2)) 0), lim_poly_exp_p.
Qed.
Lemma lap_moment l s a b c d : 0 < s ->
  expectation (fun x => lap_pdf ((x - l) / s) / s)
    (fun x => a + b * ((x - l) / s) + c * Rabs ((x - l) / s) + d * ((x - l) / s) ^ 2) (a + c + 2 * d).
Proof.
  intros Hs. apply (expectation_standard lap_pdf (fun z => a + b * z + c * Rabs z + d * z ^ 2) l s _ Hs).
  exists (lapG a b c d). split; [apply lapG_derive|]. split; [apply lap_int_cont|].
  exists 0, (a + c + 2 * d). split; [apply lapG_lim_m|]. split; [apply lapG_lim_p|ring].
Qed.
Lemma lap_density : density_with_cdf lap_pdf lap_cdf.
Proof.
  assert (E : forall z, lap_cdf z = lapG 1 0 0 0 z).
  { intros z. unfold lap_cdf, lapG. destruct (Rle_dec z 0); field. }
  split; [intros; apply Rlt_le, lap_pdf_pos|]. split; [apply lap_cont|]. split.
  - intros z. apply (is_derive_ext (lapG 1 0 0 0)); [intros; symmetry; apply E|].
    evar_last; [apply lapG_derive|]. ring.
  - split.
    + apply (is_lim_ext (lapG 1 0 0 0)); [intros; symmetry; apply E|]. apply lapG_lim_m.
    + apply (is_lim_ext (lapG 1 0 0 0)); [intros; symmetry; apply E|]. apply (is_lim_val _ _ (1 + 0 + 2 * 0)); [ring|]. apply lapG_lim_p.
Qed.
(** E|z - m| = |m| + e^{-|m|}; antiderivative of [lap_pdf z * (a + b|z| + c|z - m|)] *)
Lemma lap_abs_moment l s a b c m : 0 < s ->
  expectation (fun x => lap_pdf ((x - l) / s) / s)
    (fun x => a + b * Rabs ((x - l) / s) + c * Rabs ((x - l) / s - m)) (a + b + c * (Rabs m + exp (- Rabs m))).
Proof.
  intros Hs. apply (expectation_standard lap_pdf (fun z => a + b * Rabs z + c * Rabs (z - m)) l s _ Hs).
  set (A := lapG (- m) 1 0 0).
  set (P := fun z => if Rle_dec z m then - (A z - A m) else A z - A m).
  assert (HP : forall z, is_derive P z (lap_pdf z * Rabs (z - m))).
  { intros z. evar_last.
    - apply (is_derive_piece (fun z => - (A z - A m)) (fun z => A z - A m)
               (fun z => - (lap_pdf z * (z - m))) (fun z => lap_pdf z * (z - m)) m); [ring|ring| |].
      + intros x _. evar_last.
        * apply (@is_derive_opp R_AbsRing R_NormedModule). apply (@is_derive_minus R_AbsRing R_NormedModule A (fun _ => A m)); [apply lapG_derive|apply (@is_derive_const R_AbsRing R_NormedModule)].
        * unfold opp, minus, plus, opp, zero; cbn. ring.
      + intros x _. evar_last.
        * apply (@is_derive_minus R_AbsRing R_NormedModule A (fun _ => A m)); [apply lapG_derive|apply (@is_derive_const R_AbsRing R_NormedModule)].
        * unfold minus, plus, opp, zero; cbn. ring.
    - cbv beta. destruct (Rle_dec z m); [rewrite Rabs_left1 by lra|rewrite Rabs_right by lra]; ring. }
  assert (Am : - m - 2 * A m = Rabs m + exp (- Rabs m)).
  { unfold A, lapG. destruct (Rle_dec m 0); [rewrite Rabs_left1 by auto; rewrite Ropp_involutive|rewrite Rabs_right by lra]; field. }
  exists (fun z => lapG a 0 b 0 z + c * P z). split; [|split].
  - intros z. evar_last.
    + apply (@is_derive_plus R_AbsRing R_NormedModule); [apply lapG_derive|]. apply (is_derive_scal P z c), HP.
    + unfold plus; cbn. ring.
  - intros z. apply (continuous_mult lap_pdf (fun z => a + b * Rabs z + c * Rabs (z - m))); [apply lap_cont|].
    apply (continuous_plus (fun z => a + b * Rabs z) (fun z => c * Rabs (z - m))).
    + apply (continuous_plus (fun _ => a) (fun z => b * Rabs z)); [apply continuous_const|].
      apply (continuous_mult (fun _ => b) Rabs); [apply continuous_const|apply abs_cont].
    + apply (continuous_mult (fun _ => c) (fun z => Rabs (z - m))); [apply continuous_const|].
      apply (continuous_comp (fun z => z - m) Rabs); [|apply abs_cont].
      apply (continuous_minus (fun z => z) (fun _ => m)); [apply continuous_id|apply continuous_const].
  - exists (0 + c * (A m)), (a + b + 2 * 0 + c * (- m - A m)). split; [|split].
    + apply (is_lim_plus' (lapG a 0 b 0) (fun z => c * P z)); [apply lapG_lim_m|].
      apply (is_lim_scal_l P c m_infty (A m)). apply (is_lim_tail_m (fun z => A m - A z) _ m).
      * intros z Hz. unfold P. destruct (Rle_dec z m); lra.
      * apply (is_lim_val _ _ (A m - 0)); [ring|]. apply (is_lim_minus' (fun _ => A m) A); [apply is_lim_const|apply lapG_lim_m].
    + apply (is_lim_plus' (lapG a 0 b 0) (fun z => c * P z)); [apply lapG_lim_p|].
      apply (is_lim_scal_l P c p_infty (- m - A m)). apply (is_lim_tail_p (fun z => A z - A m) _ m).
      * intros z Hz. unfold P. destruct (Rle_dec z m); lra.
      * apply (is_lim_minus' A (fun _ => A m)); [|apply is_lim_const]. apply (is_lim_val _ _ (- m + 0 + 2 * 0)); [ring|]. apply lapG_lim_p.
    + rewrite <- Am. ring.
Qed.
