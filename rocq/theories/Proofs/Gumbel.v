From Coq Require Import Reals Lra List.
From Coquelicot Require Import Coquelicot.
From Verif Require Import Base.XR Base.Integral Base.Gauss Model.ScalarDist Spec.Density Proofs.Density.
Local Open Scope R_scope.

Definition gu_cdf (z : R) : R := exp (- exp (- z)).
Definition gu_pdf (z : R) : R := exp (- (z + exp (- z))).
Lemma gu_pdf_pos z : 0 < gu_pdf z. Proof. apply exp_pos. Qed.
Lemma gu_pdf_eq z : gu_pdf z = exp (- z) * gu_cdf z.
Proof. unfold gu_pdf, gu_cdf. rewrite <- exp_plus. f_equal. ring. Qed.
Lemma gu_derive z : is_derive gu_cdf z (gu_pdf z).
Proof.
  evar_last; [unfold gu_cdf; auto_derive; auto|]. rewrite gu_pdf_eq. unfold gu_cdf. ring.
Qed.
Lemma gu_pdf_cont z : continuous gu_pdf z.
Proof. apply (@ex_derive_continuous R_AbsRing R_NormedModule). unfold gu_pdf. auto_derive; auto. Qed.
Lemma gu_lim_p : is_lim gu_cdf p_infty 1.
Proof.
  unfold gu_cdf. apply (is_lim_val _ _ (exp (- 0))); [rewrite Ropp_0; apply exp_0|].
  apply (is_lim_comp_continuous (fun z => - exp (- z)) exp p_infty (- 0)).
  - apply (is_lim_opp (fun z => exp (- z)) p_infty 0), lim_exp_neg.
  - apply continuity_pt_filterlim, derivable_continuous_pt, derivable_pt_exp.
Qed.
Lemma lim_exp_opp_m : is_lim (fun z => exp (- z)) m_infty p_infty.
Proof. apply (is_lim_opp_pm exp p_infty), is_lim_exp_p. Qed.
(** substitution w = exp(-z) at the lower end *)
Lemma lim_subst_m (f : R -> R) : is_lim f p_infty 0 -> is_lim (fun z => f (exp (- z))) m_infty 0.
Proof.
  intros H. apply (is_lim_comp f (fun z => exp (- z)) m_infty 0 p_infty); auto; [apply lim_exp_opp_m|].
  exists 0. intros; discriminate.
Qed.
Lemma gu_lim_m : is_lim gu_cdf m_infty 0.
Proof. apply (lim_subst_m (fun w => exp (- w))), lim_exp_neg. Qed.
Lemma gu_density : density_with_cdf gu_pdf gu_cdf.
Proof.
  split; [intros; apply Rlt_le, gu_pdf_pos|]. split; [apply gu_pdf_cont|]. split; [apply gu_derive|]. split; [apply gu_lim_m|apply gu_lim_p].
Qed.
(** E[a + c e^{-z}] = a + c *)
Lemma gu_moment l s a c : 0 < s ->
  expectation (fun x => gu_pdf ((x - l) / s) / s) (fun x => a + c * exp (- ((x - l) / s))) (a + c).
Proof.
  intros Hs. apply (expectation_standard gu_pdf (fun z => a + c * exp (- z)) l s _ Hs).
  exists (fun z => a * gu_cdf z + c * (gu_cdf z + exp (- z) * gu_cdf z)). split; [|split].
  - intros z. evar_last; [unfold gu_cdf; auto_derive; auto|]. rewrite gu_pdf_eq. unfold gu_cdf. ring.
  - intros z. apply (@ex_derive_continuous R_AbsRing R_NormedModule). unfold gu_pdf. auto_derive; auto.
  - assert (L : is_lim (fun z => exp (- z) * gu_cdf z) m_infty 0).
    { apply (lim_subst_m (fun w => w * exp (- w))), lim_x_exp_neg. }
    assert (L' : is_lim (fun z => exp (- z) * gu_cdf z) p_infty 0).
    { apply (is_lim_val _ _ (0 * 1)); [ring|]. apply (is_lim_mult' (fun z => exp (- z))); [apply lim_exp_neg|apply gu_lim_p]. }
    exists (a * 0 + c * (0 + 0)), (a * 1 + c * (1 + 0)). split; [|split; [|ring]].
    + apply (is_lim_plus' (fun z => a * gu_cdf z)); [apply (is_lim_scal_l gu_cdf a m_infty 0), gu_lim_m|].
      apply (is_lim_scal_l (fun z => gu_cdf z + exp (- z) * gu_cdf z) c m_infty (0 + 0)).
      apply (is_lim_plus' gu_cdf); [apply gu_lim_m|exact L].
    + apply (is_lim_plus' (fun z => a * gu_cdf z)); [apply (is_lim_scal_l gu_cdf a p_infty 1), gu_lim_p|].
      apply (is_lim_scal_l (fun z => gu_cdf z + exp (- z) * gu_cdf z) c p_infty (1 + 0)).
      apply (is_lim_plus' gu_cdf); [apply gu_lim_p|exact L'].
Qed.
Lemma gu_pdf_max z : gu_pdf z <= gu_pdf 0.
Proof.
  unfold gu_pdf. rewrite Ropp_0, exp_0. pose proof (exp_ineq1_le (- z)).
  destruct (Req_dec (z + exp (- z)) (0 + 1)) as [->|N]; [lra|]. left. apply exp_increasing. lra.
Qed.
(** a standard integral rescaled to location l and scale s *)
Lemma integral_standard (f g : R -> R) l s v : 0 < s ->
  expectation f g v -> expectation (fun x => f ((x - l) / s) / s) (fun x => g ((x - l) / s)) v.
Proof.
  intros Hs H. unfold expectation, integral in *.
  intros P HP. specialize (H P HP). unfold filtermapi in *. destruct H as [Q1 Q2 [M1 HQ1] [M2 HQ2] HR].
  apply (Filter_prod _ _ _ (fun x => Q1 ((x - l) / s)) (fun x => Q2 ((x - l) / s))).
  - exists (M1 * s + l). intros x Hx. apply HQ1. apply Rlt_div_l; lra.
  - exists (M2 * s + l). intros x Hx. apply HQ2. apply Rlt_div_r; lra.
  - intros x y Hx Hy. destruct (HR _ _ Hx Hy) as (w & Hw & HPw). exists w. split; [|auto]. cbn [fst snd] in *.
    apply (is_RInt_ext (fun t => scal (/ s) ((fun z => f z * g z) (/ s * t + (- l / s))))).
    { intros t _. unfold scal; cbn; unfold mult; cbn. replace (/ s * t + - l / s) with ((t - l) / s) by (field; lra). unfold Rdiv. ring. }
    apply (is_RInt_comp_lin (V := R_NormedModule) (fun z => f z * g z) (/ s) (- l / s) x y w).
    replace (/ s * x + - l / s) with ((x - l) / s) by (field; lra). replace (/ s * y + - l / s) with ((y - l) / s) by (field; lra). exact Hw.
Qed.
