From Coq Require Import Reals Lra List.
From Coquelicot Require Import Coquelicot.
From Verif Require Import Base.XR Base.Integral Base.Gauss Model.ScalarDist Spec.Density Proofs.Density.
Local Open Scope R_scope.

Definition lg (z : R) : R := / (1 + exp (- z)).
Definition lg_pdf (z : R) : R := lg z * (1 - lg z).
Lemma lg_den z : 0 < 1 + exp (- z). Proof. pose proof (exp_pos (- z)); lra. Qed.
Lemma lg_range z : 0 < lg z < 1.
Proof.
  unfold lg. pose proof (exp_pos (- z)). split; [apply Rinv_0_lt_compat; lra|].
  rewrite <- Rinv_1. apply Rinv_lt_contravar; lra.
Qed.
Lemma lg_opp z : lg (- z) = 1 - lg z.
Proof.
  unfold lg. rewrite Ropp_involutive. pose proof (exp_pos z). pose proof (exp_pos (- z)).
  assert (exp z * exp (- z) = 1) by (rewrite <- exp_plus, Rplus_opp_r; apply exp_0).
  field_simplify_eq; [nra|lra].
Qed.
Lemma lg_pdf_pos z : 0 < lg_pdf z.
Proof. pose proof (lg_range z). unfold lg_pdf. nra. Qed.
Lemma lg_derive z : is_derive lg z (lg_pdf z).
Proof.
  unfold lg_pdf, lg. pose proof (lg_den z). auto_derive; [lra|]. field. lra.
Qed.
Lemma lg_lim_p : is_lim lg p_infty 1.
Proof.
  unfold lg. apply (is_lim_val _ _ (/ (1 + 0))); [field|].
  apply (is_lim_inv (fun z => 1 + exp (- z)) p_infty (1 + 0)).
  - apply (is_lim_plus' (fun _ => 1) (fun z => exp (- z))); [apply is_lim_const|apply lim_exp_neg].
  - intros H; injection H; lra.
Qed.
Lemma lg_lim_m : is_lim lg m_infty 0.
Proof.
  apply (is_lim_ext (fun z => 1 - lg (- z))); [intros; rewrite lg_opp; ring|].
  apply (is_lim_val _ _ (1 - 1)); [ring|]. apply (is_lim_minus' (fun _ => 1) (fun z => lg (- z))); [apply is_lim_const|].
  apply (is_lim_opp_pm lg 1), lg_lim_p.
Qed.
Lemma lg_cont z : continuous lg z.
Proof. apply (@ex_derive_continuous R_AbsRing R_NormedModule). eexists; apply lg_derive. Qed.
Lemma lg_density : density_with_cdf lg_pdf lg.
Proof.
  split; [intros; apply Rlt_le, lg_pdf_pos|]. split; [|split; [apply lg_derive|split; [apply lg_lim_m|apply lg_lim_p]]].
  intros z. apply (continuous_mult lg (fun z => 1 - lg z)); [apply lg_cont|].
  apply (continuous_minus (fun _ => 1) lg); [apply continuous_const|apply lg_cont].
Qed.
Definition sp (z : R) : R := ln (1 + exp z).
Lemma sp_pos z : 0 < sp z.
Proof. unfold sp. rewrite <- ln_1. apply ln_increasing; pose proof (exp_pos z); lra. Qed.
Lemma sp_le z : z <= 0 -> sp (- z) <= - z + ln 2.
Proof.
  intros H. unfold sp. pose proof (exp_pos (- z)). pose proof (exp_pos z).
  assert (exp z * exp (- z) = 1) by (rewrite <- exp_plus, Rplus_opp_r; apply exp_0).
  assert (exp z <= 1). { rewrite <- exp_0. destruct H as [H| ->]; [left; apply exp_increasing; auto|right; auto]. }
  replace (- z + ln 2) with (ln (exp (- z) * 2)) by (rewrite ln_mult by lra; rewrite ln_exp; auto).
  apply Rcomplements.ln_le; [lra|]. nra.
Qed.
Lemma ln_lg z : ln (lg z) = - sp (- z).
Proof. unfold lg, sp. rewrite ln_Rinv; auto. apply lg_den. Qed.
Lemma sp_derive z : is_derive sp z (lg z).
Proof.
  unfold sp, lg. pose proof (exp_pos z). pose proof (exp_pos (- z)).
  assert (exp z * exp (- z) = 1) by (rewrite <- exp_plus, Rplus_opp_r; apply exp_0).
  auto_derive; [lra|]. field_simplify_eq; [nra|lra].
Qed.
Lemma lg_le_exp z : lg z <= exp z.
Proof.
  unfold lg. pose proof (exp_pos z). pose proof (exp_pos (- z)).
  assert (exp z * exp (- z) = 1) by (rewrite <- exp_plus, Rplus_opp_r; apply exp_0).
  apply Rmult_le_reg_r with (1 + exp (- z)); [lra|]. rewrite Rinv_l by lra. nra.
Qed.
(** u ln u vanishes *)
Lemma lim_lg_ln_m : is_lim (fun z => lg z * sp (- z)) m_infty 0.
Proof.
  apply (is_lim_le_le_loc (fun _ => 0) (fun z => exp z * (- z + ln 2)) _ m_infty 0).
  - exists 0. intros z Hz. pose proof (lg_range z). pose proof (sp_pos (- z)). pose proof (sp_le z). pose proof (lg_le_exp z). pose proof (exp_pos z).
    split; [nra|]. apply Rmult_le_compat; lra.
  - apply is_lim_const.
  - apply (is_lim_ext (fun z => - (z * exp z) + ln 2 * exp z)); [intros; ring|].
    apply (is_lim_val _ _ (- 0 + ln 2 * 0)); [ring|].
    apply (is_lim_plus' (fun z => - (z * exp z)) (fun z => ln 2 * exp z)).
    + apply (is_lim_opp (fun z => z * exp z) m_infty 0), is_lim_mul_exp_m.
    + apply (is_lim_scal_l exp (ln 2) m_infty 0), is_lim_exp_m.
Qed.
Lemma lim_sp_m : is_lim sp m_infty 0.
Proof.
  unfold sp. apply (is_lim_val _ _ (ln (1 + 0))); [rewrite Rplus_0_r; apply ln_1|].
  apply (is_lim_comp_continuous (fun z => 1 + exp z) ln m_infty (1 + 0)).
  - apply (is_lim_plus' (fun _ => 1) exp); [apply is_lim_const|apply is_lim_exp_m].
  - apply continuity_pt_filterlim. apply derivable_continuous_pt. exists (/ (1 + 0)). apply derivable_pt_lim_ln. lra.
Qed.
(** (1-u) ln u vanishes at the lower end: -sp(-z)(1-u) -> infinite, but u ln u and (1-u) ln(1-u) vanish *)
Lemma lim_lg1_ln_m : is_lim (fun z => (1 - lg z) * sp z) m_infty 0.
Proof.
  apply (is_lim_val _ _ ((1 - 0) * 0)); [ring|].
  apply (is_lim_mult' (fun z => 1 - lg z) sp); [|apply lim_sp_m].
  apply (is_lim_minus' (fun _ => 1) lg); [apply is_lim_const|apply lg_lim_m].
Qed.
Lemma lim_lg_ln_p : is_lim (fun z => lg z * sp (- z)) p_infty 0.
Proof.
  apply (is_lim_ext (fun z => (fun y => (1 - lg y) * sp y) (- z))); [intros; cbv beta; rewrite lg_opp; ring|].
  apply (is_lim_opp_mp (fun y => (1 - lg y) * sp y) 0), lim_lg1_ln_m.
Qed.
Lemma lim_lg1_ln_p : is_lim (fun z => (1 - lg z) * sp z) p_infty 0.
Proof.
  apply (is_lim_ext (fun z => (fun y => lg y * sp (- y)) (- z))); [intros z; cbv beta; rewrite lg_opp, Ropp_involutive; ring|].
  apply (is_lim_opp_mp (fun y => lg y * sp (- y)) 0), lim_lg_ln_m.
Qed.
(** -ln pdf of the standard logistic integrates to 2 *)
Lemma lg_pdf_cont z : continuous lg_pdf z. Proof. apply lg_density. Qed.
Lemma sp_opp_derive z : is_derive (fun z => sp (- z)) z (- lg (- z)).
Proof.
  evar_last.
  - apply (is_derive_comp sp Ropp); [apply sp_derive|]. apply (@is_derive_opp R_AbsRing R_NormedModule (fun z => z)), (@is_derive_id R_AbsRing).
  - unfold scal, opp, one; cbn; unfold mult; cbn. ring.
Qed.
Lemma sp_shift z : sp z = z + sp (- z).
Proof.
  unfold sp. pose proof (exp_pos z). pose proof (exp_pos (- z)).
  assert (E : exp z * exp (- z) = 1) by (rewrite <- exp_plus, Rplus_opp_r; apply exp_0).
  replace z with (ln (exp z)) at 2 by apply ln_exp. rewrite <- ln_mult by lra. f_equal. nra.
Qed.
(** antiderivative of lg_pdf * (a + b z + c sp(-z)) *)
Definition lgG (a b c z : R) : R :=
  a * lg z - b * (lg z * sp (- z) + (1 - lg z) * sp z) + c * (lg z * sp (- z) + lg z).
Lemma lgG_derive a b c z : is_derive (lgG a b c) z (lg_pdf z * (a + b * z + c * sp (- z))).
Proof.
  assert (D1 : is_derive (fun z => lg z * sp (- z)) z (lg_pdf z * sp (- z) + lg z * (- lg (- z)))).
  { apply (is_derive_mult lg (fun z => sp (- z))); [apply lg_derive|apply sp_opp_derive|intros; apply Rmult_comm]. }
  assert (D2 : is_derive (fun z => (1 - lg z) * sp z) z ((0 - lg_pdf z) * sp z + (1 - lg z) * lg z)).
  { apply (is_derive_mult (fun z => 1 - lg z) sp); [|apply sp_derive|intros; apply Rmult_comm].
    apply (@is_derive_minus R_AbsRing R_NormedModule (fun _ => 1) lg); [apply (@is_derive_const R_AbsRing R_NormedModule)|apply lg_derive]. }
  unfold lgG. evar_last.
  - apply (@is_derive_plus R_AbsRing R_NormedModule); [apply (@is_derive_minus R_AbsRing R_NormedModule)|].
    + apply (is_derive_scal lg z a), lg_derive.
    + apply (is_derive_scal (fun z => lg z * sp (- z) + (1 - lg z) * sp z) z b).
      apply (@is_derive_plus R_AbsRing R_NormedModule); [exact D1|exact D2].
    + apply (is_derive_scal (fun z => lg z * sp (- z) + lg z) z c).
      apply (@is_derive_plus R_AbsRing R_NormedModule); [exact D1|apply lg_derive].
  - unfold plus, minus, plus, opp; cbn. rewrite lg_opp, (sp_shift z). unfold lg_pdf. ring.
Qed.
Lemma sp_cont z : continuous (fun z => sp (- z)) z.
Proof. apply (@ex_derive_continuous R_AbsRing R_NormedModule). eexists; apply sp_opp_derive. Qed.
Lemma lgG_lim_p a b c : is_lim (lgG a b c) p_infty (a + c).
Proof.
  unfold lgG. apply (is_lim_val _ _ (a * 1 - b * (0 + 0) + c * (0 + 1))); [ring|].
  apply (is_lim_plus' (fun z => a * lg z - b * (lg z * sp (- z) + (1 - lg z) * sp z))).
  - apply (is_lim_minus' (fun z => a * lg z)); [apply (is_lim_scal_l lg a p_infty 1), lg_lim_p|].
    apply (is_lim_scal_l (fun z => lg z * sp (- z) + (1 - lg z) * sp z) b p_infty (0 + 0)).
    apply (is_lim_plus' (fun z => lg z * sp (- z))); [apply lim_lg_ln_p|apply lim_lg1_ln_p].
  - apply (is_lim_scal_l (fun z => lg z * sp (- z) + lg z) c p_infty (0 + 1)).
    apply (is_lim_plus' (fun z => lg z * sp (- z))); [apply lim_lg_ln_p|apply lg_lim_p].
Qed.
Lemma lgG_lim_m a b c : is_lim (lgG a b c) m_infty 0.
Proof.
  unfold lgG. apply (is_lim_val _ _ (a * 0 - b * (0 + 0) + c * (0 + 0))); [ring|].
  apply (is_lim_plus' (fun z => a * lg z - b * (lg z * sp (- z) + (1 - lg z) * sp z))).
  - apply (is_lim_minus' (fun z => a * lg z)); [apply (is_lim_scal_l lg a m_infty 0), lg_lim_m|].
    apply (is_lim_scal_l (fun z => lg z * sp (- z) + (1 - lg z) * sp z) b m_infty (0 + 0)).
    apply (is_lim_plus' (fun z => lg z * sp (- z))); [apply lim_lg_ln_m|apply lim_lg1_ln_m].
  - apply (is_lim_scal_l (fun z => lg z * sp (- z) + lg z) c m_infty (0 + 0)).
    apply (is_lim_plus' (fun z => lg z * sp (- z))); [apply lim_lg_ln_m|apply lg_lim_m].
Qed.
Lemma lg_moment l s a b c : 0 < s ->
  expectation (fun x => lg_pdf ((x - l) / s) / s)
    (fun x => a + b * ((x - l) / s) + c * sp (- ((x - l) / s))) (a + c).
Proof.
  intros Hs. apply (expectation_standard lg_pdf (fun z => a + b * z + c * sp (- z)) l s _ Hs).
  exists (lgG a b c). split; [apply lgG_derive|]. split.
  - intros z. apply (continuous_mult lg_pdf (fun z => a + b * z + c * sp (- z))); [apply lg_pdf_cont|].
    apply (continuous_plus (fun z => a + b * z) (fun z => c * sp (- z))).
    + apply (@ex_derive_continuous R_AbsRing R_NormedModule). auto_derive; auto.
    + apply (continuous_mult (fun _ => c) (fun z => sp (- z))); [apply continuous_const|apply sp_cont].
  - exists 0, (a + c). split; [apply lgG_lim_m|]. split; [apply lgG_lim_p|ring].
Qed.
Lemma ln_lg_pdf z : ln (lg_pdf z) = - z - 2 * sp (- z).
Proof.
  unfold lg_pdf. pose proof (lg_range z). rewrite ln_mult by lra. rewrite <- lg_opp, !ln_lg, Ropp_involutive, (sp_shift z). ring.
Qed.
(** the density is largest at 0 *)
Lemma lg_pdf_max z : lg_pdf z <= lg_pdf 0.
Proof.
  assert (lg 0 = / 2) as E by (unfold lg; rewrite Ropp_0, exp_0; field). unfold lg_pdf. rewrite E. pose proof (lg_range z). pose proof (pow2_ge_0 (lg z - / 2)). nra.
Qed.
