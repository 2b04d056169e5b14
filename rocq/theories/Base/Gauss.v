(** Infrastructure: the Gaussian integral and the standard normal cdf. *)
From Coq Require Import Reals Lra.
From Coquelicot Require Import Coquelicot.
From Verif Require Import Base.Integral.
Local Open Scope R_scope.

Definition gint (x : R) : R := RInt (fun t => exp (- t ^ 2)) 0 x.
Lemma gauss_cont t : continuous (fun t => exp (- t ^ 2)) t.
Proof. apply (@ex_derive_continuous R_AbsRing R_NormedModule). auto_derive; auto. Qed.
Lemma gint_derive x : is_derive gint x (exp (- x ^ 2)).
Proof.
  unfold gint. apply (is_derive_RInt (fun t => exp (- t ^ 2)) (fun x => RInt (fun t => exp (- t ^ 2)) 0 x) 0).
  - apply filter_forall. intros y. apply (@RInt_correct R_CompleteNormedModule).
    apply (@ex_RInt_continuous R_CompleteNormedModule). intros; apply gauss_cont.
  - apply gauss_cont.
Qed.
Lemma gint_0 : gint 0 = 0.
Proof. unfold gint. apply (@RInt_point R_CompleteNormedModule). Qed.

Definition gaux (x t : R) : R := exp (- (x ^ 2 * (1 + t ^ 2))) / (1 + t ^ 2).
Lemma one_sq t : 0 < 1 + t ^ 2. Proof. nra. Qed.
Lemma h_derive (x t : R) : is_derive (fun u => gaux u t) x (- 2 * x * exp (- (x ^ 2 * (1 + t ^ 2)))).
Proof.
  pose proof (one_sq t). unfold gaux. auto_derive; [cbn in *; lra|]. cbn in *. set (e := exp _). field. lra.
Qed.
Lemma h_cont_t x t : continuous (fun t => gaux x t) t.
Proof.
  apply (@ex_derive_continuous R_AbsRing R_NormedModule). unfold gaux. pose proof (one_sq t).
  auto_derive. cbn in *; lra.
Qed.
Definition gauxI (x : R) : R := RInt (fun t => gaux x t) 0 1.
Lemma H_derive (x : R) : is_derive gauxI x (- 2 * exp (- x ^ 2) * gint x).
Proof.
  assert (E : RInt (fun t => Derive (fun u => gaux u t) x) 0 1 = - 2 * exp (- x ^ 2) * gint x).
  { rewrite (RInt_ext _ (fun t => - 2 * exp (- x ^ 2) * (x * exp (- (x * t + 0) ^ 2)))).
    2: { intros t _. etransitivity; [apply is_derive_unique, (h_derive x t)|].
         replace (- (x ^ 2 * (1 + t ^ 2))) with (- x ^ 2 + - (x * t + 0) ^ 2) by ring. rewrite exp_plus. apply Rminus_diag_uniq. ring. }
    assert (EX : ex_RInt (fun t => x * exp (- (x * t + 0) ^ 2)) 0 1).
    { apply (@ex_RInt_continuous R_CompleteNormedModule). intros t _.
      apply (@ex_derive_continuous R_AbsRing R_NormedModule). auto_derive; auto. }
    etransitivity; [apply (RInt_scal (V := R_CompleteNormedModule) (fun t => x * exp (- (x * t + 0) ^ 2)) 0 1 (- 2 * exp (- x ^ 2)) EX)|].
    unfold scal; cbn [ModuleSpace.scal]; apply (f_equal (Rmult (- 2 * exp (- x ^ 2)))). unfold gint.
    pose proof (RInt_comp_lin (V := R_CompleteNormedModule) (fun t => exp (- t ^ 2)) x 0 0 1) as HL.
    replace (x * 0 + 0) with 0 in HL by ring. replace (x * 1 + 0) with x in HL by ring.
    apply HL. apply (@ex_RInt_continuous R_CompleteNormedModule). intros; apply gauss_cont. }
  rewrite <- E. unfold gauxI. apply is_derive_RInt_param.
  - apply filter_forall. intros y t _. eexists. apply h_derive.
  - intros t _. apply (continuity_2d_pt_ext (fun u v => - 2 * u * exp (- (u ^ 2 * (1 + v ^ 2))))).
    { intros u v. symmetry. apply is_derive_unique, h_derive. }
    apply continuity_2d_pt_mult.
    + apply continuity_2d_pt_mult; [apply continuity_2d_pt_const|apply continuity_2d_pt_id1].
    + apply (continuity_1d_2d_pt_comp exp).
      * apply derivable_continuous_pt, derivable_pt_exp.
      * apply continuity_2d_pt_opp, continuity_2d_pt_mult.
        -- apply (continuity_2d_pt_ext (fun u v => u * u)); [intros; ring|]. apply continuity_2d_pt_mult; apply continuity_2d_pt_id1.
        -- apply continuity_2d_pt_plus; [apply continuity_2d_pt_const|].
           apply (continuity_2d_pt_ext (fun u v => v * v)); [intros; ring|]. apply continuity_2d_pt_mult; apply continuity_2d_pt_id2.
  - apply filter_forall. intros y. apply (@ex_RInt_continuous R_CompleteNormedModule). intros; apply h_cont_t.
Qed.
Lemma sq_plus_H x : gint x ^ 2 + gauxI x = PI / 4.
Proof.
  assert (D : forall x, is_derive (fun x => gint x ^ 2 + gauxI x) x 0).
  { intros y. evar_last.
    - apply (@is_derive_plus R_AbsRing R_NormedModule (fun x => gint x ^ 2) gauxI).
      + apply is_derive_pow. apply gint_derive.
      + apply H_derive.
    - unfold plus; cbn. ring. }
  assert (E0 : gint 0 ^ 2 + gauxI 0 = PI / 4).
  { rewrite gint_0. unfold gauxI, gaux.
    rewrite (RInt_ext _ (fun t => / (1 + t ^ 2))).
    2: { intros t _. replace (- (0 ^ 2 * (1 + t ^ 2))) with 0 by ring. rewrite exp_0. apply Rmult_1_l. }
    assert (I : is_RInt (fun t => / (1 + t ^ 2)) 0 1 (atan 1 - atan 0)).
    { apply (is_RInt_of_derive atan).
      - intros y. apply is_derive_Reals. apply derivable_pt_lim_atan.
      - intros y. apply (@ex_derive_continuous R_AbsRing R_NormedModule). auto_derive. pose proof (one_sq y). cbn in *; lra. }
    rewrite (is_RInt_unique _ _ _ _ I), atan_1, atan_0. ring. }
  rewrite <- E0. destruct (Req_dec 0 x) as [<-|Hne]; [auto|].
  destruct (MVT_gen (fun x => gint x ^ 2 + gauxI x) 0 x (fun _ => 0)) as (c & _ & Hc).
  - intros; apply D.
  - intros y _. apply continuity_pt_filterlim. apply (@ex_derive_continuous R_AbsRing R_NormedModule (fun x => gint x ^ 2 + gauxI x)). exists 0; apply D.
  - lra.
Qed.
Lemma H_bounds x : 0 <= gauxI x <= exp (- x ^ 2).
Proof.
  unfold gauxI. assert (EX : ex_RInt (fun t => gaux x t) 0 1)
    by (apply (@ex_RInt_continuous R_CompleteNormedModule); intros; apply h_cont_t).
  split.
  - apply RInt_ge_0; [lra|auto|]. intros t _. unfold gaux. apply Rlt_le, Rdiv_lt_0_compat; [apply exp_pos|apply one_sq].
  - replace (exp (- x ^ 2)) with (RInt (fun _ => exp (- x ^ 2)) 0 1).
    2: { rewrite RInt_const. unfold scal; cbn; unfold mult; cbn. ring. }
    apply RInt_le; [lra|auto|apply ex_RInt_const|]. intros t Ht. unfold gaux.
    apply Rle_div_l; [apply one_sq|].
    assert (exp (- (x ^ 2 * (1 + t ^ 2))) <= exp (- x ^ 2)).
    { destruct (Req_dec (x ^ 2 * t ^ 2) 0) as [E|N].
      - right. f_equal. rewrite Rmult_plus_distr_l, E. ring.
      - left. apply exp_increasing. nra. }
    pose proof (exp_pos (- x ^ 2)). nra.
Qed.
Lemma lim_exp_sq : is_lim (fun x => exp (- x ^ 2)) p_infty 0.
Proof.
  apply (is_lim_le_le_loc (fun _ => 0) (fun x => exp (- x)) _ p_infty 0).
  - exists 1. intros x Hx. split; [apply Rlt_le, exp_pos|]. left; apply exp_increasing. nra.
  - apply is_lim_const.
  - apply lim_exp_neg.
Qed.
Lemma lim_H : is_lim gauxI p_infty 0.
Proof.
  apply (is_lim_le_le_loc (fun _ => 0) (fun x => exp (- x ^ 2)) _ p_infty 0).
  - exists 0. intros x _. apply H_bounds.
  - apply is_lim_const.
  - apply lim_exp_sq.
Qed.
Lemma gint_pos x : 0 <= x -> 0 <= gint x.
Proof.
  intros Hx. apply RInt_ge_0; auto.
  - apply (@ex_RInt_continuous R_CompleteNormedModule). intros; apply gauss_cont.
  - intros; apply Rlt_le, exp_pos.
Qed.
(** the Gaussian integral *)
Lemma gint_lim : is_lim gint p_infty (sqrt PI / 2).
Proof.
  apply (is_lim_tail_p (fun x => sqrt (PI / 4 - gauxI x)) _ 0).
  - intros x Hx. rewrite <- (sq_plus_H x). replace (gint x ^ 2 + gauxI x - gauxI x) with (gint x ^ 2) by ring.
    rewrite <- Rsqr_pow2. apply sqrt_Rsqr, gint_pos; lra.
  - replace (sqrt PI / 2) with (sqrt (PI / 4 - 0)).
    2: { rewrite Rminus_0_r. rewrite sqrt_div_alt by lra. f_equal. replace 4 with (2 * 2) by ring. apply sqrt_square; lra. }
    apply (is_lim_comp_continuous (fun x => PI / 4 - gauxI x) sqrt p_infty (PI / 4 - 0)).
    + apply (is_lim_minus' (fun _ => PI / 4) gauxI); [apply is_lim_const|apply lim_H].
    + apply continuity_pt_filterlim, continuity_pt_sqrt. pose proof PI_RGT_0. lra.
Qed.
Lemma gint_odd x : gint (- x) = - gint x.
Proof.
  assert (D : forall y, is_derive (fun y => gint (- y) + gint y) y 0).
  { intros y. evar_last.
    - apply (@is_derive_plus R_AbsRing R_NormedModule (fun y => gint (- y)) gint); [|apply gint_derive].
      apply (is_derive_comp gint Ropp); [apply gint_derive|].
      apply (@is_derive_opp R_AbsRing R_NormedModule (fun y => y)). apply (@is_derive_id R_AbsRing).
    - unfold plus, scal, opp, one; cbn. unfold mult; cbn.
      match goal with |- - (1) * exp ?a + exp ?b = 0 => replace a with b by ring end. ring. }
  assert (E0 : gint (- 0) + gint 0 = 0) by (rewrite Ropp_0, gint_0; ring).
  destruct (Req_dec 0 x) as [<-|Hne]; [rewrite Ropp_0, gint_0; ring|].
  destruct (MVT_gen (fun y => gint (- y) + gint y) 0 x (fun _ => 0)) as (c & _ & Hc).
  - intros; apply D.
  - intros y _. apply continuity_pt_filterlim. apply (@ex_derive_continuous R_AbsRing R_NormedModule (fun y => gint (- y) + gint y)). exists 0; apply D.
  - lra.
Qed.
Lemma gint_lim_m : is_lim gint m_infty (- (sqrt PI / 2)).
Proof.
  apply (is_lim_ext (fun x => - gint (- x))); [intros; rewrite gint_odd; ring|].
  apply (is_lim_opp (fun x => gint (- x)) m_infty (sqrt PI / 2)). apply is_lim_opp_pm, gint_lim.
Qed.

(** ** Standard normal density and cdf *)
Definition npdf (z : R) : R := exp (- (z ^ 2 / 2)) / sqrt (2 * PI).
Definition ncdf (z : R) : R := / 2 + gint (z / sqrt 2) / sqrt PI.
Lemma sqrt2_pos : 0 < sqrt 2. Proof. apply sqrt_lt_R0; lra. Qed.
Lemma sqrtPI_pos : 0 < sqrt PI. Proof. apply sqrt_lt_R0, PI_RGT_0. Qed.
Lemma sqrt2PI : sqrt (2 * PI) = sqrt 2 * sqrt PI. Proof. apply sqrt_mult_alt; lra. Qed.
Lemma npdf_pos z : 0 < npdf z.
Proof.
  apply Rdiv_lt_0_compat; [apply exp_pos|]. rewrite sqrt2PI. apply Rmult_lt_0_compat; [apply sqrt2_pos|apply sqrtPI_pos].
Qed.
Lemma ncdf_derive z : is_derive ncdf z (npdf z).
Proof.
  unfold ncdf. pose proof sqrt2_pos. pose proof sqrtPI_pos. evar_last.
  - apply (@is_derive_plus R_AbsRing R_NormedModule (fun _ => / 2) (fun z => gint (z / sqrt 2) / sqrt PI)); [apply (@is_derive_const R_AbsRing R_NormedModule)|].
    apply (is_derive_ext (fun z => / sqrt PI * gint (z / sqrt 2))); [intros; unfold Rdiv; apply Rmult_comm|].
    apply (is_derive_scal (fun z => gint (z / sqrt 2)) z (/ sqrt PI)).
    apply (is_derive_comp gint (fun z => z / sqrt 2)); [apply gint_derive|].
    instantiate (1 := / sqrt 2). auto_derive; [auto|field; lra].
  - unfold plus, zero, scal; cbn. unfold mult; cbn. unfold npdf. rewrite sqrt2PI.
    replace (- (z / sqrt 2 * (z / sqrt 2 * 1))) with (- (z * (z * 1) / 2)).
    2: { replace 2 with (sqrt 2 * sqrt 2) at 1 by (apply sqrt_sqrt; lra). field; lra. }
    change (z ^ 2) with (z * (z * 1)). field. split; lra.
Qed.
Lemma ncdf_lim_p : is_lim ncdf p_infty 1.
Proof.
  pose proof sqrtPI_pos. unfold ncdf. replace 1 with (/ 2 + sqrt PI / 2 / sqrt PI) by (field; lra).
  apply (is_lim_plus' (fun _ => / 2) (fun z => gint (z / sqrt 2) / sqrt PI)); [apply is_lim_const|].
  apply (is_lim_scal_r (fun z => gint (z / sqrt 2)) (/ sqrt PI) p_infty (sqrt PI / 2)).
  apply (is_lim_ext (fun z => gint ((z - 0) / sqrt 2))); [intros; rewrite Rminus_0_r; auto|].
  apply is_lim_affine_p; [apply sqrt2_pos|apply gint_lim].
Qed.
Lemma ncdf_lim_m : is_lim ncdf m_infty 0.
Proof.
  pose proof sqrtPI_pos. unfold ncdf. replace 0 with (/ 2 + - (sqrt PI / 2) * / sqrt PI) by (field; lra).
  apply (is_lim_plus' (fun _ => / 2) (fun z => gint (z / sqrt 2) / sqrt PI)); [apply is_lim_const|].
  apply (is_lim_scal_r (fun z => gint (z / sqrt 2)) (/ sqrt PI) m_infty (- (sqrt PI / 2))).
  apply (is_lim_ext (fun z => gint ((z - 0) / sqrt 2))); [intros; rewrite Rminus_0_r; auto|].
  apply is_lim_affine_m; [apply sqrt2_pos|apply gint_lim_m].
Qed.
Lemma ncdf_opp z : ncdf (- z) = 1 - ncdf z.
Proof.
  unfold ncdf. pose proof sqrtPI_pos. replace (- z / sqrt 2) with (- (z / sqrt 2)) by (field; pose proof sqrt2_pos; lra).
  rewrite gint_odd. field. lra.
Qed.
Lemma ncdf_0 : ncdf 0 = / 2.
Proof. unfold ncdf. unfold Rdiv at 2. rewrite Rmult_0_l, gint_0. unfold Rdiv. ring. Qed.
(** z phi(z) vanishes at both ends *)
Lemma lim_z_npdf_p : is_lim (fun z => z * npdf z) p_infty 0.
Proof.
  apply (is_lim_le_le_loc (fun _ => 0) (fun z => / sqrt (2 * PI) * (z * exp (- z))) _ p_infty 0).
  - exists 2. intros z Hz. pose proof (npdf_pos z). split; [nra|]. unfold npdf, Rdiv.
    assert (0 < / sqrt (2 * PI)). { apply Rinv_0_lt_compat. rewrite sqrt2PI. apply Rmult_lt_0_compat; [apply sqrt2_pos|apply sqrtPI_pos]. }
    assert (exp (- (z ^ 2 / 2)) <= exp (- z)). { left. apply exp_increasing. nra. }
    replace (z * (exp (- (z ^ 2 * / 2)) * / sqrt (2 * PI))) with (/ sqrt (2 * PI) * (z * exp (- (z ^ 2 / 2)))) by (unfold Rdiv; ring).
    apply Rmult_le_compat_l; [lra|]. apply Rmult_le_compat_l; lra.
  - apply is_lim_const.
  - replace 0 with (/ sqrt (2 * PI) * 0) by ring. apply (is_lim_scal_l (fun z => z * exp (- z)) (/ sqrt (2 * PI)) p_infty 0).
    apply lim_x_exp_neg.
Qed.
Lemma npdf_even z : npdf (- z) = npdf z.
Proof. unfold npdf. replace ((- z) ^ 2) with (z ^ 2) by ring. auto. Qed.
Lemma lim_z_npdf_m : is_lim (fun z => z * npdf z) m_infty 0.
Proof.
  apply (is_lim_ext (fun z => - ((fun w => w * npdf w) (- z)))); [intros; rewrite npdf_even; ring|].
  replace (Finite 0) with (Rbar_opp 0) by (cbn; f_equal; ring). apply is_lim_opp.
  apply (is_lim_opp_pm (fun w => w * npdf w) 0), lim_z_npdf_p.
Qed.
Lemma lim_npdf_p : is_lim npdf p_infty 0.
Proof.
  apply (is_lim_le_le_loc (fun _ => 0) (fun z => z * npdf z) _ p_infty 0).
  - exists 1. intros z Hz. pose proof (npdf_pos z). split; [lra|nra].
  - apply is_lim_const.
  - apply lim_z_npdf_p.
Qed.
Lemma lim_npdf_m : is_lim npdf m_infty 0.
Proof.
  apply (is_lim_ext (fun z => npdf (- z))); [intros; apply npdf_even|]. apply is_lim_opp_pm, lim_npdf_p.
Qed.
Lemma npdf_derive z : is_derive npdf z (- z * npdf z).
Proof.
  unfold npdf. assert (sqrt (2 * PI) <> 0). { rewrite sqrt2PI. pose proof sqrt2_pos. pose proof sqrtPI_pos. nra. }
  auto_derive; [auto|]. cbn. unfold Rdiv. rewrite !Rmult_1_r. field; auto.
Qed.
