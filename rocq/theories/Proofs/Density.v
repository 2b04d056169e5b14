From Coq Require Import Reals Lra List.
From Coquelicot Require Import Coquelicot.
From Verif Require Import Base.XR Base.Integral Base.Gauss Model.ScalarDist Spec.Density.
Local Open Scope R_scope.

Lemma is_lim_val f p (l l' : R) : l = l' -> is_lim f p l -> is_lim f p l'.
Proof. intros ->; auto. Qed.
Lemma density_integral f F : density_with_cdf f F -> integral f 1.
Proof.
  intros (_ & C & D & Lm & Lp). replace 1 with (1 - 0) by ring. eapply integral_of_antiderivative; eauto.
Qed.
Lemma density_increasing f F : density_with_cdf f F -> forall x y, x <= y -> F x <= F y.
Proof.
  intros (Hp & C & D & _) x y [H| ->]; [|lra].
  destruct (MVT_gen F x y f) as (c & _ & E).
  - intros; apply D.
  - intros z _. apply continuity_pt_filterlim. apply (@ex_derive_continuous R_AbsRing R_NormedModule). eexists; apply D.
  - specialize (Hp c). nra.
Qed.
Lemma density_strict f F : density_with_cdf f F -> (forall x, 0 < f x) -> forall x y, x < y -> F x < F y.
Proof.
  intros (_ & C & D & _) Hp x y H.
  destruct (MVT_gen F x y f) as (c & _ & E).
  - intros; apply D.
  - intros z _. apply continuity_pt_filterlim. apply (@ex_derive_continuous R_AbsRing R_NormedModule). eexists; apply D.
  - specialize (Hp c). nra.
Qed.
Lemma density_range f F : density_with_cdf f F -> forall x, 0 <= F x <= 1.
Proof.
  intros HD x. pose proof (density_increasing f F HD) as Hm. destruct HD as (_ & _ & _ & Lm & Lp). split.
  - apply (is_lim_le_loc F (fun _ => F x) m_infty 0 (F x)); auto; [|apply is_lim_const].
    exists x. intros y Hy. apply Hm; lra.
  - apply (is_lim_le_loc (fun _ => F x) F p_infty (F x) 1); auto; [|apply is_lim_const].
    exists x. intros y Hy. apply Hm; lra.
Qed.
Lemma density_range_strict f F : density_with_cdf f F -> (forall x, 0 < f x) -> forall x, 0 < F x < 1.
Proof.
  intros HD Hp x. pose proof (density_strict f F HD Hp (x - 1) x). pose proof (density_strict f F HD Hp x (x + 1)).
  pose proof (density_range f F HD (x - 1)). pose proof (density_range f F HD (x + 1)). lra.
Qed.

(** location-scale families *)
Lemma std_derive (F f : R -> R) l s x : s <> 0 -> is_derive F ((x - l) / s) (f ((x - l) / s)) ->
  is_derive (fun x => F ((x - l) / s)) x (f ((x - l) / s) / s).
Proof.
  intros Hs HF. evar_last.
  - apply (is_derive_comp F (fun x => (x - l) / s)); [exact HF|]. instantiate (1 := / s). auto_derive; [auto|field; auto].
  - unfold scal; cbn; unfold mult; cbn. unfold Rdiv. ring.
Qed.
Lemma std_continuous (f : R -> R) l s x : (forall z, continuous f z) -> continuous (fun x => f ((x - l) / s) / s) x.
Proof.
  intros Hc. apply (continuous_mult (fun x => f ((x - l) / s)) (fun _ => / s)); [|apply continuous_const].
  apply (continuous_comp (fun x => (x - l) / s) f); [|apply Hc].
  apply (continuous_mult (fun x => x - l) (fun _ => / s)); [|apply continuous_const].
  apply (continuous_minus (fun x => x) (fun _ => l)); [apply continuous_id|apply continuous_const].
Qed.
Lemma location_scale f F l s : 0 < s -> density_with_cdf f F ->
  density_with_cdf (fun x => f ((x - l) / s) / s) (fun x => F ((x - l) / s)).
Proof.
  intros Hs (Hp & C & D & Lm & Lp). split; [|split; [|split; [|split]]].
  - intros x. apply Rdiv_le_0_compat; auto.
  - intros x; apply std_continuous; auto.
  - intros x; apply std_derive; [lra|apply D].
  - apply is_lim_affine_m; auto.
  - apply is_lim_affine_p; auto.
Qed.
(** an expectation of a function of the standardised variable *)
Lemma expectation_standard (f g : R -> R) l s v : 0 < s ->
  (exists G, (forall z, is_derive G z (f z * g z)) /\ (forall z, continuous (fun z => f z * g z) z) /\
     exists a b, is_lim G m_infty (Finite a) /\ is_lim G p_infty (Finite b) /\ b - a = v) ->
  expectation (fun x => f ((x - l) / s) / s) (fun x => g ((x - l) / s)) v.
Proof.
  intros Hs (G & D & C & a & b & La & Lb & <-). unfold expectation.
  apply (integral_of_antiderivative (fun x => G ((x - l) / s))).
  - intros x. evar_last; [apply (std_derive G (fun z => f z * g z)); [lra|apply D]|]. unfold Rdiv; ring.
  - intros x. apply (continuous_ext (fun x => (fun z => f z * g z) ((x - l) / s) / s)); [intros; unfold Rdiv; apply Rminus_diag_uniq; ring|].
    apply (std_continuous (fun z => f z * g z)); auto.
  - apply is_lim_affine_m; auto.
  - apply is_lim_affine_p; auto.
Qed.

(** float arithmetic on finite values *)
Lemma standardize_fin x l s : 0 < s -> standardize (Fin x) (Fin l) (Fin s) = Fin ((x - l) / s).
Proof. intros H. unfold standardize. cbn. destruct (Req_EM_T s 0); [lra|]. reflexivity. Qed.
Lemma xdiv_fin a b : b <> 0 -> xdiv (Fin a) (Fin b) = Fin (a / b).
Proof. intros H. cbn. destruct (Req_EM_T b 0); [lra|reflexivity]. Qed.
Lemma xlog_fin a : 0 < a -> xlog (Fin a) = Fin (ln a).
Proof. apply rlog_pos. Qed.

(** ** Normal *)
Definition normal_pdf (l s x : R) : R := npdf ((x - l) / s) / s.
Definition normal_F (l s x : R) : R := ncdf ((x - l) / s).
Lemma std_normal_density : density_with_cdf npdf ncdf.
Proof.
  split; [intros; apply Rlt_le, npdf_pos|]. split; [|split; [intros; apply ncdf_derive|split; [apply ncdf_lim_m|apply ncdf_lim_p]]].
  intros x. apply (@ex_derive_continuous R_AbsRing R_NormedModule). eexists; apply npdf_derive.
Qed.
Lemma normal_density l s : 0 < s -> density_with_cdf (normal_pdf l s) (normal_F l s).
Proof. intros H. apply (location_scale npdf ncdf l s H std_normal_density). Qed.
Lemma normal_pdf_pos l s x : 0 < s -> 0 < normal_pdf l s x.
Proof. intros H. apply Rdiv_lt_0_compat; [apply npdf_pos|auto]. Qed.
Lemma ln_npdf z : ln (npdf z) = - (z ^ 2 / 2) - 1 / 2 * ln (2 * PI).
Proof.
  unfold npdf. pose proof PI_RGT_0. assert (0 < sqrt (2 * PI)) by (apply sqrt_lt_R0; lra).
  rewrite ln_div by (auto using exp_pos). rewrite ln_exp. f_equal.
  rewrite <- Rpower_sqrt by lra. unfold Rpower. rewrite ln_exp. lra.
Qed.
Lemma ln_normal_pdf l s x : 0 < s -> ln (normal_pdf l s x) = - (((x - l) / s) ^ 2 / 2) - 1 / 2 * ln (2 * PI) - ln s.
Proof. intros H. unfold normal_pdf. rewrite ln_div by (auto using npdf_pos). rewrite ln_npdf. ring. Qed.
Lemma normal_moment l s a b c : 0 < s ->
  expectation (normal_pdf l s) (fun x => a + b * ((x - l) / s) + c * ((x - l) / s) ^ 2) (a + c).
Proof.
  intros Hs. apply (expectation_standard npdf (fun z => a + b * z + c * z ^ 2) l s (a + c) Hs).
  exists (fun z => (a + c) * ncdf z - b * npdf z - c * (z * npdf z)). split; [|split].
  - intros z. evar_last.
    + apply (@is_derive_minus R_AbsRing R_NormedModule); [apply (@is_derive_minus R_AbsRing R_NormedModule)|].
      * apply (is_derive_scal ncdf z (a + c)), ncdf_derive.
      * apply (is_derive_scal npdf z b), npdf_derive.
      * apply (is_derive_scal (fun z => z * npdf z) z c).
        apply (is_derive_mult (fun z => z) npdf); [apply (@is_derive_id R_AbsRing)|apply npdf_derive|intros; apply Rmult_comm].
    + unfold minus, plus, opp, scal, one, mult; cbn. unfold mult; cbn. ring.
  - intros z. apply (continuous_mult npdf (fun z => a + b * z + c * z ^ 2)); apply (@ex_derive_continuous R_AbsRing R_NormedModule).
    + eexists; apply npdf_derive.
    + auto_derive; auto.
  - exists 0, (a + c). split; [|split; [|ring]].
    + replace 0 with ((a + c) * 0 - b * 0 - c * 0) by ring.
      apply (is_lim_minus' (fun z => (a + c) * ncdf z - b * npdf z) (fun z => c * (z * npdf z))).
      * apply (is_lim_minus' (fun z => (a + c) * ncdf z) (fun z => b * npdf z)).
        -- apply (is_lim_scal_l ncdf (a + c) m_infty 0), ncdf_lim_m.
        -- apply (is_lim_scal_l npdf b m_infty 0), lim_npdf_m.
      * apply (is_lim_scal_l (fun z => z * npdf z) c m_infty 0), lim_z_npdf_m.
    + apply (is_lim_val _ _ ((a + c) * 1 - b * 0 - c * 0)); [ring|].
      apply (is_lim_minus' (fun z => (a + c) * ncdf z - b * npdf z) (fun z => c * (z * npdf z))).
      * apply (is_lim_minus' (fun z => (a + c) * ncdf z) (fun z => b * npdf z)).
        -- apply (is_lim_scal_l ncdf (a + c) p_infty 1), ncdf_lim_p.
        -- apply (is_lim_scal_l npdf b p_infty 0), lim_npdf_p.
      * apply (is_lim_scal_l (fun z => z * npdf z) c p_infty 0), lim_z_npdf_p.
Qed.
Lemma expectation_ext f g g' v v' : (forall x, g x = g' x) -> v = v' -> expectation f g v -> expectation f g' v'.
Proof. intros E -> . unfold expectation. apply integral_ext. intros x; rewrite E; auto. Qed.

Lemma gibbs f F g G k : density_with_cdf f F -> density_with_cdf g G -> (forall x, 0 < f x) -> (forall x, 0 < g x) ->
  is_kl f g k -> 0 <= k.
Proof.
  intros HF HG Pf Pg HK. apply density_integral in HF, HG.
  assert (integral (fun x => f x + -1 * g x) (1 + -1 * 1)) as HI by (apply integral_plus, integral_scal; auto).
  assert (1 + -1 * 1 <= k); [|lra]. eapply integral_le; [|exact HI|exact HK]. intros x. cbv beta.
  specialize (Pf x). specialize (Pg x).
  assert (ln (g x / f x) <= g x / f x - 1).
  { pose proof (exp_ineq1_le (ln (g x / f x))) as HE. rewrite exp_ln in HE by (apply Rdiv_lt_0_compat; auto). lra. }
  rewrite ln_div in H by auto.
  assert (f x * (g x / f x - 1) = g x - f x) by (field; lra).
  assert (f x * (ln (g x) - ln (f x)) <= f x * (g x / f x - 1)) by (apply Rmult_le_compat_l; lra). lra.
Qed.
Lemma gaussian_eq l s : 0 < s -> gaussian l s = normal_pdf l s.
Proof.
  intros H. apply FunctionalExtensionality.functional_extensionality. intros x. unfold gaussian, normal_pdf, npdf.
  replace (- ((x - l) / s) ^ 2 / 2) with (- (((x - l) / s) ^ 2 / 2)) by (unfold Rdiv; ring).
  assert (0 < sqrt (2 * PI)) by (apply sqrt_lt_R0; pose proof PI_RGT_0; lra). field; lra.
Qed.
Lemma xsoftplus_fin z : xsoftplus (Fin z) = Fin (ln (1 + exp z)).
Proof.
  unfold xsoftplus, xlogaddexp. cbn. rewrite exp_0. pose proof (exp_pos z). rewrite rlog_pos by lra. f_equal. f_equal. ring.
Qed.
