(** Infrastructure: affine substitution in integrals over the real line, and the first moments of the standard
    normal density. *)
From Coq Require Import Reals Lra.
From Coquelicot Require Import Coquelicot.
From Verif Require Import Base.Integral Base.Gauss.
Local Open Scope R_scope.

Lemma integral_affine (f : R -> R) m s v : 0 < s -> integral (fun z => f (m + s * z)) v -> integral f (s * v).
Proof.
  intros Hs H. apply (integral_scal s) in H. intros P HP. specialize (H P HP). unfold filtermapi in *.
  destruct H as [Q T [M1 HQ] [M2 HT] H].
  apply (Filter_prod _ _ _ (fun a => a < m + s * M1) (fun b => m + s * M2 < b)).
  - exists (m + s * M1). auto.
  - exists (m + s * M2). auto.
  - intros a b Ha Hb. cbn [fst snd] in *.
    destruct (H (/ s * a + - m / s) (/ s * b + - m / s)) as (y & Hy & Py).
    + apply HQ. apply (Rmult_lt_reg_l s); [exact Hs|]. replace (s * (/ s * a + - m / s)) with (a - m) by (field; lra). lra.
    + apply HT. apply (Rmult_lt_reg_l s); [exact Hs|]. replace (s * (/ s * b + - m / s)) with (b - m) by (field; lra). lra.
    + exists y. split; [|exact Py]. cbn [fst snd] in Hy. apply (is_RInt_comp_lin _ (/ s) (- m / s)) in Hy.
      revert Hy. apply is_RInt_ext. intros x _. unfold scal; cbn. unfold mult; cbn.
      replace (m + s * (/ s * x + - m / s)) with x by (field; lra). field. lra.
Qed.
Lemma integral_zero : integral (fun _ => 0) 0.
Proof.
  assert (H : integral (fun _ => 0) (0 - 0)); [|rewrite Rminus_0_r in H; exact H]. apply (integral_of_antiderivative (fun _ => 0)).
  - intros x. apply (is_derive_const (K := R_AbsRing) (V := R_NormedModule)).
  - intros x. apply continuous_const.
  - apply is_lim_const.
  - apply is_lim_const.
Qed.
Lemma npdf_cont z : continuous npdf z.
Proof. apply (ex_derive_continuous (K := R_AbsRing) (V := R_NormedModule)). eexists. apply npdf_derive. Qed.
Lemma z_npdf_cont z : continuous (fun z => z * npdf z) z.
Proof. apply (continuous_mult (fun z => z) npdf); [apply continuous_id|apply npdf_cont]. Qed.
Lemma npdf_mass : integral npdf 1.
Proof.
  replace 1 with (1 - 0) by ring. apply (integral_of_antiderivative ncdf).
  - apply ncdf_derive. - apply npdf_cont. - apply ncdf_lim_m. - apply ncdf_lim_p.
Qed.
Lemma npdf_mean : integral (fun z => z * npdf z) 0.
Proof.
  replace 0 with (- 0 - - 0) by ring. apply (integral_of_antiderivative (fun z => - npdf z)).
  - intros x. evar_last; [apply (is_derive_opp npdf), npdf_derive|]. unfold opp; cbn. ring.
  - apply z_npdf_cont.
  - apply (is_lim_opp npdf m_infty 0), lim_npdf_m.
  - apply (is_lim_opp npdf p_infty 0), lim_npdf_p.
Qed.
Lemma npdf_second : integral (fun z => z * z * npdf z) 1.
Proof.
  replace 1 with ((1 - 0) - (0 - 0)) by ring. apply (integral_of_antiderivative (fun z => ncdf z - z * npdf z)).
  - intros x. evar_last; [apply (is_derive_minus ncdf (fun z => z * npdf z)); [apply ncdf_derive|]|].
    + apply (is_derive_mult (fun z => z) npdf x 1 (- x * npdf x)); [apply (is_derive_id (K := R_AbsRing))|apply npdf_derive|intros; apply Rmult_comm].
    + unfold minus, plus, opp, mult; cbn. ring.
  - intros x. apply (continuous_ext (fun z => z * (z * npdf z))); [intros y; symmetry; apply Rmult_assoc|].
    apply (continuous_mult (fun z => z) (fun z => z * npdf z)); [apply continuous_id|apply z_npdf_cont].
  - apply (is_lim_minus' ncdf (fun z => z * npdf z) m_infty 0 0); [apply ncdf_lim_m|apply lim_z_npdf_m].
  - apply (is_lim_minus' ncdf (fun z => z * npdf z) p_infty 1 0); [apply ncdf_lim_p|apply lim_z_npdf_p].
Qed.
(** The integral up to a point of a function with a known antiderivative. *)
Lemma integral_upto (F f : R -> R) m : (forall x, is_derive F x (f x)) -> (forall x, continuous f x) -> is_lim F m_infty 0 ->
  integral (fun t => if Rle_dec t m then f t else 0) (F m).
Proof.
  intros Hd Hc Ha. unfold integral, is_RInt_gen. intros P [eps HP]. unfold filtermapi.
  specialize (Ha (ball 0 eps)).
  assert (La : Rbar_locally m_infty (fun x => ball 0 eps (F x) /\ x < m)).
  { apply (filter_and (F := Rbar_locally m_infty)); [apply Ha; exists eps; auto|]. exists m. auto. }
  assert (Lb : Rbar_locally p_infty (fun x => m < x)) by (exists m; auto).
  eapply Filter_prod; [exact La|exact Lb|].
  intros x y [Hx Hx'] Hy. cbn [fst snd]. exists (F m - F x). split.
  - replace (F m - F x) with (plus (F m - F x) (scal (y - m) (zero : R))).
    2: { unfold plus, scal; cbn. unfold mult, zero; cbn. ring. }
    apply (is_RInt_Chasles (V := R_NormedModule)) with m.
    + apply (is_RInt_ext (V := R_NormedModule) f); [|apply is_RInt_of_derive; auto].
      intros t Ht. rewrite Rmin_left, Rmax_right in Ht by lra. destruct (Rle_dec t m); [reflexivity|lra].
    + apply (is_RInt_ext (V := R_NormedModule) (fun _ => zero)); [|apply (is_RInt_const (V := R_NormedModule))].
      intros t Ht. rewrite Rmin_left, Rmax_right in Ht by lra. destruct (Rle_dec t m); [lra|reflexivity].
  - apply HP. revert Hx. unfold ball; cbn. unfold AbsRing_ball; cbn. unfold abs, minus, plus, opp; cbn.
    unfold Rabs. repeat destruct (Rcase_abs _); lra.
Qed.
Lemma ncdf_lt a b : a < b -> ncdf a < ncdf b.
Proof.
  intros H. destruct (MVT_gen ncdf a b npdf) as (c & Hc & E).
  - intros y _. apply ncdf_derive.
  - intros y _. apply derivable_continuous_pt. exists (npdf y). apply is_derive_Reals, ncdf_derive.
  - pose proof (npdf_pos c). assert (0 < npdf c * (b - a)) by (apply Rmult_lt_0_compat; lra). lra.
Qed.
Lemma ncdf_gt0 x : 0 < ncdf x.
Proof.
  assert (0 <= ncdf (x - 1)).
  { apply (integral_le (fun _ => 0) (fun t => if Rle_dec t (x - 1) then npdf t else 0)).
    - intros t. destruct (Rle_dec _ _); [left; apply npdf_pos|lra].
    - apply integral_zero.
    - apply integral_upto; [apply ncdf_derive|apply npdf_cont|apply ncdf_lim_m]. }
  pose proof (ncdf_lt (x - 1) x). lra.
Qed.
