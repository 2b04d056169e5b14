(** C30-C33: Transformed distributions. *)
From Coq Require Import Reals List Lra Lia Bool ZArith.
From Coquelicot Require Import Coquelicot.
From Verif Require Import Base.Result Base.Sums Base.Tensor Base.Rows Base.XR Base.Lift Base.Integral Base.Gauss
  Model.Bijector Model.ScalarBij Model.ScalarDist Model.ArrayDist Model.SameAs Model.Jaxpr Model.Transformed
  Spec.Bijector Spec.Scalar Spec.Density Spec.SameAs Spec.Transformed
  Proofs.ScalarBij Proofs.Density Proofs.SameAs Proofs.Transformed Props.SameAs Props.Continuous.
Import ListNotations.
Local Open Scope R_scope.

(** ** C31: constructor, shapes, sampling *)
Theorem C31_constructor_checks : forall K (base : dist K) b,
  match d_event base with
  | None => transformed_init base b = Err ValueError
  | Some ev => Z.of_nat (length ev) <> b_in b -> transformed_init base b = Err ValueError
  end.
Proof.
  intros K base b. unfold transformed_init, transformed_check. destruct (d_event base) as [ev|]; [|reflexivity].
  intros N. destruct (Z.eqb_spec (Z.of_nat (length ev)) (b_in b)); [contradiction|reflexivity].
Qed.
Print Assumptions C31_constructor_checks.

(** batch_shape + event_shape is the shape of forward of an input of the base's shape, and the event shape has
    the number of dimensions the bijector declares. *)
Theorem C31_shapes : forall K (base : dist K) b ev d y,
  d_event base = Some ev -> transformed_init base b = Ok d ->
  b_fwd b (tgen (d_batch base ++ ev) (fun _ => 0)) = Ok y -> (0 <= b_out b <= Z.of_nat (rank y))%Z ->
  exists es, d_event d = Some es /\ d_batch d ++ es = shp y /\ Z.of_nat (length es) = b_out b.
Proof.
  intros K base b ev d y Hev H Hy Hr. unfold transformed_init, transformed_check, transformed_shapes in H. rewrite Hev in H.
  destruct (Z.eqb_spec (Z.of_nat (length ev)) (b_in b)); [|discriminate]. cbn [rbind] in H.
  change (tzeros (d_batch base ++ ev)) with (tgen (d_batch base ++ ev) (fun _ => 0)) in H. rewrite Hy in H. cbn [rbind] in H.
  unfold rank in *. destruct (Z.eqb_spec (b_out b) 0) as [E|E]; cbn [rbind] in H; injection H as <-; cbn [d_event d_batch].
  - exists []. rewrite app_nil_r, E. auto.
  - eexists. split; [reflexivity|]. split; [apply firstn_skipn|]. rewrite skipn_length. lia.
Qed.
Print Assumptions C31_shapes.

(** Row i of a sample is forward of row i of the base sample drawn with the same key. *)
Theorem C31_sample_is_forward : forall K (base : dist K) b key n xs ys s,
  d_sample_n base key n = Ok xs -> shp xs = n :: s -> (forall x y, b_fwd b x = Ok y -> wf x -> wf y) -> wf xs ->
  transformed_sample_n base b key n = Ok ys ->
  exists s', shp ys = n :: s' /\ forall i, (i < n)%nat -> b_fwd b (trow i xs) = Ok (trow i ys).
Proof.
  intros K base b key n xs ys s Hx Es Wf Wx H. unfold transformed_sample_n in H. rewrite Hx in H. cbn [rbind] in H.
  unfold vmap, lead_size in H. rewrite Es in H. cbn [hd] in H. apply rbind_ok_inv in H as (l & Hl & H).
  pose proof (rmapM_length _ _ _ Hl) as Ll. rewrite seq_length in Ll.
  assert (N : forall i, (i < n)%nat -> b_fwd b (trow i xs) = Ok (nth i l (tscalar 0))).
  { intros i Hi. pose proof (rmapM_nth _ _ _ i 0%nat (tscalar 0) Hl) as E. rewrite seq_length, seq_nth in E by auto. apply E; auto. }
  assert (W : forall u, In u l -> wf u).
  { intros u Hu. apply (In_nth _ _ (tscalar 0)) in Hu as (i & Hi & <-). apply (Wf (trow i xs)); [apply N; lia|].
    eapply trow_wf; eauto. lia. }
  destruct (tstack_inv _ _ H W) as (s' & E1 & _ & _ & _ & R). exists s'. rewrite Ll in E1. split; auto.
  intros i Hi. rewrite (R i (tscalar 0)) by lia. auto.
Qed.
Print Assumptions C31_sample_is_forward.

(** ** C31: log_prob is the log of the pushed-forward density *)
(** For a base with densities [p] (applied entrywise) and a bijector whose inverse direction computes, entrywise,
    [g] and [lg] where [g] inverts the smooth bijection [f] of R onto (a, c) and [lg] is log|g'|. *)
Theorem C31_log_prob_density : forall K (base : dist K) b f f' g lg a c p,
  smooth_bijection f f' g a c -> (forall x, 0 <= p x) ->
  (forall x, wf x -> d_log_prob base x = Ok (tmap (fun t => rlog (p t)) x)) ->
  (forall y, entries_inside a c y -> b_ial b y = Ok (tmap g y, tmap lg y)) ->
  (forall t, inside a c t -> log_abs_derivative g lg t) ->
  forall y, entries_inside a c y ->
    transformed_log_prob base b y = Ok (tmap (fun t => rlog (pushed p g t)) y).
Proof.
  intros K base b f f' g lg a c p SB Pp Hb Hi Hl y Hy. unfold transformed_log_prob. rewrite (Hi y Hy). cbn [rbind].
  destruct Hy as [W Fy]. rewrite Hb by (apply tmap_wf; auto). cbn [rbind]. rewrite !tmap_tmap, lift2_tmap by auto. f_equal.
  apply tmap_ext_in. intros t Ht. rewrite Forall_forall in Fy. specialize (Fy t Ht).
  destruct (Hl t Fy) as (d & Hd & Nz & ->). unfold pushed. apply is_derive_Reals in Hd. apply is_derive_unique in Hd. rewrite Hd.
  apply rlog_mult; auto. apply Rabs_pos_lt; auto.
Qed.
Print Assumptions C31_log_prob_density.

(** The pushed-forward density gives the image of [x1, x2] the mass the base gives [x1, x2]; increasing and
    decreasing bijectors alike. *)
Theorem C31_interval_mass : forall f f' g a c (p : R -> R), smooth_bijection f f' g a c -> (forall x, continuous p x) ->
  forall x1 x2, x1 <= x2 ->
  is_RInt (pushed p g) (Rmin (f x1) (f x2)) (Rmax (f x1) (f x2)) (RInt p x1 x2).
Proof. intros f f' g a c p SB C x1 x2 L. apply (subst_mass f f' g a c SB); auto. Qed.
Print Assumptions C31_interval_mass.

(** Expectations: E[phi(f(X))] = integral of phi against the pushed-forward density, in particular (phi = 1) the
    total mass is preserved. *)
Theorem C31_expectation : forall f f' g a c (p phi : R -> R) v, smooth_bijection f f' g a c -> (forall x, continuous p x) ->
  (forall x, continuous (fun x => phi (f x)) x) ->
  expectation p (fun x => phi (f x)) v -> integral_on a c (fun y => pushed p g y * phi y) v.
Proof.
  intros f f' g a c p phi v SB Cp Cphi HE.
  assert (Cu : forall x, continuous (fun x => p x * phi (f x)) x) by (intros x; apply (continuous_mult p (fun x => phi (f x))); auto).
  pose proof (subst_integral f f' g a c SB (fun x => p x * phi (f x)) v Cu HE) as HI.
  unfold integral_on in *. revert HI. apply is_RInt_gen_ext.
  apply (Filter_prod _ _ _ (inside a c) (inside a c) (left_inside f f' g a c SB) (right_inside f f' g a c SB)).
  intros y1 y2 I1 I2 y Hy. cbn [fst snd] in Hy. unfold pushed.
  rewrite (sb_fg f f' g a c SB); [apply Rminus_diag_uniq; ring|]. apply (min_inside a c y1 y2); auto; lra.
Qed.
Print Assumptions C31_expectation.
Theorem C31_total_mass : forall f f' g a c (p : R -> R), smooth_bijection f f' g a c -> (forall x, continuous p x) ->
  integral p 1 -> integral_on a c (pushed p g) 1.
Proof. intros f f' g a c p SB Cp HI. apply (subst_integral f f' g a c SB p 1); auto. Qed.
Print Assumptions C31_total_mass.

(** The inverse log-det of a bijector that reports log|f'| forwards and minus that backwards is log|g'|. *)
Theorem C31_inverse_log_det : forall f f' g lf lg a c, smooth_bijection f f' g a c ->
  (forall x, log_abs_derivative f lf x) -> (forall x, lg (f x) = - lf x) ->
  forall t, inside a c t -> log_abs_derivative g lg t.
Proof.
  intros f f' g lf lg a c SB Hf Hl t Ht. exists (/ f' (g t)). pose proof (sb_nz f f' g a c SB (g t)) as N.
  split; [apply is_derive_Reals, (g_derive f f' g a c SB); auto|]. split; [apply Rinv_neq_0_compat; auto|].
  rewrite <- (sb_fg f f' g a c SB t Ht) at 1. rewrite Hl. destruct (Hf (g t)) as (d & Hd & _ & ->).
  apply is_derive_Reals, is_derive_unique in Hd. rewrite (is_derive_unique _ _ _ (sb_derive f f' g a c SB (g t))) in Hd. subst d.
  rewrite Rabs_inv, ln_Rinv; auto. apply Rabs_pos_lt; auto.
Qed.
Print Assumptions C31_inverse_log_det.

(** *** Two concrete bijectors *)
Lemma tanh_smooth : smooth_bijection tanh (fun x => 1 - tanh x ^ 2) arctanh (-1) 1.
Proof.
  split; [|exact tanh_bijection]. intros x. split; [apply is_derive_tanh|]. split.
    - apply (@ex_derive_continuous R_AbsRing R_NormedModule). exists (- (2 * tanh x * (1 - tanh x ^ 2))).
      evar_last.
      + apply (is_derive_minus (fun _ => 1) (fun x => tanh x ^ 2)); [apply is_derive_const|].
        apply (is_derive_pow tanh 2 x). apply is_derive_tanh.
      + cbn. unfold minus, plus, opp, zero; cbn. ring.
    - pose proof (tanh_range x). nra.
Qed.
Lemma tanh_inverse_log_det t : -1 < t < 1 -> log_abs_derivative tanh_inverse tanh_ildj t.
Proof.
  intros Ht. apply (C31_inverse_log_det tanh _ arctanh tanh_fldj tanh_ildj (-1) 1 tanh_smooth); [exact tanh_log_det| |exact Ht].
  intros x. unfold tanh_ildj, tanh_inverse. rewrite arctanh_tanh. reflexivity.
Qed.
(** Tanh: the mass of the base is spread over (-1, 1). *)
Theorem C31_tanh : forall K (base : dist K) b (p : R -> R), tanh_bij = Ok b ->
  (forall x, continuous p x) -> (forall x, 0 <= p x) -> integral p 1 ->
  (forall x, wf x -> d_log_prob base x = Ok (tmap (fun t => rlog (p t)) x)) ->
  (forall y, entries_inside (-1) 1 y ->
     transformed_log_prob base b y = Ok (tmap (fun t => rlog (pushed p arctanh t)) y)) /\
  integral_on (-1) 1 (pushed p arctanh) 1.
Proof.
  intros K base b p Hb Cp Pp Ip Hl.
  pose proof tanh_smooth as SB.
  split; [|apply (C31_total_mass _ _ _ _ _ p SB); auto].
  apply (C31_log_prob_density K base b tanh (fun x => 1 - tanh x ^ 2) arctanh tanh_ildj (-1) 1 p SB Pp Hl).
  - intros y _. unfold tanh_bij in Hb. cbn in Hb. injection Hb as <-. reflexivity.
  - apply (C31_inverse_log_det tanh _ arctanh tanh_fldj tanh_ildj (-1) 1 SB); [exact tanh_log_det|].
    intros x. unfold tanh_ildj, tanh_inverse. rewrite arctanh_tanh. reflexivity.
Qed.
Print Assumptions C31_tanh.

(** A Normal base, entrywise. *)
Definition normal_base {K} (mu sigma : R) (d : dist K) : Prop :=
  forall x, d_log_prob d x = normal_log_prob_arr (tmap Fin x) (tscalar (Fin mu)) (tscalar (Fin sigma)).
Lemma gaussian_pos l s x : 0 < s -> 0 < gaussian l s x.
Proof. intros H. rewrite gaussian_eq by auto. apply normal_pdf_pos; auto. Qed.
Lemma xget_scalar (a : XR) idx : xget (tscalar a) idx = a.
Proof. unfold xget, bindex. cbn. destruct (rev idx); reflexivity. Qed.
Lemma normal_base_spec K (d : dist K) mu sigma x : 0 < sigma -> normal_base mu sigma d -> wf x ->
  d_log_prob d x = Ok (tmap (fun t => rlog (gaussian mu sigma t)) x).
Proof.
  intros Hs HB W. rewrite HB. unfold normal_log_prob_arr, lift3. rewrite (lift_top _ _ (shp x)).
  - f_equal. apply (tensor_ext (Fin 0)); [apply tgen_wf|apply tmap_wf; auto|reflexivity|]. cbn [shp tgen]. intros idx Hi.
    rewrite tget_tgen by auto. cbn [map]. rewrite !xget_scalar, (xget_same (tmap Fin x)) by auto.
    rewrite !(tget_tmap 0 (Fin 0)) by auto.
    destruct (C48_normal_distribution mu sigma Hs) as (F & _ & _ & HD). destruct (HD (tget 0 x idx)) as (P & _ & -> & _).
    rewrite rlog_pos; auto.
  - repeat constructor; cbn; try apply bshape_nil_l. apply bshape_refl.
  - left; reflexivity.
Qed.

Lemma affine_smooth s t : s <> 0 -> smooth_bijection (fun x => s * x + t) (fun _ => s) (fun y => (y - t) / s) m_infty p_infty.
Proof.
  intros Hs. split.
  - intros x. split; [auto_derive; [auto|ring]|]. split; [apply continuous_const|auto].
  - split; [intros x; split; [split; exact I|field; auto]|]. intros y _. field; auto.
Qed.
(** ScalarAffine with scalar parameters acts entrywise. *)
Lemma scalar_affine_scalar s t b y : s <> 0 -> scalar_affine_init (tscalar t) (Some (tscalar s)) None = Ok b -> wf y ->
  b_fal b y = Ok (tmap (fun x => s * x + t) y, tmap (fun _ => ln (Rabs s)) y) /\
  b_ial b y = Ok (tmap (fun x => (x - t) / s) y, tmap (fun _ => - ln (Rabs s)) y) /\
  b_fwd b y = Ok (tmap (fun x => s * x + t) y) /\ b_fld b y = Ok (tmap (fun _ => ln (Rabs s)) y) /\
  b_in b = 0%Z /\ b_out b = 0%Z /\ b_cj b = true /\ b_cl b = true.
Proof.
  intros Hs Hb W.
  assert (G : forall a idx, bget (tscalar a) idx = a) by (intros; unfold bget, bindex; cbn; destruct (rev idx); reflexivity).
  destruct (scalar_affine_spec (tscalar t) (Some (tscalar s)) None b y (shp y) eq_refl
    ltac:(intros a E; injection E as <-; reflexivity) ltac:(discriminate) Hb W
    ltac:(exists []; split; [reflexivity|apply bshape_nil_l])
    ltac:(intros idx _; cbn [eff_scale]; rewrite G; auto)) as (E1 & E2 & E3 & E4 & _).
  - rewrite E1 in E2, E3. rewrite E1, E2, E3, E4. cbn [rmap fst snd].
    assert (M : forall F (H : list nat -> R), (forall idx, inb (shp y) idx -> H idx = F (tget 0 y idx)) -> tgen (shp y) H = tmap F y).
    { intros F H E. apply (tensor_ext 0); [apply tgen_wf|apply tmap_wf; auto|reflexivity|]. cbn [shp tgen]. intros idx Hi.
      rewrite tget_tgen, (tget_tmap 0 0) by auto. auto. }
    assert (Q : forall (F F' H H' : _), (forall idx, inb (shp y) idx -> H idx = F (tget 0 y idx)) ->
      (forall idx, inb (shp y) idx -> H' idx = F' (tget 0 y idx)) ->
      Ok (tgen (shp y) H, tgen (shp y) H') = Ok (tmap F y, tmap F' y)) by (intros; do 2 f_equal; auto).
    split; [apply Q; intros idx Hi; cbn [eff_scale]; rewrite ?G, ?bget_inb by auto; reflexivity|].
    split; [apply Q; intros idx Hi; cbn [eff_scale]; rewrite ?G, ?bget_inb by auto; reflexivity|].
    split; [f_equal; apply M; intros idx Hi; cbn [eff_scale]; rewrite ?G, ?bget_inb by auto; reflexivity|].
    split; [f_equal; apply M; intros idx Hi; cbn [eff_scale]; rewrite ?G, ?bget_inb by auto; reflexivity|].
    repeat split; unfold scalar_affine_init in Hb; cbn in Hb; injection Hb as <-; reflexivity.
Qed.
Lemma pushed_affine mu sigma s t y : s <> 0 -> 0 < sigma ->
  pushed (gaussian mu sigma) (fun y => (y - t) / s) y = gaussian (s * mu + t) (Rabs s * sigma) y.
Proof.
  intros Hs Hp. unfold pushed. rewrite (is_derive_unique _ _ (/ s)) by (auto_derive; [auto|field; auto]).
  unfold gaussian. assert (Ha : 0 < Rabs s) by (apply Rabs_pos_lt; auto).
  assert (0 < sqrt (2 * PI)) by (apply sqrt_lt_R0; pose proof PI_RGT_0; lra).
  replace ((((y - t) / s - mu) / sigma) ^ 2) with (((y - (s * mu + t)) / (Rabs s * sigma)) ^ 2).
  - rewrite Rabs_inv. field; lra.
  - replace (((y - (s * mu + t)) / (Rabs s * sigma)) ^ 2) with ((y - (s * mu + t)) ^ 2 / (Rabs s ^ 2 * sigma ^ 2)) by (field; lra).
    rewrite RPow_abs, Rabs_pos_eq by apply pow2_ge_0. field. split; [auto|lra].
Qed.
(** Normal(mu, sigma) through ScalarAffine(shift t, scale s), s of either sign, is Normal(s mu + t, |s| sigma). *)
Theorem C31_affine_normal : forall K (base : dist K) b mu sigma s t, 0 < sigma -> s <> 0 ->
  normal_base mu sigma base -> scalar_affine_init (tscalar t) (Some (tscalar s)) None = Ok b ->
  forall y, wf y ->
    transformed_log_prob base b y = Ok (tmap (fun u => Fin (ln (gaussian (s * mu + t) (Rabs s * sigma) u))) y).
Proof.
  intros K base b mu sigma s t Hsg Hs HB Hb y W.
  rewrite (C31_log_prob_density K base b (fun x => s * x + t) (fun _ => s) (fun y => (y - t) / s) (fun _ => - ln (Rabs s))
             m_infty p_infty (gaussian mu sigma)).
  - f_equal. apply tmap_ext_in. intros u _. rewrite pushed_affine by auto. apply rlog_pos, gaussian_pos.
    apply Rmult_lt_0_compat; auto. apply Rabs_pos_lt; auto.
  - apply affine_smooth; auto.
  - intros x. apply Rlt_le, gaussian_pos; auto.
  - intros x Wx. apply normal_base_spec; auto.
  - intros y' [W' _]. apply (scalar_affine_scalar s t b y' Hs Hb W').
  - intros u _. exists (/ s). split; [apply is_derive_Reals; auto_derive; [auto|field; auto]|]. split; [apply Rinv_neq_0_compat; auto|].
    rewrite Rabs_inv, ln_Rinv; auto. apply Rabs_pos_lt; auto.
  - split; auto. apply Forall_forall. intros; split; exact I.
Qed.
Print Assumptions C31_affine_normal.
Example C31_nonvacuous : exists b, scalar_affine_init (tscalar 1) (Some (tscalar (-2))) None = Ok b /\
  (forall x1 x2, x1 <= x2 -> is_RInt (gaussian 1 2) (Rmin (-2 * x1 + 1) (-2 * x2 + 1)) (Rmax (-2 * x1 + 1) (-2 * x2 + 1))
                               (RInt (gaussian 0 1) x1 x2)).
Proof.
  eexists. split; [reflexivity|]. intros x1 x2 L.
  assert (C : forall x, continuous (gaussian 0 1) x) by (rewrite gaussian_eq by lra; apply (normal_density 0 1); lra).
  pose proof (C31_interval_mass _ _ _ _ _ (gaussian 0 1) (affine_smooth (-2) 1 ltac:(lra)) C x1 x2 L) as HM.
  eapply is_RInt_ext; [|exact HM]. intros y _. rewrite pushed_affine by lra. f_equal; [ring|rewrite Rabs_left by lra; ring].
Qed.

(** ** C30 for Transformed *)
(** the base distribution's own sample_and_log_prob is consistent for this key *)
Definition base_consistent {K} (base : dist K) (key : K) (n : nat) : Prop :=
  forall xs lps, d_salp base key n = Ok (xs, lps) ->
    d_sample_n base key n = Ok xs /\ wf xs /\ wf lps /\ (exists s, shp xs = n :: s) /\ (exists s, shp lps = n :: s) /\
    forall i, (i < n)%nat -> d_log_prob base (trow i xs) = Ok (trow i lps).
(** Every returned log-probability row is log_prob of the returned sample row, and the samples are those [sample]
    draws with the same key. *)
Lemma transformed_salp_rows : forall K (base : dist K) b key n ys lpy, (0 < n)%nat ->
  methods_agree b -> opposite_log_dets b ->
  base_consistent base key n -> transformed_salp base b key n = Ok (ys, lpy) ->
  transformed_sample_n base b key n = Ok ys /\
  (exists s, shp ys = n :: s) /\ (exists s, shp lpy = n :: s) /\ wf ys /\ wf lpy /\
  (forall i, (i < n)%nat -> transformed_log_prob base b (trow i ys) = Ok (trow i lpy)) /\
  exists xs lps, d_salp base key n = Ok (xs, lps) /\ forall i, (i < n)%nat -> exists l, b_fal b (trow i xs) = Ok (trow i ys, l).
Proof.
  intros K base b key n ys lpy Hn MA OL BC H. unfold transformed_salp in H.
  apply rbind_ok_inv in H as ([xs lps] & Hb & H). destruct (BC xs lps Hb) as (Hs & Wx & Wl & (sx & Ex) & (sl & El) & Hlp).
  apply rbind_ok_inv in H as ([y fl] & Hv & H). apply rbind_ok_inv in H as (lp & Hsub & H). injection H as <- <-.
  unfold vmap_pair, lead_size in Hv. rewrite Ex in Hv. cbn [hd] in Hv. apply rbind_ok_inv in Hv as (l & Hl & Hv).
  apply rbind_ok_inv in Hv as (y' & Hy & Hv). apply rbind_ok_inv in Hv as (fl' & Hfl & Hv). injection Hv as -> ->.
  pose proof (rmapM_length _ _ _ Hl) as Ll. rewrite seq_length in Ll. set (dd := (tscalar 0, tscalar 0)).
  assert (N : forall i, (i < n)%nat -> b_fal b (trow i xs) = Ok (nth i l dd)).
  { intros i Hi. pose proof (rmapM_nth _ _ _ i 0%nat dd Hl) as E. rewrite seq_length, seq_nth in E by auto. apply E; auto. }
  assert (WY : forall u, In u (map fst l) -> wf u).
  { intros u Hu. apply in_map_iff in Hu as (p & <- & Hp). apply (In_nth _ _ dd) in Hp as (i & Hi & <-).
    specialize (N i ltac:(lia)). destruct (nth i l dd) as [yi li]. apply (OL (trow i xs) ltac:(eapply trow_wf; eauto; lia) _ _ N). }
  assert (WF : forall u, In u (map snd l) -> wf u).
  { intros u Hu. apply in_map_iff in Hu as (p & <- & Hp). apply (In_nth _ _ dd) in Hp as (i & Hi & <-).
    specialize (N i ltac:(lia)). destruct (nth i l dd) as [yi li]. apply (OL (trow i xs) ltac:(eapply trow_wf; eauto; lia) _ _ N). }
  destruct (tstack_inv _ _ Hy WY) as (sy & EY & WYs & _ & _ & RY). rewrite map_length in EY, RY.
  destruct (tstack_inv _ _ Hfl WF) as (sf & EF & WFs & _ & _ & RF). rewrite map_length in EF, RF.
  unfold vmap2, lead_size in Hsub. rewrite El in Hsub. cbn [shp tmap] in Hsub. rewrite EF, Ll in Hsub. cbn [hd] in Hsub.
  rewrite Nat.eqb_refl in Hsub. apply rbind_ok_inv in Hsub as (lr & Hlr & Hst).
  pose proof (rmapM_length _ _ _ Hlr) as Llr. rewrite seq_length in Llr.
  assert (NS : forall i, (i < n)%nat -> lift2 xsub (trow i lps) (trow i (tmap Fin fl)) = Ok (nth i lr (tscalar NaN))).
  { intros i Hi. pose proof (rmapM_nth _ _ _ i 0%nat (tscalar NaN) Hlr) as E. rewrite seq_length, seq_nth in E by auto. apply E; auto. }
  assert (WL : forall u, In u lr -> wf u).
  { intros u Hu. apply (In_nth _ _ (tscalar NaN)) in Hu as (i & Hi & <-). eapply lift2_wf, NS. lia. }
  destruct (tstack_inv _ _ Hst WL) as (sp & ES & WSs & _ & _ & RS).
  split; [|split; [exists sy; congruence|split; [exists sp; congruence|split; [auto|split; [auto|split]]]]].
  - unfold transformed_sample_n. rewrite Hs. cbn [rbind]. unfold vmap, lead_size. rewrite Ex. cbn [hd].
    match goal with |- rbind ?m _ = _ => assert (E : m = Ok (map fst l)); [|rewrite E; exact Hy] end.
    apply (rmapM_of_nth _ _ _ 0%nat (tscalar 0)); [rewrite map_length, seq_length; auto|].
    intros i Hi. rewrite seq_length in Hi. rewrite seq_nth by auto. cbn [Nat.add].
    change (tscalar 0) with (fst dd). rewrite map_nth. specialize (N i Hi). destruct (nth i l dd) as [yi li].
    apply (proj1 MA _ _ _ N).
  - intros i Hi. specialize (N i Hi). specialize (NS i Hi).
    rewrite (RY i (fst dd)), map_nth by lia. rewrite (RS i (tscalar NaN)) by lia.
    assert (Er : trow i (tmap Fin fl) = tmap Fin (trow i fl)).
    { unfold trow, tmap. cbn [shp dat]. f_equal. rewrite skipn_map, firstn_map. reflexivity. }
    rewrite Er, (RF i (snd dd)), map_nth in NS by lia.
    destruct (nth i l dd) as [yi li]. cbn [fst snd] in *. destruct (OL (trow i xs) ltac:(eapply trow_wf; eauto; lia) _ _ N) as (_ & Wli & Hi').
    unfold transformed_log_prob. rewrite Hi'. cbn [rbind]. rewrite (Hlp i Hi). cbn [rbind].
    rewrite <- lift2_sub_add by auto. exact NS.
  - exists xs, lps. split; [exact Hb|]. intros i Hi. specialize (N i Hi). rewrite (RY i (fst dd)), map_nth by lia.
    destruct (nth i l dd) as [yi li]. eauto.
Qed.
Theorem C30_transformed : forall K (base : dist K) b key n ys lpy, (0 < n)%nat ->
  methods_agree b -> opposite_log_dets b ->
  base_consistent base key n -> transformed_salp base b key n = Ok (ys, lpy) ->
  transformed_sample_n base b key n = Ok ys /\
  (exists s, shp ys = n :: s) /\ (exists s, shp lpy = n :: s) /\ wf ys /\ wf lpy /\
  forall i, (i < n)%nat -> transformed_log_prob base b (trow i ys) = Ok (trow i lpy).
Proof.
  intros K base b key n ys lpy Hn MA OL BC H.
  destruct (transformed_salp_rows K base b key n ys lpy Hn MA OL BC H) as (A1 & A2 & A3 & A4 & A5 & A6 & _). auto 10.
Qed.
Print Assumptions C30_transformed.
(** The same for log_prob of the whole array of samples, when the bijector's inverse and the base's log_prob act on
    the slices of their input separately and the log-dets have the shape of the base's log-probabilities. *)
Theorem C30_transformed_whole : forall K (base : dist K) b key n ys lpy, (0 < n)%nat ->
  methods_agree b -> opposite_log_dets b ->
  base_consistent base key n ->
  rowwise_pair (b_ial b) -> rowwise (d_log_prob base) ->
  (forall x y l lp, wf x -> b_fal b x = Ok (y, l) -> d_log_prob base x = Ok lp -> shp l = shp lp) ->
  transformed_salp base b key n = Ok (ys, lpy) -> transformed_log_prob base b ys = Ok lpy.
Proof.
  intros K base b key n ys lpy Hn MA OL BC RI RL SS H.
  destruct (transformed_salp_rows K base b key n ys lpy Hn MA OL BC H) as (_ & (sy & Ey) & (sp & Ep) & Wy & Wp & HR & xs & lps & Hb & HF).
  destruct (BC xs lps Hb) as (_ & Wx & Wl & (sx & Ex) & (sl & El) & Hlp).
  assert (Hx : tstack (map (fun i => trow i xs) (seq 0 n)) = Ok xs) by (eapply tstack_rows; eauto).
  assert (Hl : tstack (map (fun i => trow i lps) (seq 0 n)) = Ok lps) by (eapply tstack_rows; eauto).
  assert (HLd : forall i, (i < n)%nat -> exists l, b_ial b (trow i ys) = Ok (trow i xs, tneg l) /\ wf l /\ shp l = sl).
  { intros i Hi. destruct (HF i Hi) as (l & Hf). destruct (OL (trow i xs) ltac:(eapply trow_wf; eauto; lia) _ _ Hf) as (_ & W & I). exists l. split; [exact I|]. split; [exact W|].
    rewrite (SS (trow i xs) _ _ _ ltac:(eapply trow_wf; eauto; lia) Hf (Hlp i Hi)). eapply trow_shp; eauto. }
  assert (exists ls, length ls = n /\ forall i, (i < n)%nat -> b_ial b (trow i ys) = Ok (trow i xs, tneg (nth i ls (tscalar 0))) /\
      wf (nth i ls (tscalar 0)) /\ shp (nth i ls (tscalar 0)) = sl) as (ls & Lls & HLs).
  { clear -HLd. revert HLd. generalize (b_ial b). intros ial. induction n as [|n IH]; intros HLd.
    - exists []. split; [reflexivity|]. intros; lia.
    - destruct IH as (ls & L & HL); [intros; apply HLd; lia|]. destruct (HLd n ltac:(lia)) as (l & Hl).
      exists (ls ++ [l]). split; [rewrite app_length; cbn; lia|]. intros i Hi. destruct (Nat.eq_dec i n) as [-> |].
      + rewrite app_nth2, L, Nat.sub_diag by lia. exact Hl.
      + rewrite app_nth1 by lia. apply HL. lia. }
  assert (Hin : forall u, In u (map tneg ls) -> shp u = sl /\ wf u).
  { intros u Hu. apply in_map_iff in Hu as (l & <- & Hl'). apply (In_nth _ _ (tscalar 0)) in Hl' as (i & Hi & <-).
    destruct (HLs i ltac:(lia)) as (_ & W & S). split; [exact S|apply tmap_wf, W]. }
  assert (Hne : map tneg ls <> []) by (destruct ls; [cbn in Lls; lia|discriminate]).
  pose proof (tstack_ok (map tneg ls) sl Hne ltac:(intros; apply Hin; auto)) as HT.
  set (T := mkT (length (map tneg ls) :: sl) (concat (map dat (map tneg ls)))) in *.
  destruct (tstack_inv _ _ HT ltac:(intros; apply Hin; auto)) as (s0 & ET & WT & _ & _ & RT).
  assert (s0 = sl) as ->. { unfold T in ET. cbn [shp] in ET. congruence. } rewrite map_length, Lls in ET, RT.
  unfold transformed_log_prob. rewrite (RI ys n sy Wy Ey Hn). unfold vmap_pair, lead_size. rewrite Ey. cbn [hd].
  set (pl := combine (map (fun i => trow i xs) (seq 0 n)) (map tneg ls)).
  assert (Lpl : length pl = n) by (unfold pl; rewrite combine_length, !map_length, seq_length; lia).
  match goal with |- context [@rmapM ?X ?Y ?F (seq 0 n)] => assert (EM : @rmapM X Y F (seq 0 n) = Ok pl) end.
  { apply (rmapM_of_nth _ _ _ 0%nat (trow 0 xs, tneg (tscalar 0))); [rewrite seq_length; auto|].
    intros i Hi. rewrite seq_length in Hi. rewrite seq_nth by auto. cbn [Nat.add]. unfold pl.
    rewrite combine_nth by (rewrite !map_length, seq_length; auto). rewrite map_nth.
    rewrite (map_nth (fun i => trow i xs) (seq 0 n) 0%nat), seq_nth by auto. cbn [Nat.add]. apply HLs; auto. }
  rewrite EM. cbn [rbind]. clear EM.
  assert (fst_c : map fst pl = map (fun i => trow i xs) (seq 0 n)).
  { unfold pl. clear -Lls. assert (L : length (map (fun i => trow i xs) (seq 0 n)) = length (map tneg ls)) by (rewrite !map_length, seq_length; auto).
    revert L. generalize (map tneg ls) as v. generalize (map (fun i => trow i xs) (seq 0 n)) as u.
    induction u as [|a u IH]; intros [|b v] L; cbn in *; try discriminate; auto. f_equal. apply IH. lia. }
  assert (snd_c : map snd pl = map tneg ls).
  { unfold pl. clear -Lls. assert (L : length (map (fun i => trow i xs) (seq 0 n)) = length (map tneg ls)) by (rewrite !map_length, seq_length; auto).
    revert L. generalize (map tneg ls) as v. generalize (map (fun i => trow i xs) (seq 0 n)) as u.
    induction u as [|a u IH]; intros [|b v] L; cbn in *; try discriminate; auto. f_equal. apply IH. lia. }
  rewrite fst_c, snd_c, Hx. cbn [rbind]. rewrite HT. cbn [rbind].
  rewrite (RL xs n sx Wx Ex Hn). unfold vmap, lead_size. rewrite Ex. cbn [hd].
  match goal with |- context [@rmapM ?X ?Y ?F (seq 0 n)] => assert (EM : @rmapM X Y F (seq 0 n) = Ok (map (fun i => trow i lps) (seq 0 n))) end.
  { apply (rmapM_of_nth _ _ _ 0%nat (trow 0 lps)); [rewrite map_length; auto|].
    intros i Hi. rewrite seq_length in Hi. rewrite (map_nth (fun i => trow i lps) (seq 0 n) 0%nat), seq_nth by auto. apply Hlp; auto. }
  rewrite EM. cbn [rbind]. rewrite Hl. cbn [rbind]. clear EM.
  rewrite (lift2_same xadd (n :: sl)); [|exact El|exact ET]. f_equal.
  assert (Esp : sp = sl).
  { specialize (HR 0%nat Hn). destruct (HLs 0%nat Hn) as (I & _ & S). unfold transformed_log_prob in HR. rewrite I in HR. cbn [rbind] in HR.
    rewrite (Hlp 0%nat Hn) in HR. cbn [rbind] in HR. rewrite (lift2_same xadd sl) in HR; [|eapply trow_shp; eauto|exact S].
    apply (f_equal (fun r => match r with Ok t => shp t | Err _ => [] end)) in HR. cbn [shp tgen] in HR. rewrite HR. symmetry. eapply trow_shp; eauto. }
  subst sp. apply (row_ext _ _ n sl); auto; [apply tgen_wf|]. intros i Hi.
  specialize (HR i Hi). destruct (HLs i Hi) as (I & Wi & S). unfold transformed_log_prob in HR. rewrite I in HR. cbn [rbind] in HR.
  rewrite (Hlp i Hi) in HR. cbn [rbind] in HR. rewrite (lift2_same xadd sl) in HR; [|eapply trow_shp; eauto|exact S].
  assert (HR' : trow i lpy = tgen sl (fun idx => xadd (tget (Fin 0) (trow i lps) idx) (tget (Fin 0) (tmap Fin (tneg (nth i ls (tscalar 0)))) idx))) by congruence.
  rewrite HR'. clear HR HR'. apply (tensor_ext (Fin 0)).
  - eapply trow_wf; [apply tgen_wf|reflexivity|auto].
  - apply tgen_wf.
  - reflexivity.
  - intros idx Hx'. cbn in Hx'. rewrite (trow_get (Fin 0) _ n sl) by (auto using tgen_wf).
    rewrite !tget_tgen by (auto; constructor; auto). rewrite (trow_get (Fin 0) lps n sl) by auto. f_equal.
    rewrite (tget_tmap 0 (Fin 0)) by (auto; rewrite ET; constructor; auto).
    rewrite (tget_tmap 0 (Fin 0)); [|apply tmap_wf, Wi|cbn; rewrite S; auto].
    f_equal. rewrite <- (trow_get 0 T n sl) by auto. rewrite (RT i (tneg (tscalar 0))) by auto. rewrite map_nth. reflexivity.
Qed.
Print Assumptions C30_transformed_whole.
Lemma trow_tmap {A B} (F : A -> B) i (x : tensor A) : trow i (tmap F x) = tmap F (trow i x).
Proof. unfold trow, tmap. cbn [shp dat]. f_equal. rewrite skipn_map, firstn_map. reflexivity. Qed.
Lemma rmapM_ok {A B} (F : A -> B) l : rmapM (fun a => Ok (F a)) l = Ok (map F l).
Proof. induction l as [|a l IH]; cbn; auto. rewrite IH. reflexivity. Qed.
Lemma rowwise_tmap {A B} (F : A -> B) : rowwise (fun x : tensor A => Ok (tmap F x)).
Proof.
  intros x n s W E Hn. unfold vmap, lead_size. rewrite E. cbn [hd]. rewrite rmapM_ok. cbn [rbind].
  rewrite (map_ext _ (fun i => trow i (tmap F x))) by (intros; rewrite trow_tmap; auto).
  symmetry. apply (tstack_rows _ n s); auto. apply tmap_wf; auto.
Qed.
Lemma rowwise_elementwise m f lf g lg : rowwise_pair (b_ial (elementwise m f lf g lg)).
Proof.
  intros x n s W E Hn. cbn. unfold vmap_pair, lead_size. rewrite E. cbn [hd].
  rewrite (rmapM_ok (fun i => (tmap g (trow i x), tmap lg (trow i x)))). cbn [rbind]. rewrite !map_map. cbn [fst snd].
  rewrite (map_ext _ (fun i => trow i (tmap g x))) by (intros; rewrite trow_tmap; auto).
  rewrite (map_ext (fun i => tmap lg (trow i x)) (fun i => trow i (tmap lg x))) by (intros; rewrite trow_tmap; auto).
  rewrite !(tstack_rows _ n s) by (auto using tmap_wf). reflexivity.
Qed.
(** Non-vacuity: Tanh of an unbatched base whose n draws are 0, 1, 2, ... *)
Example C30_transformed_nonvacuous : exists b (base : dist unit), tanh_bij = Ok b /\
  forall n, (0 < n)%nat -> methods_agree b /\ opposite_log_dets b /\
    base_consistent base tt n /\ rowwise_pair (b_ial b) /\ rowwise (d_log_prob base) /\
    (forall x y l lp, wf x -> b_fal b x = Ok (y, l) -> d_log_prob base x = Ok lp -> shp l = shp lp) /\
    (exists xs, d_salp base tt n = Ok (xs, tmap (fun t => Fin (- t)) xs)).
Proof.
  eexists. pose (smp := fun n : nat => tgen [n] (fun idx => INR (hd 0%nat idx))).
  exists (mkDist [] (Some []) (fun x => Ok (tmap (fun t => Fin (- t)) x)) (fun _ n => Ok (smp n))
    (fun _ n => Ok (smp n, tmap (fun t => Fin (- t)) (smp n))) (Ok (tscalar 0)) (Ok (tscalar 0)) (Ok (tscalar NaN))).
  split; [reflexivity|]. intros n Hn. cbn [d_log_prob d_salp d_sample_n].
  split; [|split; [|split; [|split; [|split; [|split]]]]].
  - split; intros x y l E; cbn in *; injection E as <- <-; auto.
  - intros x W y l E. split; [|split; [|apply (tanh_array_round _ _ _ _ eq_refl E)]]; cbn in E; injection E as <- <-; apply tmap_wf; auto.
  - intros xs lps E. cbn [d_salp] in E. injection E as <- <-. split; [reflexivity|]. split; [apply tgen_wf|]. split; [apply tmap_wf, tgen_wf|].
    split; [exists []; reflexivity|]. split; [exists []; reflexivity|]. intros i Hi. cbn [d_log_prob]. rewrite trow_tmap. reflexivity.
  - apply rowwise_elementwise.
  - apply rowwise_tmap.
  - intros x y l lp W E1 E2. cbn in E1. injection E1 as <- <-. injection E2 as <-. reflexivity.
  - eexists. reflexivity.
Qed.

(** ** C32 *)
Theorem C32_refused_unless_declared : forall K (base : dist K) b ev hint,
  (b_cj b = false -> transformed_mean base b = Err NotImplementedError) /\
  (b_cl b = false -> transformed_mode base b = Err NotImplementedError) /\
  (b_cl b = false -> transformed_entropy base b ev hint = Err NotImplementedError).
Proof.
  intros. unfold transformed_mean, transformed_mode, transformed_entropy.
  repeat split; intros ->; reflexivity.
Qed.
Print Assumptions C32_refused_unless_declared.

Lemma constant_derivative_affine (f : R -> R) k : (forall x, is_derive f x k) -> forall x, f x = k * x + f 0.
Proof.
  intros H x. destruct (MVT_gen f 0 x (fun _ => k)) as (c & _ & E).
  - intros; apply H.
  - intros y _. apply continuity_pt_filterlim. apply (@ex_derive_continuous R_AbsRing R_NormedModule). eexists; apply H.
  - lra.
Qed.
(** mean: a scalar bijector with (truly) constant derivative, any base whose mean exists; per batch position. *)
Theorem C32_mean : forall K (base : dist K) b f k m p, b_cj b = true ->
  (forall x, b_fwd b x = Ok (tmap f x)) -> (forall x, is_derive f x k) ->
  d_mean base = Ok m -> wf m ->
  (forall idx, inb (shp m) idx -> integral (p idx) 1 /\ expectation (p idx) (fun x => x) (tget 0 m idx)) ->
  exists ym, transformed_mean base b = Ok ym /\ shp ym = shp m /\
    forall idx, inb (shp m) idx -> expectation (p idx) f (tget 0 ym idx).
Proof.
  intros K base b f k m p Hc Hf Hd Hm Wm HE. unfold transformed_mean. rewrite Hc, Hm. cbn [rbind]. rewrite Hf.
  eexists. split; [reflexivity|]. split; [reflexivity|]. intros idx Hi. rewrite (tget_tmap 0 0) by auto.
  destruct (HE idx Hi) as [H1 H2]. pose proof (constant_derivative_affine f k Hd) as A.
  rewrite (A (tget 0 m idx)). unfold expectation in *.
  apply (integral_ext (fun x => k * (p idx x * x) + f 0 * p idx x)).
  - intros x. rewrite (A x). ring.
  - replace (k * tget 0 m idx + f 0) with (k * tget 0 m idx + f 0 * 1) by ring.
    apply integral_plus; apply integral_scal; auto.
Qed.
Print Assumptions C32_mean.

(** mode: if the log-det is the same array [c] at every input, forward of the base mode maximises the transformed
    log-density at every batch position, over all values. *)
Definition xle (a b : XR) : Prop := xleb a b = true.
Theorem C32_mode : forall K (base : dist K) b m lm c bs, b_cl b = true ->
  (forall x y l, b_fal b x = Ok (y, l) -> l = c /\ b_ial b y = Ok (x, tneg l)) ->
  (forall y x l, b_ial b y = Ok (x, l) -> exists l', b_fal b x = Ok (y, l')) ->
  methods_agree b -> wf c -> shp c = bs ->
  d_mode base = Ok m -> d_log_prob base m = Ok lm -> shp lm = bs ->
  (exists ym l, b_fal b m = Ok (ym, l)) ->
  (forall x lx, d_log_prob base x = Ok lx -> shp lx = bs ->
     forall idx, inb bs idx -> xle (tget (Fin 0) lx idx) (tget (Fin 0) lm idx)) ->
  exists ym lym, transformed_mode base b = Ok ym /\ transformed_log_prob base b ym = Ok lym /\ shp lym = bs /\
    forall y x l lx ly, b_ial b y = Ok (x, l) -> d_log_prob base x = Ok lx -> shp lx = bs ->
      transformed_log_prob base b y = Ok ly ->
      forall idx, inb bs idx -> xle (tget (Fin 0) ly idx) (tget (Fin 0) lym idx).
Proof.
  intros K base b m lm c bs Hc HF HI MA Wc Ec Hm Hlm El (ym & l0 & Hy) Hmax.
  destruct (HF _ _ _ Hy) as [-> Hiy]. destruct (proj1 MA _ _ _ Hy) as [Hfw _].
  assert (En : shp (tmap Fin (tneg c)) = bs) by exact Ec.
  exists ym, (tgen bs (fun idx => xadd (tget (Fin 0) lm idx) (tget (Fin 0) (tmap Fin (tneg c)) idx))).
  split; [unfold transformed_mode; rewrite Hc, Hm; exact Hfw|].
  split; [unfold transformed_log_prob; rewrite Hiy; cbn [rbind]; rewrite Hlm; cbn [rbind]; apply lift2_same; auto|].
  split; [reflexivity|]. intros y x l lx ly Hyx Hlx Elx Hly idx Hi.
  destruct (HI _ _ _ Hyx) as (l' & Hl'). destruct (HF _ _ _ Hl') as [-> Hiy']. rewrite Hyx in Hiy'. injection Hiy' as ->.
  unfold transformed_log_prob in Hly. rewrite Hyx in Hly. cbn [rbind] in Hly. rewrite Hlx in Hly. cbn [rbind] in Hly.
  rewrite (lift2_same xadd bs) in Hly by auto. injection Hly as <-. rewrite !tget_tgen by auto.
  specialize (Hmax x lx Hlx Elx idx Hi). unfold tneg. rewrite !(tget_tmap 0 (Fin 0)) by (auto using tmap_wf; subst; auto).
  revert Hmax. unfold xle. generalize (tget (Fin 0) lx idx) (tget (Fin 0) lm idx) (tget 0 (tmap Ropp c) idx). clear.
  intros [u| | |] [v| | |] w; unfold xleb; cbn; auto.
  destruct (Rlt_dec u v), (Req_EM_T u v), (Rlt_dec (u + w) (v + w)), (Req_EM_T (u + w) (v + w)); cbn; auto; lra.
Qed.
Print Assumptions C32_mode.

(** entropy: base entropy plus the log-det; for a scalar bijector with (truly) constant log-det this is the
    differential entropy of the pushed-forward density, at every batch position. *)
Lemma pushed_entropy f k g p h : (forall x, is_derive f x k) -> k <> 0 -> bijection_onto f g (inside m_infty p_infty) ->
  (forall x, continuous p x) -> (forall x, 0 < p x) -> integral p 1 -> is_entropy p h ->
  is_entropy_on m_infty p_infty (pushed p g) (h + ln (Rabs k)).
Proof.
  intros Hd Hk HB Cp Pp I1 HE.
  assert (SB : smooth_bijection f (fun _ => k) g m_infty p_infty).
  { split; auto. intros x. split; [apply Hd|]. split; [apply continuous_const|auto]. }
  assert (Hak : 0 < Rabs k) by (apply Rabs_pos_lt; auto).
  assert (Q : forall x, pushed p g (f x) = p x / Rabs k).
  { intros x. unfold pushed. rewrite (Derive_g f _ g _ _ SB) by (apply (sb_in _ _ _ _ _ SB)).
    rewrite (sb_gf _ _ _ _ _ SB), Rabs_inv. reflexivity. }
  apply (C31_expectation f (fun _ => k) g m_infty p_infty p (fun y => - ln (pushed p g y)) _ SB Cp).
  - intros x. apply (continuous_ext (fun x => - ln (p x / Rabs k))); [intros t; rewrite Q; auto|].
    apply (continuous_opp (fun x => ln (p x / Rabs k))). apply (continuous_comp (fun x => p x / Rabs k) ln).
    + apply (continuous_mult p (fun _ => / Rabs k)); auto. apply continuous_const.
    + apply continuous_ln. apply Rdiv_lt_0_compat; auto.
  - unfold expectation. apply (integral_ext (fun x => p x * - ln (p x) + ln (Rabs k) * p x)).
    + intros x. rewrite Q. unfold Rdiv. rewrite ln_mult, ln_Rinv by (auto using Rinv_0_lt_compat). ring.
    + replace (h + ln (Rabs k)) with (h + ln (Rabs k) * 1) by ring. apply integral_plus; [exact HE|apply integral_scal; auto].
Qed.
Theorem C32_entropy : forall K (base : dist K) b ev f k g p h, b_cl b = true ->
  (forall x, is_derive f x k) -> k <> 0 -> bijection_onto f g (inside m_infty p_infty) ->
  (forall x, wf x -> b_fld b x = Ok (tmap (fun _ => ln (Rabs k)) x)) ->
  d_entropy base = Ok h -> wf h -> shp h = d_batch base -> ev = [] ->
  (forall idx, inb (shp h) idx -> exists hr, tget (Fin 0) h idx = Fin hr /\ is_entropy (p idx) hr /\
     integral (p idx) 1 /\ (forall x, continuous (p idx) x) /\ (forall x, 0 < p idx x)) ->
  exists hy, transformed_entropy base b ev None = Ok hy /\ shp hy = shp h /\
    forall idx, inb (shp h) idx -> exists hr, tget (Fin 0) hy idx = Fin hr /\
      is_entropy_on m_infty p_infty (pushed (p idx) g) hr.
Proof.
  intros K base b ev f k g p h Hc Hd Hk HB Hf Hh Wh Eh -> HE. unfold transformed_entropy. rewrite Hc, Hh. cbn [rbind].
  rewrite app_nil_r. rewrite Hf by apply tgen_wf. cbn [rbind].
  rewrite (lift2_same xadd (shp h)) by (cbn; auto). eexists. split; [reflexivity|]. split; [reflexivity|].
  intros idx Hi. destruct (HE idx Hi) as (hr & E & He & I1 & Cp & Pp). rewrite tget_tgen by auto. rewrite E.
  exists (hr + ln (Rabs k)). split; [|apply (pushed_entropy f k); auto].
  rewrite (tget_tmap 0 (Fin 0)); [|apply tmap_wf, tgen_wf|cbn; rewrite <- Eh; auto].
  rewrite (tget_tmap 0 0); [reflexivity|apply tgen_wf|cbn; rewrite <- Eh; auto].
Qed.
Print Assumptions C32_entropy.
(** Any hint gives the same result when the log-det does not depend on the input. *)
Theorem C32_entropy_hint : forall K (base : dist K) b ev hint c,
  (forall x, b_fld b x = Ok c) -> transformed_entropy base b ev (Some hint) = transformed_entropy base b ev None.
Proof. intros K base b ev hint c H. unfold transformed_entropy. rewrite !H. reflexivity. Qed.
Print Assumptions C32_entropy_hint.
(** Batched or vector events: for any way [E] of averaging real functions over the base's samples (an additive,
    normalised functional), the average of -log_prob over forward samples is the average of the base's -log_prob plus
    the constant log-det. *)
Theorem C32_entropy_average : forall K (base : dist K) b (E : (arr -> R) -> R) (dom : arr -> Prop) lp c y_of,
  (forall phi psi, (forall x, dom x -> phi x = psi x) -> E phi = E psi) ->
  (forall phi k, E (fun x => phi x + k) = E phi + k) ->
  (forall x, dom x -> b_fal b x = Ok (y_of x, tscalar c) /\ b_ial b (y_of x) = Ok (x, tneg (tscalar c)) /\
     d_log_prob base x = Ok (tscalar (Fin (lp x)))) ->
  exists lpy, (forall x, dom x -> transformed_log_prob base b (y_of x) = Ok (tscalar (Fin (lpy x)))) /\
    E (fun x => - lpy x) = E (fun x => - lp x) + c.
Proof.
  intros K base b E dom lp c y_of Eext Eadd H. exists (fun x => lp x + - c). split.
  - intros x Dx. destruct (H x Dx) as (_ & Hi & Hl). unfold transformed_log_prob. rewrite Hi. cbn [rbind]. rewrite Hl. reflexivity.
  - rewrite <- Eadd. apply Eext. intros; ring.
Qed.
Print Assumptions C32_entropy_average.

Example C32_nonvacuous : exists b, scalar_affine_init (tscalar 1) (Some (tscalar (-2))) None = Ok b /\ b_cj b = true /\ b_cl b = true /\
  (forall x, is_derive (fun x => -2 * x + 1) x (-2)) /\
  bijection_onto (fun x => -2 * x + 1) (fun y => (y - 1) / -2) (inside m_infty p_infty) /\
  (exists h, is_entropy (gaussian 0 1) h).
Proof.
  eexists. split; [reflexivity|]. split; [reflexivity|]. split; [reflexivity|]. split; [intros x; auto_derive; [auto|ring]|].
  split; [apply (affine_smooth (-2) 1); lra|].
  destruct (C48_normal_moments 0 1 ltac:(lra)) as (? & ? & ? & ? & ? & h & ? & ? & ? & ? & ? & ? & ? & ? & ? & ? & ? & ? & HE). eauto.
Qed.

(** ** C33 *)
(** KL is invariant under a common smooth bijection, increasing or decreasing, onto any open interval. *)
Theorem C33_kl_invariant : forall f f' g a c (p q : R -> R) v, smooth_bijection f f' g a c ->
  (forall x, continuous p x) -> (forall x, continuous q x) -> (forall x, 0 < p x) -> (forall x, 0 < q x) ->
  is_kl p q v -> is_kl_on a c (pushed p g) (pushed q g) v.
Proof.
  intros f f' g a c p q v SB Cp Cq Pp Pq HK. unfold is_kl, expectation in HK.
  assert (Cu : forall x, continuous (fun x => p x * (ln (p x) - ln (q x))) x).
  { intros x. apply (continuous_mult p (fun x => ln (p x) - ln (q x))); auto.
    apply (continuous_minus (fun x => ln (p x)) (fun x => ln (q x))).
    - apply (continuous_comp p ln); auto. apply continuous_ln, Pp.
    - apply (continuous_comp q ln); auto. apply continuous_ln, Pq. }
  pose proof (subst_integral f f' g a c SB _ v Cu HK) as HI.
  unfold is_kl_on, integral_on in *. revert HI. apply is_RInt_gen_ext.
  apply (Filter_prod _ _ _ (inside a c) (inside a c) (left_inside f f' g a c SB) (right_inside f f' g a c SB)).
  intros y1 y2 I1 I2 y Hy. cbn [fst snd] in Hy.
  assert (Iy : inside a c y) by (apply (min_inside a c y1 y2); auto; lra).
  assert (N : 0 < Rabs (Derive g y)).
  { rewrite (Derive_g f f' g a c SB y Iy). apply Rabs_pos_lt, Rinv_neq_0_compat, (sb_nz f f' g a c SB). }
  unfold pushed. rewrite !ln_mult by auto. apply Rminus_diag_uniq. ring.
Qed.
Print Assumptions C33_kl_invariant.

(** Outcomes of kl_divergence. *)
Theorem C33_kl_outcomes : forall A ev1 ev2 b1 b2 (kl : result A),
  (ev1 <> ev2 -> transformed_kl ev1 ev2 b1 b2 kl = Err ValueError) /\
  (ev1 = ev2 -> (h_id b1 = h_id b2 \/ same_as (h_obj b1) (h_obj b2) = true \/ h_prog b1 = h_prog b2) ->
     transformed_kl ev1 ev2 b1 b2 kl = kl) /\
  (ev1 = ev2 -> h_id b1 <> h_id b2 -> same_as (h_obj b1) (h_obj b2) = false -> h_prog b1 <> h_prog b2 ->
     transformed_kl ev1 ev2 b1 b2 kl = Err NotImplementedError).
Proof.
  intros A ev1 ev2 b1 b2 kl. unfold transformed_kl, same_text. destruct (list_eq_dec Nat.eq_dec ev1 ev2) as [E|E].
  - split; [contradiction|]. split; intros _.
    + intros [-> |[-> | ->]]; [rewrite Nat.eqb_refl; reflexivity|rewrite andb_false_r; reflexivity|].
      destruct (ClassicalEpsilon.excluded_middle_informative (h_prog b2 = h_prog b2)); [|contradiction].
      rewrite andb_false_r. reflexivity.
    + intros N -> P. apply Nat.eqb_neq in N. rewrite N. destruct (ClassicalEpsilon.excluded_middle_informative _); [contradiction|reflexivity].
  - split; [reflexivity|]. split; intros; contradiction.
Qed.
Print Assumptions C33_kl_outcomes.

(** [bb] is what the handle [hd] stands for: the object's constructor builds it, its stored arrays are those of the
    constructor, and its traced program run on the captured constants computes its forward (scalar inputs). *)
Definition stands_for (h : heap) (hd : handle) (bb : bij) : Prop :=
  all_stored_ok h (h_obj hd) /\ denote h (h_obj hd) = Ok bb /\
  forall x y, b_fwd bb (tscalar x) = Ok (tscalar y) <->
    eval_jaxpr (fun _ _ => None) (fun _ _ _ => None) (fun _ _ => None) (h_prog hd) (h_consts hd) [Some x] = Ok [Some y].

(** Soundness, given that programs with equal text captured equal constants: whenever a KL is returned the two
    bijectors compute the same function.  Without that premise it fails: see the next theorem. *)
Theorem C33_kl_sound_partial : forall A h b1 b2 bb1 bb2 ev1 ev2 (v : A) kl,
  stands_for h b1 bb1 -> stands_for h b2 bb2 -> (h_id b1 = h_id b2 -> b1 = b2) ->
  (h_prog b1 = h_prog b2 -> h_consts b1 = h_consts b2) ->
  transformed_kl ev1 ev2 b1 b2 kl = Ok v ->
  kl = Ok v /\ ev1 = ev2 /\ forall x y, b_fwd bb1 (tscalar x) = Ok (tscalar y) <-> b_fwd bb2 (tscalar x) = Ok (tscalar y).
Proof.
  intros A h b1 b2 bb1 bb2 ev1 ev2 v kl (S1 & D1 & F1) (S2 & D2 & F2) Hid Hc H. unfold transformed_kl in H.
  destruct (list_eq_dec Nat.eq_dec ev1 ev2) as [Ev|]; [|discriminate].
  destruct (Nat.eqb_spec (h_id b1) (h_id b2)) as [E|_].
  { split; [exact H|]. split; [auto|]. specialize (Hid E). subst b2. rewrite D1 in D2. injection D2 as <-. tauto. }
  destruct (same_as (h_obj b1) (h_obj b2)) eqn:ES.
  { split; [exact H|]. split; [auto|]. pose proof (C27_same_as_sound h _ _ _ _ S1 S2 D1 D2 ES) as (_ & _ & _ & _ & HF & _).
    intros x y. rewrite HF. tauto. }
  unfold same_text in H. destruct (ClassicalEpsilon.excluded_middle_informative (h_prog b1 = h_prog b2)) as [EP|]; [|discriminate].
  split; [exact H|]. split; [auto|]. intros x y. rewrite F1, F2, EP, (Hc EP). tauto.
Qed.
Print Assumptions C33_kl_sound_partial.

(** Two ScalarAffine bijectors whose scales are different (non-scalar) arrays have the same program text, the arrays
    being captured constants: the KL of the bases, 0, is returned although the distributions N(0, 2) and N(0, 3)
    differ and their KL is positive. *)
Theorem C33_kl_ignores_constants_refuted : exists (h : heap) (b1 b2 : handle) (bb1 bb2 : bij) (v : R),
  stands_for h b1 bb1 /\ stands_for h b2 bb2 /\ h_id b1 <> h_id b2 /\
  b_fwd bb1 (tscalar 1) = Ok (tscalar 2) /\ b_fwd bb2 (tscalar 1) = Ok (tscalar 3) /\
  transformed_kl [] [] b1 b2 (Ok (normal_kl (Fin 0) (Fin 1) (Fin 0) (Fin 1))) = Ok (Fin 0) /\
  (forall y, pushed (gaussian 0 1) (fun y => (y - 0) / 2) y = gaussian 0 2 y) /\
  (forall y, pushed (gaussian 0 1) (fun y => (y - 0) / 3) y = gaussian 0 3 y) /\
  is_kl (gaussian 0 2) (gaussian 0 3) v /\ 0 < v.
Proof.
  pose (h := fun a : addr => match a with
     | 0%nat => tscalar 0 | 1%nat => tscalar 2 | 2%nat => tscalar (ln (Rabs 2))
     | 3%nat => tscalar 3 | _ => tscalar (ln (Rabs 3)) end : arr).
  pose (prog := mkJaxpr [0%nat] [1%nat; 2%nat] [EBin p_mul (AVar 1%nat) (AVar 0%nat) 3%nat; EBin p_add (AVar 3%nat) (AVar 2%nat) 4%nat] [AVar 4%nat]).
  destruct (C48_normal_kl 0 2 0 3 ltac:(lra) ltac:(lra)) as (v & _ & HK & Hp & Hz).
  assert (A : forall s b, s <> 0 -> scalar_affine_init (tscalar 0) (Some (tscalar s)) None = Ok b ->
     forall x, b_fwd b (tscalar x) = Ok (tscalar (s * x + 0))).
  { intros s b Hs Hb x. apply (scalar_affine_scalar s 0 b (tscalar x) Hs Hb eq_refl). }
  assert (B : forall s, s <> 0 -> exists b, scalar_affine_init (tscalar 0) (Some (tscalar s)) None = Ok b) by (intros; eexists; reflexivity).
  destruct (B 2 ltac:(lra)) as [bb1 H1]. destruct (B 3 ltac:(lra)) as [bb2 H2].
  exists h, (mkHandle 0%nat (OScalarAffine (Some 1%nat) None 0%nat 1%nat 2%nat) prog [2; 0]), (mkHandle 1%nat (OScalarAffine (Some 3%nat) None 0%nat 3%nat 4%nat) prog [3; 0]), bb1, bb2, v.
  assert (Q : forall s b, s <> 0 -> scalar_affine_init (tscalar 0) (Some (tscalar s)) None = Ok b -> forall x y,
     b_fwd b (tscalar x) = Ok (tscalar y) <->
     eval_jaxpr (fun _ _ => None) (fun _ _ _ => None) (fun _ _ => None) prog [s; 0] [Some x] = Ok [Some y]).
  { intros s b Hs Hb x y. rewrite (A s b Hs Hb x). cbn. split; intros E; injection E as <-; reflexivity. }
  split; [|split; [|split; [|split; [|split; [|split; [|split; [|split; [|split]]]]]]]].
  - split; [cbn; eexists; reflexivity|]. split; [exact H1|]. apply Q; auto; lra.
  - split; [cbn; eexists; reflexivity|]. split; [exact H2|]. apply Q; auto; lra.
  - discriminate.
  - rewrite (A 2 _ ltac:(lra) H1). do 2 f_equal. ring.
  - rewrite (A 3 _ ltac:(lra) H2). do 2 f_equal. ring.
  - pose proof (C33_kl_outcomes XR [] [] (mkHandle 0%nat (OScalarAffine (Some 1%nat) None 0%nat 1%nat 2%nat) prog [2; 0])
      (mkHandle 1%nat (OScalarAffine (Some 3%nat) None 0%nat 3%nat 4%nat) prog [3; 0]) (Ok (normal_kl (Fin 0) (Fin 1) (Fin 0) (Fin 1)))) as (_ & HO & _).
    rewrite HO; [|reflexivity|right; right; reflexivity].
    destruct (C48_normal_kl 0 1 0 1 ltac:(lra) ltac:(lra)) as (k & -> & _ & _ & Z). do 2 f_equal. apply Z. auto.
  - intros y. rewrite (pushed_affine 0 1 2 0) by lra. f_equal; [ring|rewrite Rabs_pos_eq; lra].
  - intros y. rewrite (pushed_affine 0 1 3 0) by lra. f_equal; [ring|rewrite Rabs_pos_eq; lra].
  - exact HK.
  - destruct Hp as [Hp|Hp]; auto. exfalso. destruct Hz as [Hz _]. destruct (Hz (eq_sym Hp)). lra.
Qed.
Print Assumptions C33_kl_ignores_constants_refuted.
Example C33_nonvacuous : exists v, is_kl (gaussian 0 1) (gaussian 1 1) v /\
  is_kl_on m_infty p_infty (pushed (gaussian 0 1) (fun y => (y - 0) / -2)) (pushed (gaussian 1 1) (fun y => (y - 0) / -2)) v.
Proof.
  destruct (C48_normal_kl 0 1 1 1 ltac:(lra) ltac:(lra)) as (v & _ & HK & _). exists v. split; [exact HK|].
  apply (C33_kl_invariant _ _ _ _ _ _ _ _ (affine_smooth (-2) 0 ltac:(lra))); auto.
  - rewrite gaussian_eq by lra. apply (normal_density 0 1); lra.
  - rewrite gaussian_eq by lra. apply (normal_density 1 1); lra.
  - intros; apply gaussian_pos; lra.
  - intros; apply gaussian_pos; lra.
Qed.
