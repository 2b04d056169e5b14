From Coq Require Import List Reals ZArith Bool Lra Lia.
From Coquelicot Require Import Coquelicot.
From Verif Require Import Base.Result Base.Sums Base.Tensor Model.Bijector Model.ScalarBij Spec.Scalar Spec.Bijector.
Import ListNotations.
Local Open Scope R_scope.

Lemma exp_m2 x : exp (- (2) * x) = exp (- x) * exp (- x).
Proof. rewrite <- exp_plus; f_equal; lra. Qed.
Lemma exp_neg x : exp (- x) = / exp x. Proof. apply exp_Ropp. Qed.

(** ** Tanh *)
Lemma tanh_alt x : tanh x = (1 - exp (- (2) * x)) / (1 + exp (- (2) * x)).
Proof.
  unfold tanh, sinh, cosh. rewrite exp_m2, exp_neg. pose proof (exp_pos x). field. repeat split; nra.
Qed.
Lemma tanh_range x : -1 < tanh x < 1.
Proof.
  rewrite tanh_alt. pose proof (exp_pos (- (2) * x)) as H. split.
  - apply (Rmult_lt_reg_r (1 + exp (- (2) * x))); [lra|]. unfold Rdiv. rewrite Rmult_assoc, Rinv_l by lra. lra.
  - apply (Rmult_lt_reg_r (1 + exp (- (2) * x))); [lra|]. unfold Rdiv. rewrite Rmult_assoc, Rinv_l by lra. lra.
Qed.
Lemma arctanh_tanh x : arctanh (tanh x) = x.
Proof.
  unfold arctanh. replace ((1 + tanh x) / (1 - tanh x)) with (exp (2 * x)).
  - rewrite ln_exp; lra.
  - rewrite tanh_alt. pose proof (exp_pos (- (2) * x)) as H.
    replace (2 * x) with (- (- (2) * x)) at 1 by lra. rewrite exp_Ropp. field. repeat split; lra.
Qed.
Lemma tanh_arctanh y : -1 < y < 1 -> tanh (arctanh y) = y.
Proof.
  intros Hy. rewrite tanh_alt. unfold arctanh.
  replace (- (2) * (/ 2 * ln ((1 + y) / (1 - y)))) with (- ln ((1 + y) / (1 - y))) by lra.
  assert (0 < (1 + y) / (1 - y)) by (apply Rdiv_lt_0_compat; lra).
  rewrite exp_Ropp, exp_ln by auto. field. lra.
Qed.
Lemma is_derive_tanh x : is_derive tanh x (1 - tanh x ^ 2).
Proof.
  unfold tanh. assert (Hc : cosh x <> 0) by (unfold cosh; pose proof (exp_pos x); pose proof (exp_pos (-x)); lra).
  unfold sinh, cosh in *.
  auto_derive; [exact Hc|]. rewrite exp_neg in *. pose proof (exp_pos x). field. repeat split; nra.
Qed.
Lemma tanh_log_det x : log_abs_derivative tanh_forward tanh_fldj x.
Proof.
  exists (1 - tanh x ^ 2). split; [apply is_derive_Reals, is_derive_tanh|].
  pose proof (tanh_range x) as Hr. assert (Hp : 0 < 1 - tanh x ^ 2) by nra. split; [lra|].
  rewrite Rabs_pos_eq by lra. unfold tanh_fldj, softplus.
  assert (E : 1 - tanh x ^ 2 = exp (2 * ln 2 + - (2) * x - 2 * ln (1 + exp (- (2) * x)))).
  { unfold Rminus at 2. rewrite !exp_plus, exp_Ropp.
    replace (2 * ln 2) with (ln 2 + ln 2) by lra.
    replace (2 * ln (1 + exp (- (2) * x))) with (ln (1 + exp (- (2) * x)) + ln (1 + exp (- (2) * x))) by lra.
    pose proof (exp_pos (- (2) * x)). rewrite !exp_plus, !exp_ln by lra. rewrite tanh_alt. field. lra. }
  rewrite E, ln_exp. lra.
Qed.
Lemma tanh_bijection : bijection_onto tanh_forward tanh_inverse (fun y => -1 < y < 1).
Proof.
  split; [intros x; split; [apply tanh_range|apply arctanh_tanh]|]. intros y Hy; apply tanh_arctanh; auto.
Qed.

(** ** Sigmoid *)
Lemma softplus_branches x : more_stable_softplus x = ln (1 + exp x).
Proof. unfold more_stable_softplus, softplus. destruct (Rlt_dec x (-9)); reflexivity. Qed.
Lemma sigmoid_range x : 0 < sigmoid x < 1.
Proof.
  unfold sigmoid. pose proof (exp_pos (- x)). split.
  - apply Rinv_0_lt_compat; lra.
  - rewrite <- Rinv_1. apply Rinv_lt_contravar; lra.
Qed.
Lemma sigmoid_inverse_sigmoid x : sigmoid_inverse (sigmoid x) = x.
Proof.
  unfold sigmoid_inverse, sigmoid. pose proof (exp_pos (- x)) as H.
  replace (1 + - / (1 + exp (- x))) with (exp (- x) * / (1 + exp (- x))) by (field; lra).
  rewrite ln_mult by (auto using Rinv_0_lt_compat; apply Rinv_0_lt_compat; lra).
  rewrite ln_exp; lra.
Qed.
Lemma sigmoid_sigmoid_inverse y : 0 < y < 1 -> sigmoid (sigmoid_inverse y) = y.
Proof.
  intros Hy. unfold sigmoid, sigmoid_inverse.
  replace (- (ln y - ln (1 + - y))) with (ln (1 + - y) + - ln y) by lra.
  rewrite exp_plus, exp_Ropp, !exp_ln by lra. field; lra.
Qed.
Lemma is_derive_sigmoid x : is_derive sigmoid x (exp (- x) / (1 + exp (- x)) ^ 2).
Proof.
  unfold sigmoid. pose proof (exp_pos (- x)). auto_derive; [lra|]. field; lra.
Qed.
Lemma sigmoid_fldj_val x : sigmoid_fldj x = ln (exp (- x) / (1 + exp (- x)) ^ 2).
Proof.
  unfold sigmoid_fldj. rewrite !softplus_branches. pose proof (exp_pos (- x)) as H. pose proof (exp_pos x) as H'.
  assert (Hi : 0 < / (1 + exp (- x))) by (apply Rinv_0_lt_compat; lra).
  replace (exp (- x) / (1 + exp (- x)) ^ 2) with (exp (- x) * (/ (1 + exp (- x)) * / (1 + exp (- x)))) by (field; lra).
  rewrite !ln_mult, ln_exp, ln_Rinv by (auto; try apply Rmult_lt_0_compat; auto; lra).
  replace (1 + exp x) with (exp x * (1 + exp (- x))) by (rewrite exp_neg; field; lra).
  rewrite ln_mult, ln_exp by lra. lra.
Qed.
Lemma sigmoid_forward_ge x : -9 <= x -> sigmoid_forward x = sigmoid x.
Proof. unfold sigmoid_forward, more_stable_sigmoid. destruct (Rlt_dec x (-9)); [lra|auto]. Qed.
Lemma sigmoid_forward_lt x : x < -9 -> sigmoid_forward x = exp x.
Proof. unfold sigmoid_forward, more_stable_sigmoid. destruct (Rlt_dec x (-9)); [auto|lra]. Qed.
Lemma exp_small x : x < -9 -> 0 < exp x < 1.
Proof. intros H; split; [apply exp_pos|]. rewrite <- exp_0. apply exp_increasing; lra. Qed.
Lemma sigmoid_forward_range x : 0 < sigmoid_forward x < 1.
Proof.
  destruct (Rlt_dec x (-9)).
  - rewrite sigmoid_forward_lt by auto. apply exp_small; auto.
  - rewrite sigmoid_forward_ge by lra. apply sigmoid_range.
Qed.
Lemma sigmoid_roundtrip_ge x : -9 <= x -> sigmoid_inverse (sigmoid_forward x) = x.
Proof. intros H; rewrite sigmoid_forward_ge by auto. apply sigmoid_inverse_sigmoid. Qed.
Lemma sigmoid_error_lt x : x < -9 ->
  0 < sigmoid_inverse (sigmoid_forward x) - x <= exp x / (1 - exp x).
Proof.
  intros H. rewrite sigmoid_forward_lt by auto. unfold sigmoid_inverse. rewrite ln_exp.
  pose proof (exp_small x H) as Hs.
  change (1 + - exp x) with (1 - exp x).
  replace (x - ln (1 - exp x) - x) with (- ln (1 - exp x)) by lra.
  rewrite <- ln_Rinv by lra. split.
  - rewrite <- ln_1. apply ln_increasing; [lra|]. rewrite <- Rinv_1 at 1. apply Rinv_lt_contravar; lra.
  - replace (/ (1 - exp x)) with (1 + exp x / (1 - exp x)) by (field; lra).
    assert (0 < exp x / (1 - exp x)) by (apply Rdiv_lt_0_compat; lra).
    rewrite <- (ln_exp (exp x / (1 - exp x))) at 2.
    apply Rlt_le, ln_increasing; [lra|]. apply exp_ineq1; lra.
Qed.
Lemma sigmoid_log_det_gt x : -9 < x -> log_abs_derivative sigmoid_forward sigmoid_fldj x.
Proof.
  intros H. exists (exp (- x) / (1 + exp (- x)) ^ 2). pose proof (exp_pos (- x)).
  assert (0 < exp (- x) / (1 + exp (- x)) ^ 2) by (apply Rdiv_lt_0_compat; [lra|apply pow_lt; lra]).
  split; [|split; [lra|rewrite Rabs_pos_eq by lra; apply sigmoid_fldj_val]].
  apply is_derive_Reals. apply (is_derive_ext_loc sigmoid); [|apply is_derive_sigmoid].
  assert (Hp : 0 < x - -9) by lra. exists (mkposreal _ Hp). intros t Ht.
  symmetry; apply sigmoid_forward_ge. unfold ball in Ht; cbn in Ht; unfold AbsRing_ball, abs, minus, plus, opp in Ht; cbn in Ht.
  apply Rabs_def2 in Ht. lra.
Qed.
Lemma sigmoid_not_injective : exists x1 x2, x1 < x2 /\ sigmoid_forward x1 = sigmoid_forward x2.
Proof.
  exists (ln (sigmoid (-9))), (-9).
  assert (Hlt : ln (sigmoid (-9)) < -9).
  { rewrite <- (ln_exp (-9)) at 2. apply ln_increasing; [apply sigmoid_range|]. unfold sigmoid.
    rewrite exp_Ropp. pose proof (exp_pos (-9)). replace (/ (1 + / exp (-9))) with (exp (-9) / (1 + exp (-9))) by (field; lra).
    apply (Rmult_lt_reg_r (1 + exp (-9))); [lra|]. unfold Rdiv. rewrite Rmult_assoc, Rinv_l by lra. nra. }
  split; [exact Hlt|]. rewrite sigmoid_forward_lt by auto. rewrite sigmoid_forward_ge by lra.
  apply exp_ln, sigmoid_range.
Qed.
Lemma sigmoid_roundtrip_fails : exists x, sigmoid_inverse (sigmoid_forward x) <> x.
Proof. exists (-10). pose proof (sigmoid_error_lt (-10)). lra. Qed.
Lemma sigmoid_log_det_wrong x : x < -9 -> ~ log_abs_derivative sigmoid_forward sigmoid_fldj x.
Proof.
  intros H (d & Hd & _ & E).
  assert (Hd' : is_derive sigmoid_forward x (exp x)).
  { apply (is_derive_ext_loc exp); [|apply is_derive_exp].
    assert (Hp : 0 < -9 - x) by lra. exists (mkposreal _ Hp). intros t Ht.
    symmetry; apply sigmoid_forward_lt. unfold ball in Ht; cbn in Ht; unfold AbsRing_ball, abs, minus, plus, opp in Ht; cbn in Ht.
    apply Rabs_def2 in Ht. lra. }
  apply is_derive_Reals in Hd'. pose proof (uniqueness_limite _ _ _ _ Hd Hd') as ->.
  rewrite Rabs_pos_eq in E by (left; apply exp_pos). rewrite ln_exp in E.
  rewrite sigmoid_fldj_val in E. pose proof (exp_pos (- x)) as Hp. pose proof (exp_pos x) as Hq.
  assert (E2 : exp (- x) / (1 + exp (- x)) ^ 2 = exp x).
  { apply (f_equal exp) in E. rewrite exp_ln in E; [exact E|]. apply Rdiv_lt_0_compat; [lra|apply pow_lt; lra]. }
  rewrite exp_neg in E2. set (e := exp x) in *.
  assert (E3 : (1 + e) ^ 2 = 1).
  { assert (H1 : / e / (1 + / e) ^ 2 = e / (1 + e) ^ 2) by (field; lra). rewrite H1 in E2.
    assert (e = e * (1 + e) ^ 2) by (rewrite <- E2 at 2; field; lra). nra. }
  nra.
Qed.

(** ** GumbelCDF *)
Lemma gumbel_range x : 0 < gumbel_forward x < 1.
Proof.
  unfold gumbel_forward; split; [apply exp_pos|]. rewrite <- exp_0. apply exp_increasing. pose proof (exp_pos (- x)). lra.
Qed.
Lemma gumbel_round x : gumbel_inverse (gumbel_forward x) = x.
Proof. unfold gumbel_inverse, gumbel_forward. rewrite ln_exp, Ropp_involutive, ln_exp. lra. Qed.
Lemma ln_neg_lt1 y : 0 < y < 1 -> ln y < 0.
Proof. intros H. rewrite <- ln_1. apply ln_increasing; lra. Qed.
Lemma gumbel_round_inv y : 0 < y < 1 -> gumbel_forward (gumbel_inverse y) = y.
Proof.
  intros H. unfold gumbel_inverse, gumbel_forward. rewrite Ropp_involutive.
  pose proof (ln_neg_lt1 y H). rewrite exp_ln by lra. rewrite Ropp_involutive. apply exp_ln; lra.
Qed.
Lemma gumbel_log_det x : log_abs_derivative gumbel_forward gumbel_fldj x.
Proof.
  exists (exp (- x) * exp (- exp (- x))). pose proof (exp_pos (- x)). pose proof (exp_pos (- exp (- x))).
  split; [|split].
  - apply is_derive_Reals. unfold gumbel_forward. auto_derive; [auto|]. lra.
  - nra.
  - rewrite Rabs_pos_eq by nra. rewrite <- exp_plus, ln_exp. unfold gumbel_fldj. lra.
Qed.
Lemma gumbel_ildj_neg y : 0 < y < 1 -> gumbel_ildj y = - gumbel_fldj (gumbel_inverse y).
Proof.
  intros H. unfold gumbel_ildj, gumbel_fldj, gumbel_inverse. pose proof (ln_neg_lt1 y H).
  rewrite Ropp_involutive, exp_ln by lra. lra.
Qed.
Lemma gumbel_bijection : bijection_onto gumbel_forward gumbel_inverse (fun y => 0 < y < 1).
Proof. split; [intros x; split; [apply gumbel_range|apply gumbel_round]|]. intros; apply gumbel_round_inv; auto. Qed.

(** ** Elementwise lifting to arrays *)
Lemma tmap_tmap {A B C} (f : A -> B) (g : B -> C) t : tmap g (tmap f t) = tmap (fun a => g (f a)) t.
Proof. unfold tmap; cbn. rewrite map_map; reflexivity. Qed.
Lemma tmap_id {A} (f : A -> A) t : (forall a, f a = a) -> tmap f t = t.
Proof. destruct t; unfold tmap; cbn. intros H. f_equal. rewrite <- map_id. apply map_ext; auto. Qed.
Lemma elementwise_round m f lf g lg : (forall x, g (f x) = x) ->
  forall x y, b_fwd (elementwise m f lf g lg) x = Ok y -> b_inv (elementwise m f lf g lg) y = Ok x.
Proof.
  intros H x y E. cbn in *. injection E as <-. rewrite tmap_tmap, tmap_id; auto.
Qed.

(** ** ScalarAffine *)
Lemma bcast_to_ok t s : bshape (shp t) s = Some s -> bcast_to t s = Ok (tgen s (bget t)).
Proof. intros H; unfold bcast_to; rewrite H. destruct (list_eq_dec _ s s); [reflexivity|congruence]. Qed.
Lemma bget_tgen s f idx : inb s idx -> bget (tgen s f) idx = f idx.
Proof. intros H. rewrite bget_inb by exact H. apply tget_tgen; auto. Qed.

(** effective scale and log-scale at a position of the batch *)
Definition eff_scale (scale log_scale : option arr) (idx : list nat) : R :=
  match scale, log_scale with
  | Some s, _ => bget s idx
  | None, Some l => exp (bget l idx)
  | None, None => 1
  end.
Lemma sa_params_shapes scale log_scale sc isc lsc :
  sa_params scale log_scale = Ok (sc, isc, lsc) -> shp isc = shp sc /\ shp lsc = shp sc.
Proof.
  destruct scale as [s|], log_scale as [l|]; cbn; intros H; try discriminate;
    injection H as <- <- <-; auto.
Qed.
Lemma sa_params_get scale log_scale sc isc lsc s idx :
  (forall a, scale = Some a -> wf a) -> (forall a, log_scale = Some a -> wf a) ->
  sa_params scale log_scale = Ok (sc, isc, lsc) -> bshape (shp sc) s = Some s -> inb s idx ->
  eff_scale scale log_scale idx <> 0 ->
  bget sc idx = eff_scale scale log_scale idx /\ bget isc idx = / eff_scale scale log_scale idx /\
  bget lsc idx = ln (Rabs (eff_scale scale log_scale idx)) /\ bget (tneg lsc) idx = - ln (Rabs (eff_scale scale log_scale idx)).
Proof.
  intros Hw1 Hw2 H Hb Hi Hne.
  assert (Hnil : forall a, bget (tscalar a) idx = a) by (intros; unfold bget, bindex; cbn; destruct (rev idx); reflexivity).
  destruct scale as [a|], log_scale as [l|]; cbn in H, Hne; cbn [eff_scale]; try discriminate; injection H as <- <- <-.
  - pose proof (Hw1 _ eq_refl). unfold tneg. rewrite !(bget_tmap _ _ s) by (auto using tmap_wf).
    repeat split; auto. unfold Rdiv; apply Rmult_1_l.
  - pose proof (Hw2 _ eq_refl). unfold tneg. cbn in Hb. rewrite !(bget_tmap _ _ s) by (auto using tmap_wf).
    rewrite exp_Ropp, Rabs_pos_eq, ln_exp by (left; apply exp_pos). auto.
  - unfold tneg. change (tmap Ropp (tscalar 0)) with (tscalar (- 0)). rewrite !Hnil.
    rewrite Rabs_R1, ln_1. repeat split; lra.
Qed.
Lemma scalar_affine_spec shift scale log_scale b x s :
  wf shift -> (forall a, scale = Some a -> wf a) -> (forall a, log_scale = Some a -> wf a) ->
  scalar_affine_init shift scale log_scale = Ok b -> wf x ->
  (exists bs, bshape (shp shift) (match scale, log_scale with Some a, _ => shp a | _, Some l => shp l | _, _ => [] end) = Some bs
              /\ bshape bs (shp x) = Some s) ->
  (forall idx, inb s idx -> eff_scale scale log_scale idx <> 0) ->
  b_fal b x = Ok (tgen s (fun i => eff_scale scale log_scale i * bget x i + bget shift i),
                  tgen s (fun i => ln (Rabs (eff_scale scale log_scale i)))) /\
  b_fwd b x = rmap fst (b_fal b x) /\ b_fld b x = rmap snd (b_fal b x) /\
  b_ial b x = Ok (tgen s (fun i => (bget x i - bget shift i) / eff_scale scale log_scale i),
                  tgen s (fun i => - ln (Rabs (eff_scale scale log_scale i)))) /\
  b_inv b x = rmap fst (b_ial b x) /\ b_ild b x = rmap snd (b_ial b x).
Proof.
  intros Hws Hw1 Hw2 H Hwx (bs & Hbs & Hs) Hnz.
  unfold scalar_affine_init in H. cbn [base_init rbind] in H.
  apply rbind_ok_inv in H as (m & _ & H).
  apply rbind_ok_inv in H as ([[sc isc] lsc] & Hp & H).
  destruct (sa_params_shapes _ _ _ _ _ Hp) as [Hsi Hsl].
  assert (Hsc : shp sc = match scale, log_scale with Some a, _ => shp a | _, Some l => shp l | _, _ => [] end).
  { destruct scale, log_scale; cbn in Hp; try discriminate; injection Hp as <- <- <-; reflexivity. }
  rewrite <- Hsc in Hbs. clear Hsc.
  unfold bcast_shapes in H. rewrite Hbs in H. cbn [rbind] in H. injection H as <-.
  cbn [b_fal b_ial b_fwd b_inv b_fld b_ild]. rewrite Hs. cbn [rbind].
  assert (B1 : bshape (shp sc) s = Some s).
  { eapply bshape_trans; [eapply bshape_absorb_r; exact Hbs|]. eapply bshape_absorb_l; exact Hs. }
  assert (B2 : bshape (shp shift) s = Some s).
  { eapply bshape_trans; [eapply bshape_absorb_l; exact Hbs|]. eapply bshape_absorb_l; exact Hs. }
  assert (B3 : bshape (shp x) s = Some s) by (eapply bshape_absorb_r; exact Hs).
  rewrite (bcast_to_ok sc), (bcast_to_ok shift), (bcast_to_ok isc), (bcast_to_ok lsc), (bcast_to_ok (tneg lsc))
    by (cbn; rewrite ?Hsi, ?Hsl; auto).
  cbn [rbind]. unfold tmul, tsub, tadd.
  rewrite (tmap2_bget Rmult _ _ s) by (cbn [shp tgen]; rewrite bshape_comm; auto).
  cbn [rbind]. rewrite (tmap2_bget Rplus _ _ s) by (cbn [shp tgen]; apply bshape_refl).
  rewrite (tmap2_bget Rminus _ _ s) by (cbn [shp tgen]; auto). cbn [rbind].
  rewrite (tmap2_bget Rmult _ _ s) by (cbn [shp tgen]; apply bshape_refl). cbn [rbind rmap fst snd].
  assert (G : forall idx, inb s idx -> _) by (intros idx Hi; exact (sa_params_get _ _ _ _ _ s idx Hw1 Hw2 Hp B1 Hi (Hnz idx Hi))).
  match goal with |- Ok (?a, ?b) = _ /\ _ /\ _ /\ Ok (?c, ?d) = _ /\ _ =>
    assert (Ea : a = tgen s (fun i => eff_scale scale log_scale i * bget x i + bget shift i));
    [|assert (Eb : b = tgen s (fun i => ln (Rabs (eff_scale scale log_scale i))));
    [|assert (Ec : c = tgen s (fun i => (bget x i - bget shift i) / eff_scale scale log_scale i));
    [|assert (Ed : d = tgen s (fun i => - ln (Rabs (eff_scale scale log_scale i))))]]] end.
  - apply tgen_ext; intros idx Hi; rewrite ?bget_tgen by auto.
    destruct (G idx Hi) as (G1 & G2 & G3 & G4); rewrite ?G1, ?G2, ?G3, ?G4; auto.
  - apply tgen_ext; intros idx Hi; rewrite ?bget_tgen by auto.
    destruct (G idx Hi) as (G1 & G2 & G3 & G4); rewrite ?G1, ?G2, ?G3, ?G4; auto.
  - apply tgen_ext; intros idx Hi; rewrite ?bget_tgen by auto.
    destruct (G idx Hi) as (G1 & G2 & G3 & G4); rewrite ?G1, ?G2, ?G3, ?G4. unfold Rdiv; lra.
  - apply tgen_ext; intros idx Hi; rewrite ?bget_tgen by auto.
    destruct (G idx Hi) as (G1 & G2 & G3 & G4); rewrite ?G1, ?G2, ?G3, ?G4; auto.
  - rewrite Ea, Eb, Ec, Ed; auto 10.
Qed.
Lemma scalar_affine_round shift scale log_scale b x y l s :
  wf shift -> (forall a, scale = Some a -> wf a) -> (forall a, log_scale = Some a -> wf a) ->
  scalar_affine_init shift scale log_scale = Ok b -> wf x ->
  (exists bs, bshape (shp shift) (match scale, log_scale with Some a, _ => shp a | _, Some l => shp l | _, _ => [] end) = Some bs
              /\ bshape bs (shp x) = Some s) ->
  (forall idx, inb s idx -> eff_scale scale log_scale idx <> 0) ->
  b_fal b x = Ok (y, l) -> b_ial b y = Ok (tgen s (bget x), tneg l).
Proof.
  intros Hws Hw1 Hw2 H Hwx Hx Hnz E.
  destruct (scalar_affine_spec _ _ _ _ _ _ Hws Hw1 Hw2 H Hwx Hx Hnz) as (F1 & _).
  rewrite F1 in E. injection E as <- <-. destruct Hx as (bs & Hbs & Hs).
  assert (Hb2 : exists bs, bshape (shp shift) (match scale, log_scale with Some a, _ => shp a | _, Some l => shp l | _, _ => [] end) = Some bs
              /\ bshape bs (shp (tgen s (fun i => eff_scale scale log_scale i * bget x i + bget shift i))) = Some s).
  { exists bs; split; auto. cbn [shp tgen]. eapply bshape_absorb_l; exact Hs. }
  destruct (scalar_affine_spec _ _ _ _ _ _ Hws Hw1 Hw2 H (tgen_wf _ _) Hb2 Hnz) as (_ & _ & _ & F2 & _).
  rewrite F2. f_equal. f_equal.
  - apply tgen_ext; intros idx Hi. rewrite bget_tgen by auto. specialize (Hnz idx Hi). field; auto.
  - unfold tneg, tmap, tgen; cbn. f_equal. rewrite map_map; reflexivity.
Qed.
Lemma scalar_affine_both_err shift s l : scalar_affine_init shift (Some s) (Some l) = Err ValueError.
Proof. reflexivity. Qed.
Lemma scalar_affine_logdet (a c x : R) : a <> 0 -> log_abs_derivative (fun x => a * x + c) (fun _ => ln (Rabs a)) x.
Proof.
  intros H. exists a. split; [|auto]. apply is_derive_Reals. auto_derive; [auto|lra].
Qed.
(** Shift behaves as ScalarAffine with scale 1 *)
Lemma shift_spec shift b x s : wf shift -> wf x -> shift_init shift = Ok b -> bshape (shp x) (shp shift) = Some s ->
  b_fal b x = Ok (tgen s (fun i => bget x i + bget shift i), tgen s (fun _ => 0)) /\
  b_ial b x = Ok (tgen s (fun i => bget x i - bget shift i), tgen s (fun _ => 0)) /\
  b_fwd b x = rmap fst (b_fal b x) /\ b_fld b x = rmap snd (b_fal b x) /\
  b_inv b x = rmap fst (b_ial b x) /\ b_ild b x = rmap snd (b_ial b x).
Proof.
  intros Hws Hwx H Hs. unfold shift_init in H. apply rbind_ok_inv in H as (m & _ & H). injection H as <-.
  cbn [b_fal b_ial b_fwd b_inv b_fld b_ild]. unfold bcast_shapes. rewrite (bshape_comm (shp shift)), Hs. cbn [rbind].
  unfold tadd, tsub. rewrite !(tmap2_bget _ _ _ s) by auto. cbn. auto 10.
Qed.
Lemma shift_round shift b x y l s : wf shift -> wf x -> shift_init shift = Ok b -> bshape (shp x) (shp shift) = Some s ->
  b_fal b x = Ok (y, l) -> b_ial b y = Ok (tgen s (bget x), tneg l).
Proof.
  intros Hws Hwx H Hs E. destruct (shift_spec _ _ _ _ Hws Hwx H Hs) as (F & _). rewrite F in E. injection E as <- <-.
  assert (Hs2 : bshape (shp (tgen s (fun i => bget x i + bget shift i))) (shp shift) = Some s).
  { cbn [shp tgen]. rewrite bshape_comm. eapply bshape_absorb_r; exact Hs. }
  destruct (shift_spec shift b _ s Hws (tgen_wf _ _) H Hs2) as (_ & F2 & _). rewrite F2. f_equal. f_equal.
  - apply tgen_ext; intros idx Hi. rewrite bget_tgen by auto. lra.
  - unfold tneg, tmap, tgen; cbn. f_equal. rewrite map_map. apply map_ext; intros; lra.
Qed.
Lemma tgen_bget_id x : wf x -> tgen (shp x) (bget x) = x.
Proof.
  intros H. rewrite <- (tgen_tget 0 x H) at 3. apply tgen_ext; intros; apply bget_inb; auto.
Qed.

(** The two directions at array level: value round trip and opposite log-dets. *)
Lemma elementwise_opposite m f lf g lg x y l :
  (forall a, g (f a) = a) -> (forall a, lg (f a) = - lf a) ->
  b_fal (elementwise m f lf g lg) x = Ok (y, l) -> b_ial (elementwise m f lf g lg) y = Ok (x, tneg l).
Proof.
  intros Hg Hl H. cbn in *. injection H as <- <-. unfold tneg. rewrite !tmap_tmap.
  rewrite (tmap_id (fun a => g (f a))) by auto. do 2 f_equal.
  unfold tmap; f_equal. apply map_ext; auto.
Qed.
Lemma tanh_array_round b x y l :
  tanh_bij = Ok b -> b_fal b x = Ok (y, l) -> b_ial b y = Ok (x, tneg l).
Proof.
  intros H; injection H as <-. apply elementwise_opposite; [apply arctanh_tanh|].
  intros a; unfold tanh_ildj, tanh_inverse, tanh_forward. rewrite arctanh_tanh. reflexivity.
Qed.
Lemma gumbel_array_round b x y l :
  gumbel_bij = Ok b -> b_fal b x = Ok (y, l) -> b_ial b y = Ok (x, tneg l).
Proof.
  intros H; injection H as <-. apply elementwise_opposite; [apply gumbel_round|].
  intros a. rewrite gumbel_ildj_neg by apply gumbel_range. rewrite gumbel_round. reflexivity.
Qed.
