From Coq Require Import Reals List Lra Lia.
From Coquelicot Require Import Coquelicot.
From Verif Require Import Base.Result Base.Tensor Base.Rows Base.XR Base.Lift Base.Integral Spec.Scalar Spec.Transformed.
Import ListNotations.
Local Open Scope R_scope.

(** ** Calculus of smooth bijections *)
Global Instance left_filter a : Filter (from_left_end a).
Proof. destruct a; cbn; apply filter_filter. Qed.
Global Instance right_filter b : Filter (from_right_end b).
Proof. destruct b; cbn; apply filter_filter. Qed.

Section Smooth.
Variables (f f' g : R -> R) (a b : Rbar).
Hypothesis H : smooth_bijection f f' g a b.

Lemma sb_derive x : is_derive f x (f' x). Proof. apply H. Qed.
Lemma sb_cont' x : continuous f' x. Proof. apply H. Qed.
Lemma sb_nz x : f' x <> 0. Proof. apply H. Qed.
Lemma sb_gf x : g (f x) = x. Proof. apply H. Qed.
Lemma sb_in x : inside a b (f x). Proof. apply H. Qed.
Lemma sb_fg y : inside a b y -> f (g y) = y. Proof. apply H. Qed.
Lemma sb_cont x : continuity_pt f x.
Proof. apply continuity_pt_filterlim. apply (@ex_derive_continuous R_AbsRing R_NormedModule). eexists; apply sb_derive. Qed.

Lemma sign_const : (forall x, 0 < f' x) \/ (forall x, f' x < 0).
Proof.
  assert (HC : continuity f') by (intros x; apply continuity_pt_filterlim, sb_cont').
  assert (X : forall x y, 0 < f' x -> f' y < 0 -> x < y -> False).
  { intros x y Hx Hy L. destruct (IVT (fun t => - f' t) x y) as (z & _ & Z).
    - intros t; apply continuity_pt_opp, HC.
    - auto.
    - lra.
    - lra.
    - apply (sb_nz z). lra. }
  assert (X' : forall x y, 0 < f' x -> f' y < 0 -> y < x -> False).
  { intros x y Hx Hy L. destruct (IVT f' y x HC L Hy Hx) as (z & _ & Z). apply (sb_nz z). lra. }
  destruct (Rlt_or_le 0 (f' 0)) as [P|N].
  - left. intros x. destruct (Rlt_or_le 0 (f' x)) as [|N]; auto. exfalso.
    assert (f' x < 0) by (pose proof (sb_nz x); lra).
    destruct (Rtotal_order 0 x) as [L|[E|L]]; [eapply X; eauto|subst; lra|eapply X'; eauto].
  - right. assert (N0 : f' 0 < 0) by (pose proof (sb_nz 0); lra).
    intros x. destruct (Rlt_or_le (f' x) 0) as [|P]; auto. exfalso.
    assert (0 < f' x) by (pose proof (sb_nz x); lra).
    destruct (Rtotal_order x 0) as [L|[E|L]]; [eapply (X x 0); eauto|subst; lra|eapply (X' x 0); eauto].
Qed.
Lemma incr : (forall x, 0 < f' x) -> forall x y, x < y -> f x < f y.
Proof.
  intros P x y L. destruct (MVT_gen f x y f') as (c & _ & E).
  - intros; apply sb_derive.
  - intros; apply sb_cont.
  - pose proof (Rmult_lt_0_compat (f' c) (y - x) (P c)). lra.
Qed.
Lemma decr : (forall x, f' x < 0) -> forall x y, x < y -> f y < f x.
Proof.
  intros P x y L. destruct (MVT_gen f x y f') as (c & _ & E).
  - intros; apply sb_derive.
  - intros; apply sb_cont.
  - pose proof (Rmult_lt_0_compat (- f' c) (y - x)). specialize (P c). lra.
Qed.
Lemma g_incr : (forall x, 0 < f' x) -> forall u v, inside a b u -> inside a b v -> u < v -> g u < g v.
Proof.
  intros P u v Hu Hv L. destruct (Rlt_or_le (g u) (g v)) as [|[G|E]]; auto; exfalso.
  - apply (incr P) in G. rewrite !sb_fg in G; auto. lra.
  - apply (f_equal f) in E. rewrite !sb_fg in E; auto. lra.
Qed.
Lemma g_decr : (forall x, f' x < 0) -> forall u v, inside a b u -> inside a b v -> u < v -> g v < g u.
Proof.
  intros P u v Hu Hv L. destruct (Rlt_or_le (g v) (g u)) as [|[G|E]]; auto; exfalso.
  - apply (decr P) in G. rewrite !sb_fg in G; auto. lra.
  - apply (f_equal f) in E. rewrite !sb_fg in E; auto. lra.
Qed.
Lemma inside_between u v w : inside a b u -> inside a b w -> u <= v <= w -> inside a b v.
Proof.
  intros [A _] [_ B] [L1 L2]. split.
  - eapply Rbar_lt_le_trans; [exact A|]. exact L1.
  - eapply Rbar_le_lt_trans; [|exact B]. exact L2.
Qed.
Lemma inside_open y : inside a b y -> locally y (inside a b).
Proof.
  intros [A B]. apply filter_and.
  - destruct a as [x| |]; cbn in *; [apply (open_gt x y A)|contradiction|apply filter_forall; auto].
  - destruct b as [x| |]; cbn in *; [apply (open_lt x y B)|apply filter_forall; auto|contradiction].
Qed.
(** the inverse is continuous: points near f x come from points near x *)
Lemma g_cont y : inside a b y -> continuous g y.
Proof.
  intros Hy. rewrite <- (sb_fg y Hy). set (x := g y). intros P [eps HP].
  rewrite (sb_gf x) in HP.
  destruct sign_const as [S|S].
  - pose proof (incr S (x - eps / 2) x). pose proof (incr S x (x + eps / 2)).
    assert (0 < eps) by apply cond_pos.
    assert (He : 0 < Rmin (f x - f (x - eps / 2)) (f (x + eps / 2) - f x)) by (apply Rmin_pos; lra).
    exists (mkposreal _ He). intros z Hz. apply HP.
    assert (Hz' : Rabs (z - f x) < Rmin (f x - f (x - eps / 2)) (f (x + eps / 2) - f x)) by exact Hz.
    pose proof (Rmin_l (f x - f (x - eps / 2)) (f (x + eps / 2) - f x)).
    pose proof (Rmin_r (f x - f (x - eps / 2)) (f (x + eps / 2) - f x)).
    apply Rabs_lt_between in Hz'.
    assert (Hi : inside a b z) by (apply (inside_between (f (x - eps / 2)) z (f (x + eps / 2))); auto using sb_in; lra).
    pose proof (g_incr S (f (x - eps / 2)) z (sb_in _) Hi). pose proof (g_incr S z (f (x + eps / 2)) Hi (sb_in _)).
    rewrite !sb_gf in *.
    change (Rabs (g z - x) < eps). apply Rabs_lt_between. lra.
  - pose proof (decr S (x - eps / 2) x). pose proof (decr S x (x + eps / 2)).
    assert (0 < eps) by apply cond_pos.
    assert (He : 0 < Rmin (f (x - eps / 2) - f x) (f x - f (x + eps / 2))) by (apply Rmin_pos; lra).
    exists (mkposreal _ He). intros z Hz. apply HP.
    assert (Hz' : Rabs (z - f x) < Rmin (f (x - eps / 2) - f x) (f x - f (x + eps / 2))) by exact Hz.
    pose proof (Rmin_l (f (x - eps / 2) - f x) (f x - f (x + eps / 2))).
    pose proof (Rmin_r (f (x - eps / 2) - f x) (f x - f (x + eps / 2))).
    apply Rabs_lt_between in Hz'.
    assert (Hi : inside a b z) by (apply (inside_between (f (x + eps / 2)) z (f (x - eps / 2))); auto using sb_in; lra).
    pose proof (g_decr S z (f (x - eps / 2)) Hi (sb_in _)). pose proof (g_decr S (f (x + eps / 2)) z (sb_in _) Hi).
    rewrite !sb_gf in *.
    change (Rabs (g z - x) < eps). apply Rabs_lt_between. lra.
Qed.
Lemma g_derive y : inside a b y -> is_derive g y (/ f' (g y)).
Proof.
  intros Hy. apply is_derive_Reals. intros eps He.
  pose proof (sb_derive (g y)) as HD. apply is_derive_Reals in HD.
  set (d := f' (g y)) in *. pose proof (sb_nz (g y)) as Hd. fold d in Hd.
  (* 1/q is continuous at d *)
  assert (HC : continuity_pt Rinv d) by (apply continuity_pt_inv; [apply continuity_pt_id|exact Hd]).
  destruct (HC eps He) as (e1 & He1 & HC1).
  destruct (HD (Rmin e1 (Rabs d / 2))) as [d1 HD1].
  { apply Rmin_pos; auto. apply Rdiv_lt_0_compat; [apply Rabs_pos_lt; auto|lra]. }
  pose proof (g_cont y Hy) as GC. apply continuity_pt_filterlim in GC.
  destruct (GC d1 (cond_pos d1)) as (e2 & He2 & GC2).
  destruct (inside_open y Hy) as [e3 HI].
  assert (Hm : 0 < Rmin e2 e3) by (apply Rmin_pos; auto; apply cond_pos).
  exists (mkposreal _ Hm). intros h Hh Hl. cbn in Hl.
  pose proof (Rmin_l e2 e3). pose proof (Rmin_r e2 e3).
  assert (Hi : inside a b (y + h)).
  { apply HI. change (Rabs (y + h - y) < e3). replace (y + h - y) with h by ring. lra. }
  assert (Hk : g (y + h) - g y <> 0).
  { intros E. apply Hh. assert (g (y + h) = g y) as E' by lra. apply (f_equal f) in E'. rewrite !sb_fg in E' by auto. lra. }
  set (k := g (y + h) - g y) in *.
  assert (Hkd : Rabs k < d1).
  { destruct (Req_dec h 0); [contradiction|]. apply (GC2 (y + h)). split.
    - split; [exact I|]. lra.
    - cbn. unfold R_dist. replace (y + h - y) with h by ring. lra. }
  specialize (HD1 k Hk Hkd).
  assert (Ek : f (g y + k) = y + h) by (unfold k; replace (g y + (g (y + h) - g y)) with (g (y + h)) by ring; apply sb_fg; auto).
  rewrite Ek, sb_fg in HD1 by auto. replace (y + h - y) with h in HD1 by ring.
  pose proof (Rmin_l e1 (Rabs d / 2)). pose proof (Rmin_r e1 (Rabs d / 2)).
  replace (k / h) with (/ (h / k)) by (field; auto).
  destruct (Req_dec (h / k) d) as [E|N].
  - rewrite E. replace (/ d - / d) with 0 by ring. rewrite Rabs_R0. lra.
  - apply (HC1 (h / k)). split; [split; [exact I|auto]|]. cbn. unfold R_dist. lra.
Qed.
Lemma Derive_g y : inside a b y -> Derive g y = / f' (g y).
Proof. intros Hy. apply is_derive_unique, g_derive, Hy. Qed.
Lemma inv_f'_cont y : inside a b y -> continuous (fun y => / f' (g y)) y.
Proof.
  intros Hy. apply continuity_pt_filterlim. apply (continuity_pt_comp g (fun x => / f' x)).
  - apply continuity_pt_filterlim, g_cont, Hy.
  - apply continuity_pt_inv; [apply continuity_pt_filterlim, sb_cont'|apply sb_nz].
Qed.

Lemma min_inside u v t : inside a b u -> inside a b v -> Rmin u v <= t <= Rmax u v -> inside a b t.
Proof.
  intros Hu Hv Ht. unfold Rmin, Rmax in Ht. destruct (Rle_dec u v); eapply inside_between; [| |exact Ht| | |exact Ht]; auto.
Qed.
(** change of variables on a compact interval *)
Lemma subst_compact (u : R -> R) y1 y2 : (forall x, continuous u x) -> inside a b y1 -> inside a b y2 ->
  is_RInt (fun y => u (g y) * / f' (g y)) y1 y2 (RInt u (g y1) (g y2)).
Proof.
  intros Cu H1 H2.
  apply (is_RInt_ext (fun y => scal (/ f' (g y)) (u (g y)))).
  - intros x _. cbn. unfold mult; cbn. ring.
  - apply (is_RInt_comp u g (fun y => / f' (g y)) y1 y2).
    + intros; apply Cu.
    + intros x Hx. pose proof (min_inside _ _ _ H1 H2 Hx). split; [apply g_derive; auto|apply inv_f'_cont; auto].
Qed.

Lemma left_inside : from_left_end a (inside a b).
Proof.
  pose proof (sb_in 0) as [A B]. destruct a as [x| |]; cbn in *.
  - assert (He : 0 < f 0 - x) by lra. exists (mkposreal _ He). intros y Hy Hl. change (Rabs (y - x) < f 0 - x) in Hy.
    apply Rabs_lt_between in Hy. split; [exact Hl|]. apply (Rbar_le_lt_trans y (f 0) b); [cbn; lra|exact B].
  - contradiction.
  - exists (f 0). intros y Hy. split; [exact I|]. apply (Rbar_le_lt_trans y (f 0) b); [cbn; lra|exact B].
Qed.
Lemma right_inside : from_right_end b (inside a b).
Proof.
  pose proof (sb_in 0) as [A B]. destruct b as [x| |]; cbn in *.
  - assert (He : 0 < x - f 0) by lra. exists (mkposreal _ He). intros y Hy Hl. change (Rabs (y - x) < x - f 0) in Hy.
    apply Rabs_lt_between in Hy. split; [|exact Hl]. apply (Rbar_lt_le_trans a (f 0) y); [exact A|cbn; lra].
  - exists (f 0). intros y Hy. split; [|exact I]. apply (Rbar_lt_le_trans a (f 0) y); [exact A|cbn; lra].
  - contradiction.
Qed.
Lemma left_lt x : from_left_end a (fun y => y < f x).
Proof.
  pose proof (sb_in x) as [A B]. destruct a as [z| |]; cbn in *.
  - assert (He : 0 < f x - z) by lra. exists (mkposreal _ He). intros y Hy Hl. change (Rabs (y - z) < f x - z) in Hy.
    apply Rabs_lt_between in Hy. lra.
  - contradiction.
  - exists (f x). auto.
Qed.
Lemma right_gt x : from_right_end b (fun y => f x < y).
Proof.
  pose proof (sb_in x) as [A B]. destruct b as [z| |]; cbn in *.
  - assert (He : 0 < z - f x) by lra. exists (mkposreal _ He). intros y Hy Hl. change (Rabs (y - z) < z - f x) in Hy.
    apply Rabs_lt_between in Hy. lra.
  - exists (f x). auto.
  - contradiction.
Qed.
(** change of variables in the improper integral *)
Lemma subst_integral (u : R -> R) v : (forall x, continuous u x) -> integral u v ->
  integral_on a b (fun y => u (g y) * Rabs (Derive g y)) v.
Proof.
  intros Cu HI P HP. destruct (HI P HP) as [Q1 Q2 [M1 HQ1] [M2 HQ2] HQ].
  assert (EU : forall x1 x2, ex_RInt u x1 x2) by (intros; apply (@ex_RInt_continuous R_CompleteNormedModule); auto).
  destruct sign_const as [S|S].
  - apply (Filter_prod _ _ _ (fun y => inside a b y /\ y < f M1) (fun y => inside a b y /\ f M2 < y)).
    { apply filter_and; [apply left_inside|apply left_lt]. }
    { apply filter_and; [apply right_inside|apply right_gt]. }
    intros y1 y2 [I1 L1] [I2 L2].
    assert (G1 : g y1 < M1). { rewrite <- (sb_gf M1). apply (g_incr S); auto using sb_in. }
    assert (G2 : M2 < g y2). { rewrite <- (sb_gf M2). apply (g_incr S); auto using sb_in. }
    destruct (HQ (g y1) (g y2) (HQ1 _ G1) (HQ2 _ G2)) as (z & Hz & Pz). exists z. split; auto.
    cbn [fst snd] in *. rewrite <- (is_RInt_unique _ _ _ _ Hz).
    eapply is_RInt_ext; [|apply (subst_compact u y1 y2 Cu I1 I2)].
    intros y Hy. rewrite (Derive_g y); [|eapply (min_inside y1 y2); auto; lra].
    rewrite Rabs_pos_eq; auto. apply Rlt_le, Rinv_0_lt_compat, S.
  - apply (Filter_prod _ _ _ (fun y => inside a b y /\ y < f M2) (fun y => inside a b y /\ f M1 < y)).
    { apply filter_and; [apply left_inside|apply left_lt]. }
    { apply filter_and; [apply right_inside|apply right_gt]. }
    intros y1 y2 [I1 L1] [I2 L2].
    assert (G1 : M2 < g y1). { rewrite <- (sb_gf M2). apply (g_decr S); auto using sb_in. }
    assert (G2 : g y2 < M1). { rewrite <- (sb_gf M1). apply (g_decr S); auto using sb_in. }
    destruct (HQ (g y2) (g y1) (HQ1 _ G2) (HQ2 _ G1)) as (z & Hz & Pz). exists z. split; auto.
    cbn [fst snd] in *. rewrite <- (is_RInt_unique _ _ _ _ Hz).
    rewrite <- (opp_RInt_swap u) by auto.
    eapply is_RInt_ext; [|apply (is_RInt_opp (V := R_NormedModule)), (subst_compact u y1 y2 Cu I1 I2)].
    intros y Hy. rewrite (Derive_g y); [|eapply (min_inside y1 y2); auto; lra].
    rewrite Rabs_left by (apply Rinv_lt_0_compat, S). cbn. unfold opp; cbn. ring.
Qed.
(** mass of the image of an interval *)
Lemma subst_mass (p : R -> R) x1 x2 : (forall x, continuous p x) -> x1 <= x2 ->
  is_RInt (pushed p g) (Rmin (f x1) (f x2)) (Rmax (f x1) (f x2)) (RInt p x1 x2).
Proof.
  intros Cp [L| ->].
  2: { rewrite Rmin_left, Rmax_left, RInt_point by lra. apply (is_RInt_point (V := R_NormedModule)). }
  assert (EU : forall x1 x2, ex_RInt p x1 x2) by (intros; apply (@ex_RInt_continuous R_CompleteNormedModule); auto).
  destruct sign_const as [S|S].
  - pose proof (incr S x1 x2 L). rewrite Rmin_left, Rmax_right by lra.
    pose proof (subst_compact p (f x1) (f x2) Cp (sb_in _) (sb_in _)) as HS. rewrite !sb_gf in HS.
    eapply is_RInt_ext; [|exact HS]. intros y Hy. unfold pushed.
    rewrite (Derive_g y); [|eapply (min_inside (f x1) (f x2)); auto using sb_in; lra].
    rewrite Rabs_pos_eq; auto. apply Rlt_le, Rinv_0_lt_compat, S.
  - pose proof (decr S x1 x2 L). rewrite Rmin_right, Rmax_left by lra.
    pose proof (subst_compact p (f x2) (f x1) Cp (sb_in _) (sb_in _)) as HS. rewrite !sb_gf in HS.
    rewrite <- (opp_RInt_swap p) by auto.
    eapply is_RInt_ext; [|apply (is_RInt_opp (V := R_NormedModule)), HS]. intros y Hy. unfold pushed.
    rewrite (Derive_g y); [|eapply (min_inside (f x2) (f x1)); auto using sb_in; lra].
    rewrite Rabs_left by (apply Rinv_lt_0_compat, S). cbn. unfold opp; cbn. ring.
Qed.
End Smooth.

(** ** Arrays *)
From Verif Require Import Model.Bijector Model.ArrayDist Model.Transformed Spec.Bijector.
Lemma lift2_same h (s : shape) (F G : tensor XR) : shp F = s -> shp G = s ->
  lift2 h F G = Ok (tgen s (fun idx => h (tget (Fin 0) F idx) (tget (Fin 0) G idx))).
Proof.
  intros EF EG. unfold lift2. rewrite (lift_top _ [F; G] s).
  - f_equal. apply tgen_ext. intros idx Hi. cbn [map]. rewrite !xget_same; congruence.
  - repeat constructor; rewrite ?EF, ?EG; apply bshape_refl.
  - left; auto.
Qed.
Lemma lift2_tmap {A} h (F G : A -> XR) (y : tensor A) : wf y ->
  lift2 h (tmap F y) (tmap G y) = Ok (tmap (fun t => h (F t) (G t)) y).
Proof.
  intros W. rewrite (lift2_same h (shp y)) by reflexivity. f_equal.
  destruct (dat y) as [|d0 dd] eqn:Ed.
  - unfold wf in W. rewrite Ed in W. cbn in W. unfold tgen, tmap, indices. rewrite <- W, Ed. reflexivity.
  - apply (tensor_ext (Fin 0)); [apply tgen_wf|apply tmap_wf; auto|reflexivity|]. intros idx Hi.
    cbn [shp tgen] in Hi. rewrite tget_tgen by auto. rewrite !(tget_tmap d0 (Fin 0)) by auto. reflexivity.
Qed.
Lemma lift2_sub_add (lp : tensor XR) (l : arr) : wf l ->
  lift2 xsub lp (tmap Fin l) = lift2 xadd lp (tmap Fin (tneg l)).
Proof.
  intros W. unfold lift2, lift. cbn [map shp tneg tmap].
  destruct (bshapes [shp lp; shp l]) as [s|] eqn:E; [|reflexivity]. f_equal. apply tgen_ext. intros idx Hi.
  assert (B : bshape (shp l) s = Some s) by (apply (bshapes_absorb _ _ E); cbn; auto).
  assert (I : inb (shp l) (bindex (shp l) idx)) by (eapply bindex_inb; eauto).
  unfold xget. cbn [shp]. unfold tneg. rewrite !(tget_tmap 0 (Fin 0)) by (auto using tmap_wf).
  rewrite (tget_tmap 0 0) by auto. reflexivity.
Qed.
Lemma lift2_wf h a b t : lift2 h a b = Ok t -> wf t.
Proof. intros E. apply lift_inv in E as (s & _ & ->). apply tgen_wf. Qed.

Lemma rlog_mult x y : 0 <= x -> 0 < y -> xadd (rlog x) (Fin (ln y)) = rlog (x * y).
Proof.
  intros Hx Hy. unfold rlog. destruct (Rlt_dec 0 x) as [P|P].
  - pose proof (Rmult_lt_0_compat _ _ P Hy). destruct (Rlt_dec 0 (x * y)); [|lra]. cbn. f_equal. symmetry. apply ln_mult; auto.
  - assert (x = 0) as -> by lra. rewrite Rmult_0_l. destruct (Req_EM_T 0 0); [|lra]. destruct (Rlt_dec 0 0); [lra|reflexivity].
Qed.
Lemma tmap_ext_in {A B} (F G : A -> B) (t : tensor A) : (forall x, In x (dat t) -> F x = G x) -> tmap F t = tmap G t.
Proof. intros E. unfold tmap. f_equal. apply map_ext_in; auto. Qed.
