(** Infrastructure: improper integrals of functions with a known antiderivative, gluing of
    antiderivatives, and limits used by the densities. *)
From Coq Require Import Reals Lra.
From Coquelicot Require Import Coquelicot.
Local Open Scope R_scope.

(** the improper integral of [f] over the real line *)
Definition integral (f : R -> R) (v : R) : Prop :=
  is_RInt_gen f (Rbar_locally m_infty) (Rbar_locally p_infty) v.

Lemma is_RInt_of_derive (G g : R -> R) a b :
  (forall x, is_derive G x (g x)) -> (forall x, continuous g x) -> is_RInt g a b (G b - G a).
Proof.
  intros Hd Hc. apply (is_RInt_derive G g a b); intros; auto.
Qed.

Lemma integral_of_antiderivative (G g : R -> R) (la lb : R) :
  (forall x, is_derive G x (g x)) -> (forall x, continuous g x) ->
  is_lim G m_infty la -> is_lim G p_infty lb -> integral g (lb - la).
Proof.
  intros Hd Hc Ha Hb. unfold integral, is_RInt_gen.
  intros P [eps HP]. unfold filtermapi.
  assert (He : 0 < eps / 2) by (destruct eps; cbn; lra).
  specialize (Ha (ball la (eps / 2))). specialize (Hb (ball lb (eps / 2))).
  assert (La : Rbar_locally m_infty (fun x => ball la (eps / 2) (G x))).
  { apply Ha. exists (mkposreal _ He). auto. }
  assert (Lb : Rbar_locally p_infty (fun x => ball lb (eps / 2) (G x))).
  { apply Hb. exists (mkposreal _ He). auto. }
  eapply Filter_prod; [exact La|exact Lb|].
  intros x y Hx Hy. cbn [fst snd]. exists (G y - G x). split; [apply is_RInt_of_derive; auto|].
  apply HP. unfold ball in *; cbn in *. unfold AbsRing_ball in *; cbn in *. unfold abs, minus, plus, opp in *; cbn in *.
  unfold Rabs in *. repeat destruct (Rcase_abs _); lra.
Qed.

(** uniqueness and algebra *)
Lemma integral_unique f u v : integral f u -> integral f v -> u = v.
Proof.
  intros Hu Hv. rewrite <- (is_RInt_gen_unique f u Hu). apply is_RInt_gen_unique, Hv.
Qed.
Lemma integral_plus f g u v : integral f u -> integral g v -> integral (fun x => f x + g x) (u + v).
Proof. intros; apply (is_RInt_gen_plus f g u v); auto. Qed.
Lemma integral_scal c f u : integral f u -> integral (fun x => c * f x) (c * u).
Proof. intros; apply (is_RInt_gen_scal f c u); auto. Qed.
Lemma integral_ext f g u : (forall x, f x = g x) -> integral f u -> integral g u.
Proof.
  intros E. unfold integral. apply is_RInt_gen_ext. apply filter_forall. intros [a b] x _. apply E.
Qed.

(** two functions glued at a point where they and their derivatives agree *)
Lemma is_derive_glue (f g : R -> R) m l :
  f m = g m -> is_derive f m l -> is_derive g m l -> is_derive (fun x => if Rle_dec x m then f x else g x) m l.
Proof.
  intros E Hf Hg. apply is_derive_Reals. apply is_derive_Reals in Hf, Hg.
  intros eps He. destruct (Hf eps He) as [d1 H1]. destruct (Hg eps He) as [d2 H2].
  assert (Hd : 0 < Rmin d1 d2) by (apply Rmin_pos; [apply d1|apply d2]).
  exists (mkposreal _ Hd). intros h Hh Hl. cbn in Hl.
  destruct (Rle_dec m m); [|lra]. destruct (Rle_dec (m + h) m).
  - apply H1; auto. eapply Rlt_le_trans; [exact Hl|apply Rmin_l].
  - rewrite E. apply H2; auto. eapply Rlt_le_trans; [exact Hl|apply Rmin_r].
Qed.
Lemma is_derive_near (f g : R -> R) x l (e : R) : 0 < e ->
  (forall y, Rabs (y - x) < e -> f y = g y) -> is_derive f x l -> is_derive g x l.
Proof.
  intros He H Hf. apply (is_derive_ext_loc f); auto. exists (mkposreal e He). intros y Hy. apply H, Hy.
Qed.
Lemma is_derive_piece (f g f' g' : R -> R) m :
  f m = g m -> f' m = g' m ->
  (forall x, x <= m -> is_derive f x (f' x)) -> (forall x, m <= x -> is_derive g x (g' x)) ->
  forall x, is_derive (fun x => if Rle_dec x m then f x else g x) x (if Rle_dec x m then f' x else g' x).
Proof.
  intros E E' Hf Hg x. destruct (Rle_dec x m) as [[L|Q]|H].
  - apply (is_derive_near f _ x _ (m - x)); [lra| |apply Hf; lra]. intros y Hy.
    destruct (Rle_dec y m); auto. unfold Rabs in Hy; destruct (Rcase_abs _); lra.
  - subst x. apply is_derive_glue; auto; [apply Hf; lra|]. rewrite E'. apply Hg; lra.
  - apply (is_derive_near g _ x _ (x - m)); [lra| |apply Hg; lra]. intros y Hy.
    destruct (Rle_dec y m); auto. unfold Rabs in Hy; destruct (Rcase_abs _); lra.
Qed.
Lemma continuous_piece (f g : R -> R) m :
  f m = g m -> (forall x, continuous f x) -> (forall x, continuous g x) ->
  forall x, continuous (fun x => if Rle_dec x m then f x else g x) x.
Proof.
  intros E Hf Hg x. apply continuity_pt_filterlim.
  assert (Cf : forall x, continuity_pt f x) by (intros; apply continuity_pt_filterlim, Hf).
  assert (Cg : forall x, continuity_pt g x) by (intros; apply continuity_pt_filterlim, Hg).
  intros eps He. destruct (Cf x eps He) as (d1 & P1 & H1). destruct (Cg x eps He) as (d2 & P2 & H2).
  destruct (Req_dec x m) as [->|Hne].
  - exists (Rmin d1 d2). split; [apply Rmin_pos; auto|]. intros y [Hy Hd]. cbn in Hd |- *.
    destruct (Rle_dec m m); [|lra]. destruct (Rle_dec y m).
    + apply (H1 y). split; [auto|]. cbn. eapply Rlt_le_trans; [exact Hd|apply Rmin_l].
    + rewrite E. apply (H2 y). split; [auto|]. cbn. eapply Rlt_le_trans; [exact Hd|apply Rmin_r].
  - assert (Hp : 0 < Rabs (x - m)) by (apply Rabs_pos_lt; lra).
    exists (Rmin (Rmin d1 d2) (Rabs (x - m))). split; [repeat apply Rmin_pos; auto|]. intros y [Hy Hd]. cbn in Hd |- *.
    unfold R_dist in Hd.
    pose proof (Rmin_l (Rmin d1 d2) (Rabs (x - m))). pose proof (Rmin_r (Rmin d1 d2) (Rabs (x - m))).
    pose proof (Rmin_l d1 d2). pose proof (Rmin_r d1 d2).
    destruct (Rle_dec x m), (Rle_dec y m).
    + apply (H1 y). split; [auto|]. cbn. unfold R_dist. lra.
    + exfalso. unfold Rabs in *; repeat destruct (Rcase_abs _); lra.
    + exfalso. unfold Rabs in *; repeat destruct (Rcase_abs _); lra.
    + apply (H2 y). split; [auto|]. cbn. unfold R_dist. lra.
Qed.
(** limits only depend on the tail *)
Lemma is_lim_tail_p (f g : R -> R) m l : (forall x, m < x -> f x = g x) -> is_lim f p_infty l -> is_lim g p_infty l.
Proof. intros H. apply is_lim_ext_loc. exists m. intros; apply H; auto. Qed.
Lemma is_lim_tail_m (f g : R -> R) m l : (forall x, x < m -> f x = g x) -> is_lim f m_infty l -> is_lim g m_infty l.
Proof. intros H. apply is_lim_ext_loc. exists m. intros; apply H; auto. Qed.

(** affine substitution in a limit *)
Lemma is_lim_affine_p (f : R -> R) a s (l : Rbar) : 0 < s -> is_lim f p_infty l -> is_lim (fun x => f ((x - a) / s)) p_infty l.
Proof.
  intros Hs H. apply (is_lim_comp f (fun x => (x - a) / s) p_infty l p_infty); auto.
  - apply (is_lim_ext (fun x => / s * x + - a / s)); [intros; field; lra|].
    eapply is_lim_plus; [apply is_lim_scal_l, is_lim_id|apply is_lim_const|].
    assert (0 < / s) by (apply Rinv_0_lt_compat; auto).
    unfold is_Rbar_plus. cbn. destruct (Rle_dec 0 (/ s)) as [h|h]; [|lra].
    destruct (Rle_lt_or_eq_dec 0 (/ s) h); [reflexivity|lra].
  - exists 0. intros; discriminate.
Qed.
Lemma is_lim_affine_m (f : R -> R) a s (l : Rbar) : 0 < s -> is_lim f m_infty l -> is_lim (fun x => f ((x - a) / s)) m_infty l.
Proof.
  intros Hs H. apply (is_lim_comp f (fun x => (x - a) / s) m_infty l m_infty); auto.
  - apply (is_lim_ext (fun x => / s * x + - a / s)); [intros; field; lra|].
    eapply is_lim_plus; [apply is_lim_scal_l, is_lim_id|apply is_lim_const|].
    assert (0 < / s) by (apply Rinv_0_lt_compat; auto).
    unfold is_Rbar_plus. cbn. destruct (Rle_dec 0 (/ s)) as [h|h]; [|lra].
    destruct (Rle_lt_or_eq_dec 0 (/ s) h); [reflexivity|lra].
  - exists 0. intros; discriminate.
Qed.
Lemma is_lim_opp_pm (f : R -> R) l : is_lim f p_infty l -> is_lim (fun x => f (- x)) m_infty l.
Proof.
  intros H. apply (is_lim_comp f (fun x => - x) m_infty l p_infty); auto.
  - apply (is_lim_opp (fun x => x) m_infty m_infty). apply is_lim_id.
  - exists 0. intros; discriminate.
Qed.
Lemma is_lim_opp_mp (f : R -> R) l : is_lim f m_infty l -> is_lim (fun x => f (- x)) p_infty l.
Proof.
  intros H. apply (is_lim_comp f (fun x => - x) p_infty l m_infty); auto.
  - apply (is_lim_opp (fun x => x) p_infty p_infty). apply is_lim_id.
  - exists 0. intros; discriminate.
Qed.
(** x e^{-x} and e^{-x} vanish at +infinity *)
Lemma lim_exp_neg : is_lim (fun x => exp (- x)) p_infty 0.
Proof. apply (is_lim_opp_mp exp 0), is_lim_exp_m. Qed.
Lemma lim_x_exp_neg : is_lim (fun x => x * exp (- x)) p_infty 0.
Proof.
  apply (is_lim_ext (fun x => - ((fun y => y * exp y) (- x)))); [intros; ring|].
  replace (Finite 0) with (Rbar_opp 0) by (cbn; f_equal; ring). apply is_lim_opp.
  apply (is_lim_opp_mp (fun y => y * exp y) 0), is_lim_mul_exp_m.
Qed.
Lemma is_lim_mult' f g p (a b : R) : is_lim f p a -> is_lim g p b -> is_lim (fun x => f x * g x) p (a * b).
Proof. intros Hf Hg. apply (is_lim_mult f g p a b); auto. cbn. auto. Qed.
Lemma integral_le f g u v : (forall x, f x <= g x) -> integral f u -> integral g v -> u <= v.
Proof.
  intros Hle Hu Hv. apply Rnot_lt_le. intros Hlt.
  assert (He : 0 < (u - v) / 2) by lra.
  assert (Bu : locally u (fun y => ball u (mkposreal _ He) y)) by (exists (mkposreal _ He); auto).
  assert (Bv : locally v (fun y => ball v (mkposreal _ He) y)) by (exists (mkposreal _ He); auto).
  destruct (Hu _ Bu) as [P1 P2 [M1 HP1] [M2 HP2] HP]. destruct (Hv _ Bv) as [Q1 Q2 [N1 HQ1] [N2 HQ2] HQ].
  set (a := Rmin (Rmin M1 N1) 0 - 1). set (b := Rmax (Rmax M2 N2) 0 + 1).
  pose proof (Rmin_l (Rmin M1 N1) 0). pose proof (Rmin_r (Rmin M1 N1) 0). pose proof (Rmin_l M1 N1). pose proof (Rmin_r M1 N1).
  pose proof (Rmax_l (Rmax M2 N2) 0). pose proof (Rmax_r (Rmax M2 N2) 0). pose proof (Rmax_l M2 N2). pose proof (Rmax_r M2 N2).
  destruct (HP a b) as (y & Iy & By); [apply HP1; unfold a; lra|apply HP2; unfold b; lra|].
  destruct (HQ a b) as (w & Iw & Bw); [apply HQ1; unfold a; lra|apply HQ2; unfold b; lra|]. cbn [fst snd] in *.
  assert (y <= w). { apply (is_RInt_le f g a b y w); auto. unfold a, b; lra. }
  unfold ball in By, Bw; cbn in By, Bw. unfold AbsRing_ball in By, Bw; cbn in By, Bw. unfold abs, minus, plus, opp in By, Bw; cbn in By, Bw.
  unfold Rabs in By, Bw. repeat destruct (Rcase_abs _); lra.
Qed.
