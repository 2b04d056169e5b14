(** Infrastructure: improper integrals over an open interval (a, b), b possibly +infinity. *)
From Coq Require Import Reals Lra.
From Coquelicot Require Import Coquelicot.
Local Open Scope R_scope.

(** the neighbourhoods of the upper end [b] inside the interval *)
Definition upto (b : Rbar) : (R -> Prop) -> Prop :=
  match b with Finite r => at_left r | p_infty => Rbar_locally p_infty | m_infty => Rbar_locally m_infty end.
(** the improper Riemann integral of [f] over (a, b) *)
Definition integral_on (a : R) (b : Rbar) (f : R -> R) (v : R) : Prop := is_RInt_gen f (at_right a) (upto b) v.

Definition inside (a : R) (b : Rbar) (x : R) : Prop := a < x /\ Rbar_lt x b.

Lemma lo_iff a P : at_right a P <-> exists c, a < c /\ forall x, a < x < c -> P x.
Proof.
  split.
  - intros [e H]. exists (a + e). destruct e as [e He]; cbn in *. split; [lra|]. intros x Hx. apply H; [|lra].
    unfold ball; cbn. unfold AbsRing_ball, abs, minus, plus, opp; cbn. rewrite Rabs_right; lra.
  - intros (c & Hc & H). assert (He : 0 < c - a) by lra. exists (mkposreal _ He). intros y Hy Hl. apply H.
    unfold ball in Hy; cbn in Hy. unfold AbsRing_ball, abs, minus, plus, opp in Hy; cbn in Hy.
    rewrite Rabs_right in Hy; lra.
Qed.
Lemma hi_iff (a : R) b P : Rbar_lt a b -> upto b P <-> exists c, a < c /\ Rbar_lt c b /\ forall x, c < x -> Rbar_lt x b -> P x.
Proof.
  destruct b as [b| |]; cbn; intros Hab; [|clear Hab|contradiction].
  - split.
    + intros [e H]. destruct e as [e He]; cbn in *. exists (Rmax (b - e) ((a + b) / 2)).
      pose proof (Rmax_l (b - e) ((a + b) / 2)). pose proof (Rmax_r (b - e) ((a + b) / 2)).
      assert (Rmax (b - e) ((a + b) / 2) < b) by (apply Rmax_lub_lt; lra).
      split; [lra|]. split; [lra|]. intros x Hx Hb. apply H; [|lra].
      unfold ball; cbn. unfold AbsRing_ball, abs, minus, plus, opp; cbn. rewrite Rabs_left; lra.
    + intros (c & Hc & Hcb & H). assert (He : 0 < b - c) by lra. exists (mkposreal _ He). intros y Hy Hl. apply H; [|lra].
      unfold ball in Hy; cbn in Hy. unfold AbsRing_ball, abs, minus, plus, opp in Hy; cbn in Hy.
      rewrite Rabs_left in Hy; lra.
  - split.
    + intros [M H]. exists (Rmax M a + 1). pose proof (Rmax_l M a). pose proof (Rmax_r M a). split; [lra|]. split; [auto|]. intros x Hx _. apply H. lra.
    + intros (c & _ & _ & H). exists c. intros x Hx. apply H; auto.
Qed.
Lemma inside_mid (a : R) (b : Rbar) : Rbar_lt a b -> exists c, inside a b c.
Proof.
  destruct b as [b| |]; cbn; intros H; [exists ((a + b) / 2); split; cbn in *; lra|exists (a + 1); split; cbn; auto; lra|contradiction].
Qed.
Lemma inside_between a b x y z : inside a b x -> inside a b y -> Rmin x y <= z <= Rmax x y -> inside a b z.
Proof.
  intros [H1 H2] [H3 H4] [H5 H6]. split.
  - unfold Rmin in H5; destruct (Rle_dec _ _); lra.
  - destruct b; cbn in *; auto. unfold Rmax in H6; destruct (Rle_dec _ _); lra.
Qed.
Lemma lo_inside (a : R) (b : Rbar) : Rbar_lt a b -> at_right a (inside a b).
Proof.
  intros H. destruct (inside_mid a b H) as [c [H1 H2]]. apply lo_iff. exists c. split; auto. intros x Hx. split; [lra|].
  destruct b; cbn in *; auto; lra.
Qed.
Lemma hi_inside (a : R) (b : Rbar) : Rbar_lt a b -> upto b (inside a b).
Proof.
  intros H. destruct (inside_mid a b H) as [c [H1 H2]]. apply (hi_iff a b); auto. exists c. do 2 (split; auto). intros x Hx Hb. split; [lra|auto].
Qed.
#[export] Instance upto_filter b : Rbar_lt m_infty b -> ProperFilter (upto b).
Proof. destruct b; cbn; intros H; try typeclasses eauto. Qed.
Lemma upto_proper a b : Rbar_lt (Finite a) b -> ProperFilter (upto b).
Proof. destruct b; cbn; intros H; try typeclasses eauto; contradiction. Qed.

Section on.
Variables (a : R) (b : Rbar).
Hypothesis Hab : Rbar_lt a b.
Local Instance fb : ProperFilter (upto b) := upto_proper a b Hab.
Local Notation cont f := (forall x, inside a b x -> continuous f x).
Local Notation anti f F := (forall x, inside a b x -> is_derive F x (f x)).
Local Notation lim_lo F l := (filterlim F (at_right a) (locally (l : R))).
Local Notation lim_hi F l := (filterlim F (upto b) (locally (l : R))).

Lemma RInt_anti (f : R -> R) F x y : cont f -> anti f F -> inside a b x -> inside a b y -> is_RInt f x y (F y - F x).
Proof.
  intros Hc Hd Hx Hy. apply (is_RInt_derive F f x y); intros z Hz; [apply Hd|apply Hc]; apply (inside_between a b x y z); auto.
Qed.
Lemma integral_on_anti (f : R -> R) F (la lb : R) : cont f -> anti f F -> lim_lo F la -> lim_hi F lb -> integral_on a b f (lb - la).
Proof.
  intros Hc Hd Ha Hb. unfold integral_on, is_RInt_gen. intros P [eps HP]. unfold filtermapi.
  assert (He : 0 < eps / 2) by (destruct eps; cbn; lra).
  assert (La : at_right a (fun x => ball la (eps / 2) (F x))). { apply Ha. exists (mkposreal _ He). auto. }
  assert (Lb : upto b (fun x => ball lb (eps / 2) (F x))). { apply Hb. exists (mkposreal _ He). auto. }
  eapply Filter_prod; [apply filter_and; [exact La|apply (lo_inside a b Hab)]|apply filter_and; [exact Lb|apply (hi_inside a b Hab)]|].
  intros x y [Hx Ix] [Hy Iy]. cbn [fst snd]. exists (F y - F x). split; [apply RInt_anti; auto|].
  apply HP. unfold ball in *; cbn in *. unfold AbsRing_ball in *; cbn in *. unfold abs, minus, plus, opp in *; cbn in *.
  unfold Rabs in *. repeat destruct (Rcase_abs _); lra.
Qed.
Lemma antiderivative_exists (f : R -> R) c : cont f -> inside a b c -> anti f (fun x => RInt f c x).
Proof.
  intros Hc Ic x Ix. apply (is_derive_RInt f (fun x => RInt f c x) c).
  - destruct (inside_mid a x) as [c1 [Hc1 Hc1']]; [apply Ix|]. cbn in Hc1'.
    assert (exists c2, x < c2 /\ Rbar_lt c2 b) as (c2 & Hc2 & Hc2').
    { destruct (inside_mid x b) as [c2 [K1 K2]]; [apply Ix|]. exists c2; auto. }
    assert (He : 0 < Rmin (x - c1) (c2 - x)) by (apply Rmin_pos; lra).
    exists (mkposreal _ He). intros y Hy. apply (RInt_correct f c y), (ex_RInt_continuous f c y).
    intros z Hz. apply Hc. apply (inside_between a b c y z); auto.
    unfold ball in Hy; cbn in Hy. unfold AbsRing_ball, abs, minus, plus, opp in Hy; cbn in Hy.
    pose proof (Rmin_l (x - c1) (c2 - x)). pose proof (Rmin_r (x - c1) (c2 - x)).
    unfold Rabs in Hy; destruct (Rcase_abs _); split; try lra; destruct b; cbn in *; auto; lra.
  - apply Hc, Ix.
Qed.
Definition near_lo (F : R -> R) := forall eps : posreal, exists c, a < c /\ Rbar_lt c b /\ forall x y, a < x < c -> a < y < c -> Rabs (F y - F x) < eps.
Lemma ball_abs (x y e : R) : ball x e y <-> Rabs (y - x) < e.
Proof. unfold ball; cbn. unfold AbsRing_ball, abs, minus, plus, opp; cbn. tauto. Qed.
Lemma lim_lo_cauchy (F : R -> R) : (exists l, lim_lo F l) <->
  (forall eps : posreal, exists P, at_right a P /\ forall x y, P x -> P y -> Rabs (F y - F x) < eps).
Proof.
  split.
  - intros H eps. pose proof (proj2 (filterlim_locally_cauchy (F := at_right a) F) H eps) as (P & HP & H').
    exists P. split; [exact HP|]. intros x y Px Py. apply ball_abs, H'; auto.
  - intros H. apply (filterlim_locally_cauchy (F := at_right a) F). intros eps. destruct (H eps) as (P & HP & H').
    exists P. split; [exact HP|]. intros x y Px Py. apply ball_abs, H'; auto.
Qed.
Lemma lim_hi_cauchy (F : R -> R) : (exists l, lim_hi F l) <->
  (forall eps : posreal, exists P, upto b P /\ forall x y, P x -> P y -> Rabs (F y - F x) < eps).
Proof.
  split.
  - intros H eps. pose proof (proj2 (filterlim_locally_cauchy (F := upto b) F) H eps) as (P & HP & H').
    exists P. split; [exact HP|]. intros x y Px Py. apply ball_abs, H'; auto.
  - intros H. apply (filterlim_locally_cauchy (F := upto b) F). intros eps. destruct (H eps) as (P & HP & H').
    exists P. split; [exact HP|]. intros x y Px Py. apply ball_abs, H'; auto.
Qed.
Lemma integral_on_unique f u v : integral_on a b f u -> integral_on a b f v -> u = v.
Proof. intros Hu Hv. rewrite <- (is_RInt_gen_unique f u Hu). apply is_RInt_gen_unique, Hv. Qed.
Lemma lim_minus (G : (R -> Prop) -> Prop) {FG : Filter G} F (k l : R) : filterlim F G (locally l) -> filterlim (fun x => F x - k) G (locally (l - k)).
Proof.
  intros H. apply (filterlim_comp _ _ _ F (fun y => y - k) G (locally l)); auto.
  assert (C : continuous (fun y : R => y - k) l).
  { apply (continuous_minus (fun y : R => y) (fun _ => k)); [apply continuous_id|apply continuous_const]. }
  exact C.
Qed.
Lemma integral_on_inv (f : R -> R) v : cont f -> integral_on a b f v -> exists F : R -> R, anti f F /\ lim_lo F 0 /\ lim_hi F v.
Proof.
  intros Hc Hi. destruct (inside_mid a b Hab) as [c Ic].
  assert (exists G : R -> R, anti f G) as [G HG] by (eexists; exact (antiderivative_exists f c Hc Ic)).
  assert (HC : forall eps : posreal, exists P Q, at_right a P /\ upto b Q /\ (forall x, P x -> inside a b x) /\ (forall x, Q x -> inside a b x) /\
             forall x y, P x -> Q y -> Rabs (G y - G x - v) < eps).
  { intros eps. assert (Bv : locally v (fun y => ball v eps y)) by (exists eps; auto).
    destruct (Hi _ Bv) as [P Q HP HQ H]. exists (fun x => P x /\ inside a b x), (fun x => Q x /\ inside a b x).
    split; [apply filter_and; [auto|apply (lo_inside a b Hab)]|].
    split; [apply filter_and; [auto|apply (hi_inside a b Hab)]|]. split; [tauto|]. split; [tauto|].
    intros x y [Px Ix] [Qy Iy]. destruct (H x y Px Qy) as (w & Hw & Bw). cbn [fst snd] in Hw.
    apply ball_abs in Bw. pose proof (RInt_anti f G x y Hc HG Ix Iy) as Hw'.
    rewrite <- (is_RInt_unique f x y _ Hw'). rewrite (is_RInt_unique f x y _ Hw). auto. }
  assert (exists l, lim_lo G l) as [la Hla].
  { apply lim_lo_cauchy. intros eps. destruct (HC (pos_div_2 eps)) as (P & Q & HP & HQ & _ & _ & H).
    exists P. split; auto. intros x y Px Py. destruct (filter_ex Q HQ) as [z Qz].
    pose proof (H x z Px Qz) as A1. pose proof (H y z Py Qz) as A2. cbn in A1, A2.
    unfold Rabs in *; repeat destruct (Rcase_abs _); lra. }
  assert (exists l, lim_hi G l) as [lb Hlb].
  { apply lim_hi_cauchy. intros eps. destruct (HC (pos_div_2 eps)) as (P & Q & HP & HQ & _ & _ & H).
    exists Q. split; auto. intros x y Px Py. destruct (filter_ex P HP) as [z Qz].
    pose proof (H z x Qz Px) as A1. pose proof (H z y Qz Py) as A2. cbn in A1, A2.
    unfold Rabs in *; repeat destruct (Rcase_abs _); lra. }
  assert (E : v = lb - la). { eapply integral_on_unique; [exact Hi|]. apply (integral_on_anti f G); auto. }
  exists (fun x => G x - la). split; [|split].
  - intros x Ix. replace (f x) with (minus (f x) 0) by (unfold minus, plus, opp; cbn; ring).
    apply (is_derive_minus G (fun _ => la) x (f x) 0); [apply HG, Ix|exact (is_derive_const (K := R_AbsRing) (V := R_NormedModule) la x)].
  - replace 0 with (la - la) by ring. apply lim_minus; auto. typeclasses eauto.
  - rewrite E. apply lim_minus; auto. typeclasses eauto.
Qed.
Lemma integral_on_plus f g u v : integral_on a b f u -> integral_on a b g v -> integral_on a b (fun x => f x + g x) (u + v).
Proof. intros; apply (is_RInt_gen_plus f g u v); auto. Qed.
Lemma integral_on_scal c f u : integral_on a b f u -> integral_on a b (fun x => c * f x) (c * u).
Proof. intros; apply (is_RInt_gen_scal f c u); auto. Qed.
Lemma integral_on_ext f g u : (forall x, inside a b x -> f x = g x) -> integral_on a b f u -> integral_on a b g u.
Proof.
  intros E. unfold integral_on. apply is_RInt_gen_ext.
  eapply Filter_prod; [apply (lo_inside a b Hab)|apply (hi_inside a b Hab)|].
  intros x y Hx Hy z Hz. cbn in Hz. apply E. apply (inside_between a b x y z); auto. lra.
Qed.
Lemma integral_on_zero : integral_on a b (fun _ => 0) 0.
Proof.
  assert (H : integral_on a b (fun _ => 0) (0 - 0)); [|rewrite Rminus_0_r in H; exact H]. apply (integral_on_anti (fun _ => 0) (fun _ => 0)).
  - intros; apply continuous_const.
  - intros x _; exact (is_derive_const (K := R_AbsRing) (V := R_NormedModule) 0 x).
  - apply filterlim_const.
  - apply filterlim_const.
Qed.
Lemma anti_mono (f : R -> R) F x y : anti f F -> (forall z, inside a b z -> 0 <= f z) -> inside a b x -> inside a b y -> x <= y -> F x <= F y.
Proof.
  intros Hd Hp Hx Hy [Hlt|E]; [|subst; lra].
  destruct (MVT_gen F x y f) as (z & Hz & Ez).
  - intros z Hz. apply Hd. apply (inside_between a b x y z); auto. lra.
  - intros z Hz. apply continuity_pt_filterlim, (ex_derive_continuous F). eexists. apply Hd. apply (inside_between a b x y z); auto.
  - assert (0 <= f z) by (apply Hp; apply (inside_between a b x y z); auto). assert (0 <= f z * (y - x)) by (apply Rmult_le_pos; lra). lra.
Qed.
Lemma integral_on_nonneg (f : R -> R) v : cont f -> (forall x, inside a b x -> 0 <= f x) -> integral_on a b f v -> 0 <= v.
Proof.
  intros Hc Hp Hi. destruct (integral_on_inv f v Hc Hi) as (F & HF & Ha & Hb).
  apply Rnot_lt_le. intros Hn. assert (He : 0 < - v / 2) by lra.
  assert (La : at_right a (fun x => ball 0 (- v / 2) (F x))). { apply Ha. exists (mkposreal _ He). auto. }
  assert (Lb : upto b (fun x => ball v (- v / 2) (F x))). { apply Hb. exists (mkposreal _ He). auto. }
  apply lo_iff in La. destruct La as (c1 & Hc1 & La). apply (hi_iff a b _ Hab) in Lb. destruct Lb as (c2 & Hc2 & Hc2' & Lb).
  destruct (inside_mid c2 b Hc2') as [y [Hy Hy']].
  set (x := (a + Rmin c1 c2) / 2). assert (a < Rmin c1 c2) by (apply Rmin_glb_lt; lra). pose proof (Rmin_l c1 c2). pose proof (Rmin_r c1 c2).
  assert (Bx : Rabs (F x - 0) < - v / 2) by (apply ball_abs, La; unfold x; lra).
  assert (By : Rabs (F y - v) < - v / 2) by (apply ball_abs, Lb; auto).
  assert (F x <= F y).
  { apply (anti_mono f F); auto; try (split; auto; unfold x; try lra).
    - unfold x. destruct b; cbn in *; auto; lra.
    - unfold x; lra. }
  unfold Rabs in *; repeat destruct (Rcase_abs _); lra.
Qed.
Lemma integral_on_minus f g u v : integral_on a b f u -> integral_on a b g v -> integral_on a b (fun x => f x - g x) (u - v).
Proof.
  intros Hf Hg. apply (integral_on_ext (fun x => f x + -1 * g x)); [intros; ring|]. replace (u - v) with (u + -1 * v) by ring.
  apply integral_on_plus; auto. apply integral_on_scal; auto.
Qed.
Lemma cont_minus f g : cont f -> cont g -> cont (fun x => f x - g x).
Proof. intros Hf Hg x Ix. apply (continuous_minus f g); auto. Qed.
Lemma integral_on_le f g u v : cont f -> cont g -> (forall x, inside a b x -> f x <= g x) -> integral_on a b f u -> integral_on a b g v -> u <= v.
Proof.
  intros Hf Hg Hle Hu Hv. assert (0 <= v - u); [|lra].
  apply (integral_on_nonneg (fun x => g x - f x)); [apply cont_minus; auto| |apply integral_on_minus; auto].
  intros x Ix. specialize (Hle x Ix). lra.
Qed.
(** a nonnegative continuous function below an integrable one is integrable *)
Lemma integral_on_dominated (f g : R -> R) w : cont f -> cont g -> (forall x, inside a b x -> 0 <= f x <= g x) -> integral_on a b g w ->
  exists v, integral_on a b f v.
Proof.
  intros Hf Hg Hle Hw. destruct (inside_mid a b Hab) as [c Ic].
  destruct (integral_on_inv g w Hg Hw) as (G & HG & Ga & Gb).
  assert (exists F : R -> R, anti f F) as [F HF] by (eexists; exact (antiderivative_exists f c Hf Ic)).
  assert (K : forall x y, inside a b x -> inside a b y -> Rabs (F y - F x) <= Rabs (G y - G x)).
  { assert (K1 : forall x y, inside a b x -> inside a b y -> x <= y -> Rabs (F y - F x) <= Rabs (G y - G x)).
    { intros x y Ix Iy L.
      assert (F x <= F y). { apply (anti_mono f F); auto. intros; apply Hle; auto. }
      assert (G x - F x <= G y - F y).
      { apply (anti_mono (fun x => g x - f x) (fun x => G x - F x)); auto.
        - intros z Iz. apply (is_derive_minus G F z (g z) (f z)); auto.
        - intros z Iz. destruct (Hle z Iz). lra. }
      rewrite !Rabs_right; lra. }
    intros x y Ix Iy. destruct (Rle_dec x y); [auto|]. rewrite (Rabs_minus_sym (F y)), (Rabs_minus_sym (G y)). apply K1; auto. lra. }
  assert (exists l, lim_lo F l) as [la Hla].
  { apply lim_lo_cauchy. intros eps. destruct (proj1 (lim_lo_cauchy G) (ex_intro (fun l : R => lim_lo G l) 0 Ga) eps) as (P & HP & H).
    exists (fun x => P x /\ inside a b x). split; [apply filter_and; [auto|apply (lo_inside a b Hab)]|].
    intros x y [Px Ix] [Py Iy]. eapply Rle_lt_trans; [apply K; auto|apply H; auto]. }
  assert (exists l, lim_hi F l) as [lb Hlb].
  { apply lim_hi_cauchy. intros eps. destruct (proj1 (lim_hi_cauchy G) (ex_intro (fun l : R => lim_hi G l) w Gb) eps) as (P & HP & H).
    exists (fun x => P x /\ inside a b x). split; [apply filter_and; [auto|apply (hi_inside a b Hab)]|].
    intros x y [Px Ix] [Py Iy]. eapply Rle_lt_trans; [apply K; auto|apply H; auto]. }
  exists (lb - la). apply (integral_on_anti f F); auto.
Qed.
Lemma integral_on_pos (f : R -> R) v : cont f -> (forall x, inside a b x -> 0 < f x) -> integral_on a b f v -> 0 < v.
Proof.
  intros Hc Hp Hi. destruct (integral_on_inv f v Hc Hi) as (F & HF & Ha & Hb).
  destruct (inside_mid a b Hab) as [m Im]. destruct (inside_mid m b) as [n [Hn1 Hn2]]; [apply Im|].
  assert (In : inside a b n). { split; auto. destruct Im. lra. }
  assert (Hlt : F m < F n).
  { destruct (MVT_gen F m n f) as (z & Hz & Ez).
    - intros z Hz. apply HF. eapply inside_between; [exact Im|exact In|lra].
    - intros z Hz. apply continuity_pt_filterlim, (ex_derive_continuous F). eexists. apply HF. eapply inside_between; [exact Im|exact In|lra].
    - assert (0 < f z) by (apply Hp; eapply inside_between; [exact Im|exact In|lra]).
      assert (0 < f z * (n - m)) by (apply Rmult_lt_0_compat; lra). lra. }
  assert (0 <= F m).
  { apply Rnot_lt_le. intros Hneg. assert (He : 0 < - F m) by lra.
    assert (La : at_right a (fun x => ball 0 (- F m) (F x))). { apply Ha. exists (mkposreal _ He). auto. }
    apply lo_iff in La. destruct La as (c1 & Hc1 & La). set (x := (a + Rmin c1 m) / 2).
    destruct Im as [Im1 Im2].
    assert (a < Rmin c1 m) by (apply Rmin_glb_lt; lra). pose proof (Rmin_l c1 m). pose proof (Rmin_r c1 m).
    assert (Bx : Rabs (F x - 0) < - F m) by (apply ball_abs, La; unfold x; lra).
    assert (F x <= F m). { apply (anti_mono f F); auto; [intros; apply Rlt_le, Hp; auto| |split; auto|unfold x; lra].
      split; [unfold x; lra|]. unfold x. destruct b; cbn in *; auto; lra. }
    unfold Rabs in Bx; destruct (Rcase_abs _); lra. }
  assert (F n <= v).
  { apply Rnot_lt_le. intros Hneg. assert (He : 0 < F n - v) by lra.
    assert (Lb : upto b (fun x => ball v (F n - v) (F x))). { apply Hb. exists (mkposreal _ He). auto. }
    apply (hi_iff n b _ Hn2) in Lb. destruct Lb as (c2 & Hc2 & Hc2' & Lb).
    destruct (inside_mid c2 b Hc2') as [y [Hy Hy']]. destruct In as [In1 In2].
    assert (By : Rabs (F y - v) < F n - v) by (apply ball_abs, Lb; auto).
    assert (F n <= F y). { apply (anti_mono f F); auto; [intros; apply Rlt_le, Hp; auto|split; auto|split; auto; lra|lra]. }
    unfold Rabs in By; destruct (Rcase_abs _); lra. }
  lra.
Qed.
End on.

(** substitution by a monotone change of variable *)
Lemma integral_on_subst a b c d (phi phi' f : R -> R) v : Rbar_lt (Finite a) b -> Rbar_lt (Finite c) d ->
  (forall x, inside c d x -> inside a b (phi x)) -> (forall x, inside c d x -> is_derive phi x (phi' x)) ->
  (forall x, inside c d x -> continuous phi' x) ->
  filterlim phi (at_right c) (at_right a) -> filterlim phi (upto d) (upto b) ->
  (forall x, inside a b x -> continuous f x) ->
  integral_on a b f v -> integral_on c d (fun x => phi' x * f (phi x)) v.
Proof.
  intros Hab Hcd Hin Hd Hc Hl Hh Hf Hi. destruct (integral_on_inv a b Hab f v Hf Hi) as (F & HF & Fa & Fb).
  replace v with (v - 0) by ring. apply (integral_on_anti c d Hcd _ (fun x => F (phi x))).
  - intros x Ix. apply (continuous_mult phi' (fun x => f (phi x))); [auto|].
    apply (continuous_comp phi f); [apply (ex_derive_continuous phi); eexists; apply Hd; auto|apply Hf; auto].
  - intros x Ix. apply (is_derive_comp F phi x (f (phi x)) (phi' x)); [apply HF; auto|apply Hd; auto].
  - eapply filterlim_comp; [exact Hl|exact Fa].
  - eapply filterlim_comp; [exact Hh|exact Fb].
Qed.
Lemma integral_on_subst_anti a (b : R) c (d : R) (phi phi' f : R -> R) v : a < b -> c < d ->
  (forall x, inside c d x -> inside a b (phi x)) -> (forall x, inside c d x -> is_derive phi x (- phi' x)) ->
  (forall x, inside c d x -> continuous phi' x) ->
  filterlim phi (at_right c) (at_left b) -> filterlim phi (at_left d) (at_right a) ->
  (forall x, inside a b x -> continuous f x) ->
  integral_on a b f v -> integral_on c d (fun x => phi' x * f (phi x)) v.
Proof.
  intros Hab Hcd Hin Hd Hc Hl Hh Hf Hi. destruct (integral_on_inv a b Hab f v Hf Hi) as (F & HF & Fa & Fb).
  replace v with (- 0 - - v) by ring. apply (integral_on_anti c d Hcd _ (fun x => - F (phi x))).
  - intros x Ix. apply (continuous_mult phi' (fun x => f (phi x))); [auto|].
    apply (continuous_comp phi f); [apply (ex_derive_continuous phi); eexists; apply Hd; auto|apply Hf; auto].
  - intros x Ix. evar_last; [apply (is_derive_opp (fun x => F (phi x))), (is_derive_comp F phi x (f (phi x)) (- phi' x)); [apply HF; auto|apply Hd; auto]|].
    unfold opp, scal; cbn. unfold mult; cbn. ring.
  - eapply filterlim_comp; [eapply filterlim_comp; [exact Hl|exact Fb]|]. apply (filterlim_opp v).
  - eapply filterlim_comp; [eapply filterlim_comp; [exact Hh|exact Fa]|]. apply (filterlim_opp 0).
Qed.
