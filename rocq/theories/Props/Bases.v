(** Normal, Logistic, Uniform and Deterministic as batched laws on the real line. *)
From Coq Require Import Reals List Lia Lra Bool ZArith.
From Coquelicot Require Import Coquelicot.
From Verif Require Import Base.Result Base.Sums Base.Tensor Base.XR Base.Lift Base.Integral Model.Distribution Model.ScalarDist Model.ArrayDist
  Model.Clipped Spec.ArrayDist Spec.Distribution Spec.Density Spec.Univariate Proofs.ArrayDist Proofs.Density Proofs.Distribution Proofs.Univariate
  Props.Continuous Props.Logistic Props.Uniform.
Import ListNotations.
Local Open Scope R_scope.

(** real parameters of a batched location-scale family *)
Definition params (loc scale : tensor XR) (batch : shape) (l s : list nat -> R) : Prop :=
  bshape (shp loc) (shp scale) = Some batch /\ forall b, inb batch b -> xget loc b = Fin (l b) /\ xget scale b = Fin (s b) /\ 0 < s b.
Definition interval_params (low high : tensor XR) (batch : shape) (a b : list nat -> R) : Prop :=
  bshape (shp low) (shp high) = Some batch /\ forall i, inb batch i -> xget low i = Fin (a i) /\ xget high i = Fin (b i) /\ a i < b i.

Lemma computes_ext f batch g g' : computes f batch g -> (forall b x, inb batch b -> g b x = g' b x) -> computes f batch g'.
Proof.
  intros C E v S x W B R. destruct (C v S x W B R) as (r & Er & Hr). exists r. split; [exact Er|]. eapply holds_ext; [exact Hr|].
  intros idx Hi. apply E. eapply bindex_inb; [|exact Hi]. apply (bshape_absorb_r _ _ _ B).
Qed.
Lemma computes_eq f f' batch g : (forall v, f v = f' v) -> computes f batch g -> computes f' batch g.
Proof. intros E C v S x W B R. destruct (C v S x W B R) as (r & Er & Hr). exists r. rewrite <- E. auto. Qed.
(** the same through the broadcast parameters *)
Lemma computes_params (f : XR -> XR -> XR -> XR) loc scale batch g : bshape (shp loc) (shp scale) = Some batch ->
  (forall b x, inb batch b -> f (Fin x) (xget loc b) (xget scale b) = g b x) ->
  computes (fun v => do l <- param loc loc scale; do s <- param scale loc scale; lift3 f v l s) batch g.
Proof.
  intros B Hg. pose proof (bshape_absorb_l _ _ _ B) as Bl. pose proof (bshape_absorb_r _ _ _ B) as Bs.
  rewrite !(param_ok _ loc scale batch) by auto. cbn [rbind].
  apply computes_lift3; [apply bshape_refl|]. intros b x Hb. rewrite !xget_tgen_same by auto. apply Hg; auto.
Qed.
Lemma computes_post f batch g h : computes f batch g -> computes (fun v => do c <- f v; lift1 h c) batch (fun b x => h (g b x)).
Proof.
  intros C v S x W B R. destruct (C v S x W B R) as (r & Er & Hr). rewrite Er. cbn [rbind].
  destruct (lift1_holds h r S _ Hr) as (r' & Er' & Hr'). exists r'. auto.
Qed.

Section Bases.
Context {K : Type} (rng : K -> shape -> tensor XR).
Theorem normal_law : forall loc scale batch l s, params loc scale batch l s ->
  exists d F, normal_udist rng loc scale = Ok d /\ has_cdf d batch F /\ has_density d batch (fun b => gaussian (l b) (s b)) /\
    (forall b, inb batch b -> density_with_cdf (gaussian (l b) (s b)) (F b)).
Proof.
  intros loc scale batch l s [B P]. unfold normal_udist, batch_shape2. rewrite B. cbn [rbind].
  set (F := fun b x => toR (normal_cdf (Fin x) (Fin (l b)) (Fin (s b)))).
  assert (HF : forall b, inb batch b -> density_with_cdf (gaussian (l b) (s b)) (F b) /\ forall x,
     0 < gaussian (l b) (s b) x /\ 0 < F b x < 1 /\
     normal_log_prob (Fin x) (Fin (l b)) (Fin (s b)) = Fin (ln (gaussian (l b) (s b) x)) /\
     normal_cdf (Fin x) (Fin (l b)) (Fin (s b)) = Fin (F b x) /\
     normal_log_cdf (Fin x) (Fin (l b)) (Fin (s b)) = Fin (ln (F b x)) /\
     normal_survival (Fin x) (Fin (l b)) (Fin (s b)) = Fin (1 - F b x) /\
     normal_log_survival (Fin x) (Fin (l b)) (Fin (s b)) = Fin (ln (1 - F b x))).
  { intros b Hb. destruct (P b Hb) as (_ & _ & Hs). destruct (C48_normal_distribution (l b) (s b) Hs) as (G & D & _ & H).
    assert (E : F b = G). { apply FunctionalExtensionality.functional_extensionality. intros x. unfold F. destruct (H x) as (_ & _ & _ & -> & _). reflexivity. }
    rewrite E. split; [exact D|exact H]. }
  eexists; exists F. split; [reflexivity|]. split; [|split].
  - split; [reflexivity|]. split; [reflexivity|]. split; [intros b Hb; apply (density_with_cdf_is_cdf _ _ (proj1 (HF b Hb)))|]. cbn.
    repeat split; apply computes_lift3; auto; intros b x Hb; destruct (P b Hb) as (-> & -> & _); destruct (HF b Hb) as [_ H];
      destruct (H x) as (Q & Q' & H1 & H2 & H3 & H4 & H5); rewrite ?rlog_pos by lra; assumption.
  - cbn. apply computes_lift3; auto. intros b x Hb. destruct (P b Hb) as (-> & -> & _). destruct (HF b Hb) as [_ H].
    destruct (H x) as (Q & Q' & H1 & _). rewrite rlog_pos by lra. exact H1.
  - intros b Hb. apply HF, Hb.
Qed.
Theorem logistic_law : forall loc scale batch l s, params loc scale batch l s ->
  exists d F, logistic_udist rng loc scale = Ok d /\ has_cdf d batch F /\ has_density d batch (fun b => logistic_density (l b) (s b)) /\
    (forall b, inb batch b -> density_with_cdf (logistic_density (l b) (s b)) (F b)).
Proof.
  intros loc scale batch l s [B P]. unfold logistic_udist, batch_shape2. rewrite B. cbn [rbind].
  set (F := fun b x => toR (logistic_cdf (Fin x) (Fin (l b)) (Fin (s b)))).
  assert (HF : forall b, inb batch b -> density_with_cdf (logistic_density (l b) (s b)) (F b) /\ forall x,
     0 < logistic_density (l b) (s b) x /\ 0 < F b x < 1 /\
     logistic_log_prob (Fin x) (Fin (l b)) (Fin (s b)) = Fin (ln (logistic_density (l b) (s b) x)) /\
     logistic_cdf (Fin x) (Fin (l b)) (Fin (s b)) = Fin (F b x) /\
     logistic_log_cdf (Fin x) (Fin (l b)) (Fin (s b)) = Fin (ln (F b x)) /\
     logistic_survival (Fin x) (Fin (l b)) (Fin (s b)) = Fin (1 - F b x) /\
     logistic_log_survival (Fin x) (Fin (l b)) (Fin (s b)) = Fin (ln (1 - F b x))).
  { intros b Hb. destruct (P b Hb) as (_ & _ & Hs). destruct (C50_logistic_distribution (l b) (s b) Hs) as (G & D & _ & H).
    assert (E : F b = G). { apply FunctionalExtensionality.functional_extensionality. intros x. unfold F. destruct (H x) as (_ & _ & _ & _ & -> & _). reflexivity. }
    rewrite E. split; [exact D|]. intros x. destruct (H x) as (A1 & A2 & _ & A3). auto. }
  eexists; exists F. split; [reflexivity|]. split; [|split].
  - split; [reflexivity|]. split; [reflexivity|]. split; [intros b Hb; apply (density_with_cdf_is_cdf _ _ (proj1 (HF b Hb)))|]. cbn.
    repeat split; apply computes_params; auto; intros b x Hb; destruct (P b Hb) as (-> & -> & _); destruct (HF b Hb) as [_ H];
      destruct (H x) as (Q & Q' & H1 & H2 & H3 & H4 & H5); rewrite ?rlog_pos by lra; assumption.
  - cbn. apply computes_params; auto. intros b x Hb. destruct (P b Hb) as (-> & -> & _). destruct (HF b Hb) as [_ H].
    destruct (H x) as (Q & Q' & H1 & _). rewrite rlog_pos by lra. exact H1.
  - intros b Hb. apply HF, Hb.
Qed.
(** the cdf of the uniform law *)
Definition uniform_F (a b x : R) : R := if Rlt_dec b x then 1 else if Rlt_dec x a then 0 else (x - a) / (b - a).
Lemma uniform_F_cdf a b : a < b -> is_cdf (uniform_F a b).
Proof.
  intros H. assert (I : 0 < / (b - a)) by (apply Rinv_0_lt_compat; lra).
  assert (Q : forall x, a <= x <= b -> 0 <= (x - a) / (b - a) <= 1).
  { intros x Hx. split; [apply Rmult_le_pos; lra|]. apply (Rmult_le_reg_r (b - a)); [lra|]. unfold Rdiv. rewrite Rmult_assoc, Rinv_l by lra. lra. }
  split.
  - intros x. unfold uniform_F. repeat destruct Rlt_dec; try lra. apply Q; lra.
  - intros x y Hxy. unfold uniform_F. destruct (Rlt_dec b x), (Rlt_dec b y); try lra.
    + destruct Rlt_dec; [lra|]. apply Q; lra.
    + destruct (Rlt_dec x a), (Rlt_dec y a); try lra; [apply Q; lra|]. unfold Rdiv. apply Rmult_le_compat_r; lra.
Qed.
Lemma uniform_cdf_fin a b x : a < b -> uniform_cdf (Fin x) (Fin a) (Fin b) = Fin (uniform_F a b x).
Proof.
  intros H. unfold uniform_cdf, uniform_range, uniform_F. cbn [xsub xadd xopp]. unfold xltb. rewrite xdiv_fin by lra.
  destruct (Rlt_dec b x); [reflexivity|]. destruct (Rlt_dec x a); reflexivity.
Qed.
Theorem uniform_law : forall low high batch a b, interval_params low high batch a b ->
  exists d, uniform_udist rng low high = Ok d /\ has_cdf d batch (fun i => uniform_F (a i) (b i)) /\
    has_density d batch (fun i => uniform_density (a i) (b i)).
Proof.
  intros low high batch a b [B P]. unfold uniform_udist, batch_shape2. rewrite B. cbn [rbind].
  assert (HC : computes (fun v => uniform_cdf_arr v low high) batch (fun i x => Fin (uniform_F (a i) (b i) x))).
  { apply computes_params; auto. intros i x Hi. destruct (P i Hi) as (-> & -> & H). apply uniform_cdf_fin, H. }
  eexists. split; [reflexivity|]. split.
  - split; [reflexivity|]. split; [reflexivity|]. split; [intros i Hi; apply uniform_F_cdf, P, Hi|]. cbn.
    split; [exact HC|]. split; [|split].
    + eapply computes_ext; [apply computes_post, HC|]. reflexivity.
    + eapply computes_ext; [apply computes_post, HC|]. reflexivity.
    + eapply computes_ext; [apply computes_post, HC|]. intros i x _. unfold xlog1p. reflexivity.
  - cbn. apply computes_params; auto. intros i x Hi. destruct (P i Hi) as (-> & -> & H).
    destruct (C47_uniform_distribution (a i) (b i) H) as (G & _ & _ & _ & _ & HG). apply HG.
Qed.
End Bases.

(** Constructing a two-parameter distribution fails exactly when the parameter shapes do not
    broadcast, with a ValueError. *)
Theorem C71_constructor : forall K (rng : K -> shape -> tensor XR) a b,
  ((exists d, normal_udist rng a b = Ok d) <-> bshape (shp a) (shp b) <> None) /\
  ((exists d, logistic_udist rng a b = Ok d) <-> bshape (shp a) (shp b) <> None) /\
  ((exists d, uniform_udist rng a b = Ok d) <-> bshape (shp a) (shp b) <> None) /\
  (forall e, normal_udist rng a b = Err e \/ logistic_udist rng a b = Err e \/ uniform_udist rng a b = Err e -> e = ValueError).
Proof.
  intros K rng a b. unfold normal_udist, logistic_udist, uniform_udist, batch_shape2.
  destruct (bshape (shp a) (shp b)) as [s|]; cbn [rbind].
  - split; [split; [discriminate|eauto]|]. split; [split; [discriminate|eauto]|]. split; [split; [discriminate|eauto]|].
    intros e [H|[H|H]]; discriminate H.
  - split; [split; [intros [d H]; discriminate H|congruence]|]. split; [split; [intros [d H]; discriminate H|congruence]|].
    split; [split; [intros [d H]; discriminate H|congruence]|]. intros e [H|[H|H]]; congruence.
Qed.
Print Assumptions C71_constructor.
