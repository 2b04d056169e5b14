(** C44 for ClippedNormal and ClippedLogistic, and where it fails. *)
From Coq Require Import Reals List Lia Lra Bool ZArith.
From Coquelicot Require Import Coquelicot.
From Verif Require Import Base.Result Base.Sums Base.Tensor Base.XR Base.Lift Base.Integral Model.Distribution Model.ScalarDist Model.ArrayDist
  Model.Clipped Spec.ArrayDist Spec.Distribution Spec.Density Spec.Univariate Proofs.ArrayDist Proofs.Density Proofs.Distribution Proofs.Univariate
  Props.Continuous Props.Bases Props.Clipped.
Import ListNotations.
Local Open Scope R_scope.

(** a parameter read at batch positions is read below a leading sample axis *)
Lemma reads_lead n batch t w : bshape (shp t) batch = Some batch -> (forall b, inb batch b -> xget t b = w b) ->
  reads t (n :: batch) (fun idx => w (tl idx)).
Proof.
  intros Bt Ht. eapply reads_ext; [apply (reads_up t batch (n :: batch) w); [split; auto|apply bshape_lead]|].
  intros [|i b] Hi; [inversion Hi|]. apply inb_cons in Hi as [_ Hb]. cbv beta. rewrite bindex_lead by auto. reflexivity.
Qed.

Section Draws.
Context {K : Type} (rng : K -> shape -> tensor XR).
Lemma normal_draws loc scale batch l s d key n z : params loc scale batch l s -> normal_udist rng loc scale = Ok d ->
  holds (rng key (n :: batch)) (n :: batch) (fun idx => Fin (z idx)) ->
  draws d key n batch (fun idx => l (tl idx) + s (tl idx) * z idx).
Proof.
  intros HP Ed Hz. unfold normal_udist, batch_shape2 in Ed. destruct HP as [B P]. rewrite B in Ed. cbn [rbind] in Ed. injection Ed as <-. unfold draws. cbn [u_sample].
  unfold normal_sample_n.
  destruct (lift3_holds normal_sample (rng key (n :: batch)) loc scale (n :: batch) _ _ _ (holds_reads _ _ _ Hz)
    (reads_lead n batch loc (fun b => Fin (l b)) (bshape_absorb_l _ _ _ B) (fun b Hb => proj1 (P b Hb)))
    (reads_lead n batch scale (fun b => Fin (s b)) (bshape_absorb_r _ _ _ B) (fun b Hb => proj1 (proj2 (P b Hb)))) ltac:(left; apply Hz)) as (r & Er & Hr).
  exists r. split; [exact Er|]. eapply holds_ext; [exact Hr|]. intros idx Hi. unfold normal_sample. cbn. f_equal. ring.
Qed.
Lemma logistic_draws loc scale batch l s d key n u : params loc scale batch l s -> logistic_udist rng loc scale = Ok d ->
  holds (rng key (n :: batch)) (n :: batch) (fun idx => Fin (u idx)) -> (forall idx, inb (n :: batch) idx -> 0 < u idx < 1) ->
  draws d key n batch (fun idx => l (tl idx) + s (tl idx) * ln (u idx / (1 - u idx))).
Proof.
  intros HP Ed Hu Hu01. unfold logistic_udist, batch_shape2 in Ed. destruct HP as [B P]. rewrite B in Ed. cbn [rbind] in Ed. injection Ed as <-. unfold draws. cbn [u_sample].
  unfold logistic_sample_n.
  destruct (lift3_holds logistic_sample (rng key (n :: batch)) loc scale (n :: batch) _ _ _ (holds_reads _ _ _ Hu)
    (reads_lead n batch loc (fun b => Fin (l b)) (bshape_absorb_l _ _ _ B) (fun b Hb => proj1 (P b Hb)))
    (reads_lead n batch scale (fun b => Fin (s b)) (bshape_absorb_r _ _ _ B) (fun b Hb => proj1 (proj2 (P b Hb)))) ltac:(left; apply Hu)) as (r & Er & Hr).
  exists r. split; [exact Er|]. eapply holds_ext; [exact Hr|]. intros idx Hi. specialize (Hu01 idx Hi).
  unfold logistic_sample, xlog1p. cbn [xopp xadd]. rewrite !xlog_fin by lra. cbn. rewrite ln_div by lra. f_equal.
  replace (1 + - u idx) with (1 - u idx) by ring. ring.
Qed.
Lemma uniform_draws low high batch a b d key n u : interval_params low high batch a b -> uniform_udist rng low high = Ok d ->
  holds (rng key (n :: batch)) (n :: batch) (fun idx => Fin (u idx)) ->
  draws d key n batch (fun idx => a (tl idx) + (b (tl idx) - a (tl idx)) * u idx).
Proof.
  intros HP Ed Hu. unfold uniform_udist, batch_shape2 in Ed. destruct HP as [B P]. rewrite B in Ed. cbn [rbind] in Ed. injection Ed as <-. unfold draws. cbn [u_sample].
  unfold uniform_sample_n.
  pose proof (bshape_absorb_l _ _ _ B) as Bl. pose proof (bshape_absorb_r _ _ _ B) as Bh.
  destruct (broadcast_holds low batch (fun i => Fin (a i)) ltac:(split; [exact Bl|intros i Hi; apply P, Hi])) as (l' & El & Hl).
  destruct (broadcast_holds high batch (fun i => Fin (b i)) ltac:(split; [exact Bh|intros i Hi; apply P, Hi])) as (h' & Eh & Hh).
  unfold param, batch_shape2. rewrite B. cbn [rbind]. rewrite El, Eh. cbn [rbind].
  destruct (lift2_holds uniform_range l' h' batch _ _ (holds_reads _ _ _ Hl) (holds_reads _ _ _ Hh) ltac:(left; apply Hl)) as (g & Eg & Hg).
  rewrite Eg. cbn [rbind].
  destruct (lift3_holds (fun u l r => xadd l (xmul r u)) (rng key (n :: batch)) low g (n :: batch) _ _ _ (holds_reads _ _ _ Hu)
    (reads_lead n batch low (fun i => Fin (a i)) Bl (fun i Hi => proj1 (P i Hi)))
    (reads_lead n batch g (fun i => uniform_range (Fin (a i)) (Fin (b i))) (proj1 (holds_reads _ _ _ Hg)) (proj2 (holds_reads _ _ _ Hg)))
    ltac:(left; apply Hu)) as (r & Er & Hr).
  exists r. split; [exact Er|]. eapply holds_ext; [exact Hr|]. intros idx Hi. reflexivity.
Qed.
End Draws.

(** no premise about the base is left: at every batch position log_prob is the log of the clipped mass of the Gaussian,
    whose total is one, and the samples are the clipped Gaussian draws *)
Theorem C44_clipped_normal : forall K (rng : K -> shape -> tensor XR) loc scale mn mx batch l s lo hi,
  params loc scale batch l s -> bounds mn mx batch lo hi ->
  exists c F, clipped_normal_init rng loc scale mn mx = Ok c /\ clipped_batch_shape c = batch /\
    (forall b, inb batch b -> density_with_cdf (gaussian (l b) (s b)) (F b)) /\
    computes (clipped_log_prob c) batch (fun b x => rlog (clipped_mass (F b) (gaussian (l b) (s b)) (lo b) (hi b) x)) /\
    (forall b, inb batch b -> let m := clipped_mass (F b) (gaussian (l b) (s b)) (lo b) (hi b) in
       exists I, is_RInt m (lo b) (hi b) I /\ m (lo b) + I + m (hi b) = 1) /\
    (forall key n z, holds (rng key (n :: batch)) (n :: batch) (fun idx => Fin (z idx)) ->
       exists r, clipped_sample_n c key n = Ok r /\
         holds r (n :: batch) (fun idx => let b := tl idx in Fin (clip (lo b) (hi b) (l b + s b * z idx)))).
Proof.
  intros K rng loc scale mn mx batch l s lo hi HP HB.
  destruct (normal_law rng loc scale batch l s HP) as (d & F & Ed & HF & Hf & HD).
  destruct (C44_log_prob K d batch F _ mn mx lo hi HF Hf HB) as (c & Ec & Eb & _ & HC).
  exists c, F. unfold clipped_normal_init. rewrite Ed. cbn [rbind]. split; [exact Ec|]. split; [exact Eb|]. split; [exact HD|]. split; [exact HC|]. split.
  - intros b Hb. destruct (density_with_cdf_is_cdf _ _ (HD b Hb)) as [A B]. destruct HB as (_ & _ & _ & _ & LT).
    destruct (C44_total_mass _ _ (lo b) (hi b) A B (LT b Hb)) as (_ & _ & _ & _ & _ & _ & _ & I). exact I.
  - intros key n z Hz. assert (HDr : draws d key n batch (fun idx => l (tl idx) + s (tl idx) * z idx)).
    { exact (normal_draws rng loc scale batch l s d key n z HP Ed Hz). }
    destruct (C44_sample K d batch F mn mx lo hi c key n _ HF HB Ec HDr) as (r & Er & Hr & _). exists r. split; [exact Er|exact Hr].
Qed.
Print Assumptions C44_clipped_normal.
Theorem C44_clipped_logistic : forall K (rng : K -> shape -> tensor XR) loc scale mn mx batch l s lo hi,
  params loc scale batch l s -> bounds mn mx batch lo hi ->
  exists c F, clipped_logistic_init rng loc scale mn mx = Ok c /\ clipped_batch_shape c = batch /\
    (forall b, inb batch b -> density_with_cdf (logistic_density (l b) (s b)) (F b)) /\
    computes (clipped_log_prob c) batch (fun b x => rlog (clipped_mass (F b) (logistic_density (l b) (s b)) (lo b) (hi b) x)) /\
    (forall b, inb batch b -> let m := clipped_mass (F b) (logistic_density (l b) (s b)) (lo b) (hi b) in
       exists I, is_RInt m (lo b) (hi b) I /\ m (lo b) + I + m (hi b) = 1) /\
    (forall key n u, holds (rng key (n :: batch)) (n :: batch) (fun idx => Fin (u idx)) ->
       (forall idx, inb (n :: batch) idx -> 0 < u idx < 1) ->
       exists r, clipped_sample_n c key n = Ok r /\
         holds r (n :: batch) (fun idx => let b := tl idx in Fin (clip (lo b) (hi b) (l b + s b * ln (u idx / (1 - u idx)))))).
Proof.
  intros K rng loc scale mn mx batch l s lo hi HP HB.
  destruct (logistic_law rng loc scale batch l s HP) as (d & F & Ed & HF & Hf & HD).
  destruct (C44_log_prob K d batch F _ mn mx lo hi HF Hf HB) as (c & Ec & Eb & _ & HC).
  exists c, F. unfold clipped_logistic_init. rewrite Ed. cbn [rbind]. split; [exact Ec|]. split; [exact Eb|]. split; [exact HD|]. split; [exact HC|]. split.
  - intros b Hb. destruct (density_with_cdf_is_cdf _ _ (HD b Hb)) as [A B]. destruct HB as (_ & _ & _ & _ & LT).
    destruct (C44_total_mass _ _ (lo b) (hi b) A B (LT b Hb)) as (_ & _ & _ & _ & _ & _ & _ & I). exact I.
  - intros key n u Hu Hu01. assert (HDr : draws d key n batch (fun idx => l (tl idx) + s (tl idx) * ln (u idx / (1 - u idx)))).
    { exact (logistic_draws rng loc scale batch l s d key n u HP Ed Hu Hu01). }
    destruct (C44_sample K d batch F mn mx lo hi c key n _ HF HB Ec HDr) as (r & Er & Hr & _). exists r. split; [exact Er|exact Hr].
Qed.
Print Assumptions C44_clipped_logistic.

(** A batch of two Normals clipped to [-1, 1] and [0, 1]. *)
Example C44_nonvacuous :
  params (mkT [2%nat] [Fin 0; Fin 3]) (tscalar (Fin 2)) [2%nat] (fun b => match b with [O] => 0 | _ => 3 end) (fun _ => 2) /\
  bounds (mkT [2%nat] [Fin (-1); Fin 0]) (tscalar (Fin 1)) [2%nat] (fun b => match b with [O] => -1 | _ => 0 end) (fun _ => 1).
Proof.
  assert (I2 : forall b, inb [2%nat] b -> b = [0%nat] \/ b = [1%nat]).
  { intros [|i [|j b]] Hb; [inversion Hb| |inversion Hb as [|? ? ? ? ? H2]; inversion H2]. apply inb_cons in Hb as [Hi _].
    destruct i as [|[|i]]; [left|right|lia]; reflexivity. }
  split.
  - split; [reflexivity|]. intros b Hb. destruct (I2 b Hb) as [-> | ->]; cbn; repeat split; lra.
  - split; [reflexivity|]. split; [reflexivity|]. split; [|split].
    + split; [reflexivity|]. intros b Hb. destruct (I2 b Hb) as [-> | ->]; reflexivity.
    + split; [reflexivity|]. intros b Hb. destruct (I2 b Hb) as [-> | ->]; reflexivity.
    + intros b Hb. destruct (I2 b Hb) as [-> | ->]; lra.
Qed.

(** A base with an atom at the maximum: Deterministic(1) clipped to [0, 1] always returns 1, whose log_prob is -inf:
    the mass at the maximum is P(X > max), not P(X >= max). *)
Theorem C44_atom_at_maximum_refuted : forall K (key : K),
  exists (d : udist K) c, det_udist (tscalar (Fin 1)) (tscalar (Fin 0)) (tscalar (Fin 0)) = Ok d /\
    clipped_init d (tscalar (Fin 0)) (tscalar (Fin 1)) = Ok c /\
    clipped_sample_n c key 1 = Ok (mkT [1%nat] [Fin 1]) /\
    clipped_log_prob c (tscalar (Fin 1)) = Ok (tscalar NInf) /\
    clipped_log_prob c (tscalar (Fin 0)) = Ok (tscalar NInf) /\
    u_log_prob d (tscalar (Fin 1)) = Ok (tscalar (Fin 0)).
Proof.
  intros K key. eexists. eexists. split; [reflexivity|].
  assert (D : forall x, x = 0 \/ x = 1 -> det_cdf (Fin x) (Fin 1) (Fin 0) (Fin 0) = Fin x).
  { intros x Hx. unfold det_cdf, det_slack. cbn. destruct (Req_EM_T 0 0); [|lra]. cbn.
    unfold xleb, xltb, xeqb. destruct (Rlt_dec (1 + - 0) x), (Req_EM_T (1 + - 0) x); cbn; f_equal; lra. }
  split; [|split; [|split; [|split]]].
  - unfold clipped_init. cbn -[det_cdf xlog xlog1p]. unfold lift1, lift. cbn -[det_cdf xlog xlog1p]. unfold lift4, lift. cbn -[det_cdf xlog xlog1p].
    unfold xget, tgen, tget. cbn -[det_cdf xlog xlog1p]. rewrite !D by auto. reflexivity.
  - unfold clipped_sample_n. cbn -[xclip]. unfold lift3, lift, xget, tgen, tget. cbn -[xclip]. rewrite xclip_fin by lra.
    unfold clip. repeat destruct Rlt_dec; try lra. reflexivity.
  - unfold clipped_log_prob. cbn -[det_log_prob xlog xlog1p xeqb xltb]. unfold det_log_prob_arr, lift4, lift. cbn -[det_log_prob xlog xlog1p xeqb xltb].
    unfold xget, tgen, tget. cbn -[det_log_prob xlog xlog1p xeqb xltb]. unfold xeqb, xltb. repeat (destruct Req_EM_T; try lra). repeat (destruct Rlt_dec; try lra).
    cbn. replace (1 + - (1)) with 0 by ring. rewrite rlog_0. reflexivity.
  - unfold clipped_log_prob. cbn -[det_log_prob xlog xlog1p xeqb xltb]. unfold det_log_prob_arr, lift4, lift. cbn -[det_log_prob xlog xlog1p xeqb xltb].
    unfold xget, tgen, tget. cbn -[det_log_prob xlog xlog1p xeqb xltb]. unfold xeqb, xltb. repeat (destruct Req_EM_T; try lra). repeat (destruct Rlt_dec; try lra).
    cbn. rewrite rlog_0. reflexivity.
  - cbn. unfold det_log_prob_arr, lift4, lift. cbn -[det_log_prob]. unfold xget, tgen, tget. cbn -[det_log_prob].
    unfold det_log_prob, det_prob, det_slack. cbn. destruct (Req_EM_T 0 0); [|lra]. cbn. unfold xleb, xltb, xeqb.
    replace (1 + - (1)) with 0 by ring. rewrite Rabs_R0. destruct (Rlt_dec 0 0); [lra|]. destruct (Req_EM_T 0 0); [|lra]. cbn. rewrite rlog_pos by lra. rewrite ln_1. reflexivity.
Qed.
Print Assumptions C44_atom_at_maximum_refuted.
