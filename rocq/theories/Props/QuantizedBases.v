(** C45 for Quantized over the concrete bases Normal, Logistic and Uniform: no premise about the base is left. *)
From Coq Require Import Reals List Lia Lra Bool ZArith.
From Coquelicot Require Import Coquelicot.
From Verif Require Import Base.Result Base.Sums Base.Tensor Base.XR Base.Lift Base.Integral Model.Distribution Model.ScalarDist Model.ArrayDist
  Model.Clipped Model.Quantized Spec.ArrayDist Spec.Distribution Spec.Density Spec.Univariate Proofs.ArrayDist Proofs.Density Proofs.Distribution Proofs.Univariate
  Props.ArrayDist Props.Continuous Props.Bases Props.Clipped Props.ClippedBases Props.Quantized.
Import ListNotations.
Local Open Scope R_scope.

(** the array of draws [r] is the base draws [x] rounded up and clamped to the bounds *)
Definition quantised_draws (r : result (tensor XR)) (n : nat) (batch : shape) (L H : list nat -> option Z) (x : list nat -> R) : Prop :=
  exists t c, r = Ok t /\ (forall idx, inb (n :: batch) idx -> is_ceiling (x idx) (c idx)) /\
    holds t (n :: batch) (fun idx => Fin (IZR (clamp (L (tl idx)) (H (tl idx)) (c idx)))).

Lemma quantized_over K (d : udist K) batch F low high L H :
  has_cdf d batch F -> rounded_bounds is_ceiling low batch L -> rounded_bounds is_floor high batch H ->
  (forall b, inb batch b -> ordered (L b) (H b)) ->
  exists q, quantized_init d low high None = Ok q /\ quantized_batch_shape q = batch /\
    computes (quantized_prob q) batch (fun b x => Fin (pmf (F b) (L b) (H b) x)) /\
    computes (quantized_log_prob q) batch (fun b x => rlog (pmf (F b) (L b) (H b) x)) /\
    (forall key n x, draws d key n batch x -> quantised_draws (quantized_sample_n q key n) n batch L H x).
Proof.
  intros HF HL HH HO. destruct (C45_constructor K d low high None) as (_ & _ & HC).
  destruct (HC batch F L H HF HL HH) as (q & E & Ed & Ee & Eb & _ & BL & BH). exists q.
  assert (HQ : quantises q batch F L H). { split; [rewrite Ed; exact HF|]. split; [exact BL|]. split; [exact BH|exact HO]. }
  destruct (C45_prob K q batch F L H HQ) as [HP HLP].
  split; [exact E|]. split; [exact Eb|]. split; [exact HP|]. split; [exact (HLP Ee)|].
  intros key n x HD. rewrite <- Ed in HD. destruct (C45_sample K q batch F L H key n x HQ HD) as (r & c & Er & Hc & Hr & _).
  exists r, c. auto.
Qed.

Theorem C45_quantized_normal : forall K (rng : K -> shape -> tensor XR) loc scale low high batch l s L H,
  params loc scale batch l s -> rounded_bounds is_ceiling low batch L -> rounded_bounds is_floor high batch H ->
  (forall b, inb batch b -> ordered (L b) (H b)) ->
  exists d q F, normal_udist rng loc scale = Ok d /\ quantized_init d low high None = Ok q /\ quantized_batch_shape q = batch /\
    (forall b, inb batch b -> density_with_cdf (gaussian (l b) (s b)) (F b)) /\
    computes (quantized_prob q) batch (fun b x => Fin (pmf (F b) (L b) (H b) x)) /\
    computes (quantized_log_prob q) batch (fun b x => rlog (pmf (F b) (L b) (H b) x)) /\
    (forall key n z, holds (rng key (n :: batch)) (n :: batch) (fun idx => Fin (z idx)) ->
       quantised_draws (quantized_sample_n q key n) n batch L H (fun idx => l (tl idx) + s (tl idx) * z idx)).
Proof.
  intros K rng loc scale low high batch l s L H HP HL HH HO.
  destruct (normal_law rng loc scale batch l s HP) as (d & F & Ed & HF & _ & HD).
  destruct (quantized_over K d batch F low high L H HF HL HH HO) as (q & Eq & Eb & H1 & H2 & H3).
  exists d, q, F. split; [exact Ed|]. split; [exact Eq|]. split; [exact Eb|]. split; [exact HD|]. split; [exact H1|]. split; [exact H2|].
  intros key n z Hz. apply H3. exact (normal_draws rng loc scale batch l s d key n z HP Ed Hz).
Qed.
Print Assumptions C45_quantized_normal.

Theorem C45_quantized_logistic : forall K (rng : K -> shape -> tensor XR) loc scale low high batch l s L H,
  params loc scale batch l s -> rounded_bounds is_ceiling low batch L -> rounded_bounds is_floor high batch H ->
  (forall b, inb batch b -> ordered (L b) (H b)) ->
  exists d q F, logistic_udist rng loc scale = Ok d /\ quantized_init d low high None = Ok q /\ quantized_batch_shape q = batch /\
    (forall b, inb batch b -> density_with_cdf (logistic_density (l b) (s b)) (F b)) /\
    computes (quantized_prob q) batch (fun b x => Fin (pmf (F b) (L b) (H b) x)) /\
    computes (quantized_log_prob q) batch (fun b x => rlog (pmf (F b) (L b) (H b) x)) /\
    (forall key n u, holds (rng key (n :: batch)) (n :: batch) (fun idx => Fin (u idx)) ->
       (forall idx, inb (n :: batch) idx -> 0 < u idx < 1) ->
       quantised_draws (quantized_sample_n q key n) n batch L H (fun idx => l (tl idx) + s (tl idx) * ln (u idx / (1 - u idx)))).
Proof.
  intros K rng loc scale low high batch l s L H HP HL HH HO.
  destruct (logistic_law rng loc scale batch l s HP) as (d & F & Ed & HF & _ & HD).
  destruct (quantized_over K d batch F low high L H HF HL HH HO) as (q & Eq & Eb & H1 & H2 & H3).
  exists d, q, F. split; [exact Ed|]. split; [exact Eq|]. split; [exact Eb|]. split; [exact HD|]. split; [exact H1|]. split; [exact H2|].
  intros key n u Hu Hu01. apply H3. exact (logistic_draws rng loc scale batch l s d key n u HP Ed Hu Hu01).
Qed.
Print Assumptions C45_quantized_logistic.

(** Uniform(a, b): F is the uniform distribution function *)
Theorem C45_quantized_uniform : forall K (rng : K -> shape -> tensor XR) lo hi low high batch a b L H,
  interval_params lo hi batch a b -> rounded_bounds is_ceiling low batch L -> rounded_bounds is_floor high batch H ->
  (forall i, inb batch i -> ordered (L i) (H i)) ->
  exists d q F, uniform_udist rng lo hi = Ok d /\ quantized_init d low high None = Ok q /\ quantized_batch_shape q = batch /\
    (forall i x, inb batch i -> (b i < x -> F i x = 1) /\ (x < a i -> F i x = 0) /\ (a i <= x <= b i -> F i x = (x - a i) / (b i - a i))) /\
    computes (quantized_prob q) batch (fun i x => Fin (pmf (F i) (L i) (H i) x)) /\
    computes (quantized_log_prob q) batch (fun i x => rlog (pmf (F i) (L i) (H i) x)) /\
    (forall key n u, holds (rng key (n :: batch)) (n :: batch) (fun idx => Fin (u idx)) ->
       quantised_draws (quantized_sample_n q key n) n batch L H (fun idx => a (tl idx) + (b (tl idx) - a (tl idx)) * u idx)).
Proof.
  intros K rng lo hi low high batch a b L H HP HL HH HO.
  destruct (uniform_law rng lo hi batch a b HP) as (d & Ed & HF & _).
  destruct (quantized_over K d batch _ low high L H HF HL HH HO) as (q & Eq & Eb & H1 & H2 & H3).
  exists d, q, (fun i => uniform_F (a i) (b i)). split; [exact Ed|]. split; [exact Eq|]. split; [exact Eb|]. split; [|split; [exact H1|split; [exact H2|]]].
  - intros i x Hi. destruct HP as [_ P]. destruct (P i Hi) as (_ & _ & Hab). unfold uniform_F.
    split; [|split]; intros; repeat destruct Rlt_dec; try lra; reflexivity.
  - intros key n u Hu. apply H3. exact (uniform_draws rng lo hi batch a b d key n u HP Ed Hu).
Qed.
Print Assumptions C45_quantized_uniform.

(** Two uniforms, (0, 10) and (-5/2, 5/2), quantised to at least 0 and 1: the bounds and parameters meet the hypotheses. *)
Example C45_bases_nonvacuous :
  interval_params (mkT [2%nat] [Fin 0; Fin (-5/2)]) (mkT [2%nat] [Fin 10; Fin (5/2)]) [2%nat]
    (fun i => match i with [O] => 0 | _ => -5/2 end) (fun i => match i with [O] => 10 | _ => 5/2 end) /\
  rounded_bounds is_ceiling (Some (mkT [2%nat] [Fin 0; Fin (1/2)])) [2%nat] (fun i => match i with [O] => Some 0%Z | _ => Some 1%Z end) /\
  rounded_bounds is_floor None [2%nat] (fun _ => None).
Proof.
  assert (I2 : forall b, inb [2%nat] b -> b = [0%nat] \/ b = [1%nat]).
  { intros [|i [|j b]] Hb; [inversion Hb| |inversion Hb as [|? ? ? ? ? H2]; inversion H2]. apply inb_cons in Hb as [Hi _].
    destruct i as [|[|i]]; [left|right|lia]; reflexivity. }
  split; [|split].
  - split; [reflexivity|]. intros b Hb. destruct (I2 b Hb) as [-> | ->]; cbn; repeat split; lra.
  - split; [reflexivity|]. split; [reflexivity|]. intros b Hb. destruct (I2 b Hb) as [-> | ->].
    + exists 0, 0%Z. repeat split; unfold is_ceiling; lra.
    + exists (1/2), 1%Z. repeat split; unfold is_ceiling; lra.
  - intros b _. reflexivity.
Qed.
