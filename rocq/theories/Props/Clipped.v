(** C44: Clipped. *)
From Coq Require Import Reals List Lia Lra Bool ZArith.
From Coquelicot Require Import Coquelicot.
From Verif Require Import Base.Result Base.Sums Base.Tensor Base.XR Base.Lift Base.Integral Model.Distribution Model.ScalarDist Model.ArrayDist
  Model.Clipped Spec.ArrayDist Spec.Distribution Spec.Density Spec.Univariate Proofs.ArrayDist Proofs.Density Proofs.Distribution Proofs.Univariate Props.ArrayDist.
Import ListNotations.
Local Open Scope R_scope.

(** finite bounds with lo < hi at every batch position *)
Definition bounds (mn mx : tensor XR) (batch : shape) (lo hi : list nat -> R) : Prop :=
  wf mn /\ wf mx /\ reads mn batch (fun b => Fin (lo b)) /\ reads mx batch (fun b => Fin (hi b)) /\
  forall b, inb batch b -> lo b < hi b.

(** ** Construction *)
Theorem C44_constructor : forall K (d : udist K) mn mx,
  (u_event d <> [] -> clipped_init d mn mx = Err ValueError) /\
  ((length (u_batch d) < rank mn)%nat \/ (length (u_batch d) < rank mx)%nat -> clipped_init d mn mx = Err ValueError) /\
  (bshape (shp mn) (u_batch d) <> Some (u_batch d) -> clipped_init d mn mx = Err ValueError).
Proof.
  intros K d mn mx. unfold clipped_init. split; [|split].
  - destruct (u_event d); [congruence|reflexivity].
  - intros H. destruct (u_event d); [|reflexivity].
    assert (E : (Nat.ltb (length (u_batch d)) (rank mn) || Nat.ltb (length (u_batch d)) (rank mx))%bool = true).
    { apply orb_true_iff. rewrite !Nat.ltb_lt. exact H. }
    rewrite E. reflexivity.
  - intros H. destruct (u_event d); [|reflexivity]. destruct (_ || _)%bool; [reflexivity|].
    unfold broadcast_to at 1. destruct (bshape (shp mn) (u_batch d)) as [s|]; [|reflexivity].
    destruct (list_eq_dec Nat.eq_dec s (u_batch d)) as [->|]; [congruence|reflexivity].
Qed.
Print Assumptions C44_constructor.

Section Made.
Context {K : Type} (d : udist K) (batch : shape) (F f : list nat -> R -> R) (mn mx : tensor XR) (lo hi : list nat -> R).
Hypothesis HF : has_cdf d batch F.
Hypothesis Hf : has_density d batch f.
Hypothesis HB : bounds mn mx batch lo hi.
Lemma made : exists c, clipped_init d mn mx = Ok c /\ c_dist c = d /\
  holds (c_min c) batch (fun b => Fin (lo b)) /\ holds (c_max c) batch (fun b => Fin (hi b)) /\
  holds (c_log_prob_min c) batch (fun b => rlog (F b (lo b))) /\ holds (c_log_prob_max c) batch (fun b => rlog (1 - F b (hi b))).
Proof.
  destruct HF as (Eb & Ee & _ & _ & HC & _ & HS). destruct HB as (Wn & Wx & Rn & Rx & _).
  unfold clipped_init. rewrite Ee, Eb.
  assert (E : (Nat.ltb (length batch) (rank mn) || Nat.ltb (length batch) (rank mx))%bool = false).
  { apply orb_false_iff. rewrite !Nat.ltb_ge. split; apply bshape_le_length; [apply Rn|apply Rx]. }
  rewrite E. destruct (broadcast_holds _ _ _ Rn) as (r1 & E1 & H1). destruct (broadcast_holds _ _ _ Rx) as (r2 & E2 & H2).
  rewrite E1, E2. cbn [rbind].
  destruct (HC mn batch lo Wn (proj1 Rn) Rn) as (r3 & E3 & H3). destruct (HS mx batch hi Wx (proj1 Rx) Rx) as (r4 & E4 & H4).
  rewrite E3. cbn [rbind]. rewrite E4. cbn [rbind]. eexists. split; [reflexivity|]. cbn. split; [reflexivity|]. split; [exact H1|]. split; [exact H2|].
  split; [eapply holds_ext; [exact H3|]|eapply holds_ext; [exact H4|]]; intros b Hb; cbv beta; rewrite (bindex_refl batch b Hb); reflexivity.
Qed.
End Made.

(** log_prob, for every array of values broadcast against the batch: log of the clipped mass, i.e. -inf outside the
    bounds, the base's log-density strictly between them, log P(X <= min) at min and log P(X > max) at max. *)
Theorem C44_log_prob : forall K (d : udist K) batch F f mn mx lo hi,
  has_cdf d batch F -> has_density d batch f -> bounds mn mx batch lo hi ->
  exists c, clipped_init d mn mx = Ok c /\ clipped_batch_shape c = batch /\ clipped_event_shape c = [] /\
    computes (clipped_log_prob c) batch (fun b x => rlog (clipped_mass (F b) (f b) (lo b) (hi b) x)).
Proof.
  intros K d batch F f mn mx lo hi HF Hf HB. destruct (made d batch F mn mx lo hi HF HB) as (c & E & Ed & Hlo & Hhi & Hpl & Hph).
  exists c. split; [exact E|]. split; [unfold clipped_batch_shape; rewrite Ed; apply HF|]. split; [reflexivity|].
  intros v S x W BS RV. pose proof (bshape_absorb_r _ _ _ BS) as Bb. unfold clipped_log_prob. rewrite Ed.
  destruct (Hf v S x W BS RV) as (r1 & E1 & H1). rewrite E1. cbn [rbind].
  pose proof (fun t w (H : holds t batch w) => reads_up t batch S w (holds_reads _ _ _ H) Bb) as UP.
  destruct (lift4_holds (fun v hi lpmax lp => if xeqb v hi then lpmax else lp) v (c_max c) (c_log_prob_max c) r1 S _ _ _ _
    RV (UP _ _ Hhi) (UP _ _ Hph) (holds_reads _ _ _ H1) ltac:(right; right; right; apply H1)) as (r2 & E2 & H2).
  rewrite E2. cbn [rbind].
  destruct (lift4_holds (fun v lo lpmin r => if xeqb v lo then lpmin else r) v (c_min c) (c_log_prob_min c) r2 S _ _ _ _
    RV (UP _ _ Hlo) (UP _ _ Hpl) (holds_reads _ _ _ H2) ltac:(right; right; right; apply H2)) as (r3 & E3 & H3).
  rewrite E3. cbn [rbind].
  destruct (lift4_holds (fun v lo hi r => if xltb v lo || xltb hi v then NInf else r) v (c_min c) (c_max c) r3 S _ _ _ _
    RV (UP _ _ Hlo) (UP _ _ Hhi) (holds_reads _ _ _ H3) ltac:(right; right; right; apply H3)) as (r4 & E4 & H4).
  exists r4. split; [exact E4|]. eapply holds_ext; [exact H4|]. intros idx Hi. cbv beta.
  set (b := bindex batch idx). unfold clipped_mass. unfold xltb, xeqb.
  destruct (Rlt_dec (x idx) (lo b)); [rewrite rlog_0; reflexivity|]. destruct (Rlt_dec (hi b) (x idx)); [rewrite rlog_0; reflexivity|]. cbn [orb].
  destruct (Req_EM_T (x idx) (lo b)); [reflexivity|]. destruct (Req_EM_T (x idx) (hi b)); reflexivity.
Qed.
Print Assumptions C44_log_prob.

(** The clipped mass is the law of the clipped variable: [clip lo hi X <= y] is impossible below lo, certain from hi on, and
    the event [X <= y] in between; the mass at lo plus the integral of the density up to y is F y, and the total is one. *)
Theorem C44_total_mass : forall F f lo hi, is_cdf F -> density_of F f -> lo < hi ->
  let m := clipped_mass F f lo hi in
  (forall x, 0 <= m x) /\ m lo = F lo /\ m hi = 1 - F hi /\
  (forall x, x < lo \/ hi < x -> m x = 0) /\ (forall x, lo < x < hi -> m x = f x) /\
  (forall X y, (clip lo hi X <= y <-> hi <= y \/ (lo <= y /\ X <= y))) /\
  (forall y, lo <= y <= hi -> exists I, is_RInt m lo y I /\ m lo + I = F y) /\
  (exists I, is_RInt m lo hi I /\ m lo + I + m hi = 1).
Proof.
  intros F f lo hi [CF MF] [Pf If] H m.
  assert (Mlo : m lo = F lo). { unfold m, clipped_mass. destruct Rlt_dec; [lra|]. destruct Rlt_dec; [lra|]. destruct Req_EM_T; [reflexivity|lra]. }
  assert (Mhi : m hi = 1 - F hi). { unfold m, clipped_mass. destruct Rlt_dec; [lra|]. destruct Rlt_dec; [lra|]. destruct Req_EM_T; [lra|]. destruct Req_EM_T; [reflexivity|lra]. }
  assert (Min : forall x, lo < x < hi -> m x = f x).
  { intros x Hx. unfold m, clipped_mass. destruct Rlt_dec; [lra|]. destruct Rlt_dec; [lra|]. destruct Req_EM_T; [lra|]. destruct Req_EM_T; [lra|reflexivity]. }
  assert (Int : forall y, lo <= y <= hi -> is_RInt m lo y (F y - F lo)).
  { intros y Hy. apply (is_RInt_ext f); [|apply If; lra]. rewrite Rmin_left, Rmax_right by lra. intros x Hx. symmetry. apply Min. lra. }
  split. { intros x. unfold m, clipped_mass. pose proof (CF lo). pose proof (CF hi). repeat (destruct Rlt_dec; [lra|]). repeat (destruct Req_EM_T; [lra|]). apply Pf. }
  split; [exact Mlo|]. split; [exact Mhi|]. split.
  { intros x Hx. unfold m, clipped_mass. destruct Rlt_dec; [reflexivity|]. destruct Rlt_dec; [reflexivity|lra]. }
  split; [exact Min|]. split.
  { intros X y. unfold clip. destruct (Rlt_dec X lo); [|destruct (Rlt_dec hi X)]; split; intros; try lra; destruct H0; lra. }
  split.
  - intros y Hy. exists (F y - F lo). split; [apply Int; auto|]. rewrite Mlo. ring.
  - exists (F hi - F lo). split; [apply Int; lra|]. rewrite Mlo, Mhi. ring.
Qed.
Print Assumptions C44_total_mass.

(** Every sample is the clipped base draw, so lies in [min, max]. *)
Theorem C44_sample : forall K (d : udist K) batch F mn mx lo hi c key n x,
  has_cdf d batch F -> bounds mn mx batch lo hi -> clipped_init d mn mx = Ok c -> draws d key n batch x ->
  exists r, clipped_sample_n c key n = Ok r /\
    holds r (n :: batch) (fun idx => Fin (clip (lo (tl idx)) (hi (tl idx)) (x idx))) /\
    forall idx, inb (n :: batch) idx -> lo (tl idx) <= clip (lo (tl idx)) (hi (tl idx)) (x idx) <= hi (tl idx).
Proof.
  intros K d batch F mn mx lo hi c key n x HF HB Ec (raw & Er & Hr).
  destruct (made d batch F mn mx lo hi HF HB) as (c' & E & Ed & Hlo & Hhi & _). rewrite Ec in E. injection E as <-.
  unfold clipped_sample_n. rewrite Ed, Er. cbn [rbind].
  pose proof (fun t w (H : holds t batch w) => reads_up t batch (n :: batch) w (holds_reads _ _ _ H) (bshape_lead n batch)) as UP.
  destruct (lift3_holds xclip raw (c_min c) (c_max c) (n :: batch) _ _ _ (holds_reads _ _ _ Hr) (UP _ _ Hlo) (UP _ _ Hhi) ltac:(left; apply Hr)) as (r & E & H).
  assert (TL : forall idx, inb (n :: batch) idx -> bindex batch idx = tl idx /\ inb batch (tl idx)).
  { intros [|i b] Hi; [inversion Hi|]. apply inb_cons in Hi as [_ Hb]. split; [apply bindex_lead; auto|auto]. }
  destruct HB as (_ & _ & _ & _ & LT).
  exists r. split; [exact E|]. split.
  - eapply holds_ext; [exact H|]. intros idx Hi. cbv beta. destruct (TL idx Hi) as [-> Hb]. apply xclip_fin. apply Rlt_le, LT, Hb.
  - intros idx Hi. destruct (TL idx Hi) as [_ Hb]. apply clip_range. apply Rlt_le, LT, Hb.
Qed.
Print Assumptions C44_sample.

(** C30 for Clipped: sample_and_log_prob is sample together with log_prob of that sample. *)
Theorem C30_clipped : forall K (d : udist K) batch F f mn mx lo hi c key n x,
  has_cdf d batch F -> has_density d batch f -> bounds mn mx batch lo hi -> clipped_init d mn mx = Ok c -> draws d key n batch x ->
  salp_consistent (clipped_sample_n_and_log_prob c key n) (clipped_sample_n c key n) (clipped_log_prob c) (n :: batch).
Proof.
  intros K d batch F f mn mx lo hi c key n x HF Hf HB Ec Hd.
  destruct (C44_sample K d batch F mn mx lo hi c key n x HF HB Ec Hd) as (r & Er & Hr & _).
  destruct (C44_log_prob K d batch F f mn mx lo hi HF Hf HB) as (c' & Ec' & _ & _ & HL). rewrite Ec in Ec'. injection Ec' as <-.
  pose proof Hr as (Wr & Sr & _).
  destruct (HL r (n :: batch) (fun idx => clip (lo (tl idx)) (hi (tl idx)) (x idx)) Wr) as (lp & El & Hl).
  { rewrite Sr. rewrite bshape_comm. apply bshape_lead. }
  { apply holds_reads; exact Hr. }
  exists r, lp. unfold clipped_sample_n_and_log_prob. rewrite Er. cbn [rbind]. rewrite El. cbn [rbind]. repeat split; auto. apply Hl.
Qed.
Print Assumptions C30_clipped.

(** Slicing: the sliced distribution is, at position r, the clipped distribution at the addressed position of the original. *)
Theorem C44_slicing : forall K (d d' : udist K) batch F f mn mx lo hi c ix ixs rs src base_item,
  has_cdf d batch F -> bounds mn mx batch lo hi -> clipped_init d mn mx = Ok c ->
  batch <> [] -> np_index batch ix = Ok (rs, src) -> to_batch_shape_index batch ix = Ok ixs -> base_item ixs = Ok d' ->
  has_cdf d' rs (fun r => F (src r)) -> has_density d' rs (fun r => f (src r)) ->
  (forall r, inb rs r -> addresses batch ix rs r (src r)) /\
  exists c', clipped_getitem base_item c ix = Ok c' /\ clipped_batch_shape c' = rs /\
    computes (clipped_log_prob c') rs (fun r x => rlog (clipped_mass (F (src r)) (f (src r)) (lo (src r)) (hi (src r)) x)).
Proof.
  intros K d d' batch F f mn mx lo hi c ix ixs rs src bi HF HB Ec Hne En Ei Eb HF' Hf'.
  pose proof (np_index_spec _ _ _ _ En) as HA. split; [exact HA|].
  destruct (made d batch F mn mx lo hi HF HB) as (c0 & E & Ed & Hlo & Hhi & _). rewrite Ec in E. injection E as <-.
  assert (SL : forall t w, holds t batch w -> holds (adv_getitem (Fin 0) t ixs) rs (fun r => w (src r))).
  { intros t w (Wt & St & Ht). destruct (slice_param_ok (Fin 0) batch [] ix rs src t Hne En ltac:(rewrite St, app_nil_r; reflexivity)) as (q & Eq & Wq & Sq & Hq).
    unfold slice_param in Eq. rewrite Ei in Eq. cbn [rbind] in Eq. injection Eq as <-. split; [exact Wq|]. split; [rewrite Sq; apply app_nil_r|].
    intros r Hr. specialize (Hq r [] Hr ltac:(constructor)). rewrite !app_nil_r in Hq. rewrite Hq. apply Ht.
    apply (addresses_inb _ _ _ _ _ (HA r Hr)). }
  assert (HB' : bounds (adv_getitem (Fin 0) (c_min c) ixs) (adv_getitem (Fin 0) (c_max c) ixs) rs (fun r => lo (src r)) (fun r => hi (src r))).
  { pose proof (SL _ _ Hlo) as S1. pose proof (SL _ _ Hhi) as S2. split; [apply S1|]. split; [apply S2|].
    split; [apply (holds_reads _ _ _ S1)|]. split; [apply (holds_reads _ _ _ S2)|]. intros r Hr. destruct HB as (_ & _ & _ & _ & LT). apply LT.
    apply (addresses_inb _ _ _ _ _ (HA r Hr)). }
  destruct (C44_log_prob K d' rs _ _ _ _ _ _ HF' Hf' HB') as (c' & E & Eb' & _ & HC).
  exists c'. split; [|split; [exact Eb'|exact HC]].
  unfold clipped_getitem, clipped_batch_shape. rewrite Ed. destruct HF as (-> & _). rewrite Ei. cbn [rbind]. rewrite Eb. cbn [rbind]. exact E.
Qed.
Print Assumptions C44_slicing.
