(** C45, C46 (and C30): Quantized. *)
From Coq Require Import Reals List Lia Lra Bool ZArith.
From Coquelicot Require Import Coquelicot.
From Verif Require Import Base.Result Base.Sums Base.Tensor Base.XR Base.Lift Base.Integral Model.Distribution Model.ScalarDist Model.MathUtils Model.ArrayDist
  Model.Clipped Model.Quantized Spec.ArrayDist Spec.Distribution Spec.Density Spec.Univariate Proofs.ArrayDist Proofs.Density Proofs.Distribution
  Proofs.Univariate Proofs.Quantized Props.ArrayDist Props.Bases.
Import ListNotations.
Local Open Scope R_scope.

(** ** Construction *)
Theorem C45_constructor : forall K (d : udist K) low high eps,
  (u_event d <> [] -> quantized_init d low high eps = Err ValueError) /\
  (forall t, (low = Some t \/ high = Some t) -> (length (u_batch d) < rank t)%nat -> quantized_init d low high eps = Err ValueError) /\
  (forall batch F L H, has_cdf d batch F -> rounded_bounds is_ceiling low batch L -> rounded_bounds is_floor high batch H ->
     exists q, quantized_init d low high eps = Ok q /\ q_dist q = d /\ q_eps q = eps /\
       quantized_batch_shape q = batch /\ quantized_event_shape q = [] /\ bounds_at (q_low q) batch L /\ bounds_at (q_high q) batch H).
Proof.
  intros K d low high eps. unfold quantized_init. split; [|split].
  - destruct (u_event d); [congruence|reflexivity].
  - intros t Ht Hr. destruct (u_event d); [|reflexivity]. destruct Ht as [-> | ->].
    + cbn [quantized_bound]. unfold rank in *. cbn [shp tmap]. apply Nat.ltb_lt in Hr. rewrite Hr. reflexivity.
    + destruct (quantized_bound xceil d low) as [r|e] eqn:E; cbn [rbind].
      * cbn [quantized_bound]. unfold rank in *. cbn [shp tmap]. apply Nat.ltb_lt in Hr. rewrite Hr. reflexivity.
      * unfold quantized_bound in E. destruct low; [|discriminate]. destruct Nat.ltb; [|discriminate]. congruence.
  - intros batch F L H HF HL HH. destruct HF as (Eb & Ee & _). rewrite Ee.
    assert (B : forall (rnd : R -> Z -> Prop) (rx : XR -> XR) (b : option (tensor XR)) (Lb : list nat -> option Z), (forall r z, rnd r z -> rx (Fin r) = Fin (IZR z)) -> rounded_bounds rnd b batch Lb ->
      exists b', quantized_bound rx d b = Ok b' /\ bounds_at b' batch Lb).
    { intros rnd rx b Lb Hx HR. destruct b as [t|]; cbn [quantized_bound]; [|exists None; auto].
      destruct HR as (W & B & HR). rewrite Eb. unfold rank. cbn [shp tmap].
      replace (Nat.ltb (length batch) (length (shp t))) with false by (symmetry; apply Nat.ltb_ge, bshape_le_length, B).
      eexists. split; [reflexivity|]. split; [exact B|]. intros b Hb. destruct (HR b Hb) as (r & z & Er & Hrz & Ez). exists z. split; [exact Ez|].
      destruct (reads_tmap rx t batch (fun b => xget t b) W (conj B (fun _ _ => eq_refl))) as [_ X]. rewrite (X b Hb), Er. apply Hx, Hrz. }
    destruct (B is_ceiling xceil low L xceil_eq HL) as (b1 & E1 & B1). destruct (B is_floor xfloor high H xfloor_eq HH) as (b2 & E2 & B2).
    rewrite E1. cbn [rbind]. rewrite E2. cbn [rbind]. eexists. split; [reflexivity|]. unfold quantized_batch_shape, quantized_event_shape. cbn. repeat split; auto.
Qed.
Print Assumptions C45_constructor.

(** a quantised distribution over a base with cdfs [F], with integer bounds [L] and [H] *)
Definition quantises {K} (q : quantized K) (batch : shape) (F : list nat -> R -> R) (L H : list nat -> option Z) : Prop :=
  has_cdf (q_dist q) batch F /\ bounds_at (q_low q) batch L /\ bounds_at (q_high q) batch H /\
  forall b, inb batch b -> ordered (L b) (H b).

Section Methods.
Context {K : Type} (q : quantized K) (batch : shape) (F : list nat -> R -> R) (L H : list nat -> option Z).
Hypothesis HQ : quantises q batch F L H.
Let Qc b x := cdf_upto (F b) (L b) (H b) (Int_part x).

Lemma floor_reads v S x : wf v -> reads v S (fun i => Fin (x i)) -> wf (tmap xfloor v) /\ reads (tmap xfloor v) S (fun i => Fin (IZR (Int_part (x i)))).
Proof. intros W R. split; [apply tmap_wf, W|]. apply (reads_tmap xfloor v S _ W R). Qed.
Lemma method_generic (f : tensor XR -> result (tensor XR)) (g : list nat -> R -> XR) (fl fh : XR -> XR -> XR -> XR) bl bh v S x :
  computes f batch g -> bounds_at bl batch L -> bounds_at bh batch H ->
  wf v -> bshape (shp v) batch = Some S -> reads v S (fun i => Fin (x i)) ->
  exists r1 r2 r3, f (tmap xfloor v) = Ok r1 /\ if_bound fl bl (tmap xfloor v) r1 = Ok r2 /\ if_bound fh bh (tmap xfloor v) r2 = Ok r3 /\
    holds r3 S (fun idx => let b := bindex batch idx in let y := IZR (Int_part (x idx)) in
      let r := match L b with Some z => fl (Fin y) (Fin (IZR z)) (g b y) | None => g b y end in
      match H b with Some z => fh (Fin y) (Fin (IZR z)) r | None => r end).
Proof.
  intros C BL BH W BS R. destruct (floor_reads v S x W R) as [W' R']. pose proof (bshape_absorb_r _ _ _ BS) as Bb.
  destruct (C (tmap xfloor v) S _ W' BS R') as (r1 & E1 & H1).
  destruct (if_bound_holds fl bl batch L (tmap xfloor v) r1 S _ _ BL Bb R' H1) as (r2 & E2 & H2).
  destruct (if_bound_holds fh bh batch H (tmap xfloor v) r2 S _ _ BH Bb R' H2) as (r3 & E3 & H3).
  exists r1, r2, r3. auto.
Qed.
Lemma params_ok : exists bl bh, quantized_param q (q_low q) = Ok bl /\ quantized_param q (q_high q) = Ok bh /\ bounds_at bl batch L /\ bounds_at bh batch H.
Proof.
  destruct HQ as ((Eb & Ee & _) & BL & BH & _). destruct (bounds_param q _ batch L Eb Ee BL) as (bl & E1 & B1).
  destruct (bounds_param q _ batch H Eb Ee BH) as (bh & E2 & B2). exists bl, bh. auto.
Qed.
Ltac fin_case b x := unfold Qc, cdf_upto; destruct (L b) as [zl|], (H b) as [zh|]; rewrite ?xltb_IZR;
  repeat match goal with |- context [(?a <=? ?c)%Z] => destruct (Z.leb_spec a c) | |- context [(?a <? ?c)%Z] => destruct (Z.ltb_spec a c) end; try lia;
  rewrite ?Rminus_0_r, ?Rminus_eq_0, ?rlog_0, ?(rlog_pos 1), ?ln_1 by lra; try reflexivity.
Lemma q_cdf : computes (quantized_cdf q) batch (fun b x => Fin (Qc b x)).
Proof.
  intros v S x W BS R. destruct params_ok as (bl & bh & E1 & E2 & B1 & B2). destruct HQ as ((_ & _ & _ & C & _) & _).
  destruct (method_generic _ _ (fun y low r => if xltb y low then Fin 0 else r) (fun y high r => if xltb y high then r else Fin 1) bl bh v S x C B1 B2 W BS R)
    as (r1 & r2 & r3 & X1 & X2 & X3 & X4).
  unfold quantized_cdf. rewrite X1. cbn [rbind]. rewrite E1. cbn [rbind]. rewrite X2. cbn [rbind]. rewrite E2. cbn [rbind]. exists r3. split; [exact X3|].
  eapply holds_ext; [exact X4|]. intros idx Hi. cbv beta zeta. set (b := bindex batch idx). fin_case b x.
Qed.
Lemma q_log_cdf : computes (quantized_log_cdf q) batch (fun b x => rlog (Qc b x)).
Proof.
  intros v S x W BS R. destruct params_ok as (bl & bh & E1 & E2 & B1 & B2). destruct HQ as ((_ & _ & _ & _ & C & _) & _).
  destruct (method_generic _ _ (fun y low r => if xltb y low then NInf else r) (fun y high r => if xltb y high then r else Fin 0) bl bh v S x C B1 B2 W BS R)
    as (r1 & r2 & r3 & X1 & X2 & X3 & X4).
  unfold quantized_log_cdf. rewrite X1. cbn [rbind]. rewrite E1. cbn [rbind]. rewrite X2. cbn [rbind]. rewrite E2. cbn [rbind]. exists r3. split; [exact X3|].
  eapply holds_ext; [exact X4|]. intros idx Hi. cbv beta zeta. set (b := bindex batch idx). fin_case b x.
Qed.
Lemma q_survival : computes (quantized_survival q) batch (fun b x => Fin (1 - Qc b x)).
Proof.
  intros v S x W BS R. destruct HQ as ((_ & _ & _ & _ & _ & C & _) & B1 & B2 & _).
  destruct (method_generic _ _ (fun y low r => if xltb y low then Fin 1 else r) (fun y high r => if xltb y high then r else Fin 0) _ _ v S x C B1 B2 W BS R)
    as (r1 & r2 & r3 & X1 & X2 & X3 & X4).
  unfold quantized_survival. rewrite X1. cbn [rbind]. rewrite X2. cbn [rbind]. exists r3. split; [exact X3|].
  eapply holds_ext; [exact X4|]. intros idx Hi. cbv beta zeta. set (b := bindex batch idx). fin_case b x.
Qed.
Lemma q_log_survival : computes (quantized_log_survival q) batch (fun b x => rlog (1 - Qc b x)).
Proof.
  intros v S x W BS R. destruct HQ as ((_ & _ & _ & _ & _ & _ & C) & B1 & B2 & _).
  destruct (method_generic _ _ (fun y low r => if xltb y low then Fin 0 else r) (fun y high r => if xltb y high then r else NInf) _ _ v S x C B1 B2 W BS R)
    as (r1 & r2 & r3 & X1 & X2 & X3 & X4).
  unfold quantized_log_survival. rewrite X1. cbn [rbind]. rewrite X2. cbn [rbind]. exists r3. split; [exact X3|].
  eapply holds_ext; [exact X4|]. intros idx Hi. cbv beta zeta. set (b := bindex batch idx). fin_case b x.
Qed.
End Methods.

(** cdf, log_cdf, survival_function and log_survival_function: the cdf of Y at x is 0 below the lower bound, 1 from the upper
    bound on and the base cdf at floor(x) in between. *)
Theorem C45_cdf : forall K (q : quantized K) batch F L H, quantises q batch F L H ->
  exists G : list nat -> R -> R,
    computes (quantized_cdf q) batch (fun b x => Fin (G b x)) /\
    computes (quantized_log_cdf q) batch (fun b x => rlog (G b x)) /\
    computes (quantized_survival q) batch (fun b x => Fin (1 - G b x)) /\
    computes (quantized_log_survival q) batch (fun b x => rlog (1 - G b x)) /\
    (forall b x k, inb batch b -> is_floor x k ->
       (forall h, H b = Some h -> (h <= k)%Z -> G b x = 1) /\
       (forall l, L b = Some l -> (k < l)%Z -> G b x = 0) /\
       ((forall h, H b = Some h -> (k < h)%Z) -> (forall l, L b = Some l -> (l <= k)%Z) -> G b x = F b (IZR k))).
Proof.
  intros K q batch F L H HQ. exists (fun b x => cdf_upto (F b) (L b) (H b) (Int_part x)).
  split; [apply q_cdf, HQ|]. split; [apply q_log_cdf, HQ|]. split; [apply q_survival, HQ|]. split; [apply q_log_survival, HQ|].
  intros b x k Hb Hk. apply Int_part_unique in Hk as ->. destruct HQ as (_ & _ & _ & HO). specialize (HO b Hb). unfold cdf_upto.
  destruct (L b) as [l|], (H b) as [h|]; cbn in HO; (split; [|split]); intros;
    repeat match goal with E : Some _ = Some _ |- _ => injection E as <- | E : None = Some _ |- _ => discriminate E
      | E : forall h0, Some ?h = Some h0 -> _ |- _ => specialize (E h eq_refl) end;
    repeat match goal with |- context [(?a <=? ?c)%Z] => destruct (Z.leb_spec a c) | |- context [(?a <? ?c)%Z] => destruct (Z.ltb_spec a c) end; lia || reflexivity.
Qed.
Print Assumptions C45_cdf.

(** prob and log_prob, for every real value. *)
Theorem C45_prob : forall K (q : quantized K) batch F L H, quantises q batch F L H ->
  computes (quantized_prob q) batch (fun b x => Fin (pmf (F b) (L b) (H b) x)) /\
  (q_eps q = None -> computes (quantized_log_prob q) batch (fun b x => rlog (pmf (F b) (L b) (H b) x))).
Proof.
  intros K q batch F L H HQ.
  assert (HM : forall v S x, wf v -> reads v S (fun i => Fin (x i)) -> wf (minus_one v) /\ reads (minus_one v) S (fun i => Fin (x i - 1))).
  { intros v S x W R. split; [apply tmap_wf, W|]. apply (reads_tmap (fun v => xsub v (Fin 1)) v S _ W R). }
  assert (INT : forall x, (if xltb (xfloor (Fin x)) (Fin x) then true else false) = (if Req_EM_T (IZR (Int_part x)) x then false else true)).
  { intros x. cbn. unfold rfloor, xltb. pose proof (Int_part_spec x). destruct Rlt_dec, Req_EM_T; try reflexivity; lra. }
  assert (HQF := HQ). destruct HQF as ((_ & _ & CF & _) & _ & _ & HO).
  split.
  - intros v S x W BS R. destruct (HM v S x W R) as [W1 R1]. pose proof (bshape_absorb_r _ _ _ BS) as Bb.
    destruct (q_cdf q batch F L H HQ v S x W BS R) as (c & Ec & Hc). destruct (q_cdf q batch F L H HQ (minus_one v) S _ W1 BS R1) as (c1 & Ec1 & Hc1).
    destruct (q_survival q batch F L H HQ v S x W BS R) as (s & Es & Hs). destruct (q_survival q batch F L H HQ (minus_one v) S _ W1 BS R1) as (s1 & Es1 & Hs1).
    unfold quantized_prob. rewrite Ec. cbn [rbind]. rewrite Ec1. cbn [rbind]. rewrite Es. cbn [rbind]. rewrite Es1. cbn [rbind].
    destruct (lift2_holds xsub s1 s S _ _ (holds_reads _ _ _ Hs1) (holds_reads _ _ _ Hs) ltac:(left; apply Hs1)) as (up & Eu & Hu). rewrite Eu. cbn [rbind].
    destruct (lift2_holds xsub c c1 S _ _ (holds_reads _ _ _ Hc) (holds_reads _ _ _ Hc1) ltac:(left; apply Hc)) as (lw & El & Hl). rewrite El. cbn [rbind].
    destruct (lift4_holds by_tail s c up lw S _ _ _ _ (holds_reads _ _ _ Hs) (holds_reads _ _ _ Hc) (holds_reads _ _ _ Hu) (holds_reads _ _ _ Hl) ltac:(left; apply Hs)) as (p & Ep & Hp).
    rewrite Ep. cbn [rbind].
    destruct (lift2_holds (fun v p => if xltb (xfloor v) v then Fin 0 else p) v p S _ _ R (holds_reads _ _ _ Hp) ltac:(right; apply Hp)) as (r & Er & Hr).
    exists r. split; [exact Er|]. eapply holds_ext; [exact Hr|]. intros idx Hi. cbv beta. set (b := bindex batch idx).
    assert (Hb : inb batch b) by (eapply bindex_inb; eauto). specialize (INT (x idx)). unfold pmf.
    destruct (xltb (xfloor (Fin (x idx))) (Fin (x idx))), (Req_EM_T (IZR (Int_part (x idx))) (x idx)); try discriminate; [reflexivity|].
    rewrite Int_part_minus_1. rewrite <- Q_diff by (auto; apply HO; auto). unfold by_tail.
    destruct xltb; cbn; f_equal; ring.
  - intros EP v S x W BS R. destruct (HM v S x W R) as [W1 R1]. pose proof (bshape_absorb_r _ _ _ BS) as Bb.
    destruct (q_log_cdf q batch F L H HQ v S x W BS R) as (c & Ec & Hc). destruct (q_log_cdf q batch F L H HQ (minus_one v) S _ W1 BS R1) as (c1 & Ec1 & Hc1).
    destruct (q_log_survival q batch F L H HQ v S x W BS R) as (s & Es & Hs). destruct (q_log_survival q batch F L H HQ (minus_one v) S _ W1 BS R1) as (s1 & Es1 & Hs1).
    unfold quantized_log_prob. rewrite Ec. cbn [rbind]. rewrite Ec1. cbn [rbind]. rewrite Es. cbn [rbind]. rewrite Es1. cbn [rbind].
    pose proof (holds_reads _ _ _ Hc) as Rc. pose proof (holds_reads _ _ _ Hc1) as Rc1. pose proof (holds_reads _ _ _ Hs) as Rs. pose proof (holds_reads _ _ _ Hs1) as Rs1.
    destruct (lift4_holds by_tail s c s1 c S _ _ _ _ Rs Rc Rs1 Rc ltac:(left; apply Hs)) as (bg & Eg & Hg). rewrite Eg. cbn [rbind].
    destruct (lift4_holds by_tail s c s c1 S _ _ _ _ Rs Rc Rs Rc1 ltac:(left; apply Hs)) as (sm & Em & Hm). rewrite Em. cbn [rbind]. rewrite EP. cbn [rbind].
    destruct (lift2_holds log_expbig_minus_expsmall bg sm S _ _ (holds_reads _ _ _ Hg) (holds_reads _ _ _ Hm) ltac:(left; apply Hg)) as (p & Ep & Hp). rewrite Ep. cbn [rbind].
    destruct (lift2_holds (fun v lp => if xltb (xfloor v) v then NInf else lp) v p S _ _ R (holds_reads _ _ _ Hp) ltac:(right; apply Hp)) as (p2 & Ep2 & Hp2). rewrite Ep2. cbn [rbind].
    destruct (lift3_holds (fun lc lsm1 lp => if xisinf lc || xisinf lsm1 then NInf else lp) c s1 p2 S _ _ _ Rc Rs1 (holds_reads _ _ _ Hp2) ltac:(left; apply Hc)) as (r & Er & Hr).
    exists r. split; [exact Er|]. eapply holds_ext; [exact Hr|]. intros idx Hi. cbv beta. set (b := bindex batch idx).
    assert (Hb : inb batch b) by (eapply bindex_inb; eauto). specialize (INT (x idx)). unfold pmf.
    rewrite Int_part_minus_1. rewrite <- Q_diff by (auto; apply HO; auto).
    pose proof (Q_range (F b) (L b) (H b) (CF b Hb) (HO b Hb) (Int_part (x idx))) as R0. pose proof (Q_range (F b) (L b) (H b) (CF b Hb) (HO b Hb) (Int_part (x idx) - 1)) as R2.
    pose proof (Q_step (F b) (L b) (H b) (CF b Hb) (HO b Hb) (Int_part (x idx))) as R3.
    set (u := cdf_upto (F b) (L b) (H b) (Int_part (x idx))) in *. set (w := cdf_upto (F b) (L b) (H b) (Int_part (x idx) - 1)) in *.
    pose proof (xisinf_rlog u ltac:(lra)) as IU. assert (IW : xisinf (rlog (1 - w)) = true <-> w = 1) by (rewrite xisinf_rlog by lra; lra).
    destruct (xisinf (rlog u)) eqn:E1.
    { destruct IU as [IU _]. specialize (IU eq_refl). cbn [orb]. destruct (Req_EM_T (IZR (Int_part (x idx))) (x idx)); [|rewrite rlog_0; reflexivity].
      replace (u - w) with 0 by lra. rewrite rlog_0. reflexivity. }
    destruct (xisinf (rlog (1 - w))) eqn:E2.
    { destruct IW as [IW _]. specialize (IW eq_refl). cbn [orb]. destruct (Req_EM_T (IZR (Int_part (x idx))) (x idx)); [|rewrite rlog_0; reflexivity].
      replace (u - w) with 0 by lra. rewrite rlog_0. reflexivity. }
    cbn [orb]. destruct (xltb (xfloor (Fin (x idx))) (Fin (x idx))), (Req_EM_T (IZR (Int_part (x idx))) (x idx)); try discriminate; [rewrite rlog_0; reflexivity|].
    assert (u <> 0) by (intros X; apply IU in X; discriminate). assert (w <> 1) by (intros X; apply IW in X; discriminate).
    apply log_diff; lra.
Qed.
Print Assumptions C45_prob.

(** The probabilities: non-negative, given by the cdf of the base, zero off the integers in range, and they sum to one. *)
Theorem C45_pmf : forall F L H, is_cdf F -> ordered L H ->
  (forall x, 0 <= pmf F L H x) /\
  (forall k, in_bounds L H k -> pmf F L H (IZR k) = mass_at F L H k) /\
  (forall k, ~ in_bounds L H k -> pmf F L H (IZR k) = 0) /\
  (forall x, (forall k, x <> IZR k) -> pmf F L H x = 0).
Proof.
  intros F L H CF LH. assert (IB : forall k, in_boundsb L H k = true <-> in_bounds L H k).
  { intros k. unfold in_boundsb, in_bounds. rewrite andb_true_iff. destruct L, H; rewrite ?Z.leb_le; tauto. }
  assert (PI : forall k, pmf F L H (IZR k) = if in_boundsb L H k then mass_at F L H k else 0).
  { intros k. unfold pmf. rewrite Int_part_IZR. destruct Req_EM_T; [reflexivity|congruence]. }
  split; [apply pmf_nonneg; auto|]. split; [|split].
  - intros k Hk. apply IB in Hk. rewrite PI, Hk. reflexivity.
  - intros k Hk. rewrite PI. destruct (in_boundsb L H k) eqn:E; [apply IB in E; contradiction|reflexivity].
  - intros x Hx. unfold pmf. destruct Req_EM_T as [e|]; [|reflexivity]. exfalso. apply (Hx (Int_part x)). auto.
Qed.
Print Assumptions C45_pmf.
(** ... with both bounds: the sum over the integers from l to h is one *)
Theorem C45_total : forall F l h, is_cdf F -> (l <= h)%Z ->
  sumf (fun i => pmf F (Some l) (Some h) (IZR (l + Z.of_nat i))) (seq 0 (Z.to_nat (h - l + 1))) = 1.
Proof.
  intros F l h CF Hlh. rewrite pmf_sum by auto. unfold cdf_upto. rewrite Z2Nat.id by lia.
  destruct (Z.leb_spec h (l + (h - l + 1) - 1)); [|lia]. destruct (Z.leb_spec h (l - 1)); [lia|]. destruct (Z.ltb_spec (l - 1) l); [lra|lia].
Qed.
Print Assumptions C45_total.
(** ... with one bound or none: the sums over -n .. n tend to one, when the base cdf has limits 0 and 1 *)
Theorem C45_total_limit : forall F L H, is_cdf F -> ordered L H -> is_lim F m_infty 0 -> is_lim F p_infty 1 ->
  is_lim_seq (fun n => sumf (fun i => pmf F L H (IZR (- Z.of_nat n + Z.of_nat i))) (seq 0 (2 * n + 1))) 1.
Proof.
  intros F L H CF LH L0 L1.
  apply (is_lim_seq_ext (fun n => cdf_upto F L H (Z.of_nat n) - cdf_upto F L H (- Z.of_nat n - 1))).
  { intros n. rewrite pmf_sum by auto. f_equal. f_equal. lia. }
  replace (Finite 1) with (Rbar_minus 1 0) by (cbn; f_equal; ring). apply is_lim_seq_minus' .
  - (* upper *)
    destruct H as [h|].
    + apply (is_lim_seq_ext_loc (fun _ => 1)); [|apply is_lim_seq_const]. exists (Z.to_nat h). intros n Hn. unfold cdf_upto.
      destruct (Z.leb_spec h (Z.of_nat n)); [reflexivity|lia].
    + apply (is_lim_seq_ext_loc (fun n => F (INR n))).
      { destruct L as [l|]; [exists (Z.to_nat l)|exists O]; intros n Hn; unfold cdf_upto; [destruct (Z.ltb_spec (Z.of_nat n) l); [lia|]|]; rewrite INR_IZR_INZ; reflexivity. }
      apply (is_lim_comp_seq F INR p_infty 1 L1); [exists O; intros; discriminate|apply is_lim_seq_INR].
  - destruct L as [l|].
    + destruct H as [h|]; apply (is_lim_seq_ext_loc (fun _ => 0)); try apply is_lim_seq_const.
      * exists (Z.to_nat (Z.max (- l) (- h))). intros n Hn. unfold cdf_upto. destruct (Z.leb_spec h (- Z.of_nat n - 1)); [lia|]. destruct (Z.ltb_spec (- Z.of_nat n - 1) l); [reflexivity|lia].
      * exists (Z.to_nat (- l)). intros n Hn. unfold cdf_upto. destruct (Z.ltb_spec (- Z.of_nat n - 1) l); [reflexivity|lia].
    + apply (is_lim_seq_ext_loc (fun n => F (- INR n - 1))).
      { destruct H as [h|]; [exists (Z.to_nat (- h))|exists O]; intros n Hn; unfold cdf_upto; [destruct (Z.leb_spec h (- Z.of_nat n - 1)); [lia|]|];
          rewrite minus_IZR, opp_IZR, <- INR_IZR_INZ; reflexivity. }
      apply (is_lim_comp_seq F (fun n => - INR n - 1) m_infty 0 L0); [exists O; intros; discriminate|].
      apply (is_lim_seq_minus _ _ m_infty 1); [apply (is_lim_seq_opp _ p_infty), is_lim_seq_INR|apply is_lim_seq_const|reflexivity].
Qed.
Print Assumptions C45_total_limit.

(** Samples: the ceiling of the base draw moved into the bounds; and the event [Y <= v], for the sample Y of the draw X, is the
    event whose probability cdf reports. *)
Lemma tl_index n batch idx : inb (n :: batch) idx -> bindex batch idx = tl idx /\ inb batch (tl idx).
Proof. destruct idx as [|i b]; intros Hi; [inversion Hi|]. apply inb_cons in Hi as [_ Hb]. split; [apply bindex_lead; auto|auto]. Qed.
Theorem C45_sample : forall K (q : quantized K) batch F L H key n x, quantises q batch F L H -> draws (q_dist q) key n batch x ->
  exists r c, quantized_sample_n q key n = Ok r /\
    (forall idx, inb (n :: batch) idx -> is_ceiling (x idx) (c idx)) /\
    holds r (n :: batch) (fun idx => Fin (IZR (clamp (L (tl idx)) (H (tl idx)) (c idx)))) /\
    (forall idx, inb (n :: batch) idx -> in_bounds (L (tl idx)) (H (tl idx)) (clamp (L (tl idx)) (H (tl idx)) (c idx))).
Proof.
  intros K q batch F L H key n x HQ (raw & Er & Hr). pose proof (bshape_lead n batch) as Bb.
  destruct (params_ok q batch F L H HQ) as (bl & bh & E1 & E2 & B1 & B2).
  set (c := fun idx => (- Int_part (- x idx))%Z).
  assert (HC : forall idx, is_ceiling (x idx) (c idx)).
  { intros idx. unfold is_ceiling, c. rewrite opp_IZR. pose proof (Int_part_spec (- x idx)). lra. }
  assert (H0 : holds (tmap xceil raw) (n :: batch) (fun idx => Fin (IZR (c idx)))).
  { eapply holds_ext; [apply holds_tmap, Hr|]. intros idx _. apply xceil_eq, HC. }
  unfold quantized_sample_n. rewrite Er. cbn [rbind]. rewrite E1. cbn [rbind].
  destruct (if_bound_holds (fun s low _ => if xltb s low then low else s) bl batch L _ _ (n :: batch) _ _ B1 Bb (holds_reads _ _ _ H0) H0) as (r1 & R1 & H1).
  rewrite R1. cbn [rbind]. rewrite E2. cbn [rbind].
  destruct (if_bound_holds (fun s high _ => if xltb high s then high else s) bh batch H _ _ (n :: batch) _ _ B2 Bb (holds_reads _ _ _ H1) H1) as (r2 & R2 & H2).
  exists r2, c. split; [exact R2|]. split; [intros; apply HC|]. split.
  - eapply holds_ext; [exact H2|]. intros idx Hi. cbv beta. destruct (tl_index n batch idx Hi) as [-> Hb]. unfold clamp.
    assert (M : forall l z, (if xltb (Fin (IZR z)) (Fin (IZR l)) then Fin (IZR l) else Fin (IZR z)) = Fin (IZR (Z.max l z))).
    { intros l z. rewrite xltb_IZR. destruct (Z.ltb_spec z l); do 2 f_equal; lia. }
    assert (M' : forall h z, (if xltb (Fin (IZR h)) (Fin (IZR z)) then Fin (IZR h) else Fin (IZR z)) = Fin (IZR (Z.min h z))).
    { intros h z. rewrite xltb_IZR. destruct (Z.ltb_spec h z); do 2 f_equal; lia. }
    destruct (L (tl idx)) as [l|], (H (tl idx)) as [h|]; rewrite ?M, ?M'; reflexivity.
  - intros idx Hi. destruct (tl_index n batch idx Hi) as [_ Hb]. destruct HQ as (_ & _ & _ & HO). specialize (HO _ Hb).
    unfold in_bounds, clamp. destruct (L (tl idx)), (H (tl idx)); cbn in HO; lia.
Qed.
Print Assumptions C45_sample.
Theorem C45_cdf_event : forall L H X c v k, is_ceiling X c -> is_floor v k -> ordered L H ->
  IZR (clamp L H c) <= v <->
  (match H with Some h => IZR h <= v | None => False end \/
   (match L with Some l => IZR l <= v | None => True end /\ X <= IZR k)).
Proof.
  intros L H X c v k HX HV HO.
  assert (E : forall z, IZR z <= v <-> (z <= k)%Z).
  { intros z. unfold is_floor in HV. split; intros A.
    - assert (IZR z < IZR (k + 1)) as B by (rewrite plus_IZR; lra). apply lt_IZR in B. lia.
    - apply IZR_le in A. lra. }
  assert (E' : X <= IZR k <-> (c <= k)%Z).
  { unfold is_ceiling in HX. split; intros A.
    - assert (IZR c < IZR (k + 1)) as B by (rewrite plus_IZR; lra). apply lt_IZR in B. lia.
    - apply IZR_le in A. lra. }
  unfold clamp. destruct L as [l|], H as [h|]; cbn in HO; rewrite ?E, ?E'; lia.
Qed.
Print Assumptions C45_cdf_event.

(** sample_and_log_prob agrees with sample and log_prob, without eps and unless a value of probability zero was drawn *)
Theorem C30_quantized : forall K (q : quantized K) batch F L H key n x, quantises q batch F L H -> draws (q_dist q) key n batch x ->
  q_eps q = None ->
  (forall idx c, inb (n :: batch) idx -> is_ceiling (x idx) c -> 0 < pmf (F (tl idx)) (L (tl idx)) (H (tl idx)) (IZR (clamp (L (tl idx)) (H (tl idx)) c))) ->
  salp_consistent (quantized_sample_n_and_log_prob q key n) (quantized_sample_n q key n) (quantized_log_prob q) (n :: batch).
Proof.
  intros K q batch F L H key n x HQ HD EP POS. pose proof (bshape_lead n batch) as Bb.
  destruct (C45_sample K q batch F L H key n x HQ HD) as (r & c & Er & HC & Hr & HI).
  set (k := fun idx => clamp (L (tl idx)) (H (tl idx)) (c idx)) in *.
  pose proof Hr as (Wr & Sr & _). pose proof (holds_reads _ _ _ Hr) as Rr.
  assert (BS : bshape (shp r) batch = Some (n :: batch)) by (rewrite Sr, bshape_comm; apply Bb).
  destruct (proj2 (C45_prob K q batch F L H HQ) EP r (n :: batch) _ Wr BS Rr) as (lp & El & Hl).
  destruct (params_ok q batch F L H HQ) as (bl & bh & E1 & E2 & B1 & B2).
  destruct (HQ) as ((_ & _ & CF & _ & C1 & _ & C2) & _ & _ & HO).
  assert (W1 : wf (minus_one r)) by (apply tmap_wf, Wr).
  assert (R1 : reads (minus_one r) (n :: batch) (fun i => Fin (IZR (k i) - 1))) by (apply (reads_tmap (fun v => xsub v (Fin 1)) r _ _ Wr Rr)).
  exists r, lp. split; [|repeat split; auto; apply Hl].
  unfold quantized_sample_n_and_log_prob. rewrite Er. cbn [rbind].
  destruct (C1 r _ _ Wr BS Rr) as (t1 & T1 & H1). rewrite T1. cbn [rbind].
  destruct (C1 (minus_one r) _ _ W1 BS R1) as (t2 & T2 & H2). rewrite T2. cbn [rbind].
  destruct (C2 r _ _ Wr BS Rr) as (t3 & T3 & H3). rewrite T3. cbn [rbind].
  destruct (C2 (minus_one r) _ _ W1 BS R1) as (t4 & T4 & H4). rewrite T4. cbn [rbind]. rewrite E2. cbn [rbind].
  destruct (if_bound_holds (fun s high r => if xltb s high then r else Fin 0) bh batch H _ _ _ _ _ B2 Bb Rr H1) as (u1 & U1 & G1). rewrite U1. cbn [rbind].
  destruct (if_bound_holds (fun s high r => if xltb s high then r else NInf) bh batch H _ _ _ _ _ B2 Bb Rr H3) as (u3 & U3 & G3). rewrite U3. cbn [rbind]. rewrite E1. cbn [rbind].
  destruct (if_bound_holds (fun s1 low r => if xltb s1 low then NInf else r) bl batch L _ _ _ _ _ B1 Bb R1 H2) as (u2 & U2 & G2). rewrite U2. cbn [rbind].
  destruct (if_bound_holds (fun s1 low r => if xltb s1 low then Fin 0 else r) bl batch L _ _ _ _ _ B1 Bb R1 H4) as (u4 & U4 & G4). rewrite U4. cbn [rbind].
  assert (Q1 : holds u1 (n :: batch) (fun idx => rlog (cdf_upto (F (tl idx)) (L (tl idx)) (H (tl idx)) (k idx)))).
  { eapply holds_ext; [exact G1|]. intros idx Hi. cbv beta. destruct (tl_index n batch idx Hi) as [-> Hb]. specialize (HI idx Hi). fold (k idx) in HI. fold (k idx). revert HI.
    unfold cdf_upto, in_bounds. destruct (L (tl idx)), (H (tl idx)); rewrite ?xltb_IZR;
    repeat match goal with |- context [(?a <=? ?c)%Z] => destruct (Z.leb_spec a c) | |- context [(?a <? ?c)%Z] => destruct (Z.ltb_spec a c) end; intros HI; try lia; try reflexivity;
      rewrite rlog_pos, ln_1 by lra; reflexivity. }
  assert (Q3 : holds u3 (n :: batch) (fun idx => rlog (1 - cdf_upto (F (tl idx)) (L (tl idx)) (H (tl idx)) (k idx)))).
  { eapply holds_ext; [exact G3|]. intros idx Hi. cbv beta. destruct (tl_index n batch idx Hi) as [-> Hb]. specialize (HI idx Hi). fold (k idx) in HI. fold (k idx). revert HI.
    unfold cdf_upto, in_bounds. destruct (L (tl idx)), (H (tl idx)); rewrite ?xltb_IZR;
    repeat match goal with |- context [(?a <=? ?c)%Z] => destruct (Z.leb_spec a c) | |- context [(?a <? ?c)%Z] => destruct (Z.ltb_spec a c) end; intros HI; try lia; try reflexivity;
      rewrite Rminus_eq_0, rlog_0; reflexivity. }
  assert (K1 : forall idx, IZR (k idx) - 1 = IZR (k idx - 1)) by (intros; rewrite minus_IZR; reflexivity).
  assert (Q2 : holds u2 (n :: batch) (fun idx => rlog (cdf_upto (F (tl idx)) (L (tl idx)) (H (tl idx)) (k idx - 1)))).
  { eapply holds_ext; [exact G2|]. intros idx Hi. cbv beta. destruct (tl_index n batch idx Hi) as [-> Hb]. specialize (HI idx Hi). fold (k idx) in HI. fold (k idx). rewrite K1. revert HI.
    unfold cdf_upto, in_bounds. destruct (L (tl idx)), (H (tl idx)); rewrite ?xltb_IZR;
    repeat match goal with |- context [(?a <=? ?c)%Z] => destruct (Z.leb_spec a c) | |- context [(?a <? ?c)%Z] => destruct (Z.ltb_spec a c) end; intros HI; try lia; try reflexivity;
      rewrite rlog_0; reflexivity. }
  assert (Q4 : holds u4 (n :: batch) (fun idx => rlog (1 - cdf_upto (F (tl idx)) (L (tl idx)) (H (tl idx)) (k idx - 1)))).
  { eapply holds_ext; [exact G4|]. intros idx Hi. cbv beta. destruct (tl_index n batch idx Hi) as [-> Hb]. specialize (HI idx Hi). fold (k idx) in HI. fold (k idx). rewrite K1. revert HI.
    unfold cdf_upto, in_bounds. destruct (L (tl idx)), (H (tl idx)); rewrite ?xltb_IZR;
    repeat match goal with |- context [(?a <=? ?c)%Z] => destruct (Z.leb_spec a c) | |- context [(?a <? ?c)%Z] => destruct (Z.ltb_spec a c) end; intros HI; try lia; try reflexivity;
      rewrite Rminus_0_r, rlog_pos, ln_1 by lra; reflexivity. }
  pose proof (holds_reads _ _ _ Q1) as P1. pose proof (holds_reads _ _ _ Q2) as P2. pose proof (holds_reads _ _ _ Q3) as P3. pose proof (holds_reads _ _ _ Q4) as P4.
  destruct (lift4_holds by_tail u3 u1 u4 u1 _ _ _ _ _ P3 P1 P4 P1 ltac:(left; apply Q3)) as (bg & Eg & Hg). rewrite Eg. cbn [rbind].
  destruct (lift4_holds by_tail u3 u1 u3 u2 _ _ _ _ _ P3 P1 P3 P2 ltac:(left; apply Q3)) as (sm & Em & Hm). rewrite Em. cbn [rbind].
  destruct (lift2_holds log_expbig_minus_expsmall bg sm _ _ _ (holds_reads _ _ _ Hg) (holds_reads _ _ _ Hm) ltac:(left; apply Hg)) as (p & Ep & Hp). rewrite Ep. cbn [rbind].
  do 2 f_equal. eapply holds_eq; [exact Hp|]. eapply holds_ext; [exact Hl|]. intros idx Hi. cbv beta. destruct (tl_index n batch idx Hi) as [-> Hb].
  pose proof (POS idx (c idx) Hi (HC idx Hi)) as PP. fold (k idx) in PP. rewrite pmf_int in PP |- * by (auto; apply HO, Hb).
  pose proof (Q_range (F (tl idx)) (L (tl idx)) (H (tl idx)) (CF _ Hb) (HO _ Hb) (k idx)). pose proof (Q_range (F (tl idx)) (L (tl idx)) (H (tl idx)) (CF _ Hb) (HO _ Hb) (k idx - 1)).
  symmetry. fold (k idx). apply log_diff; lra.
Qed.
Print Assumptions C30_quantized.
(** ** C46: eps *)
(** log_prob with eps: minus infinity off the integers and outside the support of Y, else the log of the guarded difference *)
Theorem C46_log_prob : forall K (q : quantized K) batch F L H e, quantises q batch F L H -> q_eps q = Some (Fin e) -> 0 < e ->
  computes (quantized_log_prob q) batch (fun b x => let k := Int_part x in
    let u := cdf_upto (F b) (L b) (H b) k in let w := cdf_upto (F b) (L b) (H b) (k - 1) in
    if Req_EM_T (IZR k) x then if Req_EM_T u 0 then NInf else if Req_EM_T w 1 then NInf else rlog (guarded_mass e u w) else NInf).
Proof.
  intros K q batch F L H e HQ EP He.
  assert (HM : forall v S x, wf v -> reads v S (fun i => Fin (x i)) -> wf (minus_one v) /\ reads (minus_one v) S (fun i => Fin (x i - 1))).
  { intros v S x W R. split; [apply tmap_wf, W|]. apply (reads_tmap (fun v => xsub v (Fin 1)) v S _ W R). }
  assert (INT : forall x, (if xltb (xfloor (Fin x)) (Fin x) then true else false) = (if Req_EM_T (IZR (Int_part x)) x then false else true)).
  { intros x. cbn. unfold rfloor, xltb. pose proof (Int_part_spec x). destruct Rlt_dec, Req_EM_T; try reflexivity; lra. }
  assert (HQF := HQ). destruct HQF as ((_ & _ & CF & _) & _ & _ & HO).
  intros v S x W BS R. destruct (HM v S x W R) as [W1 R1]. pose proof (bshape_absorb_r _ _ _ BS) as Bb.
  destruct (q_log_cdf q batch F L H HQ v S x W BS R) as (c & Ec & Hc). destruct (q_log_cdf q batch F L H HQ (minus_one v) S _ W1 BS R1) as (c1 & Ec1 & Hc1).
  destruct (q_log_survival q batch F L H HQ v S x W BS R) as (s & Es & Hs). destruct (q_log_survival q batch F L H HQ (minus_one v) S _ W1 BS R1) as (s1 & Es1 & Hs1).
  unfold quantized_log_prob. rewrite Ec. cbn [rbind]. rewrite Ec1. cbn [rbind]. rewrite Es. cbn [rbind]. rewrite Es1. cbn [rbind].
  pose proof (holds_reads _ _ _ Hc) as Rc. pose proof (holds_reads _ _ _ Hc1) as Rc1. pose proof (holds_reads _ _ _ Hs) as Rs. pose proof (holds_reads _ _ _ Hs1) as Rs1.
  destruct (lift4_holds by_tail s c s1 c S _ _ _ _ Rs Rc Rs1 Rc ltac:(left; apply Hs)) as (bg & Eg & Hg). rewrite Eg. cbn [rbind].
  destruct (lift4_holds by_tail s c s c1 S _ _ _ _ Rs Rc Rs Rc1 ltac:(left; apply Hs)) as (sm & Em & Hm). rewrite Em. cbn [rbind]. rewrite EP.
  destruct (lift2_holds (fun big small => if xltb (Fin e) (xsub big small) then big else xadd small (Fin e)) bg sm S _ _ (holds_reads _ _ _ Hg) (holds_reads _ _ _ Hm) ltac:(left; apply Hg)) as (bg' & Eg' & Hg'). rewrite Eg'. cbn [rbind].
  destruct (lift2_holds log_expbig_minus_expsmall bg' sm S _ _ (holds_reads _ _ _ Hg') (holds_reads _ _ _ Hm) ltac:(left; apply Hg')) as (p & Ep & Hp). rewrite Ep. cbn [rbind].
  destruct (lift2_holds (fun v lp => if xltb (xfloor v) v then NInf else lp) v p S _ _ R (holds_reads _ _ _ Hp) ltac:(right; apply Hp)) as (p2 & Ep2 & Hp2). rewrite Ep2. cbn [rbind].
  destruct (lift3_holds (fun lc lsm1 lp => if xisinf lc || xisinf lsm1 then NInf else lp) c s1 p2 S _ _ _ Rc Rs1 (holds_reads _ _ _ Hp2) ltac:(left; apply Hc)) as (r & Er & Hr).
  exists r. split; [exact Er|]. eapply holds_ext; [exact Hr|]. intros idx Hi. cbv beta zeta. set (b := bindex batch idx).
  assert (Hb : inb batch b) by (eapply bindex_inb; eauto). specialize (INT (x idx)).
  rewrite Int_part_minus_1.
  pose proof (Q_range (F b) (L b) (H b) (CF b Hb) (HO b Hb) (Int_part (x idx))) as R0. pose proof (Q_range (F b) (L b) (H b) (CF b Hb) (HO b Hb) (Int_part (x idx) - 1)) as R2.
  pose proof (Q_step (F b) (L b) (H b) (CF b Hb) (HO b Hb) (Int_part (x idx))) as R3.
  set (u := cdf_upto (F b) (L b) (H b) (Int_part (x idx))) in *. set (w := cdf_upto (F b) (L b) (H b) (Int_part (x idx) - 1)) in *.
  pose proof (xisinf_rlog u ltac:(lra)) as IU. assert (IW : xisinf (rlog (1 - w)) = true <-> w = 1) by (rewrite xisinf_rlog by lra; lra).
  destruct (xisinf (rlog u)) eqn:E1.
  { destruct IU as [IU _]. specialize (IU eq_refl). cbn [orb]. destruct (Req_EM_T (IZR (Int_part (x idx))) (x idx)); [|reflexivity].
    destruct (Req_EM_T u 0); [reflexivity|contradiction]. }
  destruct (xisinf (rlog (1 - w))) eqn:E2.
  { destruct IW as [IW _]. specialize (IW eq_refl). cbn [orb]. destruct (Req_EM_T (IZR (Int_part (x idx))) (x idx)); [|reflexivity].
    destruct (Req_EM_T u 0); [reflexivity|]. destruct (Req_EM_T w 1); [reflexivity|contradiction]. }
  cbn [orb]. destruct (xltb (xfloor (Fin (x idx))) (Fin (x idx))), (Req_EM_T (IZR (Int_part (x idx))) (x idx)); try discriminate; [reflexivity|].
  assert (u <> 0) by (intros X; apply IU in X; discriminate). assert (w <> 1) by (intros X; apply IW in X; discriminate).
  destruct (Req_EM_T u 0); [contradiction|]. destruct (Req_EM_T w 1); [contradiction|].
  unfold by_tail, guarded_mass. assert (XT : xltb (rlog (1 - u)) (rlog u) = if Rlt_dec (1 - u) u then true else false).
  { rewrite (rlog_pos u) by lra. destruct (Req_dec u 1) as [-> | U1].
    - rewrite Rminus_eq_0, rlog_0. cbn. destruct Rlt_dec; [reflexivity|lra].
    - rewrite rlog_pos by lra. unfold xltb. destruct (Rlt_dec (1 - u) u) as [A|A].
      + apply ln_increasing in A; [|lra]. destruct Rlt_dec; [reflexivity|lra].
      + destruct Rlt_dec as [B|]; [|reflexivity]. apply ln_lt_inv in B; lra. }
  rewrite XT. destruct (Rlt_dec (1 - u) u); apply log_sub_eps; lra.
Qed.
Print Assumptions C46_log_prob.
(** the guard only increases the probability, and changes nothing when the two terms are at least a factor e^e apart *)
Theorem C46_guard : forall e u w, 0 < e -> 0 <= w <= u -> u <= 1 ->
  u - w <= guarded_mass e u w /\
  (w * exp e <= u -> u <= 1 - u -> guarded_mass e u w = u - w) /\
  ((1 - u) * exp e <= 1 - w -> 1 - u < u -> guarded_mass e u w = u - w).
Proof.
  intros e u w He Hw Hu. unfold guarded_mass. destruct Rlt_dec; (split; [|split]); intros; try lra.
  - pose proof (Rmax_l (1 - w) ((1 - u) * exp e)). lra.
  - rewrite Rmax_left by lra. ring.
  - pose proof (Rmax_l u (w * exp e)). lra.
  - rewrite Rmax_left by lra. ring.
Qed.
Print Assumptions C46_guard.
(** sample_and_log_prob is that of the same distribution without eps *)
Definition without_eps {K} (q : quantized K) : quantized K := mkQuantized (q_dist q) (q_low q) (q_high q) None.
Theorem C46_sample_and_log_prob : forall K (q : quantized K) key n,
  quantized_sample_n q key n = quantized_sample_n (without_eps q) key n /\
  quantized_sample_n_and_log_prob q key n = quantized_sample_n_and_log_prob (without_eps q) key n.
Proof. intros. split; reflexivity. Qed.
Print Assumptions C46_sample_and_log_prob.
(** Slicing commutes with everything else, but the result has no eps. *)
Lemma slice_bound {K} (rnd : XR -> XR) (q : quantized K) (d' : udist K) b batch L ix ixs rs src :
  (forall z, rnd (Fin (IZR z)) = Fin (IZR z)) -> u_batch (q_dist q) = batch -> u_event (q_dist q) = [] -> u_batch d' = rs -> bounds_at b batch L ->
  batch <> [] -> np_index batch ix = Ok (rs, src) -> to_batch_shape_index batch ix = Ok ixs ->
  exists b1 b2, quantized_param q b = Ok b1 /\ quantized_bound rnd d' (option_map (fun b => adv_getitem (Fin 0) b ixs) b1) = Ok b2 /\
    bounds_at b2 rs (fun r => L (src r)).
Proof.
  intros HR Eb Ee Ed HB Hne En Ei. pose proof (np_index_spec _ _ _ _ En) as HA.
  assert (HI : forall r, inb rs r -> inb batch (src r)) by (intros r Hr; apply (addresses_inb _ _ _ _ _ (HA r Hr))).
  destruct b as [t|]; cbn [quantized_param].
  2:{ exists None, None. split; [reflexivity|]. split; [reflexivity|]. cbn in HB |- *. intros r Hr. apply HB, HI, Hr. }
  unfold quantized_batch_shape, quantized_event_shape. rewrite Eb, Ee, app_nil_r. destruct HB as [B H].
  destruct (broadcast_holds t batch (fun b => xget t b) (conj B (fun _ _ => eq_refl))) as (t1 & E1 & (W1 & S1 & H1)). rewrite E1. cbn [rbind].
  destruct (slice_param_ok (Fin 0) batch [] ix rs src t1 Hne En ltac:(rewrite S1, app_nil_r; reflexivity)) as (q1 & Eq & Wq & Sq & Hq).
  unfold slice_param in Eq. rewrite Ei in Eq. cbn [rbind] in Eq. injection Eq as Eq. rewrite app_nil_r in Sq.
  exists (Some t1), (Some (tmap rnd q1)). split; [reflexivity|]. cbn [option_map quantized_bound]. rewrite Eq. unfold rank. cbn [shp tmap]. rewrite Sq, Ed, Nat.ltb_irrefl.
  split; [reflexivity|]. split; [cbn [shp tmap]; rewrite Sq; apply bshape_refl|]. intros r Hr. destruct (H (src r) (HI r Hr)) as (z & Ez & Ex). exists z. split; [exact Ez|].
  assert (HQ1 : reads q1 rs (fun r => tget (Fin 0) t1 (src r))).
  { split; [rewrite Sq; apply bshape_refl|]. intros r' Hr'. rewrite xget_same by (rewrite Sq; auto). specialize (Hq r' [] Hr' ltac:(constructor)). rewrite !app_nil_r in Hq. exact Hq. }
  destruct (reads_tmap rnd q1 rs _ Wq HQ1) as [_ HT]. rewrite HT by auto. rewrite H1 by auto. rewrite Ex. apply HR.
Qed.
Theorem C46_slicing : forall K (q : quantized K) (d' : udist K) batch F L H ix ixs rs src base_item,
  quantises q batch F L H ->
  batch <> [] -> np_index batch ix = Ok (rs, src) -> to_batch_shape_index batch ix = Ok ixs -> base_item ixs = Ok d' ->
  has_cdf d' rs (fun r => F (src r)) ->
  (forall r, inb rs r -> addresses batch ix rs r (src r)) /\
  exists q', quantized_getitem base_item q ix = Ok q' /\ q_dist q' = d' /\ q_eps q' = None /\ quantized_batch_shape q' = rs /\
    quantises q' rs (fun r => F (src r)) (fun r => L (src r)) (fun r => H (src r)).
Proof.
  intros K q d' batch F L H ix ixs rs src bi HQ Hne En Ei Ebi HF'. destruct HQ as ((Eb & Ee & _) & BL & BH & HO).
  pose proof (np_index_spec _ _ _ _ En) as HA. split; [exact HA|]. pose proof HF' as (Eb' & Ee' & _).
  assert (C : forall z, xceil (Fin (IZR z)) = Fin (IZR z)) by (intros z; apply xceil_eq; unfold is_ceiling; lra).
  assert (Fl : forall z, xfloor (Fin (IZR z)) = Fin (IZR z)) by (intros z; cbn; unfold rfloor; rewrite Int_part_IZR; reflexivity).
  destruct (slice_bound xceil q d' _ batch L ix ixs rs src C Eb Ee Eb' BL Hne En Ei) as (b1 & b2 & X1 & X2 & X3).
  destruct (slice_bound xfloor q d' _ batch H ix ixs rs src Fl Eb Ee Eb' BH Hne En Ei) as (c1 & c2 & Y1 & Y2 & Y3).
  exists (mkQuantized d' b2 c2 None). split.
  - unfold quantized_getitem. unfold quantized_batch_shape at 1. rewrite Eb, Ei. cbn [rbind]. rewrite X1. cbn [rbind]. rewrite Y1. cbn [rbind]. rewrite Ebi. cbn [rbind].
    unfold quantized_init. rewrite Ee', X2. cbn [rbind]. rewrite Y2. reflexivity.
  - split; [reflexivity|]. split; [reflexivity|]. split; [exact Eb'|]. split; [exact HF'|]. split; [exact X3|]. split; [exact Y3|].
    intros r Hr. apply HO. apply (addresses_inb _ _ _ _ _ (HA r Hr)).
Qed.
Print Assumptions C46_slicing.

(** ** Counterexamples, on arrays of one element *)
Definition one (x : XR) : tensor XR := mkT [1%nat] [x].
Lemma computes_one f g x : computes f [] g -> f (one (Fin x)) = Ok (one (g [] x)).
Proof.
  intros C. assert (I : forall idx, inb [1%nat] idx -> idx = [0%nat]).
  { intros [|i [|j b]] Hb; [inversion Hb| |inversion Hb as [|? ? ? ? ? H2]; inversion H2]. apply inb_cons in Hb as [Hi _]. f_equal. lia. }
  destruct (C (one (Fin x)) [1%nat] (fun _ => x) eq_refl eq_refl) as (r & -> & Hr).
  { split; [reflexivity|]. intros idx Hi. rewrite (I idx Hi). reflexivity. }
  f_equal. eapply holds_eq; [exact Hr|]. split; [reflexivity|]. split; [reflexivity|]. intros idx Hi. rewrite (I idx Hi). reflexivity.
Qed.
Lemma computes_one_batch f g x : computes f [1%nat] g -> f (one (Fin x)) = Ok (one (g [0%nat] x)).
Proof.
  intros C. assert (I : forall idx, inb [1%nat] idx -> idx = [0%nat]).
  { intros [|i [|j b]] Hb; [inversion Hb| |inversion Hb as [|? ? ? ? ? H2]; inversion H2]. apply inb_cons in Hb as [Hi _]. f_equal. lia. }
  destruct (C (one (Fin x)) [1%nat] (fun _ => x) eq_refl eq_refl) as (r & -> & Hr).
  { split; [reflexivity|]. intros idx Hi. rewrite (I idx Hi). reflexivity. }
  f_equal. eapply holds_eq; [exact Hr|]. split; [reflexivity|]. split; [reflexivity|]. intros idx Hi. rewrite (I idx Hi). reflexivity.
Qed.
(** A value of probability zero can be drawn (on a null set): Uniform(0, 1) quantised, the draw u = 0. log_prob of the sample is
    -inf, sample_and_log_prob gives NaN. *)
Theorem C45_zero_probability_draw_refuted : forall K (key : K),
  exists (d : udist K) q, uniform_udist (fun _ s => tgen s (fun _ => Fin 0)) (tscalar (Fin 0)) (tscalar (Fin 1)) = Ok d /\
    quantized_init d None None None = Ok q /\ quantises q [] (fun _ => uniform_F 0 1) (fun _ => None) (fun _ => None) /\
    quantized_sample_n q key 1 = Ok (one (Fin 0)) /\
    quantized_log_prob q (one (Fin 0)) = Ok (one NInf) /\
    quantized_sample_n_and_log_prob q key 1 = Ok (one (Fin 0), one NaN).
Proof.
  intros K key. pose (rng := fun (_ : K) (s : shape) => tgen s (fun _ : list nat => Fin 0)).
  destruct (uniform_law rng (tscalar (Fin 0)) (tscalar (Fin 1)) [] (fun _ => 0) (fun _ => 1)) as (d & Ed & HF & _).
  { split; [reflexivity|]. intros i Hi. inversion Hi; subst. cbn. repeat split; lra. }
  exists d, (mkQuantized d None None None). split; [exact Ed|]. split; [unfold quantized_init; destruct HF as (_ & -> & _); reflexivity|].
  assert (HQ : quantises (mkQuantized d None None None) [] (fun _ => uniform_F 0 1) (fun _ => None) (fun _ => None)).
  { split; [exact HF|]. cbn. auto. }
  assert (ES : u_sample d key 1 = Ok (one (Fin 0))).
  { unfold uniform_udist in Ed. cbn in Ed. injection Ed as <-. cbn. unfold uniform_sample_n, param, lift3, lift, rng. cbn -[uniform_sample].
    unfold xget, tgen, tget. cbn. unfold uniform_sample, uniform_range, one. cbn. do 4 f_equal. ring. }
  assert (SA : quantized_sample_n (mkQuantized d None None None) key 1 = Ok (one (Fin 0))).
  { unfold quantized_sample_n. cbn [q_dist]. rewrite ES. cbn [rbind q_low q_high quantized_param if_bound]. unfold one, tmap. cbn [map dat shp xceil].
    do 4 f_equal. unfold rfloor. replace (- 0) with (IZR 0) by ring. rewrite Int_part_IZR. ring. }
  assert (F0 : uniform_F 0 1 0 = 0) by (unfold uniform_F; repeat destruct Rlt_dec; lra).
  assert (F1 : uniform_F 0 1 (0 - 1) = 0) by (unfold uniform_F; repeat destruct Rlt_dec; lra).
  split; [exact HQ|]. split; [exact SA|]. split.
  - rewrite (computes_one _ _ 0 (proj2 (C45_prob _ _ _ _ _ _ HQ) eq_refl)). cbv beta. unfold pmf. change 0 with (IZR 0). rewrite Int_part_IZR.
    destruct Req_EM_T; [|congruence]. cbn [in_boundsb andb mass_at]. unfold mass_at. rewrite minus_IZR. rewrite F0, F1, Rminus_0_r, rlog_0. reflexivity.
  - unfold quantized_sample_n_and_log_prob. rewrite SA. cbn [rbind q_dist q_low q_high quantized_param]. destruct HF as (_ & _ & _ & _ & C1 & _ & C2).
    assert (M : minus_one (one (Fin 0)) = one (Fin (0 - 1))) by reflexivity. rewrite M.
    rewrite (computes_one _ _ 0 C1). cbn [rbind]. rewrite (computes_one _ _ (0 - 1) C1). cbn [rbind].
    rewrite (computes_one _ _ 0 C2). cbn [rbind]. rewrite (computes_one _ _ (0 - 1) C2). cbn [rbind if_bound].
    rewrite F0, F1, rlog_0, Rminus_0_r, rlog_pos, ln_1 by lra. cbn. reflexivity.
Qed.
Print Assumptions C45_zero_probability_draw_refuted.


(** eps is lost: a batch of one Uniform(0, 10) quantised with eps = log 4. log_prob at 2 is log 0.3 (the guarded difference of 0.2 and
    0.1: 4 * 0.1 - 0.1), but the sliced distribution q[:] gives log 0.1, and so does sample_and_log_prob when it draws 2. *)
Theorem C46_eps_lost_refuted : forall K (key : K),
  exists (d : udist K) q q', uniform_udist (fun _ s => tgen s (fun _ => Fin (15 / 100))) (one (Fin 0)) (one (Fin 10)) = Ok d /\
    quantized_init d None None (Some (Fin (ln 4))) = Ok q /\
    quantized_getitem (fun _ => Ok d) q [ISlice None None None] = Ok q' /\
    quantized_log_prob q (one (Fin 2)) = Ok (one (Fin (ln (3 / 10)))) /\
    quantized_log_prob q' (one (Fin 2)) = Ok (one (Fin (ln (1 / 10)))) /\
    quantized_sample_n_and_log_prob q key 1 = Ok (mkT [1%nat; 1%nat] [Fin 2], mkT [1%nat; 1%nat] [Fin (ln (1 / 10))]).
Proof.
  intros K key. pose (rng := fun (_ : K) (s : shape) => tgen s (fun _ : list nat => Fin (15 / 100))).
  assert (I : forall idx, inb [1%nat] idx -> idx = [0%nat]).
  { intros [|i [|j b]] Hb; [inversion Hb| |inversion Hb as [|? ? ? ? ? H2]; inversion H2]. apply inb_cons in Hb as [Hi _]. f_equal. lia. }
  assert (I2 : forall idx, inb [1%nat; 1%nat] idx -> idx = [0%nat; 0%nat]).
  { intros [|i b] Hb; [inversion Hb|]. apply inb_cons in Hb as [Hi Hb]. rewrite (I _ Hb). f_equal. lia. }
  destruct (uniform_law rng (one (Fin 0)) (one (Fin 10)) [1%nat] (fun _ => 0) (fun _ => 10)) as (d & Ed & HF & _).
  { split; [reflexivity|]. intros i Hi. rewrite (I i Hi). cbn. repeat split; lra. }
  set (q := mkQuantized d None None (Some (Fin (ln 4)))).
  assert (HQ : quantises q [1%nat] (fun _ => uniform_F 0 10) (fun _ => None) (fun _ => None)).
  { split; [exact HF|]. cbn. auto. }
  assert (HQ0 : quantises (without_eps q) [1%nat] (fun _ => uniform_F 0 10) (fun _ => None) (fun _ => None)) by exact HQ.
  assert (P2 : pmf (uniform_F 0 10) None None (IZR 2) = 1 / 10).
  { unfold pmf. rewrite Int_part_IZR. destruct Req_EM_T; [|congruence]. cbn [in_boundsb andb]. unfold mass_at. cbn [Z.sub Z.add Z.opp Z.pos_sub Pos.pred_double].
    unfold uniform_F. repeat destruct Rlt_dec; lra. }
  destruct (np_index [1%nat] [ISlice None None None]) as [[rs src]|] eqn:En; [|discriminate En].
  destruct (to_batch_shape_index [1%nat] [ISlice None None None]) as [ixs|] eqn:Ei; [|discriminate Ei].
  assert (Ers : rs = [1%nat]) by (cbn in En; injection En as <- _; reflexivity).
  destruct (C46_slicing K q d [1%nat] (fun _ => uniform_F 0 10) (fun _ => None) (fun _ => None) [ISlice None None None] ixs rs src (fun _ => Ok d)
     HQ ltac:(discriminate) En Ei eq_refl ltac:(rewrite Ers; exact HF)) as (_ & q' & Eq' & Ed' & Ee' & _ & HQ'). rewrite Ers in HQ'.
  exists d, q, q'. split; [exact Ed|]. split; [unfold quantized_init; destruct HF as (_ & -> & _); reflexivity|]. split; [exact Eq'|].
  assert (L4 : 0 < ln 4) by (rewrite <- ln_1; apply ln_increasing; lra).
  split; [|split].
  - rewrite (computes_one_batch _ _ 2 (C46_log_prob _ q _ _ _ _ (ln 4) HQ eq_refl L4)). cbv beta zeta. change 2 with (IZR 2). rewrite Int_part_IZR.
    destruct (Req_EM_T (IZR 2) (IZR 2)); [|congruence]. unfold cdf_upto. cbn [Z.sub Z.add Z.opp Z.pos_sub Pos.pred_double].
    assert (U2 : uniform_F 0 10 2 = 2 / 10) by (unfold uniform_F; repeat destruct Rlt_dec; lra).
    assert (U1 : uniform_F 0 10 1 = 1 / 10) by (unfold uniform_F; repeat destruct Rlt_dec; lra).
    rewrite U1, U2. destruct Req_EM_T; [lra|]. destruct Req_EM_T; [lra|]. unfold guarded_mass. destruct Rlt_dec; [lra|].
    rewrite exp_ln by lra. rewrite Rmax_right by lra. rewrite rlog_pos by lra. do 4 f_equal. lra.
  - rewrite (computes_one_batch _ _ 2 (proj2 (C45_prob _ _ _ _ _ _ HQ') Ee')). cbv beta. change 2 with (IZR 2). rewrite P2. rewrite rlog_pos by lra. reflexivity.
  - destruct (C46_sample_and_log_prob K q key 1) as [ES EL].
    assert (HD : draws d key 1 [1%nat] (fun _ => 15 / 10)).
    { unfold uniform_udist in Ed. cbn in Ed. injection Ed as <-. eexists. split; [cbn; reflexivity|]. split; [reflexivity|]. split; [reflexivity|].
      intros idx Hi. rewrite (I2 idx Hi). cbn. unfold uniform_sample, uniform_range. cbn. f_equal. lra. }
    assert (C2 : forall c, is_ceiling (15 / 10) c -> c = 2%Z).
    { intros c [A B]. assert (IZR (c - 1) < IZR 2 /\ IZR 1 < IZR c) as [X Y] by (rewrite minus_IZR; cbn; lra). apply lt_IZR in X, Y. lia. }
    destruct (C45_sample K q [1%nat] _ _ _ key 1 _ HQ HD) as (r & c & Er & HC & Hr & _).
    assert (Er2 : r = mkT [1%nat; 1%nat] [Fin 2]).
    { eapply holds_eq; [exact Hr|]. split; [reflexivity|]. split; [reflexivity|]. intros idx Hi. cbv beta. rewrite (C2 _ (HC idx Hi)). rewrite (I2 idx Hi). reflexivity. }
    destruct (C30_quantized K (without_eps q) [1%nat] _ _ _ key 1 _ HQ0 HD eq_refl) as (s & lp & E1 & E2 & E3 & _).
    { intros idx c0 Hi Hc. rewrite (C2 _ Hc). cbn [clamp]. unfold clamp. rewrite P2. lra. }
    rewrite EL, E1. rewrite <- ES, Er in E2. injection E2 as <-. rewrite Er2 in E3 |- *. do 2 f_equal.
    assert (RD : reads (mkT [1%nat; 1%nat] [Fin 2]) [1%nat; 1%nat] (fun _ => Fin 2)).
    { split; [reflexivity|]. intros idx Hi. rewrite (I2 idx Hi). reflexivity. }
    destruct (proj2 (C45_prob _ _ _ _ _ _ HQ0) eq_refl (mkT [1%nat; 1%nat] [Fin 2]) [1%nat; 1%nat] (fun _ => 2) eq_refl eq_refl RD) as (lp' & E4 & H4).
    rewrite E3 in E4. injection E4 as <-. eapply holds_eq; [exact H4|]. split; [reflexivity|]. split; [reflexivity|]. intros idx Hi. cbv beta.
    change 2 with (IZR 2). rewrite P2. rewrite rlog_pos by lra. rewrite (I2 idx Hi). reflexivity.
Qed.
Print Assumptions C46_eps_lost_refuted.

(** Two Normals quantised to -1 .. 2 and -1 .. 3. *)
Example C45_nonvacuous : forall K (rng : K -> shape -> tensor XR), exists d q F,
  normal_udist rng (mkT [2%nat] [Fin 0; Fin 3]) (tscalar (Fin 2)) = Ok d /\
  quantized_init d (Some (tscalar (Fin (- 3 / 2)))) (Some (mkT [2%nat] [Fin (5 / 2); Fin 3])) None = Ok q /\
  quantises q [2%nat] F (fun _ => Some (-1)%Z) (fun b => match b with [O] => Some 2%Z | _ => Some 3%Z end).
Proof.
  intros K rng. assert (I2 : forall b, inb [2%nat] b -> b = [0%nat] \/ b = [1%nat]).
  { intros [|i [|j b]] Hb; [inversion Hb| |inversion Hb as [|? ? ? ? ? H2]; inversion H2]. apply inb_cons in Hb as [Hi _].
    destruct i as [|[|i]]; [left|right|lia]; reflexivity. }
  destruct (normal_law rng (mkT [2%nat] [Fin 0; Fin 3]) (tscalar (Fin 2)) [2%nat] (fun b => match b with [O] => 0 | _ => 3 end) (fun _ => 2)) as (d & F & Ed & HF & _).
  { split; [reflexivity|]. intros b Hb. destruct (I2 b Hb) as [-> | ->]; cbn; repeat split; lra. }
  destruct (proj2 (proj2 (C45_constructor K d (Some (tscalar (Fin (- 3 / 2)))) (Some (mkT [2%nat] [Fin (5 / 2); Fin 3])) None)) [2%nat] F
    (fun _ => Some (-1)%Z) (fun b => match b with [O] => Some 2%Z | _ => Some 3%Z end) HF) as (q & Eq & Ed' & _ & _ & _ & B1 & B2).
  - split; [reflexivity|]. split; [reflexivity|]. intros b Hb. exists (- 3 / 2), (-1)%Z. destruct (I2 b Hb) as [-> | ->]; (split; [reflexivity|]; split; [unfold is_ceiling; lra|reflexivity]).
  - split; [reflexivity|]. split; [reflexivity|]. intros b Hb. destruct (I2 b Hb) as [-> | ->]; [exists (5 / 2), 2%Z|exists 3, 3%Z]; (split; [reflexivity|]; split; [unfold is_floor; lra|reflexivity]).
  - exists d, q, F. split; [exact Ed|]. split; [exact Eq|]. split; [rewrite Ed'; exact HF|]. split; [exact B1|]. split; [exact B2|].
    intros b Hb. destruct (I2 b Hb) as [-> | ->]; cbn; lia.
Qed.
