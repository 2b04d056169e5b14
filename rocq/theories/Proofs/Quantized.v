(** Lemmas about quantisation. *)
From Coq Require Import Reals List Lia Lra Bool ZArith.
From Coquelicot Require Import Coquelicot.
From Verif Require Import Base.Result Base.Sums Base.Tensor Base.XR Base.Lift Model.Distribution Model.ScalarDist Model.MathUtils Model.ArrayDist
  Model.Clipped Model.Quantized Spec.ArrayDist Spec.Distribution Spec.Density Spec.Univariate Proofs.ArrayDist Proofs.Distribution Proofs.Univariate.
Import ListNotations.
Local Open Scope R_scope.

(** ** floor and ceiling *)
Lemma Int_part_spec x : IZR (Int_part x) <= x < IZR (Int_part x) + 1.
Proof. destruct (base_Int_part x). lra. Qed.
Lemma Int_part_unique x k : IZR k <= x < IZR k + 1 -> Int_part x = k.
Proof.
  intros H. pose proof (Int_part_spec x) as E. assert (IZR (Int_part x) < IZR (k + 1)) as A by (rewrite plus_IZR; lra).
  assert (IZR k < IZR (Int_part x + 1)) as B by (rewrite plus_IZR; lra). apply lt_IZR in A. apply lt_IZR in B. lia.
Qed.
Lemma Int_part_IZR k : Int_part (IZR k) = k.
Proof. apply Int_part_unique. lra. Qed.
Lemma Int_part_minus_1 x : Int_part (x - 1) = (Int_part x - 1)%Z.
Proof. apply Int_part_unique. rewrite minus_IZR. pose proof (Int_part_spec x). lra. Qed.
Lemma ceiling_ex x : exists c, is_ceiling x c /\ xceil (Fin x) = Fin (IZR c).
Proof.
  exists (- Int_part (- x))%Z. unfold is_ceiling, xceil, rfloor. rewrite opp_IZR. pose proof (Int_part_spec (- x)). split; [lra|reflexivity].
Qed.
Lemma ceiling_unique x c c' : is_ceiling x c -> is_ceiling x c' -> c = c'.
Proof.
  unfold is_ceiling. intros A B. assert (IZR c < IZR (c' + 1)) as P by (rewrite plus_IZR; lra).
  assert (IZR c' < IZR (c + 1)) as Q by (rewrite plus_IZR; lra). apply lt_IZR in P. apply lt_IZR in Q. lia.
Qed.
Lemma xceil_eq x c : is_ceiling x c -> xceil (Fin x) = Fin (IZR c).
Proof. intros H. destruct (ceiling_ex x) as (c' & H' & ->). rewrite (ceiling_unique x c c'); auto. Qed.
Lemma xfloor_eq x c : is_floor x c -> xfloor (Fin x) = Fin (IZR c).
Proof. intros H. cbn. unfold rfloor. rewrite (Int_part_unique x c H). reflexivity. Qed.
Lemma xltb_IZR a b : xltb (Fin (IZR a)) (Fin (IZR b)) = (a <? b)%Z.
Proof. unfold xltb. destruct (Rlt_dec (IZR a) (IZR b)) as [H|H]; symmetry; [apply Z.ltb_lt, lt_IZR, H|apply Z.ltb_ge]. apply Rnot_lt_le, le_IZR in H. exact H. Qed.

Lemma xisinf_rlog p : 0 <= p -> xisinf (rlog p) = true <-> p = 0.
Proof.
  intros Hp. destruct (Rle_lt_or_eq_dec 0 p Hp) as [P|<-]; [rewrite rlog_pos by auto; cbn; split; [discriminate|lra]|rewrite rlog_0; cbn; tauto].
Qed.

(** ** bounds *)
Lemma bounds_param {K} (q : quantized K) b batch L : u_batch (q_dist q) = batch -> u_event (q_dist q) = [] -> bounds_at b batch L ->
  exists b', quantized_param q b = Ok b' /\ bounds_at b' batch L.
Proof.
  intros Eb Ee HB. destruct b as [t|]; cbn [quantized_param]; [|exists None; auto]. unfold quantized_batch_shape, quantized_event_shape. rewrite Eb, Ee, app_nil_r.
  destruct HB as [B H]. destruct (broadcast_holds t batch (fun b => xget t b) (conj B (fun _ _ => eq_refl))) as (r & Er & Hr).
  rewrite Er. cbn [rbind]. eexists. split; [reflexivity|]. destruct Hr as (W & S & Hr). split; [rewrite S; apply bshape_refl|].
  intros b Hb. destruct (H b Hb) as (z & Ez & Ex). exists z. split; [auto|]. rewrite xget_same by (rewrite S; auto). rewrite Hr by auto. exact Ex.
Qed.
Lemma if_bound_holds f b batch L x t S vx vt : bounds_at b batch L -> bshape batch S = Some S -> reads x S vx -> holds t S vt ->
  exists r, if_bound f b x t = Ok r /\
    holds r S (fun idx => match L (bindex batch idx) with Some z => f (vx idx) (Fin (IZR z)) (vt idx) | None => vt idx end).
Proof.
  intros HB BS Rx Ht. destruct b as [lt|]; cbn [if_bound].
  - destruct HB as [B H]. destruct (lift3_holds f x lt t S vx (fun idx => xget lt (bindex batch idx)) vt Rx) as (r & Er & Hr).
    + apply (reads_up lt batch S (fun b => xget lt b)); [split; auto|auto].
    + apply holds_reads, Ht.
    + right; right; apply Ht.
    + exists r. split; [exact Er|]. eapply holds_ext; [exact Hr|]. intros idx Hi. cbv beta.
      destruct (H (bindex batch idx)) as (z & -> & ->); [eapply bindex_inb; eauto|reflexivity].
  - exists t. split; [reflexivity|]. eapply holds_ext; [exact Ht|]. intros idx Hi. cbn in HB. rewrite HB; [reflexivity|eapply bindex_inb; eauto].
Qed.

(** ** the discrete law *)
Section Law.
Variables (F : R -> R) (L H : option Z).
Hypothesis CF : is_cdf F.
Hypothesis LH : ordered L H.
Let Q := cdf_upto F L H.
Lemma Q_range k : 0 <= Q k <= 1.
Proof.
  pose proof (proj1 CF (IZR k)). unfold Q, cdf_upto.
  destruct H as [h|], L as [l|]; repeat match goal with |- context [(?a <=? ?b)%Z] => destruct (Z.leb_spec a b) | |- context [(?a <? ?b)%Z] => destruct (Z.ltb_spec a b) end; lra.
Qed.
Lemma Q_step k : Q (k - 1) <= Q k.
Proof.
  pose proof (Q_range k) as R1. pose proof (Q_range (k - 1)) as R2. revert R1 R2. unfold Q, cdf_upto.
  assert (F (IZR (k - 1)) <= F (IZR k)) by (apply CF, IZR_le; lia).
  destruct H as [h|], L as [l|]; repeat match goal with |- context [(?a <=? ?b)%Z] => destruct (Z.leb_spec a b) | |- context [(?a <? ?b)%Z] => destruct (Z.ltb_spec a b) end; lra || lia.
Qed.
Lemma Q_diff k : Q k - Q (k - 1) = if in_boundsb L H k then mass_at F L H k else 0.
Proof.
  unfold Q, cdf_upto, in_boundsb, mass_at. cbn in LH.
  destruct L as [l|], H as [h|]; cbn [ordered] in LH;
    repeat match goal with |- context [(?a <=? ?b)%Z] => destruct (Z.leb_spec a b) | |- context [(?a <? ?b)%Z] => destruct (Z.ltb_spec a b)
      | |- context [(?a =? ?b)%Z] => destruct (Z.eqb_spec a b) end; cbn [andb]; lra || lia.
Qed.
Lemma pmf_int k : pmf F L H (IZR k) = Q k - Q (k - 1).
Proof. unfold pmf. rewrite Int_part_IZR. destruct Req_EM_T; [|congruence]. symmetry. apply Q_diff. Qed.
Lemma pmf_nonneg x : 0 <= pmf F L H x.
Proof.
  unfold pmf. destruct Req_EM_T; [|lra]. rewrite <- Q_diff. pose proof (Q_step (Int_part x)). lra.
Qed.
Lemma pmf_sum m n : sumf (fun i => pmf F L H (IZR (m + Z.of_nat i))) (seq 0 n) = Q (m + Z.of_nat n - 1) - Q (m - 1).
Proof.
  induction n as [|n IH]; [cbn; rewrite Z.add_0_r; unfold sumf; cbn; ring|]. rewrite seq_S, sumf_app, IH. unfold sumf at 1. cbn [map rsum fold_right Nat.add].
  rewrite pmf_int. replace (m + Z.of_nat (S n) - 1)%Z with (m + Z.of_nat n)%Z by lia. unfold rsum, fold_right. ring.
Qed.
End Law.

(** the numerical kernel of log_prob: the difference of the tails or of the cdfs, in log space *)
Lemma log_sub p q : 0 < p -> 0 <= q <= p -> log_expbig_minus_expsmall (rlog p) (rlog q) = rlog (p - q).
Proof.
  intros Hp Hq. unfold log_expbig_minus_expsmall, xlog1p. rewrite (rlog_pos p Hp). destruct (Rle_lt_or_eq_dec 0 q (proj1 Hq)) as [Q|<-].
  - rewrite (rlog_pos q Q). cbn [xsub xopp xadd xexp]. replace (ln q + - ln p) with (ln (q / p)) by (rewrite Rcomplements.ln_div by lra; ring).
    rewrite exp_ln by (apply Rdiv_lt_0_compat; lra). cbn [xlog].
    replace (1 + - (q / p)) with ((p - q) / p) by (field; lra). destruct (Rle_lt_or_eq_dec q p (proj2 Hq)) as [L|E].
    + rewrite !rlog_pos by (try apply Rdiv_lt_0_compat; lra). cbn. f_equal. rewrite Rcomplements.ln_div by lra. ring.
    + subst q. replace (p - p) with 0 by ring. unfold Rdiv. rewrite Rmult_0_l, rlog_0. reflexivity.
  - rewrite rlog_0. cbn. replace (1 + - 0) with 1 by ring. rewrite (rlog_pos 1), ln_1 by lra. rewrite rlog_pos by lra. f_equal. rewrite Rplus_0_r. f_equal. ring.
Qed.
Lemma log_diff u w : 0 <= w <= u -> u <= 1 ->
  (0 < u -> w < 1 ->
   log_expbig_minus_expsmall (by_tail (rlog (1 - u)) (rlog u) (rlog (1 - w)) (rlog u))
     (by_tail (rlog (1 - u)) (rlog u) (rlog (1 - u)) (rlog w)) = rlog (u - w)).
Proof.
  intros Hw Hu Pu Pw. unfold by_tail. destruct (xltb (rlog (1 - u)) (rlog u)); [|apply log_sub; lra].
  rewrite log_sub by lra. f_equal. ring.
Qed.
(** ... with eps *)
Lemma log_sub_eps e p q : 0 < e -> 0 < p -> 0 <= q <= p ->
  log_expbig_minus_expsmall (if xltb (Fin e) (xsub (rlog p) (rlog q)) then rlog p else xadd (rlog q) (Fin e)) (rlog q)
  = rlog (Rmax p (q * exp e) - q).
Proof.
  intros He Hp Hq. pose proof (exp_ineq1 e ltac:(lra)) as X. destruct (Rle_lt_or_eq_dec 0 q (proj1 Hq)) as [Q|<-].
  - assert (EQ : Fin (ln q + e) = rlog (q * exp e)).
    { rewrite rlog_pos by (apply Rmult_lt_0_compat; [lra|apply exp_pos]). rewrite ln_mult, ln_exp by (auto using exp_pos). reflexivity. }
    rewrite (rlog_pos p Hp), (rlog_pos q Q). cbn [xsub xadd xopp]. unfold xltb. destruct Rlt_dec as [G|G].
    + rewrite <- (rlog_pos p Hp), <- (rlog_pos q Q). rewrite log_sub by lra. do 2 f_equal. symmetry. apply Rmax_left.
      rewrite <- (exp_ln p Hp), <- (exp_ln q Q) at 1. rewrite <- exp_plus. left. apply exp_increasing. lra.
    + rewrite EQ, <- (rlog_pos q Q). assert (0 < q * exp e) by (apply Rmult_lt_0_compat; [lra|apply exp_pos]). rewrite log_sub by nra. do 2 f_equal. symmetry. apply Rmax_right.
      rewrite <- (exp_ln p Hp), <- (exp_ln q Q) at 1. rewrite <- exp_plus. destruct (Rle_lt_or_eq_dec (ln p) (ln q + e) ltac:(lra)) as [A|A]; [left; apply exp_increasing, A|rewrite A; lra].
  - rewrite rlog_0, (rlog_pos p Hp). cbn [xsub xadd xopp]. unfold xltb. cbn iota. rewrite <- (rlog_pos p Hp), <- rlog_0. rewrite log_sub by lra. do 2 f_equal. rewrite Rmult_0_l. symmetry. apply Rmax_left. lra.
Qed.
