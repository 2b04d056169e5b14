(** C54, C55 for univariate bases: Independent and Joint over Normals. *)
From Coq Require Import Reals List Lia Lra Bool ZArith.
From Coquelicot Require Import Coquelicot.
From Verif Require Import Base.Result Base.Sums Base.Tensor Base.Tree Base.XR Base.Lift Base.Axes Model.Distribution Model.ArrayDist Model.Clipped Model.Compose
  Spec.ArrayDist Spec.Distribution Spec.Density Spec.Univariate Spec.Categorical Spec.Product Proofs.Distribution Proofs.ArrayDist Proofs.Univariate Proofs.Compose
  Props.Bases Props.Compose.
Import ListNotations.
Local Open Scope R_scope.

(** a univariate distribution as Independent and Joint see it (only the methods used below) *)
Definition of_udist {K} (d : udist K) : pdist K (tensor XR) :=
  mkPdist (u_batch d) (Some (u_event d)) (u_log_prob d) (u_log_cdf d) (Err NotImplementedError) (u_sample d) (fun _ _ => Err NotImplementedError)
    (Err NotImplementedError) (Err NotImplementedError) (Err NotImplementedError) (Err NotImplementedError) (Err NotImplementedError).
Theorem C54_univariate : forall K (d : udist K) outer inner f, u_batch d = outer ++ inner ->
  has_density d (outer ++ inner) f -> (forall b x, inb (outer ++ inner) b -> 0 <= f b x) ->
  exists i, reinterprets i (of_udist d) outer inner /\
    forall S v x, wf v -> shp v = S ++ outer ++ inner -> reads v (S ++ outer ++ inner) (fun idx => Fin (x idx)) ->
    exists r, independent_log_prob i v = Ok r /\
      holds r (S ++ outer) (fun idx => rlog (prodf (fun e => f (skipn (length S) idx ++ e) (x (idx ++ e))) (indices inner))).
Proof.
  intros K d outer inner f Eb HD Hf.
  destruct (proj1 (proj2 (proj2 (proj2 (C54_constructor K _ (of_udist d))))) (u_event d) outer inner eq_refl Eb) as (i & Ei & _). exists i.
  assert (HI : reinterprets i (of_udist d) outer inner) by (split; auto). split; [exact HI|]. intros S v x W Sv R.
  assert (BS : bshape (shp v) (outer ++ inner) = Some (S ++ outer ++ inner)) by (rewrite Sv, bshape_comm; apply bshape_drop).
  destruct (HD v _ x W BS R) as (t & Et & Ht).
  assert (BI : forall idx, inb (S ++ outer ++ inner) idx -> bindex (outer ++ inner) idx = skipn (length S) idx /\ inb (outer ++ inner) (skipn (length S) idx)).
  { intros idx Hi. destruct (inb_app_inv _ _ _ Hi) as (i1 & i2 & -> & H1 & H2). rewrite <- (inb_length _ _ H1), skipn_app, skipn_all, Nat.sub_diag. cbn [skipn app].
    split; [|exact H2]. change (outer ++ inner) with ([] ++ (outer ++ inner)). rewrite bindex_app by (symmetry; apply inb_length, H2). rewrite bindex_nil. cbn [app]. apply bindex_refl, H2. }
  assert (Ht' : holds t (S ++ outer ++ inner) (fun idx => rlog (f (skipn (length S) idx) (x idx)))).
  { eapply holds_ext; [exact Ht|]. intros idx Hi. cbv beta. destruct (BI idx Hi) as [-> _]. reflexivity. }
  destruct (proj1 (C54_log_prob K _ i (of_udist d) outer inner S v t (fun idx => f (skipn (length S) idx) (x idx)) HI ltac:(intros idx Hi; apply Hf, BI, Hi)) Et Ht') as (r & Er & Hr).
  exists r. split; [exact Er|]. eapply holds_ext; [exact Hr|]. intros idx Hi. cbv beta. f_equal. unfold prodf. f_equal. apply map_ext_in. intros e He.
  destruct (inb_app_inv _ _ _ Hi) as (i1 & i2 & -> & H1 & H2). f_equal. rewrite <- (inb_length _ _ H1), <- app_assoc, !skipn_app, !skipn_all, !Nat.sub_diag. reflexivity.
Qed.
Print Assumptions C54_univariate.
(** Independent(Normal(loc, scale)) with batch shape (2, 3), one axis reinterpreted *)
Theorem C54_normal : forall K (rng : K -> shape -> tensor XR) loc scale outer inner l s, params loc scale (outer ++ inner) l s ->
  exists d i, normal_udist rng loc scale = Ok d /\ reinterprets i (of_udist d) outer inner /\
    forall S v x, wf v -> shp v = S ++ outer ++ inner -> reads v (S ++ outer ++ inner) (fun idx => Fin (x idx)) ->
    exists r, independent_log_prob i v = Ok r /\
      holds r (S ++ outer) (fun idx => rlog (prodf (fun e => let b := skipn (length S) idx ++ e in gaussian (l b) (s b) (x (idx ++ e))) (indices inner))).
Proof.
  intros K rng loc scale outer inner l s HP. destruct (normal_law rng loc scale _ l s HP) as (d & F & Ed & (Eb & _) & Hf & HD).
  destruct (C54_univariate K d outer inner _ Eb Hf) as (i & HI & H).
  { intros b x Hb. apply (proj2 (density_with_cdf_is_cdf _ _ (HD b Hb))). }
  exists d, i. auto.
Qed.
Print Assumptions C54_normal.
Example C54_nonvacuous : params (tscalar (Fin 1)) (tgen ([2] ++ [3])%nat (fun idx => Fin (1 + INR (nth 0 idx 0%nat)))) ([2] ++ [3])%nat (fun _ => 1) (fun b => 1 + INR (nth 0 b 0%nat)).
Proof.
  split; [reflexivity|]. intros b Hb. split; [reflexivity|]. pose proof (pos_INR (nth 0 b 0%nat)). split; [|lra].
  rewrite xget_tgen_same by exact Hb. reflexivity.
Qed.
(** Joint of a Normal and, one level deeper, a Uniform. *)
Example C55_nonvacuous : forall K (rng : K -> shape -> tensor XR), exists d1 d2,
  normal_udist rng (tscalar (Fin 0)) (tscalar (Fin 1)) = Ok d1 /\ uniform_udist rng (tscalar (Fin 0)) (tscalar (Fin 2)) = Ok d2 /\
  let ds := Node [Leaf (of_udist d1); Node [Leaf (of_udist d2)]] in
  let vals := Node [Leaf (tscalar (Fin 3)); Node [Leaf (tscalar (Fin 1))]] in
  joint_init ds = Ok ds /\ exists r, joint_log_prob ds vals = Ok r /\ holds r [] (fun _ => rlog (gaussian 0 1 3 * (uniform_density 0 2 1 * 1))).
Proof.
  intros K rng.
  destruct (normal_law rng (tscalar (Fin 0)) (tscalar (Fin 1)) [] (fun _ => 0) (fun _ => 1)) as (d1 & F1 & E1 & (B1 & _) & Hf1 & HD1).
  { split; [reflexivity|]. intros b Hb. inversion Hb; subst. cbn. repeat split; lra. }
  destruct (uniform_law rng (tscalar (Fin 0)) (tscalar (Fin 2)) [] (fun _ => 0) (fun _ => 2)) as (d2 & E2 & (B2 & _) & Hf2).
  { split; [reflexivity|]. intros b Hb. inversion Hb; subst. cbn. repeat split; lra. }
  exists d1, d2. split; [exact E1|]. split; [exact E2|]. intros ds vals. split.
  { unfold joint_init. cbn. rewrite B1. cbn. unfold shape_eqb. rewrite B2. destruct list_eq_dec; [reflexivity|congruence]. }
  assert (SC : forall z : R, reads (tscalar (Fin z)) [] (fun _ => Fin z)) by (intros z; split; [reflexivity|]; intros idx Hi; inversion Hi; reflexivity).
  destruct (Hf1 (tscalar (Fin 3)) [] (fun _ => 3) eq_refl eq_refl (SC 3)) as (t1 & T1 & H1).
  destruct (Hf2 (tscalar (Fin 1)) [] (fun _ => 1) eq_refl eq_refl (SC 1)) as (t2 & T2 & H2).
  apply (proj1 (C55_log_prob K _ ds vals [] [fun _ => gaussian 0 1 3; fun _ => uniform_density 0 2 1])).
  - discriminate.
  - repeat constructor.
  - cbn. constructor; [|constructor; [|constructor]].
    + exists t1. split; [exact T1|]. split; [exact H1|]. intros idx Hi. apply (proj2 (density_with_cdf_is_cdf _ _ (HD1 [] ltac:(constructor)))).
    + exists t2. split; [exact T2|]. split; [exact H2|]. intros idx Hi. unfold uniform_density. repeat destruct Rle_dec; try destruct Rlt_dec; lra.
Qed.
