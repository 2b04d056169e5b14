(** Padding with leading axes of size 1, and the diagonal normal's cdf. *)
From mathcomp Require Import all_ssreflect all_algebra.
From Coq Require Import Reals List ZArith Lra Lia ClassicalEpsilon.
From Verif Require Import Base.Result Base.Sums Base.Tensor Base.XR Base.Gauss Base.Integral Base.IntegralSub Base.MultiInt Base.Cholesky Base.Rmx
  Model.Bijector Model.ScalarBij Model.Linear Model.Compose Model.Transformed Model.Mvn
  Spec.Bijector Spec.Linear Spec.Density Spec.Univariate Spec.Mvn Spec.MvnDist
  Proofs.Bijector Proofs.Block Proofs.ScalarBij Proofs.Linear Proofs.GaussianN Proofs.Mvn.
Set Implicit Arguments.
Unset Strict Implicit.
Unset Printing Implicit Defensive.
Import GRing.Theory.
Delimit Scope ring_scope with Ri.
Delimit Scope R_scope with R.
Local Open Scope R_scope.

Definition pad (k : nat) (s : shape) : shape := (List.repeat 1%nat k ++ s)%list.
Lemma repeat_snoc (a : nat) k : (List.repeat a k ++ a :: nil)%list = List.repeat a k.+1.
Proof. elim: k => //= k ->. by []. Qed.
Lemma rev_repeat (a : nat) k : List.rev (List.repeat a k) = List.repeat a k.
Proof. elim: k => //= k ->. exact: repeat_snoc. Qed.
Lemma bdim1 b : bdim 1 b = Some b.
Proof. rewrite /bdim. case: (Nat.eqb_spec 1 b) => [<-|] //. Qed.
Lemma bshape_rev_ones t : bshape_rev (List.repeat 1%nat (length t)) t = Some t.
Proof. elim: t => // b t IH. cbn [length List.repeat bshape_rev]. by rewrite bdim1 IH. Qed.
Lemma bshape_rev_pad s t r : bshape_rev s t = Some r ->
  bshape_rev (s ++ List.repeat 1%nat (length r - length s)%coq_nat)%list (t ++ List.repeat 1%nat (length r - length t)%coq_nat)%list = Some r.
Proof.
elim: s t r => [|a s IH] t r.
  cbn [bshape_rev]. move=> [<-]. rewrite PeanoNat.Nat.sub_0_r PeanoNat.Nat.sub_diag. cbn [List.repeat]. rewrite app_nil_r. exact: bshape_rev_ones.
case: t => [|b t]; cbn [bshape_rev].
  move=> [<-]. cbn [List.app length]. rewrite PeanoNat.Nat.sub_diag PeanoNat.Nat.sub_0_r. cbn [List.repeat]. rewrite app_nil_r bshape_rev_comm.
  exact: (bshape_rev_ones (a :: s)).
case Ed: (bdim a b) => [d|] //. case Er : (bshape_rev s t) => [q|] // [<-]. cbn [List.app length bshape_rev].
rewrite Ed. rewrite !PeanoNat.Nat.sub_succ. by rewrite IH.
Qed.
Lemma bshape_pad s t r : bshape s t = Some r -> bshape (pad (length r - length s)%coq_nat s) (pad (length r - length t)%coq_nat t) = Some r.
Proof.
move=> H. have H' := bshape_inv _ _ _ H. have := bshape_rev_pad H'. rewrite !rev_length => E.
rewrite /bshape /pad !rev_app_distr !rev_repeat E /=. by rewrite rev_involutive.
Qed.
Lemma bshape_rev_pad_self s k : bshape_rev s (s ++ List.repeat 1%nat k)%list = Some (s ++ List.repeat 1%nat k)%list.
Proof. elim: s => // a s IH. cbn [List.app bshape_rev]. by rewrite /bdim Nat.eqb_refl IH. Qed.
Lemma bshape_pad_self s k : bshape s (pad k s) = Some (pad k s).
Proof. rewrite /bshape /pad rev_app_distr rev_repeat bshape_rev_pad_self /= rev_app_distr rev_repeat rev_involutive. by []. Qed.
Lemma bindex_pad s k j : bindex s (bindex (pad k s) j) = bindex s j.
Proof. exact: bindex_bindex (bshape_pad_self s k). Qed.
Lemma prodl_pad k s : prodl (pad k s) = prodl s.
Proof. elim: k => [|k IH] //. rewrite -IH. exact: PeanoNat.Nat.mul_1_l. Qed.
Lemma inb_pad k s j : inb (pad k s) j -> exists i, j = (List.repeat 0%nat k ++ i)%list /\ inb s i.
Proof.
elim: k j => [|k IH] j; first by exists j.
rewrite /pad /=. case: j => [|a j] H; first by inversion H. have [Ha /IH [i [-> Hi]]] := proj1 (inb_cons _ _ _ _) H.
exists i. split=> //=. congr (_ :: _)%list. lia.
Qed.
Lemma ravel_pad k s i : ravel (pad k s) (List.repeat 0%nat k ++ i)%list = ravel s i.
Proof. by elim: k. Qed.
Lemma bz_pad s k i : Forall2 lt i s -> bz s (i ++ List.repeat 0%nat k)%list = i.
Proof.
elim: s i => [|d s IH] i H; inversion H => //. subst. cbn [bz List.app]. rewrite IH //. congr (_ :: _)%list. case E: (Nat.eqb d 1) => //. move/PeanoNat.Nat.eqb_spec: E. lia.
Qed.
Lemma bindex_zeros s k i : inb s i -> bindex s (List.repeat 0%nat k ++ i)%list = i.
Proof.
move=> H. rewrite /bindex rev_app_distr rev_repeat bz_pad ?rev_involutive //. exact: (proj1 (inb_rev _ _)).
Qed.
Lemma expand_first_vectors n a db k (f : list nat -> 'cV[R]_n) : vectors_are a db f ->
  vectors_are (expand_first k a) (pad k db) (fun j => f (bindex db j)).
Proof.
move=> [W [S H]]. rewrite /expand_first. split; first by rewrite /wf; cbn [dat shp]; rewrite -/(pad k (shp a)) prodl_pad.
split; first by cbn [shp]; rewrite S /pad app_assoc.
move=> j Hj. have [i [-> Hi]] := inb_pad Hj. rewrite bindex_zeros // -H //. apply/colP => l. rewrite !mxE /tget. cbn [shp dat].
by rewrite -app_assoc -/(pad k (shp a)) ravel_pad.
Qed.

(** ** Elementwise operations on arrays of vectors *)
Lemma tmap2_vectors n (h : R -> R -> R) a b sa sb s (f g : list nat -> 'cV[R]_n) : vectors_are a sa f -> vectors_are b sb g -> bshape sa sb = Some s ->
  exists r, tmap2 0 0 h a b = Ok r /\ vectors_are r s (fun i => (\col_k h (f (bindex sa i) k ord0) (g (bindex sb i) k ord0))%Ri).
Proof.
move=> [Wa [Sa Ha]] [Wb [Sb Hb]] Hs. rewrite /tmap2 Sa Sb bshape_snoc Hs. cbn [option_map]. eexists. split; first by [].
split; first exact: tgen_wf. split=> // i Hi. rewrite vec_at_tgen //. apply/colP => k.
rewrite -Ha; last exact: bindex_inb Hs Hi. rewrite -Hb; last by rewrite bshape_comm in Hs; exact: bindex_inb Hs Hi.
rewrite !mxE !bindex_snoc //; exact: ltR.
Qed.
Lemma prod_axis_last_ok n a bs (f : list nat -> 'cV[R]_n) : vectors_are a bs f -> numbers_are (prod_last a) bs (fun j => (\prod_i f j i ord0)%Ri).
Proof.
move=> [W [S H]]. rewrite /prod_last S lead_app trail_app. split; first exact: tgen_wf. split=> // j Hj. rewrite tget_tgen // -H //.
have G : forall m (q : nat -> R), rprod (List.map q (List.seq 0 m)) = (\prod_(i < m) q i)%Ri.
{ elim=> [|m IH] q; first by rewrite big_ord0. rewrite big_ord_recl. cbn [List.seq List.map rprod List.fold_right]. rewrite -seq_shift map_map.
  rewrite -[X in _ = (_ * X)%Ri](IH (fun i => q i.+1)). by []. }
rewrite G. apply: eq_bigr => i _. by rewrite mxE.
Qed.
Lemma sum_axis_last_ok n a bs (f : list nat -> 'cV[R]_n) : vectors_are a bs f -> numbers_are (sum_axis_last a) bs (fun j => (\sum_i f j i ord0)%Ri).
Proof.
move=> [W [S H]]. rewrite /sum_axis_last S lead_app trail_app. split; first exact: tgen_wf. split=> // j Hj. rewrite tget_tgen // -H //.
rewrite sumf_ord. apply: eq_bigr => i _. by rewrite mxE.
Qed.
Lemma numbers_ext a bs (f g : list nat -> R) : (forall j, inb bs j -> f j = g j) -> numbers_are a bs f -> numbers_are a bs g.
Proof. move=> E [W [S H]]. split=> //. split=> // j Hj. by rewrite H // E. Qed.

(** ** The cumulative distribution function *)
Lemma ncdf_upto x : integral (fun t => if Rle_dec t x then npdf t else 0) (ncdf x).
Proof. apply: integral_ext (integral_upto ncdf npdf x ncdf_derive npdf_cont ncdf_lim_m). move=> t. by case: Rle_dec. Qed.
Lemma ncdf_gauss_upto m s x : 0 < s -> integral (fun t => if Rle_dec t x then npdf ((t - m) / s) / s else 0) (ncdf ((x - m) / s)).
Proof.
move=> Hs. apply: (integral_ext (fun t => if Rle_dec t x then / s * npdf ((t - m) / s) else 0)).
{ move=> t. case: (Rle_dec t x) => [H|H] //. exact: Rmult_comm. }
have E1 : ncdf ((x - m) / s) = s * (/ s * ncdf ((x - m) / s)) by rewrite -Rmult_assoc Rinv_r ?Rmult_1_l //; lra.
rewrite {1}E1. apply: (integral_affine _ m) => //.
apply: (integral_ext (fun z => / s * (if Rle_dec z ((x - m) / s) then npdf z else 0))).
- move=> z. have E : (m + s * z - m) / s = z by field; lra. rewrite E.
  have I : m + s * z <= x <-> z <= (x - m) / s.
  { split=> H.
    - apply: (Rmult_le_reg_l s) => //. have -> : s * ((x - m) / s) = x - m by field; lra. lra.
    - have : s * z <= s * ((x - m) / s) by apply: Rmult_le_compat_l; lra. have -> : s * ((x - m) / s) = x - m by field; lra. lra. }
  case: (Rle_dec (m + s * z) x) => H1; case: (Rle_dec z ((x - m) / s)) => H2 //; [by case: H2; apply/I|by case: H1; apply/I|by rewrite !Rmult_0_r].
- apply: integral_scal. exact: ncdf_upto.
Qed.
Lemma density_diag n (m sg : 'cV[R]_n) x : (forall k, 0 < sg k ord0) ->
  mvn_density m (diag_of sg *m (diag_of sg)^T)%Ri x = (\prod_k (npdf ((x k ord0 - m k ord0) / sg k ord0) / sg k ord0)%R)%Ri.
Proof.
move=> Hs. have D : (\det (diag_of sg))%Ri <> 0 by rewrite det_diag_of; apply: prod_neq0 => i; have := Hs i; lra.
rewrite density_push; last exact: det_unit. rewrite Rabs_pos_eq; last by rewrite det_diag_of; apply: Rlt_le; exact: prod_gt0.
rewrite det_diag_of diag_of_inv; last by move=> i; have := Hs i; lra.
rewrite /std_n /Rdiv.
have -> : / (\prod_i sg i ord0)%Ri = (\prod_i (/ sg i ord0)%R)%Ri.
{ elim: (n) sg Hs {D} => [|q IH] sg Hs; first by rewrite !big_ord0 Rinv_1.
  rewrite !big_ord_recl mulRE Rinv_mult mulRE. congr (_ * _).
  have := IH (\col_i sg (lift ord0 i) ord0)%Ri. under eq_bigr do rewrite mxE. move=> ->; last by move=> k; rewrite mxE.
  apply: eq_bigr => i _. by rewrite mxE. }
rewrite -mulRE -big_split. apply: eq_bigr => i _. rewrite /= mulRE. congr (npdf _ * _).
rewrite diag_of_mul !mxE. exact: Rmult_comm.
Qed.
Lemma prod_zero n (f : 'I_n -> R) k : f k = 0 -> (\prod_i f i)%Ri = 0.
Proof. move=> H. by rewrite (bigD1 k) //= H mul0r. Qed.
Lemma diag_cdf n (m sg x : 'cV[R]_n) : (forall k, 0 < sg k ord0) ->
  cdf_is_n (mvn_density m (diag_of sg *m (diag_of sg)^T)%Ri) x (\prod_k ncdf ((x k ord0 - m k ord0) / sg k ord0))%Ri.
Proof.
move=> Hs. have H := integral_n_prod (fun k => @ncdf_gauss_upto (m k ord0) (sg k ord0) (x k ord0) (Hs k)).
apply: integral_n_ext H => y. rewrite density_diag //. case: excluded_middle_informative => [A|A].
- apply: eq_bigr => k _. case: (Rle_dec (y k ord0) (x k ord0)) => B; [by []|by case: B].
- have [k Hk] : exists k, ~ y k ord0 <= x k ord0 by apply: Classical_Pred_Type.not_all_ex_not.
  apply: (@prod_zero _ _ k). by case: Rle_dec.
Qed.

(** ** Everything the constructor of MultivariateNormalFromBijector gives *)
Lemma mvn_full K (rng : K -> shape -> arr) n loc lb (m : list nat -> 'cV[R]_n) sc sb A bs :
  vectors_are loc lb m -> linear_scale sc sb A -> bshape sb lb = Some bs ->
  let S j := A (bindex sb j) in let C j := (S j *m (S j)^T)%Ri in
  exists d, mvn_init rng loc sc = Ok d /\ v_loc d = loc /\ v_scale d = sc /\ is_normal_law d bs (fun j => m (bindex lb j)) C /\
    has_covariance (mvn_covariance d) (mvn_variance d) (mvn_stddev d) bs C /\
    (proper_rng rng -> samples_affinely rng d bs (fun j => m (bindex lb j)) S) /\
    forall j, inb bs j -> (\det (S j))%Ri <> 0.
Proof.
move=> [Wl [Sl Hl]] HL Hb S C.
have [d [E [V1 [V2 [H1 [H2 H3]]]]]] := mvn_init_ok rng Wl Sl HL Hb. exists d. do 3!split=> //.
have E' : forall j, inb bs j -> vector_at n loc (bindex lb j) = m (bindex lb j).
{ move=> j Hj. apply: Hl. rewrite bshape_comm in Hb. exact: bindex_inb Hb Hj. }
split; [|split; [by []|split]].
- by apply: law_ext H1 => j Hj; split=> //; exact: E'.
- move=> HR. by apply: samples_ext (H3 HR) => j Hj; split=> //; exact: E'.
- move=> j Hj. have [_ [_ [_ [_ [HD _]]]]] := HL. apply: HD. exact: bindex_inb Hb Hj.
Qed.
Lemma bcast_rectangles n k a sb bs (f : list nat -> 'M[R]_(n, k)) : rectangles_are a sb f -> bshape sb bs = Some bs ->
  exists r, bcast_to a (bs ++ n :: k :: nil)%list = Ok r /\ rectangles_are r bs (fun j => f (bindex sb j)).
Proof.
move=> [W [S H]] B. rewrite bcast_to_ok; last by rewrite S bshape_mats B.
eexists. split; first by []. split; first exact: tgen_wf. split=> // j Hj. rewrite mat_at_tgen // -H; last exact: bindex_inb B Hj.
apply/matrixP => i l. by rewrite mxE (@bget_mat a sb n k j i l S).
Qed.
Lemma rectangles_ext n k a bs (f g : list nat -> 'M[R]_(n, k)) : (forall j, inb bs j -> f j = g j) -> rectangles_are a bs f -> rectangles_are a bs g.
Proof. move=> E [W [S H]]. split=> //. split=> // j Hj. by rewrite H // E. Qed.
Lemma object_intro K (rng : K -> shape -> arr) d n loc lb (m : list nat -> 'cV[R]_n) sc sb A bs C :
  vectors_are loc lb m -> linear_scale sc sb A -> bshape sb lb = Some bs -> mvn_init rng loc sc = Ok d ->
  (forall j, inb bs j -> (A (bindex sb j) *m (A (bindex sb j))^T)%Ri = C j) -> mvn_object rng d bs (fun j => m (bindex lb j)) C.
Proof. move=> H1 H2 H3 H4 H5. exists loc, lb, m, sc, sb, A. do 4!split=> //. move=> j Hj. split=> //. exact: H5. Qed.
Lemma object_ext K (rng : K -> shape -> arr) d n bs (m m' : list nat -> 'cV[R]_n) C C' :
  (forall j, inb bs j -> m j = m' j /\ C j = C' j) -> mvn_object rng d bs m C -> mvn_object rng d bs m' C'.
Proof.
move=> E [loc [lb [m0 [sc [sb [A [H1 [H2 [H3 [H4 H5]]]]]]]]]]. exists loc, lb, m0, sc, sb, A. do 4!split=> //. move=> j Hj.
have [<- <-] := E j Hj. exact: H5.
Qed.
