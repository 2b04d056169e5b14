(** C60: the Kullback-Leibler divergence between multivariate normals; concrete objects for C59 and C60. *)
From mathcomp Require Import all_ssreflect all_algebra.
From Coq Require Import Reals List ZArith Lra Lia.
From Verif Require Import Base.Result Base.Sums Base.Tensor Base.XR Base.Lift Base.Gauss Base.Integral Base.IntegralSub Base.MultiInt Base.Cholesky Base.Rmx
  Model.Bijector Model.ScalarBij Model.Linear Model.Compose Model.Transformed Model.Mvn
  Spec.Bijector Spec.Linear Spec.Density Spec.Univariate Spec.Mvn Spec.MvnDist
  Proofs.Bijector Proofs.Block Proofs.ScalarBij Proofs.ArrayDist Proofs.Linear Proofs.GaussianN Proofs.Mvn Proofs.MvnPad Proofs.MvnKl
  Props.Linear Props.Mvn Props.MvnDiag.
Set Implicit Arguments.
Unset Strict Implicit.
Unset Printing Implicit Defensive.
Import GRing.Theory.
Delimit Scope ring_scope with Ri.
Delimit Scope R_scope with R.
Local Open Scope R_scope.

(** For any two objects of the same dimension with broadcastable batch shapes, however they were built, kl_divergence
    returns, at each position of the broadcast batch shape, the closed form; that number is the integral of
    p (ln p - ln q), is nonnegative, and is zero exactly when the two laws are equal. *)
Theorem C60_kl_closed_form : forall K (rng : K -> shape -> arr) n d1 d2 bs1 bs2 bs (m1 m2 : list nat -> 'cV[R]_n) C1 C2,
  mvn_object rng d1 bs1 m1 C1 -> mvn_object rng d2 bs2 m2 C2 -> bshape bs1 bs2 = Some bs ->
  exists r, mvn_kl_divergence d1 d2 = Ok r /\ wf r /\ shp r = bs /\ forall i, inb bs i ->
    let p := mvn_density (m1 (bindex bs1 i)) (C1 (bindex bs1 i)) in let q := mvn_density (m2 (bindex bs2 i)) (C2 (bindex bs2 i)) in
    tget 0 r i = mvn_kl (m1 (bindex bs1 i)) (C1 (bindex bs1 i)) (m2 (bindex bs2 i)) (C2 (bindex bs2 i)) /\
    kl_is_n p q (tget 0 r i) /\ 0 <= tget 0 r i /\
    (tget 0 r i = 0 <-> m1 (bindex bs1 i) = m2 (bindex bs2 i) /\ C1 (bindex bs1 i) = C2 (bindex bs2 i)).
Proof.
move=> K rng n d1 d2 bs1 bs2 bs m1 m2 C1 C2 H1 H2 Hb. have [r [Er [[Wr [Sr Hr]] HC]]] := kl_ok H1 H2 Hb.
exists r. do 3!split=> //. move=> i Hi p q. rewrite Hr //. have [P1 P2] := HC i Hi. split=> //. split; first exact: density_kl. exact: kl_ge0.
Qed.
Print Assumptions C60_kl_closed_form.
(** The branch taken (diagonal shortcut or general) and the way the objects were built do not matter: objects with the
    same laws have the same divergences. *)
Theorem C60_kl_branches_agree : forall K (rng : K -> shape -> arr) n d1 d2 e1 e2 bs1 bs2 bs (m1 m2 : list nat -> 'cV[R]_n) C1 C2,
  mvn_object rng d1 bs1 m1 C1 -> mvn_object rng d2 bs2 m2 C2 -> mvn_object rng e1 bs1 m1 C1 -> mvn_object rng e2 bs2 m2 C2 ->
  bshape bs1 bs2 = Some bs -> mvn_kl_divergence d1 d2 = mvn_kl_divergence e1 e2.
Proof.
move=> K rng n d1 d2 e1 e2 bs1 bs2 bs m1 m2 C1 C2 H1 H2 G1 G2 Hb.
have [r [-> [[Wr [Sr Hr]] _]]] := kl_ok H1 H2 Hb. have [t [-> [[Wt [St Ht]] _]]] := kl_ok G1 G2 Hb. congr Ok.
apply: (tensor_ext 0) => //; first by rewrite Sr St. move=> i. rewrite Sr => Hi. by rewrite Hr // Ht.
Qed.
Print Assumptions C60_kl_branches_agree.
Theorem C60_kl_self : forall K (rng : K -> shape -> arr) n d bs (m : list nat -> 'cV[R]_n) C, mvn_object rng d bs m C ->
  exists r, mvn_kl_divergence d d = Ok r /\ wf r /\ shp r = bs /\ forall i, inb bs i -> tget 0 r i = 0.
Proof.
move=> K rng n d bs m C H. have [r [Er [Wr [Sr Hr]]]] := C60_kl_closed_form H H (bshape_refl bs). exists r. do 3!split=> //.
move=> i Hi. have [_ [_ [_ E]]] := Hr i Hi. exact/E.
Qed.
Print Assumptions C60_kl_self.
(** Objects of different dimensions are refused. *)
Theorem C60_kl_dimension_mismatch : forall K (rng : K -> shape -> arr) n1 n2 d1 d2 bs1 bs2 (m1 : list nat -> 'cV[R]_n1) C1 (m2 : list nat -> 'cV[R]_n2) C2,
  mvn_object rng d1 bs1 m1 C1 -> mvn_object rng d2 bs2 m2 C2 -> n1 <> n2 -> mvn_kl_divergence d1 d2 = Err ValueError.
Proof.
move=> K rng n1 n2 d1 d2 bs1 bs2 m1 C1 m2 C2 H1 H2 Hn.
have Dim : forall n d bs (m : list nat -> 'cV[R]_n) C, mvn_object rng d bs m C -> v_dims d = n.
{ move=> n d bs m C [loc [lb [m0 [sc [sb [A [Hl [Hs [Hb [E _]]]]]]]]]]. have [d' [E' [_ [_ [[_ [D _]] _]]]]] := mvn_full rng Hl Hs Hb.
  move: E'. rewrite E => -[E']. by rewrite -E' in D. }
rewrite /mvn_kl_divergence (Dim _ _ _ _ _ H1) (Dim _ _ _ _ _ H2). case: (PeanoNat.Nat.eqb_spec n1 n2) => //.
Qed.
Print Assumptions C60_kl_dimension_mismatch.

(** Concrete objects: a batch of two means with one lower triangular scale, and a diagonal normal; both meet the
    hypotheses of the theorems above, so their divergence exists in the broadcast batch shape (2,). *)
Definition ex_loc : arr := mkT (2 :: 2 :: nil)%nat (1 :: 2 :: 3 :: 4 :: nil).
Definition ex_tri : arr := mkT (2 :: 2 :: nil)%nat (2 :: 5 :: 1 :: 3 :: nil).
Definition ex_diag : arr := mkT (2 :: nil)%nat (1 :: 2 :: nil).
Definition ex_rng (_ : unit) (s : shape) : arr := tzeros s.
Lemma ex_rng_proper : proper_rng ex_rng.
Proof. move=> key s. split; [exact: tgen_wf|by []]. Qed.
Lemma ex_loc_vectors : vectors_are ex_loc (2 :: nil)%nat (fun j => vector_at 2 ex_loc j).
Proof. by split. Qed.
Lemma ex_tri_matrices : matrices_are ex_tri nil (fun j => matrix_at 2 2 ex_tri j).
Proof. by split. Qed.
Lemma ex_diag_vectors : vectors_are ex_diag nil (fun j => vector_at 2 ex_diag j).
Proof. by split. Qed.
Lemma ord2 (i : 'I_2) : i = ord0 \/ i = fintype.lift ord0 ord0.
Proof. case: (unliftP ord0 i) => [j ->|->]; last by left. right. by rewrite ord1. Qed.
Lemma ex_tri_diag j i : inb nil j -> matrix_at 2 2 ex_tri j i i <> 0.
Proof.
move=> Hj. have -> := inb_nil_inv _ Hj. case: (ord2 i) => ->; rewrite mxE /ex_tri /tget;
cbn [nat_of_ord List.app ravel shp dat prodl fold_right Nat.mul Nat.add List.nth fintype.lift bump leq subn addn ord0 nat_of_bool]; cbn; lra.
Qed.
Lemma ex_diag_pos j i : inb nil j -> 0 < vector_at 2 ex_diag j i ord0.
Proof.
move=> Hj. have -> := inb_nil_inv _ Hj. case: (ord2 i) => ->; rewrite mxE /ex_diag /tget;
cbn [nat_of_ord List.app ravel shp dat prodl fold_right Nat.mul Nat.add List.nth fintype.lift bump leq subn addn ord0 nat_of_bool]; cbn; lra.
Qed.
Lemma some_ne (a : arr) : Some a <> None.
Proof. by []. Qed.
Example ex_tri_vs_diag : exists d1 d2 r,
  mvn_tri_init ex_rng (Some ex_loc) (Some ex_tri) true = Ok d1 /\ mvn_diag_init ex_rng None (Some ex_diag) = Ok d2 /\
  mvn_kl_divergence (fst d1) (fst d2) = Ok r /\ shp r = (2 :: nil)%nat /\ forall i, inb (2 :: nil)%nat i -> 0 < tget 0 r i.
Proof.
have [d1 [E1 [_ [_ [_ [_ [_ O1]]]]]]] := @C59_tri unit ex_rng 2 (Some ex_loc) (Some ex_tri) true (2 :: nil)%nat nil (2 :: nil)%nat _ _ (or_introl (@some_ne _)) ex_loc_vectors ex_tri_matrices erefl ex_tri_diag.
have [d2 [E2 [_ [_ [_ [_ [_ [O2 _]]]]]]]] := @C59_diag unit ex_rng 2 None (Some ex_diag) nil nil nil (fun _ => 0%Ri) _ (or_intror (@some_ne _)) (conj erefl (fun _ => erefl)) ex_diag_vectors erefl
  (fun j i Hj => Rgt_not_eq _ _ (ex_diag_pos i Hj)).
have [r [Er [Wr [Sr Hr]]]] := C60_kl_closed_form O1 O2 (bshape_nil_r _). exists d1, d2, r. do 4!split=> //. move=> i Hi.
have [_ [_ [P Z]]] := Hr i Hi. case: P => // E. symmetry in E. case/Z: E => Em _.
rewrite !(bindex_refl (2 :: nil)%nat i) // in Em. have {Em} := congr1 (fun v : 'cV[R]_2 => v ord0 ord0) Em.
have [k [Ek Hk]] : exists k, i = (k :: nil)%list /\ (k < 2)%coq_nat.
{ case: i Hi {Z} => [|k i] Hi; first by inversion Hi. have [Hk Hi'] := proj1 (inb_cons _ _ _ _) Hi. exists k. by rewrite (inb_nil_inv _ Hi'). }
rewrite Ek !mxE /ex_loc /tget zeroRE. case: k Hk {Ek} => [|[|k]] Hk; last lia; cbn; lra.
Qed.

(** A positive definite covariance matrix and a diagonal-plus-low-rank scale meet the hypotheses too. *)
Definition ex_cov : arr := mkT (2 :: 2 :: nil)%nat (4 :: 2 :: 2 :: 10 :: nil).
Lemma ex_cov_spd j : inb nil j -> spd (matrix_at 2 2 ex_cov j).
Proof.
move=> Hj. have -> := inb_nil_inv _ Hj.
pose L := (\matrix_(i, k) (if i == ord0 then if k == ord0 then 2 else 0 else if k == ord0 then 1 else 3)%R : 'M[R]_2)%Ri.
have -> : matrix_at 2 2 ex_cov nil = (L *m L^T)%Ri.
{ apply/matrixP => i k. rewrite /L. case: (ord2 i) => ->; case: (ord2 k) => ->; rewrite !mxE !big_ord_recl big_ord0 !mxE /ex_cov /tget; cbn; toR; lra. }
apply: spd_gram. apply: det_unit. rewrite det2 !mxE /=. lra.
Qed.
Example ex_full : exists d, mvn_full_init ex_rng None (Some ex_cov) = Ok d /\ v_batch (fst d) = nil /\ v_dims (fst d) = 2%nat.
Proof.
have H : matrices_are ex_cov nil (fun j => matrix_at 2 2 ex_cov j) by split.
have [d [L [E [[B [D _]] _]]]] := @C59_full_covariance unit ex_rng 2 None (Some ex_cov) nil nil nil (fun _ => 0%Ri) _ (or_intror (@some_ne _)) (conj erefl (fun _ => erefl)) H erefl ex_cov_spd.
by exists d.
Qed.
Definition ex_u : arr := mkT (2 :: 1 :: nil)%nat (1 :: 1 :: nil).
Example ex_low_rank : exists d, mvn_dplr_init ex_rng (Some ex_loc) (Some ex_diag) (Some ex_u) None = Ok d /\ v_batch (dp_mvn d) = (2 :: nil)%nat.
Proof.
have HU : rectangles_are ex_u nil (fun j => matrix_at 2 1 ex_u j) by split.
have [|d [E [[B _] _]]] := @C59_diag_plus_low_rank unit ex_rng 2 1 (Some ex_loc) (Some ex_diag) (Some ex_u) None (2 :: nil)%nat nil nil nil nil nil (2 :: nil)%nat _ _ _ _ (or_introl (@some_ne _)) ex_loc_vectors ex_diag_vectors
  (conj (Nat.lt_0_succ 0) (conj HU (conj erefl (fun j => erefl)))) erefl erefl erefl (fun j i Hj => Rgt_not_eq _ _ (ex_diag_pos i Hj)).
- move=> j Hj. have -> := inb_nil_inv _ Hj. rewrite det2 !mxE !big_ord1 !mxE /= ?mulr1n ?mulr0n /ex_diag /ex_u /tget. cbn. lra.
- exists d. exact (conj E B).
Qed.
Lemma mvn_init_inv K (rng : K -> shape -> arr) loc sc d : mvn_init rng loc sc = Ok d -> v_loc d = loc /\ v_scale d = sc.
Proof.
unfold mvn_init. intros H. destruct (Nat.ltb (rank loc) 1); [discriminate H|].
destruct (negb (Nat.eqb (s_dims sc) (trail (shp loc)))); [discriminate H|].
repeat match goal with H : rbind _ _ = Ok _ |- _ => apply rbind_ok_inv in H; let z := fresh in let a := fresh in destruct H as [z [a H]]; cbv beta in H end.
injection H as H. rewrite <- H. split; reflexivity.
Qed.
(** scale_diag must be positive for cdf: with a negative entry the object is still the normal law with that covariance,
    but cdf is the probability of the opposite tail. *)
Theorem C59_diag_cdf_needs_positive_scale : exists d r,
  mvn_diag_init ex_rng None (Some (mkT (1 :: nil)%nat (- (1) :: nil))) = Ok d /\
  is_normal_law (fst d) nil (fun _ => 0%Ri : 'cV[R]_1) (fun _ => 1%:M%Ri) /\
  mvn_diag_cdf d (mkT (1 :: nil)%nat (1 :: nil)) = Ok r /\ shp r = nil /\
  ~ cdf_is_n (mvn_density (0%Ri : 'cV[R]_1) 1%:M%Ri) (const_mx 1)%Ri (tget 0 r nil) /\
  cdf_is_n (mvn_density (0%Ri : 'cV[R]_1) 1%:M%Ri) (const_mx (- (1))%R)%Ri (tget 0 r nil).
Proof.
have HV : vectors_are (mkT (1 :: nil)%nat (- (1) :: nil)) nil (fun _ => const_mx (- (1))%R : 'cV[R]_1)%Ri.
{ split=> //. split=> // j Hj. have -> := inb_nil_inv _ Hj. apply/colP => i. by rewrite !mxE ord1. }
have HN : forall j (i : 'I_1), inb nil j -> (const_mx (- (1))%R : 'cV[R]_1)%Ri i ord0 <> 0 by move=> j i _; rewrite mxE; lra.
have [d [E [Law _]]] := @C59_diag unit ex_rng 1 None _ nil nil nil (fun _ => 0%Ri) _ (or_intror (@some_ne _)) (conj erefl (fun _ => erefl)) HV erefl HN.
have ED : diag_mx ((const_mx (- (1))%R : 'cV[R]_1)^T)%Ri = ((- (1))%R%:M : 'M[R]_1)%Ri by apply/matrixP => i k; rewrite !mxE !ord1.
have EC : (((- (1))%R%:M : 'M[R]_1) *m ((- (1))%R%:M)^T = 1%:M)%Ri by rewrite tr_scalar_mx -scalar_mxM; congr (_%:M)%Ri; change (- (1) * - (1) = 1)%R; ring.
have E1 : (1%:M : 'M[R]_1)%Ri = (diag_of (const_mx 1) *m (diag_of (const_mx 1))^T)%Ri by rewrite diag_of_ones trmx1 mulmx1.
have Cdf : forall x, cdf_is_n (mvn_density (0%Ri : 'cV[R]_1) 1%:M%Ri) (const_mx x)%Ri (ncdf x).
{ move=> x. rewrite E1. have := @diag_cdf 1 0%Ri (const_mx 1)%Ri (const_mx x)%Ri. rewrite big_ord1 !mxE zeroRE.
  have -> : (x - 0) / 1 = x by field. apply. move=> k. rewrite mxE. exact: Rlt_0_1. }
exists d. case: d E Law => [d sd] E Law.
have Er : mvn_diag_cdf (d, sd) (mkT (1 :: nil)%nat (1 :: nil)) = Ok (mkT nil (ncdf (- (1)) :: nil)).
{ move: (E). rewrite /mvn_diag_init. cbn [diag_check rank shp length Nat.eqb rbind trail]. 
  move=> E'. apply rbind_ok_inv in E' as [bsh [Hbs E']]. move: Hbs. cbn. move=> -[Hbs]. subst bsh. apply rbind_ok_inv in E' as [sc [Hsc E']]. apply rbind_ok_inv in E' as [d' [Hd E']]. case: E' => ? ?. subst d' sd.
  have Vl : v_loc d = tzeros (1 :: nil)%nat.
  { have [E1' _] := mvn_init_inv Hd. exact E1'. }
  rewrite /mvn_diag_cdf /mvn_diag_standardize. cbn [fst snd]. rewrite Vl. cbn. congr (Ok (mkT nil (_ :: nil))). 
  rewrite /tget /=. have -> : (1 - 0) / - (1) = - (1) by field. rewrite Rmult_1_r. by []. }
exists (mkT nil (ncdf (- (1)) :: nil)). split; first exact E. split; first by apply: law_ext Law => j Hj; rewrite ED EC.
split; first exact Er. split; first reflexivity. rewrite /tget. cbn [ravel shp dat List.nth]. split; last exact: Cdf.
move=> H. have := integral_n_unique H (Cdf 1). have := ncdf_lt (- (1)) 1. lra.
Qed.
Print Assumptions C59_diag_cdf_needs_positive_scale.
