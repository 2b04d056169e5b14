(** C59, C60: the multivariate normal distributions. *)
From mathcomp Require Import all_ssreflect all_algebra.
From Coq Require Import Reals List ZArith Lra Lia ClassicalEpsilon.
From Verif Require Import Base.Result Base.Sums Base.Tensor Base.XR Base.Lift Base.Rows Base.Gauss Base.Integral Base.MultiInt Base.Cholesky Base.Rmx
  Model.Bijector Model.ScalarBij Model.Linear Model.Compose Model.Transformed Model.Mvn
  Spec.Bijector Spec.Linear Spec.Density Spec.Univariate Spec.Mvn Spec.MvnDist
  Proofs.Bijector Proofs.Block Proofs.Linear Proofs.GaussianN Proofs.Mvn Proofs.MvnPad.
Set Implicit Arguments.
Unset Strict Implicit.
Unset Printing Implicit Defensive.
Import GRing.Theory.
Delimit Scope ring_scope with Ri.
Delimit Scope R_scope with R.
Local Open Scope R_scope.

(** The law the methods describe: for S invertible, [mvn_density m (S S^T)] is a probability density on R^n with mean m,
    covariance S S^T, a unique mode at m, entropy 1/2 ln((2 pi e)^n det(S S^T)), and normal one-dimensional marginals;
    S S^T is symmetric positive definite and every such matrix has this form. *)
Theorem C59_gaussian_law : forall n (m : 'cV[R]_n) (S : 'M[R]_n), (\det S)%Ri <> 0 ->
  let C := (S *m S^T)%Ri in
  spd C /\ normalised_n (mvn_density m C) /\ mean_is_n (mvn_density m C) m /\ covariance_is_n (mvn_density m C) m C /\
  unique_mode_n (mvn_density m C) m /\ entropy_is_n (mvn_density m C) (1 / 2 * ln ((2 * PI * exp 1) ^ n * (\det C)%Ri)).
Proof.
move=> n m S D C. have HC : spd C by apply: spd_gram; exact: det_unit.
split=> //. split; first exact: density_normalised. split; first exact: density_mean. split; first exact: density_covariance.
split; [exact: density_mode|exact: density_entropy].
Qed.
Print Assumptions C59_gaussian_law.
Theorem C59_gaussian_marginals : forall n (m : 'cV[R]_(n.+1)) (S : 'M[R]_(n.+1)) i, (\det S)%Ri <> 0 ->
  let C := (S *m S^T)%Ri in
  0 < C i i /\ marginal_is (mvn_density m C) i (gaussian (m i ord0) (sqrt (C i i))).
Proof. move=> n m S i D C. have HC : spd C by apply: spd_gram; exact: det_unit. split; [exact: spd_diag|exact: density_marginal]. Qed.
Print Assumptions C59_gaussian_marginals.
(** Affine images of standard normal draws have that law: expectations of functions of m + L z under the standard normal
    density are expectations under [mvn_density m (L L^T)] (L lower triangular with positive diagonal). *)
Theorem C59_sample_law_triangular : forall n (m : 'cV[R]_n) L (f : 'cV[R]_n -> R) v, chol_shape L ->
  integral_n (fun z => f (m + L *m z)%Ri * std_n z) v -> integral_n (fun x => f x * mvn_density m (L *m L^T)%Ri x) v.
Proof. move=> n m L f v HL H. exact: expect HL H. Qed.
Print Assumptions C59_sample_law_triangular.

(** For any S, triangular or not, m + S z has mean m and covariance S S^T when z is standard normal. *)
Theorem C59_sample_moments : forall n (m : 'cV[R]_n) (S : 'M[R]_n),
  let y z := (m + S *m z)%Ri in
  (forall i, integral_n (fun z => y z i ord0 * std_n z) (m i ord0)) /\
  (forall i j, integral_n (fun z => (y z i ord0 - m i ord0) * (y z j ord0 - m j ord0) * std_n z) ((S *m S^T)%Ri i j)).
Proof.
move=> n m S y. split.
- move=> i. have H := @quad_mx n (m i ord0) ((row i S)^T)%Ri 0%Ri (fun z => y z i ord0). apply: (integral_n_eq _ (H _)).
  + by rewrite mxtrace0 zeroRE Rplus_0_r.
  + move=> z. by rewrite /y mxE row_dot qform0 addRE Rplus_0_r.
- move=> i j. have H := @quad_mx n 0 0%Ri ((row i S)^T *m row j S)%Ri (fun z => (y z i ord0 - m i ord0) * (y z j ord0 - m j ord0)).
  apply: (integral_n_eq _ (H _)).
  + rewrite mxtrace_mulC Rplus_0_l. rewrite {1}/mxtrace big_ord1 !mxE. apply: eq_bigr => k _. by rewrite !mxE mulrC.
  + move=> z.
    have P k : (m + S *m z)%Ri k ord0 - m k ord0 = (S *m z)%Ri k ord0.
      rewrite mxE addRE. move: (m k ord0) ((S *m z)%Ri k ord0) => p q. ring.
    rewrite /y !P trmx0 mul0mx zero11 !Rplus_0_l.
    rewrite /qform mulmxA -mulmxA. rewrite [RHS]mxE big_ord1. rewrite mulRE. congr (_ * _).
      rewrite !mxE. apply: eq_bigr => k _. by rewrite !mxE mulrC.
    rewrite !mxE. apply: eq_bigr => k _. by rewrite !mxE.
Qed.
Print Assumptions C59_sample_moments.

(** MultivariateNormalFromBijector(loc, scale): with an invertible linear scale A, the object is N(loc, A A^T). *)
Theorem C59_from_bijector : forall K (rng : K -> shape -> arr) n loc lb (m : list nat -> 'cV[R]_n) sc sb A bs,
  vectors_are loc lb m -> linear_scale sc sb A -> bshape sb lb = Some bs ->
  let S j := A (bindex sb j) in let C j := (S j *m (S j)^T)%Ri in
  exists d, mvn_init rng loc sc = Ok d /\ is_normal_law d bs (fun j => m (bindex lb j)) C /\
    has_covariance (mvn_covariance d) (mvn_variance d) (mvn_stddev d) bs C /\
    (proper_rng rng -> samples_affinely rng d bs (fun j => m (bindex lb j)) S) /\
    (forall j, inb bs j -> (\det (S j))%Ri <> 0) /\ mvn_object rng d bs (fun j => m (bindex lb j)) C.
Proof.
move=> K rng n loc lb m sc sb A bs Hl HL Hb S C.
have [d [E [_ [_ [H1 [H2 [H3 H4]]]]]]] := mvn_full rng Hl HL Hb. exists d. do 5!split=> //. exact: object_intro Hl HL Hb E _.
Qed.
Print Assumptions C59_from_bijector.

(** MultivariateNormalTri(loc, scale_tri, is_lower): N(loc, S S^T) with S the lower (upper) triangle of scale_tri. *)
Definition triangle (lower : bool) (n : nat) (T : 'M[R]_n) : 'M[R]_n := if lower then lower_of T else upper_of T.
Theorem C59_tri : forall K (rng : K -> shape -> arr) n loc scale_tri lower lb tb bs (m : list nat -> 'cV[R]_n) T,
  loc <> None \/ scale_tri <> None ->
  vector_arg loc 0%Ri lb m -> matrix_arg scale_tri 1%:M%Ri tb T -> bshape tb lb = Some bs ->
  (forall j i, inb tb j -> T j i i <> 0) ->
  let S j := triangle lower (T (bindex tb j)) in let C j := (S j *m (S j)^T)%Ri in
  exists d, mvn_tri_init rng loc scale_tri lower = Ok d /\ is_normal_law (fst d) bs (fun j => m (bindex lb j)) C /\
    has_covariance (mvn_covariance (fst d)) (mvn_variance (fst d)) (mvn_stddev (fst d)) bs C /\
    (proper_rng rng -> samples_affinely rng (fst d) bs (fun j => m (bindex lb j)) S) /\
    (exists t, mvn_tri_scale_tri d = Ok t /\ matrices_are t bs S) /\
    (forall j, inb bs j -> (\det (S j))%Ri <> 0) /\ mvn_object rng (fst d) bs (fun j => m (bindex lb j)) C.
Proof.
move=> K rng n loc st lower lb tb bs m T NN HL HT Hb Hn S C.
have Hl := vector_arg_get HL (zeros_vectors n).
have Ck : tri_check loc st = Ok tt.
{ rewrite /tri_check. case: loc NN HL {Hl} => [l|] NN HL; case: st NN HT => [t|] NN HT //; last by case: NN.
  - move: HL HT => [_ [Sl _]] [_ [St _]]. by rewrite /rank Sl St ltb1 ltb2 mcols_app mrows_app trail_app Nat.eqb_refl.
  - move: HL => [_ [Sl _]]. by rewrite /rank Sl ltb1.
  - move: HT => [_ [St _]]. by rewrite /rank St ltb2 mcols_app mrows_app Nat.eqb_refl. }
rewrite /mvn_tri_init Ck. cbn [rbind]. cbv zeta.
have Nd : match loc, st with | Some l, _ => trail (shp l) | None, Some t => mcols (shp t) | None, None => 0%nat end = n.
{ case: loc NN HL {Hl Ck} => [l|] NN HL; first by move: HL => [_ [-> _]]; rewrite trail_app.
  case: st NN HT => [t|] NN HT; first by move: HT => [_ [-> _]]; rewrite mcols_app. by case: NN. }
rewrite Nd.
set loc' := match loc with Some _ => _ | None => _ end in Hl *.
have Sl : shp loc' = (lb ++ n :: nil)%list by case: Hl => _ [].
have Hsb := bshape_absorb_l _ _ _ Hb.
case: st NN HT {Ck Nd} => [t|] NN HT.
- have [Wt [St Ht]] := HT.
  have HT' : matrices_are (if lower then trilk false t else triu t) tb (fun j => tri_of lower (T j)).
  { split; first by case: (lower); exact: tgen_wf. split; first by rewrite -St; case: (lower).
    move=> j Hj. rewrite -Ht //. case: (lower); [exact: (trilk_at St Hj)|exact: (triu_at St Hj)]. }
  have [sc [Esc [Hsc _]]] := @triangular_scale_ok n _ tb _ lower HT' (fun j i Hj => eq_ind_r (fun x => x <> 0) (Hn j i Hj) (tri_of_diag lower (T j) i)).
  rewrite Esc. cbn [rbind].
  have [d [Ed [H1 [H2 [H3 [H4 H5]]]]]] := C59_from_bijector rng Hl Hsc Hb. rewrite Ed. cbn [rbind]. eexists. split; first by []. cbn [fst].
  have ES : forall j, tri_of lower (tri_of lower (T (bindex tb j))) = S j by move=> j; rewrite tri_of_idem.
  split; [|split; [|split; [|split; [|split]]]].
  + by apply: law_ext H1 => j Hj; rewrite ES.
  + by apply: cov_ext H2 => j Hj; rewrite ES.
  + move=> HR. by apply: samples_ext (H3 HR) => j Hj; rewrite ES.
  + rewrite /mvn_tri_scale_tri. cbn [fst snd]. have [-> [-> _]] := H1. have [r [Er Hr]] := bcast_matrices HT' Hsb. by exists r.
  + move=> j Hj. rewrite -ES. exact: H4.
  + by apply: object_ext H5 => j Hj; rewrite ES.
- move: HT => [Etb ET]. subst tb. rewrite Sl trail_app.
  have Hn1 : forall (j : list nat) (i : 'I_n), inb nil j -> (const_mx 1 : 'cV[R]_n)%Ri i ord0 <> 0 by move=> j i _; rewrite mxE; exact: R1_neq_R0.
  have [sc [Esc [Hsc _]]] := diag_scale_ok (ones_vectors n) Hn1.
  rewrite Esc. cbn [rbind].
  have [d [Ed [H1 [H2 [H3 [H4 H5]]]]]] := C59_from_bijector rng Hl Hsc Hb. rewrite Ed. cbn [rbind]. eexists. split; first by []. cbn [fst].
  have ES : forall j, diag_of (const_mx 1 : 'cV[R]_n)%Ri = S j by move=> j; rewrite diag_of_ones /S ET -[triangle _ _]/(tri_of lower _) tri_of_1.
  split; [|split; [|split; [|split; [|split]]]].
  + by apply: law_ext H1 => j Hj; rewrite /C -ES.
  + by apply: cov_ext H2 => j Hj; rewrite /C -ES.
  + move=> HR. by apply: samples_ext (H3 HR) => j Hj; rewrite -ES.
  + rewrite /mvn_tri_scale_tri. cbn [fst snd]. have [-> [-> _]] := H1. have [r [Er Hr]] := bcast_matrices (eye_matrices n) Hsb. exists r. split=> //.
    apply: matrices_ext Hr => j Hj. by rewrite -ES diag_of_ones.
  + move=> j Hj. rewrite -ES. exact: (H4 j Hj).
  + by apply: object_ext H5 => j Hj; rewrite /C -ES.
Qed.
Print Assumptions C59_tri.

(** MultivariateNormalFullCovariance(loc, covariance_matrix): N(loc, C) for symmetric positive definite C, sampled
    through the Cholesky factor of C. *)
Lemma cholesky_of_ok n (C : 'M[R]_n) : spd C -> chol_shape (cholesky_of C) /\ (cholesky_of C *m (cholesky_of C)^T = C)%Ri.
Proof.
move=> H. rewrite /cholesky_of. case: excluded_middle_informative => [E|E]; last by case: E; exact: cholesky_exists.
by case: (constructive_indefinite_description _ E).
Qed.
Lemma lower_of_chol n (L : 'M[R]_n) : chol_shape L -> lower_of L = L.
Proof. move=> [H _]. apply/matrixP => i k. rewrite mxE. case: (leqP k i) => // Hk. by rewrite H. Qed.
Lemma matrix_diags_ok n c bs (C : list nat -> 'M[R]_n) : matrices_are c bs C -> vectors_are (matrix_diags c) bs (fun b => (\col_i C b i i)%Ri).
Proof.
move=> [W [S H]]. rewrite /matrix_diags S mcols_app mlead_app. split; first exact: vstack_wf. split=> // j Hj. rewrite vec_at_vstack //.
by rewrite -H.
Qed.
Lemma spd1 n : spd (1%:M : 'M[R]_n)%Ri.
Proof. have := @spd_gram n 1%:M%Ri (unitmx1 _ _). by rewrite trmx1 mulmx1. Qed.
Theorem C59_full_covariance : forall K (rng : K -> shape -> arr) n loc covariance_matrix lb cb bs (m : list nat -> 'cV[R]_n) C,
  loc <> None \/ covariance_matrix <> None ->
  vector_arg loc 0%Ri lb m -> matrix_arg covariance_matrix 1%:M%Ri cb C -> bshape cb lb = Some bs ->
  (forall j, inb cb j -> spd (C j)) ->
  exists d L, mvn_full_init rng loc covariance_matrix = Ok d /\
    is_normal_law (fst d) bs (fun j => m (bindex lb j)) (fun j => C (bindex cb j)) /\
    has_covariance (mvn_full_covariance d) (mvn_full_variance d) (mvn_full_stddev d) bs (fun j => C (bindex cb j)) /\
    (forall j, inb bs j -> chol_shape (L j) /\ (L j *m (L j)^T = C (bindex cb j))%Ri) /\
    (proper_rng rng -> samples_affinely rng (fst d) bs (fun j => m (bindex lb j)) L) /\
    mvn_object rng (fst d) bs (fun j => m (bindex lb j)) (fun j => C (bindex cb j)).
Proof.
move=> K rng n loc cv lb cb bs m C NN HL HT Hb Hn.
have Hl := vector_arg_get HL (zeros_vectors n).
have Ck : tri_check loc cv = Ok tt.
{ rewrite /tri_check. case: loc NN HL {Hl} => [l|] NN HL; case: cv NN HT => [t|] NN HT //; last by case: NN.
  - move: HL HT => [_ [Sl _]] [_ [St _]]. by rewrite /rank Sl St ltb1 ltb2 mcols_app mrows_app trail_app Nat.eqb_refl.
  - move: HL => [_ [Sl _]]. by rewrite /rank Sl ltb1.
  - move: HT => [_ [St _]]. by rewrite /rank St ltb2 mcols_app mrows_app Nat.eqb_refl. }
have Nd : match loc, cv with | Some l, _ => trail (shp l) | None, Some t => mcols (shp t) | None, None => 0%nat end = n.
{ case: loc NN HL {Hl Ck} => [l|] NN HL; first by move: HL => [_ [-> _]]; rewrite trail_app.
  case: cv NN HT => [t|] NN HT; first by move: HT => [_ [-> _]]; rewrite mcols_app. by case: NN. }
rewrite /mvn_full_init Ck Nd. cbn [rbind]. cbv zeta.
set loc' := match loc with Some _ => _ | None => _ end in Hl *.
have NN' : Some loc' <> None \/ @None arr <> None by left.
have Hsb := bshape_absorb_l _ _ _ Hb.
have Moments : forall (d : mvn (K := K)) c, is_normal_law d bs (fun j => m (bindex lb j)) (fun j => C (bindex cb j)) ->
  has_covariance (mvn_covariance d) (mvn_variance d) (mvn_stddev d) bs (fun j => C (bindex cb j)) ->
  matrices_are c cb C ->
  has_covariance (mvn_full_covariance (d, c)) (mvn_full_variance (d, c)) (mvn_full_stddev (d, c)) bs (fun j => C (bindex cb j)).
{ move=> d c Hd Hc HC. have [r [Er Hr]] := bcast_matrices HC Hsb. have [B [D _]] := Hd.
  have Ec : mvn_full_covariance (d, c) = Ok r by rewrite /mvn_full_covariance; cbn [fst snd]; rewrite B D.
  have Ev : mvn_full_variance (d, c) = Ok (matrix_diags r) by rewrite /mvn_full_variance Ec.
  split; first by exists r. split; first by eexists; split; [exact: Ev|exact: matrix_diags_ok Hr].
  rewrite /mvn_full_stddev Ev. cbn [fst]. move: Hc => [_ [_ [s [Es Hs]]]]. move: Es. rewrite /mvn_stddev /mvn_stddev_with.
  case: (s_diag _) => [dg|]; first by exists s.
  move=> _. cbn [rbind]. rewrite B D. have [q [Eq Hq]] := bcast_vectors (tmap_vectors sqrt (matrix_diags_ok Hr)) (bshape_refl bs).
  exists q. split=> //. apply: vectors_ext Hq => j Hj. apply/colP => i. by rewrite (bindex_refl bs j) // !mxE. }
case: cv NN HT {Ck Nd} => [c|] NN HT.
- have [Wc [Sc Hc]] := HT.
  have HCh : matrix_arg (Some (cholesky c)) 1%:M%Ri cb (fun j => cholesky_of (C j)).
  { cbn [matrix_arg]. rewrite /cholesky Sc mcols_app mlead_app. split; first exact: tgen_wf. split=> // j Hj. rewrite mat_at_mstack //.
    by congr cholesky_of; exact: Hc. }
  have Hd : forall j (i : 'I_n), inb cb j -> cholesky_of (C j) i i <> 0.
  { move=> j i Hj. have [[_ P] _] := cholesky_of_ok (Hn j Hj). have := P i. lra. }
  have [d [Ed [H1 [H2 [H3 [_ [_ H5]]]]]]] := @C59_tri K rng n (Some loc') (Some (cholesky c)) true lb cb bs m _ (or_introl (fun E => False_ind _ (eq_ind (Some loc') (fun o => match o with Some _ => True | None => False end) I None E))) Hl HCh Hb Hd.
  rewrite Ed. cbn [rbind]. case: d Ed H1 H2 H3 H5 => [d st] Ed H1 H2 H3 H5. cbn [fst] in H1, H2, H3, H5.
  exists (d, c), (fun j => cholesky_of (C (bindex cb j))). cbn [fst]. split=> //.
  have Hj : forall j, inb bs j -> spd (C (bindex cb j)) by move=> j Hj; apply: Hn; exact: bindex_inb Hb Hj.
  have EC : forall j, inb bs j -> (triangle true (cholesky_of (C (bindex cb j))) = cholesky_of (C (bindex cb j)))%Ri.
  { move=> j J. apply: lower_of_chol. by have [] := cholesky_of_ok (Hj j J). }
  have H1' : is_normal_law d bs (fun j => m (bindex lb j)) (fun j => C (bindex cb j)).
  { apply: law_ext H1 => j J. rewrite EC //. split=> //. by have [_ ->] := cholesky_of_ok (Hj j J). }
  have H2' : has_covariance (mvn_covariance d) (mvn_variance d) (mvn_stddev d) bs (fun j => C (bindex cb j)).
  { apply: cov_ext H2 => j J. rewrite EC //. by have [_ ->] := cholesky_of_ok (Hj j J). }
  split=> //. split; first exact: Moments. split; first by move=> j J; exact: cholesky_of_ok (Hj j J).
  split; first by move=> HR; apply: samples_ext (H3 HR) => j J; rewrite EC.
  apply: object_ext H5 => j J. rewrite EC //. split=> //. by have [_ ->] := cholesky_of_ok (Hj j J).
- move: HT => [Ecb EC]. subst cb.
  have HM : matrix_arg (@None arr) (1%:M : 'M[R]_n)%Ri nil (fun _ => 1%:M%Ri) by [].
  have Hd : forall j (i : 'I_n), inb nil j -> (1%:M : 'M[R]_n)%Ri i i <> 0 by move=> j i _; rewrite mxE eqxx; exact: R1_neq_R0.
  have [d [Ed [H1 [H2 [H3 [_ [_ H5]]]]]]] := @C59_tri K rng n (Some loc') None true lb nil bs m _ (or_introl (fun E => False_ind _ (eq_ind (Some loc') (fun o => match o with Some _ => True | None => False end) I None E))) Hl HM Hb Hd.
  rewrite Ed. cbn [rbind]. case: d Ed H1 H2 H3 H5 => [d st] Ed H1 H2 H3 H5. cbn [fst] in H1, H2, H3, H5.
  have T1 : triangle true (1%:M : 'M[R]_n)%Ri = 1%:M%Ri by exact: (tri_of_1 true).
  exists (d, teye n), (fun j => 1%:M%Ri). cbn [fst]. split=> //.
  have H1' : is_normal_law d bs (fun j => m (bindex lb j)) (fun j => C (bindex nil j)).
  { apply: law_ext H1 => j J. by rewrite T1 trmx1 mulmx1 EC. }
  have H2' : has_covariance (mvn_covariance d) (mvn_variance d) (mvn_stddev d) bs (fun j => C (bindex nil j)).
  { apply: cov_ext H2 => j J. by rewrite T1 trmx1 mulmx1 EC. }
  split=> //. split.
  { apply: Moments => //. apply: matrices_ext (eye_matrices n) => j _. by rewrite EC. }
  split; last (split; first by move=> HR; apply: samples_ext (H3 HR) => j J; rewrite T1).
  2: by apply: object_ext H5 => j J; rewrite T1 trmx1 mulmx1 EC.
  move=> j J. rewrite EC trmx1 mulmx1. split=> //. split=> i; first by move=> k Hk; rewrite mxE; case: eqVneq => // E; rewrite E ltnn in Hk.
  rewrite mxE eqxx. exact: Rlt_0_1.
Qed.
Print Assumptions C59_full_covariance.
