(** The Kullback-Leibler divergence between multivariate normal objects. *)
From mathcomp Require Import all_ssreflect all_algebra.
From Coq Require Import Reals List ZArith Lra Lia.
From Verif Require Import Base.Result Base.Sums Base.Tensor Base.XR Base.Gauss Base.Integral Base.MultiInt Base.Cholesky Base.Rmx
  Model.Bijector Model.ScalarBij Model.Linear Model.Compose Model.Transformed Model.Mvn
  Spec.Bijector Spec.Linear Spec.Density Spec.Univariate Spec.Mvn Spec.MvnDist
  Proofs.Bijector Proofs.Block Proofs.ScalarBij Proofs.Linear Proofs.GaussianN Proofs.Mvn Proofs.MvnPad.
Set Implicit Arguments.
Unset Strict Implicit.
Unset Printing Implicit Defensive.
Import GRing.Theory.
Delimit Scope ring_scope with Ri.
Delimit Scope R_scope with R.
Local Open Scope R_scope.

Lemma bshape_sub s1 s2 r : bshape s1 r = Some r -> bshape s2 r = Some r -> exists q, bshape s1 s2 = Some q /\ bshape q r = Some r.
Proof.
move=> H1 H2. have := bshape_assoc s1 s2 r. rewrite H2. cbn [obind]. rewrite H1. case: (bshape s1 s2) => [q|] //= E. by exists q.
Qed.
Lemma bindex_sub s1 r i : bshape s1 r = Some r -> bindex s1 (bindex r i) = bindex s1 i.
Proof. exact: bindex_bindex. Qed.

(** [a] has one number per position of a shape that broadcasts into [bs] *)
Definition fits (a : arr) (bs : shape) (f : list nat -> R) : Prop :=
  wf a /\ bshape (shp a) bs = Some bs /\ forall i, inb bs i -> bget a i = f i.
Lemma fits_numbers a s bs (f g : list nat -> R) : numbers_are a s f -> bshape s bs = Some bs -> (forall i, inb bs i -> f (bindex s i) = g i) -> fits a bs g.
Proof.
move=> [W [S H]] B E. split=> //. rewrite S. split=> // i Hi. rewrite /bget S H; last exact: bindex_inb B Hi. exact: E.
Qed.
Lemma fits_tmap2 (h : R -> R -> R) a b bs (f g : list nat -> R) : fits a bs f -> fits b bs g ->
  exists r, tmap2 0 0 h a b = Ok r /\ fits r bs (fun i => h (f i) (g i)) /\ (shp a = bs -> shp r = bs) /\ (shp b = bs -> shp r = bs).
Proof.
move=> [Wa [Sa Ha]] [Wb [Sb Hb]]. have [q [Eq Sq]] := bshape_sub Sa Sb. rewrite (tmap2_bget h _ _ q Eq).
eexists. split; first by []. split; [|split].
- split; first exact: tgen_wf. split=> // i Hi. rewrite /bget. cbn [shp tgen]. rewrite tget_tgen; last exact: bindex_inb Sq Hi.
  rewrite /bget (bindex_bindex (shp a) (shp b) q) // (bindex_bindex (shp b) (shp a) q); last by rewrite bshape_comm.
  by rewrite -/(bget a i) -/(bget b i) Ha // Hb.
- move=> E. cbn [shp tgen]. rewrite E bshape_comm Sb in Eq. by case: Eq.
- move=> E. cbn [shp tgen]. rewrite E Sa in Eq. by case: Eq.
Qed.
Lemma fits_tmap (h : R -> R) a bs (f : list nat -> R) : fits a bs f -> fits (tmap h a) bs (fun i => h (f i)).
Proof. move=> [W [S H]]. split; first exact: tmap_wf. split=> // i Hi. by rewrite (@bget_tmap h a bs) // H. Qed.
Lemma numbers_fits a bs f : fits a bs f -> shp a = bs -> numbers_are a bs f.
Proof. move=> [W [S H]] E. split=> //. split=> // j Hj. rewrite -H // bget_inb // E. by []. Qed.

(** ** Mapping over columns *)
Lemma col_slice_ok n k a bs (f : list nat -> 'M[R]_(n, k)) (c : 'I_k) : rectangles_are a bs f -> vectors_are (col_slice a c) bs (fun j => (col c (f j))%Ri).
Proof.
move=> [W [S H]]. rewrite /col_slice S mlead_app mrows_app. split; first exact: tgen_wf. split=> // j Hj. rewrite vec_at_tgen //.
apply/colP => r. rewrite -H // !mxE. have L := inb_length _ _ Hj.
by rewrite -L firstn_app PeanoNat.Nat.sub_diag /= app_nil_r firstn_all app_nth2 // PeanoNat.Nat.sub_diag.
Qed.
Lemma col_slice_shape n k a bs c : shp a = (bs ++ n :: k :: nil)%list -> vectors_are (col_slice a c) bs (fun j => vector_at n (col_slice a c) j).
Proof. move=> S. rewrite /col_slice S mlead_app mrows_app. split; first exact: tgen_wf. by []. Qed.
Lemma vmap_cols_ok b n k sb A a mb s (f : list nat -> 'M[R]_(n, k)) : affine_bijector b sb A (fun _ => 0%Ri) -> rectangles_are a mb f -> bshape sb mb = Some s ->
  exists y, vmap_cols (b_inv b) a = Ok y /\ rectangles_are y s (fun j => invmx (A (bindex sb j)) *m f (bindex mb j))%Ri.
Proof.
move=> HA HM Hs. have [W [S H]] := HM.
have [y0 [E0 [W0 [S0 H0]]]] := affine_inv HA Hs (col_slice_shape 0 S).
rewrite /vmap_cols E0. cbn [rbind]. rewrite S0 S lead_app trail_app mcols_app.
eexists. split; first by []. split; first exact: tgen_wf. split=> // j Hj. rewrite mat_at_tgen //. apply/matrixP => r c. rewrite mxE.
have L := inb_length _ _ Hj. rewrite -L. have [-> [-> ->]] := split_idx j r c.
have [y [E [Wy [Sy Hy]]]] := affine_inv HA Hs (col_slice_ok c HM).
rewrite E /=. have := Hy j Hj. rewrite mulmx0 subr0 => /colP /(_ r). rewrite mxE => ->.
rewrite !mxE. apply: eq_bigr => l _. by rewrite !mxE.
Qed.
Lemma frobenius_ok n k a bs (f : list nat -> 'M[R]_(n, k)) : rectangles_are a bs f ->
  numbers_are (squared_frobenius_norm a) bs (fun j => (\tr (f j *m (f j)^T))%Ri).
Proof.
move=> [W [S H]]. rewrite /squared_frobenius_norm /sum_axes_last2. cbn [shp tmap]. rewrite S mlead_app mcols_app mrows_app.
split; first exact: tgen_wf. split=> // j Hj. rewrite tget_tgen // tr_gram -H // sumf_ord. apply: eq_bigr => i _.
rewrite sumf_ord. apply: eq_bigr => l _. rewrite !mxE (tget_tmap 0 0) // S. exact: inb_mat.
Qed.
Lemma expand_last_ok n a bs (f : list nat -> 'cV[R]_n) : vectors_are a bs f -> rectangles_are (expand_last a) bs f.
Proof.
move=> [W [S H]]. rewrite /expand_last S -app_assoc. split.
  rewrite /wf. cbn [dat shp]. rewrite W S !prodl_app /=. lia.
split=> // j Hj. rewrite -H //. apply/matrixP => i c. rewrite !mxE /tget. cbn [dat shp]. rewrite S. congr (List.nth _ _ _).
have L := inb_length _ _ Hj. have -> : (c : nat) = 0%nat by case: c => -[].
rewrite (_ : (j ++ (i : nat) :: 0%nat :: nil)%list = ((j ++ (i : nat) :: nil) ++ 0%nat :: nil)%list); last by rewrite -app_assoc.
rewrite (_ : (bs ++ ([:: n] ++ [:: 1%nat]))%list = ((bs ++ n :: nil) ++ 1%nat :: nil)%list); last by rewrite -app_assoc.
rewrite (ravel_app (bs ++ n :: nil)%list (1%nat :: nil)%list); last by rewrite !app_length L. cbn [ravel prodl List.fold_right]. lia.
Qed.

Lemma log_abs_det_ok K (d : mvn (K := K)) n sb (A : list nat -> 'M[R]_n) : linear_scale (v_scale d) sb A -> v_dims d = n ->
  exists r, log_abs_determinant d = Ok r /\ numbers_are r sb (fun j => ln (Rabs (\det (A j))%Ri)).
Proof.
move=> [[Hf [_ [[M _] _]]] _] Dn. rewrite /log_abs_determinant Dn.
have [y [ld [E [_ [_ [Wl [Sl Hl]]]]]]] := Hf (tzeros (n :: nil)) nil sb (tgen_wf _ _) erefl (Base.Lift.bshape_nil_r sb).
have [_ E'] := M _ _ _ E. exists ld. split=> //. split=> //. split=> // j Hj. have [_ ->] := Hl j Hj. by rewrite bindex_refl.
Qed.

Section Kl.
Context {K : Type}.
Variable rng : K -> shape -> arr.
Lemma kl_value n (m1 m2 : 'cV[R]_n) (A B : 'M[R]_n) : (\det A)%Ri <> 0 -> (\det B)%Ri <> 0 ->
  ln (Rabs (\det B)%Ri) - ln (Rabs (\det A)%Ri) + 1 / 2 * (- INR n + (\tr ((invmx B *m A) *m (invmx B *m A)^T))%Ri +
     (\tr ((invmx B *m (m2 - m1)) *m (invmx B *m (m2 - m1))^T))%Ri) = mvn_kl m1 (A *m A^T)%Ri m2 (B *m B^T)%Ri.
Proof.
move=> DA DB. rewrite kl_whiten; [|exact: det_unit|exact: det_unit].
have -> : (\tr ((invmx B *m (m2 - m1)) *m (invmx B *m (m2 - m1))^T) = ((invmx B *m (m2 - m1))^T *m (invmx B *m (m2 - m1))) ord0 ord0)%Ri.
{ rewrite mxtrace_mulC /mxtrace big_ord1. by []. }
have E : ln (\det ((invmx B *m A) *m (invmx B *m A)^T))%Ri = 2 * (ln (Rabs (\det A)%Ri) - ln (Rabs (\det B)%Ri)).
{ rewrite det_gram det_mulmx det_inv mulRE invRE //. move: (\det A)%Ri (\det B)%Ri DA DB => a b Ha Hb.
  have P : 0 < Rabs (/ b * a) by apply: Rabs_pos_lt; apply: Rmult_integral_contrapositive_currified => //; exact: Rinv_neq_0_compat.
  have -> : / b * a * (/ b * a) = Rabs (/ b * a) * Rabs (/ b * a) by rewrite -Rabs_mult Rabs_pos_eq //; exact: Rle_0_sqr.
  rewrite ln_mult // Rabs_mult Rabs_Rinv // ln_mult; [|by apply: Rinv_0_lt_compat; exact: Rabs_pos_lt|exact: Rabs_pos_lt].
  rewrite ln_Rinv; last exact: Rabs_pos_lt. ring. }
rewrite E. move: (ln _) (ln _) (\tr _)%Ri (_ ord0 ord0) => p q r s. field.
Qed.
Lemma diag_mul n (A B : 'M[R]_n) : (forall i k, i <> k -> A i k = 0) -> (forall i k, i <> k -> B i k = 0) -> (\det B)%Ri <> 0 ->
  (\tr ((invmx B *m A) *m (invmx B *m A)^T) = \tr ((\col_i (sqrt ((A *m A^T) i i) / sqrt ((B *m B^T) i i))%R) *m (\col_i (sqrt ((A *m A^T) i i) / sqrt ((B *m B^T) i i))%R)^T))%Ri.
Proof.
move=> HA HB DB.
have EA : A = diag_of (\col_i A i i)%Ri.
{ apply/matrixP => i k. rewrite !mxE. case: (eqVneq i k) => [->|H]; first by rewrite mulr1n. rewrite mulr0n. apply: HA. by apply/eqP. }
have EB : B = diag_of (\col_i B i i)%Ri.
{ apply/matrixP => i k. rewrite !mxE. case: (eqVneq i k) => [->|H]; first by rewrite mulr1n. rewrite mulr0n. apply: HB. by apply/eqP. }
have NB : forall i, B i i <> 0.
{ move=> i E. apply: DB. rewrite EB det_diag_of (bigD1 i) //= mxE E mul0r. by []. }
have Sq : forall (M : 'M[R]_n), (forall i k, i <> k -> M i k = 0) -> forall i, sqrt ((M *m M^T)%Ri i i) = Rabs (M i i).
{ move=> M HM i. rewrite mxE (bigD1 i) //= big1; last first.
  { move=> k Hk. rewrite mxE HM; first by rewrite mul0r. move=> E. by rewrite E eqxx in Hk. }
  rewrite addr0 mxE mulRE. exact: sqrt_Rsqr_abs. }
have E2 : (\tr ((\col_i (sqrt ((A *m A^T) i i) / sqrt ((B *m B^T) i i))%R) *m (\col_i (sqrt ((A *m A^T) i i) / sqrt ((B *m B^T) i i))%R)^T) = \sum_i ((A i i / B i i) * (A i i / B i i))%R)%Ri.
{ rewrite tr_gram. apply: eq_bigr => i _. rewrite big_ord1 mxE !Sq // /Rdiv -Rabs_Rinv // -Rabs_mult.
  rewrite -Rabs_mult Rabs_pos_eq //. exact: Rle_0_sqr. }
rewrite E2. rewrite tr_gram. rewrite EB diag_of_inv; last by move=> i; rewrite mxE.
apply: eq_bigr => i _. rewrite (bigD1 i) //= big1; last first.
{ move=> k Hk. rewrite {1 2}EA /diag_of mul_diag_mx !mxE. case: (eqVneq i k) => [E|_]; first by rewrite E eqxx in Hk. rewrite mulr0n mulr0. exact: Rmult_0_l. }
rewrite addr0 /diag_of mul_diag_mx !mxE !mulRE. rewrite /Rdiv !(Rmult_comm (/ _)). by rewrite eqxx mulr1n.
Qed.
Lemma kl_ok n d1 d2 bs1 bs2 bs (m1 m2 : list nat -> 'cV[R]_n) C1 C2 : mvn_object rng d1 bs1 m1 C1 -> mvn_object rng d2 bs2 m2 C2 -> bshape bs1 bs2 = Some bs ->
  exists r, mvn_kl_divergence d1 d2 = Ok r /\
    numbers_are r bs (fun i => mvn_kl (m1 (bindex bs1 i)) (C1 (bindex bs1 i)) (m2 (bindex bs2 i)) (C2 (bindex bs2 i))) /\
    forall i, inb bs i -> spd (C1 (bindex bs1 i)) /\ spd (C2 (bindex bs2 i)).
Proof.
move=> [loc1 [lb1 [l1 [sc1 [sb1 [A1 [Hl1 [Hs1 [Hb1 [E1 G1]]]]]]]]]] [loc2 [lb2 [l2 [sc2 [sb2 [A2 [Hl2 [Hs2 [Hb2 [E2 G2]]]]]]]]]] Hb.
have [d1' [E1' [_ [V1 [N1 [Cv1 [_ D1]]]]]]] := mvn_full rng Hl1 Hs1 Hb1. rewrite E1 in E1'. case: E1' => E1'. subst d1'.
have [d2' [E2' [_ [V2 [N2 [Cv2 [_ D2]]]]]]] := mvn_full rng Hl2 Hs2 Hb2. rewrite E2 in E2'. case: E2' => E2'. subst d2'.
have [Bt1 [Dm1 [_ [_ [_ [_ [M1 [EM1 [_ [_ [_ [_ HM1]]]]]]]]]]]] := N1.
have [Bt2 [Dm2 [_ [_ [_ [_ [M2 [EM2 [_ [_ [_ [_ HM2]]]]]]]]]]]] := N2.
have [_ [_ [_ [HMat1 [_ Hdg1]]]]] := Hs1. have [Aff2 [_ [_ [HMat2 [_ Hdg2]]]]] := Hs2.
have Hs1' := Hs1. rewrite -V1 in Hs1'. have Hs2' := Hs2. rewrite -V2 in Hs2'.
have [ld1 [El1 Hld1]] := log_abs_det_ok Hs1' Dm1. have [ld2 [El2 Hld2]] := log_abs_det_ok Hs2' Dm2.
have F1 : bshape bs1 bs = Some bs := bshape_absorb_l _ _ _ Hb. have F2 : bshape bs2 bs = Some bs := bshape_absorb_r _ _ _ Hb.
have S1 : bshape sb1 bs = Some bs := bshape_trans _ _ _ (bshape_absorb_l _ _ _ Hb1) F1.
have S2 : bshape sb2 bs = Some bs := bshape_trans _ _ _ (bshape_absorb_l _ _ _ Hb2) F2.
have J1 : forall i, inb bs i -> inb bs1 (bindex bs1 i) by move=> i; exact: bindex_inb F1.
have J2 : forall i, inb bs i -> inb bs2 (bindex bs2 i) by move=> i; exact: bindex_inb F2.
have I1 : forall i, bindex sb1 (bindex bs1 i) = bindex sb1 i by move=> i; exact: bindex_bindex Hb1.
have I2 : forall i, bindex sb2 (bindex bs2 i) = bindex sb2 i by move=> i; exact: bindex_bindex Hb2.
pose P i := A1 (bindex sb1 i). pose Q i := A2 (bindex sb2 i).
have DP : forall i, inb bs i -> (\det (P i))%Ri <> 0 by move=> i Hi; rewrite /P -I1; apply: D1; exact: J1.
have DQ : forall i, inb bs i -> (\det (Q i))%Ri <> 0 by move=> i Hi; rewrite /Q -I2; apply: D2; exact: J2.
have EC1 : forall i, inb bs i -> C1 (bindex bs1 i) = (P i *m (P i)^T)%Ri by move=> i Hi; have [_ <-] := G1 _ (J1 _ Hi); rewrite I1.
have EC2 : forall i, inb bs i -> C2 (bindex bs2 i) = (Q i *m (Q i)^T)%Ri by move=> i Hi; have [_ <-] := G2 _ (J2 _ Hi); rewrite I2.
have Fd1 : fits ld1 bs (fun i => ln (Rabs (\det (P i))%Ri)) by apply: fits_numbers Hld1 S1 _.
have Fd2 : fits ld2 bs (fun i => ln (Rabs (\det (Q i))%Ri)) by apply: fits_numbers Hld2 S2 _.
have [dd [Edd [Fdd _]]] := fits_tmap2 Rminus Fd2 Fd1.
rewrite /mvn_kl_divergence Dm1 Dm2 Nat.eqb_refl. cbn [negb]. rewrite El2 El1. cbn [rbind]. rewrite /tsub Edd. cbn [rbind].
rewrite V1 V2.
have [ba [Eba Fba]] : exists ba, match s_diag sc1, s_diag sc2 with
      | Some _, Some _ => do sd1 <- mvn_stddev d1; do sd2 <- mvn_stddev d2; do q <- tdiv sd1 sd2; Ok (expand_last q)
      | _, _ => inv_scale_operator d2 (s_matrix sc1) end = Ok ba /\
   fits (squared_frobenius_norm ba) bs (fun i => (\tr ((invmx (Q i) *m P i) *m (invmx (Q i) *m P i)^T))%Ri).
{ have Gen : exists ba, inv_scale_operator d2 (s_matrix sc1) = Ok ba /\ fits (squared_frobenius_norm ba) bs (fun i => (\tr ((invmx (Q i) *m P i) *m (invmx (Q i) *m P i)^T))%Ri).
  { have [q [Eq Sq]] := bshape_sub S2 S1. have [y [Ey Hy]] := vmap_cols_ok Aff2 (f := A1) HMat1 Eq. exists y. rewrite /inv_scale_operator V2. split=> //.
    apply: fits_numbers (frobenius_ok Hy) Sq _ => i Hi. cbv beta. rewrite (bindex_bindex sb2 sb1 q) // (bindex_bindex sb1 sb2 q) //. by rewrite bshape_comm. }
  case Eg1 : (s_diag sc1) Hdg1 => [g1|] Hg1 //. case Eg2 : (s_diag sc2) Hdg2 => [g2|] Hg2 //.
  have [_ [_ [s1 [Es1 Hs1s]]]] := Cv1. have [_ [_ [s2 [Es2 Hs2s]]]] := Cv2. rewrite Es1 Es2. cbn [rbind].
  have [q [Eq Hq]] := tmap2_vectors Rdiv Hs1s Hs2s Hb. rewrite /tdiv Eq. cbn [rbind]. eexists. split; first by [].
  apply: fits_numbers (frobenius_ok (expand_last_ok Hq)) (bshape_refl bs) _ => i Hi. rewrite (bindex_refl bs i) //.
  rewrite diag_mul; last exact: DQ.
  - have -> : (\col_k ((\col_i0 sqrt ((A1 (bindex sb1 (bindex bs1 i)) *m (A1 (bindex sb1 (bindex bs1 i)))^T) i0 i0)) k ord0 / (\col_i0 sqrt ((A2 (bindex sb2 (bindex bs2 i)) *m (A2 (bindex sb2 (bindex bs2 i)))^T) i0 i0)) k ord0)%R =
      \col_i0 (sqrt ((P i *m (P i)^T) i0 i0) / sqrt ((Q i *m (Q i)^T) i0 i0))%R)%Ri; last by [].
    apply/colP => k. rewrite 2!mxE [(\col_i0 sqrt ((A2 _ *m _) i0 i0))%Ri k ord0]mxE [RHS]mxE I1 I2. by [].
  - move=> a b Hab. have [_ H] := Hg1. apply: H => //. exact: bindex_inb S1 Hi.
  - move=> a b Hab. have [_ H] := Hg2. apply: H => //. exact: bindex_inb S2 Hi. }
rewrite Eba EM2 EM1. cbn [rbind].
have Hb' : bshape bs2 bs1 = Some bs by rewrite bshape_comm.
have [dm [Edm Hdm]] := tmap2_vectors Rminus HM2 HM1 Hb'. rewrite /tsub Edm. cbn [rbind].
have [bd [Ebd Hbd]] := vmap_cols_ok Aff2 (expand_last_ok Hdm) S2. rewrite /inv_scale_operator V2 Ebd. cbn [rbind].
have Hfb := frobenius_ok Hbd.
have Fbd : fits (squared_frobenius_norm bd) bs (fun i => (\tr ((invmx (Q i) *m (m2 (bindex bs2 i) - m1 (bindex bs1 i))) *m (invmx (Q i) *m (m2 (bindex bs2 i) - m1 (bindex bs1 i)))^T))%Ri).
{ apply: fits_numbers Hfb (bshape_refl bs) _ => i Hi. rewrite (bindex_refl bs i) // (bindex_refl bs i) //. rewrite -/(Q i).
  have -> : (\col_k (l2 (bindex lb2 (bindex bs2 i)) k ord0 - l1 (bindex lb1 (bindex bs1 i)) k ord0)%R = m2 (bindex bs2 i) - m1 (bindex bs1 i))%Ri; last by [].
  have [<- _] := G1 _ (J1 _ Hi). have [<- _] := G2 _ (J2 _ Hi). apply/colP => k. by rewrite !mxE. }
have [t [Et [Ft [_ St]]]] := fits_tmap2 Rplus (fits_tmap (fun x => - INR n + x) Fba) Fbd.
have Sbd : shp (squared_frobenius_norm bd) = bs by case: Hfb => _ [].
rewrite /tadd Et. cbn [rbind].
have [r [Er [Fr [_ Sr]]]] := fits_tmap2 Rplus Fdd (fits_tmap (fun x => 1 / 2 * x) Ft). exists r. split=> //. split.
- have Hr := numbers_fits Fr (Sr (St Sbd)). apply: numbers_ext Hr => i Hi. rewrite EC1 // EC2 // -kl_value; [|exact: DP|exact: DQ]. by [].
- move=> i Hi. rewrite EC1 // EC2 //. split; apply: spd_gram; apply: det_unit; [exact: DP|exact: DQ].
Qed.
End Kl.
