(** C31 and C32 for events of any shape: the density of a transformed random vector, its mean, and the Jacobian of the
    inverse map. *)
From mathcomp Require Import all_ssreflect all_algebra.
From Coq Require Import Reals List ZArith Lra Lia.
From Coquelicot Require Derive.
From Verif Require Import Base.Result Base.Sums Base.Tensor Base.XR Base.Lift Base.Rmx Base.Integral Base.MultiInt
  Model.Bijector Model.ScalarBij Model.ArrayDist Model.Transformed
  Spec.Bijector Spec.Scalar Spec.Jacobian Spec.Linear Spec.Mvn Spec.TransformedJac
  Proofs.Bijector Proofs.Block Proofs.ScalarBij Proofs.ArrayDist Proofs.Jacobian Proofs.LogDet Proofs.Density Proofs.Transformed Proofs.Linear Proofs.GaussianN
  Props.Transformed.
Set Implicit Arguments.
Unset Strict Implicit.
Unset Printing Implicit Defensive.
Import GRing.Theory.
Delimit Scope ring_scope with Ri.
Delimit Scope R_scope with R.
Local Open Scope R_scope.

(** ** The inverse of a differentiable map *)
Lemma norm1_sub_swap n (u v : 'cV[R]_n) : norm1 (u - v)%Ri = norm1 (v - u)%Ri.
Proof. rewrite -norm1_opp. congr norm1. by rewrite opprB. Qed.
Lemma jacobian_inverse n (F G : 'cV[R]_n -> 'cV[R]_n) y J :
  is_jacobian F (G y) J -> (\det J)%Ri <> 0 -> inverse_near F G y -> is_jacobian G y (invmx J).
Proof.
move=> HF HJ [[d0 [Hd0 HI]] HC] eps He.
have UJ := det_unit HJ. have [M [HM HMm]] : exists M, 0 <= M /\ forall h : 'cV[R]_n, norm1 (invmx J *m h)%Ri <= M * norm1 h.
{ exists (mxnorm (invmx J)). split; [exact: mxnorm_ge0|exact: norm1_mulmx]. }
pose e' := Rmin (1 / (2 * (M + 1))) (eps / (2 * (M + 1) * (M + 1))).
have P1 : 0 < 1 / (2 * (M + 1)) by apply: Rdiv_lt_0_compat; lra.
have P2 : 0 < eps / (2 * (M + 1) * (M + 1)) by apply: Rdiv_lt_0_compat => //; nra.
have He' : 0 < e' by apply: Rmin_pos.
have Le1 : e' <= 1 / (2 * (M + 1)) := Rmin_l _ _. have Le2 : e' <= eps / (2 * (M + 1) * (M + 1)) := Rmin_r _ _. clearbody e'.
have [d1 [Hd1 HD]] := HF e' He'. have [d2 [Hd2 HK]] := HC d1 Hd1.
exists (Rmin d0 d2). split; first exact: Rmin_pos. move=> h Hh.
have Hh0 : norm1 h < d0 by apply: Rlt_le_trans Hh (Rmin_l _ _). have Hh2 : norm1 h < d2 by apply: Rlt_le_trans Hh (Rmin_r _ _).
set k := (G (y + h) - G y)%Ri. have Hk := HK h Hh2.
have E0 : F (G y) = y. { have := HI 0%Ri. rewrite norm1_0 addr0. by apply. }
have Ek : (G y + k)%Ri = G (y + h)%Ri by rewrite /k addrC subrK.
have := HD k Hk. rewrite Ek (HI h Hh0) E0.
have -> : (y + h - y - J *m k = h - J *m k)%Ri by rewrite (addrC y h) addrK.
move=> He1.
have Ed : (k - invmx J *m h)%Ri = (invmx J *m (J *m k - h))%Ri by rewrite mulmxBr mulmxA mulVmx // mul1mx.
have Hb : norm1 (k - invmx J *m h)%Ri <= M * (e' * norm1 k).
{ rewrite Ed. apply: Rle_trans (HMm _) _. apply: Rmult_le_compat_l => //. by rewrite norm1_sub_swap. }
have Hm := HMm h.
have Htri : norm1 k <= norm1 (k - invmx J *m h)%Ri + norm1 (invmx J *m h)%Ri.
{ have := norm1_add (k - invmx J *m h)%Ri (invmx J *m h)%Ri. by rewrite subrK. }
have Nk := norm1_ge0 k. have Nh := norm1_ge0 h.
have Q1 : M * e' <= 1 / 2.
{ apply: Rle_trans (_ : (M + 1) * (1 / (2 * (M + 1))) <= _).
  - apply: Rmult_le_compat; [lra|lra|lra|exact: Le1].
  - have -> : (M + 1) * (1 / (2 * (M + 1))) = 1 / 2 by field; lra. lra. }
have Q2 : M * e' * (2 * M) <= eps.
{ apply: Rle_trans (_ : (M + 1) * (eps / (2 * (M + 1) * (M + 1))) * (2 * (M + 1)) <= _).
  - apply: Rmult_le_compat; [apply: Rmult_le_pos; lra|lra| |lra]. apply: Rmult_le_compat; [lra|lra|lra|exact: Le2].
  - have -> : (M + 1) * (eps / (2 * (M + 1) * (M + 1))) * (2 * (M + 1)) = eps by field; lra. lra. }
have Hk2 : norm1 k <= 2 * M * norm1 h.
{ have : norm1 k <= (M * e') * norm1 k + M * norm1 h by rewrite Rmult_assoc; lra.
  have : (M * e') * norm1 k <= 1 / 2 * norm1 k by apply: Rmult_le_compat_r. lra. }
apply: Rle_trans Hb _. rewrite -Rmult_assoc.
apply: Rle_trans (_ : M * e' * (2 * M * norm1 h) <= _).
- apply: Rmult_le_compat_l => //. apply: Rmult_le_pos; lra.
- rewrite -Rmult_assoc. exact: Rmult_le_compat_r.
Qed.
Lemma det_inv_unit n (J : 'M[R]_n) : (\det J)%Ri <> 0 -> (\det (invmx J))%Ri = / (\det J)%Ri.
Proof.
move=> HJ. have UJ := det_unit HJ. apply: (Rmult_eq_reg_l (\det J)%Ri) => //. rewrite Rinv_r //.
have := congr1 (fun A => \det A)%Ri (mulmxV UJ). rewrite /= det_mulmx det1. by [].
Qed.

(** log_prob from the inverse direction of the bijector. *)
Lemma log_prob_push K (base : dist K) b pre suf G p x y il :
  has_densities base pre p -> b_ial b y = Ok (x, il) -> wf x -> shp x = (pre ++ suf)%list -> wf il -> shp il = pre ->
  (forall idx, inb pre idx -> event suf x idx = G idx (event suf y idx) /\ is_log_det (G idx) (event suf y idx) (tget 0 il idx)) ->
  exists r, transformed_log_prob base b y = Ok r /\ wf r /\ shp r = pre /\
    forall idx, inb pre idx -> exists J, is_jacobian (G idx) (event suf y idx) J /\ (\det J)%Ri <> 0 /\
      tget (Fin 0) r idx = rlog (p idx (G idx (event suf y idx)) * Rabs (\det J)%Ri).
Proof.
move=> [Pp HB] Ei Wx Sx Wl Sl HL. have [lp [Elp [Wlp [Slp Hlp]]]] := HB x Wx Sx.
rewrite /transformed_log_prob Ei /= Elp /= (lift2_same _ _ _ _ Slp (Sl : shp (tmap Fin il) = pre)).
eexists. split; first reflexivity. split; first exact: tgen_wf. split=> // idx Hi. rewrite tget_tgen //.
have [Ex [J [HJ [NJ El]]]] := HL idx Hi. exists J. split=> //. split=> //. rewrite Hlp // Ex (tget_tmap 0) ?Sl // El.
apply: rlog_mult => //. exact: Rabs_pos_lt.
Qed.

(** log_prob at any array [y] the bijector inverts: if the bijector computes, in every batch position, the map F with its
    true log-determinant and the two directions report opposite log-determinants, the result has the base's batch shape
    and holds in each position ln(p(G v) |det J|), J the Jacobian of the inverse map G at the event v. *)
Theorem C31_log_prob_jacobian : forall K (base : dist K) b pre suf F G p x y ld,
  has_densities base pre p -> wf x -> shp x = (pre ++ suf)%list ->
  log_det_ok b pre F x -> b_fal b x = Ok (y, ld) -> b_ial b y = Ok (x, tneg ld) ->
  (forall idx, inb pre idx -> G idx (F idx (event suf x idx)) = event suf x idx /\ inverse_near (F idx) (G idx) (F idx (event suf x idx))) ->
  exists r, transformed_log_prob base b y = Ok r /\ wf r /\ shp r = pre /\
    forall idx, inb pre idx -> exists J, is_jacobian (G idx) (event suf y idx) J /\ (\det J)%Ri <> 0 /\
      tget (Fin 0) r idx = rlog (p idx (G idx (event suf y idx)) * Rabs (\det J)%Ri).
Proof.
move=> K base b pre suf F G p x y ld HB Wx Sx [y0 [l0 [E0 [Wy [Sy [Wl [Sl HL]]]]]]] Ef Ei HG.
move: E0. rewrite Ef => -[E1 E2]. subst y0 l0. apply: (log_prob_push HB Ei Wx Sx) => //; first exact: tmap_wf.
move=> idx Hi. have [Ey [J [HJ [NJ El]]]] := HL idx Hi. have [EG HN] := HG idx Hi. rewrite Ey. split=> //.
exists (invmx J). split; first by apply: (jacobian_inverse _ NJ HN); rewrite EG.
have DI := det_inv_unit NJ. split; first by rewrite DI; exact: Rinv_neq_0_compat.
rewrite (tget_tmap 0) ?Sl // El DI Rabs_inv ln_Rinv //. exact: Rabs_pos_lt.
Qed.
Print Assumptions C31_log_prob_jacobian.
(** Block over a scalar bijector: the density in each batch position is p at the entrywise inverse times |det| of the
    Jacobian of the entrywise inverse, which is the product of the |g'(v_i)|. *)
Theorem C31_log_prob_block : forall K (base : dist K) m f lf g lg k c pre suf p (y : arr),
  has_densities base pre p -> m_in m = 0%Z -> m_out m = 0%Z -> (m_cj m = true -> m_cl m = true) ->
  block_init (elementwise m f lf g lg) k = Ok c -> wf y -> shp y = (pre ++ suf)%list -> Z.of_nat (length suf) = k ->
  (forall idx, inb (pre ++ suf) idx -> log_abs_derivative g lg (tget 0 y idx)) ->
  exists r, transformed_log_prob base c y = Ok r /\ wf r /\ shp r = pre /\
    forall idx, inb pre idx -> exists d : 'cV[R]_(prodl suf),
      (forall i, derivable_pt_lim g (event suf y idx i ord0) (d i ord0)) /\
      tget (Fin 0) r idx = rlog (p idx (\col_i g (event suf y idx i ord0))%Ri * Rabs (\prod_i d i ord0)%Ri).
Proof.
move=> K base m f lf g lg k c pre suf p y HB Mi Mo Mc Hc Wy Sy Hk Hd.
have C1 : coherent (elementwise m f lf g lg) by rewrite /coherent /= Mi Mo.
have C2 : coherent (elementwise m g lg f lf) by rewrite /coherent /= Mi Mo.
have [c' Hc'] : exists c', block_init (elementwise m g lg f lf) k = Ok c' by apply: block_init_ok => //; rewrite -Hk; exact: Zle_0_nat.
have [y0 [l0 [E0 [Wx [Sx [Wl [Sl HL]]]]]]] := block_elementwise_log_det Mi Mo Mc Hc' Wy Sy Hk Hd.
have Ei : b_ial c y = Ok (y0, l0).
{ have [_ [_ [_ [_ [_ [_ [_ [_ [_ [_ F6]]]]]]]]]] := block_fields _ _ _ C1 Hc.
  have [_ [_ [_ [_ [_ [_ [_ [_ [_ [F5 _]]]]]]]]]] := block_fields _ _ _ C2 Hc'.
  rewrite -E0 F5 F6 /= Mi Mo. by []. }
have [r [Er [Wr [Sr Hr]]]] := log_prob_push HB Ei Wx Sx Wl Sl HL. exists r. do 3!split=> //. move=> idx Hi.
have [J [HJ [NJ E]]] := Hr idx Hi.
exists (\col_i Derive.Derive g (event suf y idx i ord0))%Ri.
have HD : forall i, derivable_pt_lim g (event suf y idx i ord0) (Derive.Derive g (event suf y idx i ord0)).
{ move=> i. have : inb (pre ++ suf) (idx ++ unravel suf i)%list by apply: inb_app => //; apply: unravel_inb; apply/ltP; exact: ltn_ord.
  move=> /Hd [d [Dd _]]. rewrite mxE. have Dd' := proj2 (Derive.is_derive_Reals _ _ _) Dd. by rewrite (Derive.is_derive_unique _ _ _ Dd'). }
split; first by move=> i; rewrite mxE; exact: HD.
rewrite E. congr (rlog (_ * Rabs _)).
pose dr := (\row_i Derive.Derive g (event suf y idx i ord0))%Ri : 'rV[R]_(prodl suf).
have HJ' : is_jacobian (fun v : 'cV[R]_(prodl suf) => (\col_i g (v i ord0))%Ri) (event suf y idx) (diag_mx dr).
{ apply: (@jacobian_diag _ (fun _ => g)) => i. rewrite [dr _ _]mxE. exact: HD. }
rewrite (jacobian_unique HJ HJ') det_diag. apply: eq_bigr => i _. by rewrite !mxE.
Qed.
Print Assumptions C31_log_prob_block.

(** ** The mean *)
Lemma norm1_scale n (v : 'cV[R]_n) s : norm1 (s *: v)%Ri = Rabs s * norm1 v.
Proof. rewrite /norm1 -Rsum_mull. apply: eq_bigr => i _. by rewrite mxE mulRE Rabs_mult. Qed.
Lemma constant_jacobian_affine n m (F : 'cV[R]_n -> 'cV[R]_m) J : (forall v, is_jacobian F v J) -> forall v, F v = (J *m v + F 0)%Ri.
Proof.
move=> H v. apply/colP => i. rewrite mxE addRE.
have D : forall t, derivable_pt_lim (fun t => F (t *: v)%Ri i ord0) t ((J *m v)%Ri i ord0).
{ move=> t eps He. have Nv := norm1_ge0 v.
  have [d [Hd K]] := H (t *: v)%Ri (eps / (2 * (norm1 v + 1))) ltac:(apply: Rdiv_lt_0_compat; lra).
  have Hd' : 0 < d / (norm1 v + 1) by apply: Rdiv_lt_0_compat; lra.
  exists (mkposreal _ Hd') => s Hs /= Hlt.
  have Hsn : Rabs s * norm1 v < d.
  { apply: Rle_lt_trans (_ : Rabs s * (norm1 v + 1) < d).
    - apply: Rmult_le_compat_l; [exact: Rabs_pos|lra].
    - have := Rmult_lt_compat_r (norm1 v + 1) _ _ ltac:(lra) Hlt. have -> : d / (norm1 v + 1) * (norm1 v + 1) = d by field; lra. by []. }
  have := K (s *: v)%Ri. rewrite norm1_scale -scalerDl => /(_ Hsn) Hle.
  have Hc := norm1_comp (F ((t + s) *: v) - F (t *: v) - J *m (s *: v))%Ri i. rewrite -scalemxAr in Hc Hle.
  set a := F ((t + s)%Ri *: v)%Ri in Hc Hle. rewrite -[(t + s)%R]addRE -/a. rewrite !mxE !addRE !oppRE mulRE in Hc.
  move: Hc Hle. have -> : (\sum_j J i j * v j ord0)%Ri = (J *m v)%Ri i ord0 by rewrite mxE.
  move: ((J *m v)%Ri i ord0) (a i ord0) (F (t *: v)%Ri i ord0) (norm1 _) => k a1 a2 N Hc Hle.
  have Hta : 0 < Rabs s by exact: Rabs_pos_lt.
  have -> : (a1 - a2) / s - k = (a1 + - a2 + - (s * k)) / s by field.
  rewrite /Rdiv Rabs_mult Rabs_inv. apply: (Rmult_lt_reg_r (Rabs s)) => //. rewrite Rmult_assoc Rinv_l; last lra. rewrite Rmult_1_r.
  apply: Rle_lt_trans Hc _. apply: Rle_lt_trans Hle _. rewrite -Rmult_assoc (Rmult_comm _ (Rabs s)) Rmult_assoc Rmult_comm. apply: Rmult_lt_compat_r => //.
  apply: Rle_lt_trans (_ : eps / 2 < eps); last lra.
  have -> : eps / 2 = eps / (2 * (norm1 v + 1)) * (norm1 v + 1) by field; lra.
  apply: Rmult_le_compat_l; [apply: Rlt_le; apply: Rdiv_lt_0_compat; lra|lra]. }
have [c [Hc _]] := MVT_cor2 (fun t => F (t *: v)%Ri i ord0) (fun _ => (J *m v)%Ri i ord0) 0 1 Rlt_0_1 (fun t _ => D t).
move: Hc. rewrite scale0r scale1r. move: (F v i ord0) (F 0%Ri i ord0) ((J *m v)%Ri i ord0) => p q r. lra.
Qed.
Lemma affine_mean n k (p : 'cV[R]_n -> R) (A : 'M[R]_(k, n)) (c : 'cV[R]_k) m :
  integral_n p 1 -> mean_is_n p m -> mean_after p (fun v => A *m v + c)%Ri (A *m m + c)%Ri.
Proof.
move=> I1 Hm i.
have HS : integral_n (fun v => ((\sum_j (fun v : 'cV[R]_n => A i j * (v j ord0 * p v))%R v)%Ri + c i ord0 * p v)%R) ((\sum_j (A i j * m j ord0)%R)%Ri + c i ord0 * 1).
{ apply: integral_n_plus; last exact: integral_n_scal. apply: integral_n_sum => j. apply: integral_n_scal. exact: Hm. }
apply: (integral_n_eq _ (integral_n_ext _ HS)).
- rewrite !mxE addRE Rmult_1_r. by [].
- move=> v /=. rewrite !mxE addRE Rmult_plus_distr_r. congr (_ + _). rewrite [RHS]Rmult_comm -Rsum_mull. apply: eq_bigr => j _. rewrite mulRE.
  change (A i j * (v j ord0 * p v) = p v * (A i j * v j ord0))%R. move: (A i j : R) (v j ord0 : R) (p v : R) => a x q. toR. ring.
Qed.
(** mean of any bijector whose map has the same Jacobian everywhere, any event shape, any batch. *)
Theorem C32_mean_vector : forall K (base : dist K) b pre suf F J p m, b_cj b = true ->
  (forall x, wf x -> shp x = (pre ++ suf)%list -> exists y, b_fwd b x = Ok y /\ wf y /\ shp y = (pre ++ suf)%list /\
     forall idx, inb pre idx -> event suf y idx = F idx (event suf x idx)) ->
  (forall idx v, inb pre idx -> is_jacobian (F idx) v (J idx)) ->
  d_mean base = Ok m -> wf m -> shp m = (pre ++ suf)%list ->
  (forall idx, inb pre idx -> integral_n (p idx) 1 /\ mean_is_n (p idx) (event suf m idx)) ->
  exists ym, transformed_mean base b = Ok ym /\ wf ym /\ shp ym = (pre ++ suf)%list /\
    forall idx, inb pre idx -> mean_after (p idx) (F idx) (event suf ym idx).
Proof.
move=> K base b pre suf F J p m Hc Hf HJ Em Wm Sm Hp. rewrite /transformed_mean Hc Em /=.
have [y [-> [Wy [Sy Hy]]]] := Hf m Wm Sm. exists y. do 3!split=> //. move=> idx Hi. rewrite Hy //. have [I1 Hm] := Hp idx Hi.
have A := constant_jacobian_affine (fun v => HJ idx v Hi). rewrite A. move=> i. have := affine_mean (J idx) (F idx 0%Ri) I1 Hm i.
apply: integral_n_ext => v. by rewrite -A.
Qed.
Print Assumptions C32_mean_vector.

(** Concrete cases.  A base with the standard normal density on events of shape (2,), in a batch of 3; Block(Tanh, 1);
    and Block over x |-> 2 x + 1. *)
Definition ex_base : dist unit :=
  mkDist (3 :: nil)%nat (Some (2 :: nil)%nat)
    (fun x => Ok (tgen (3 :: nil)%nat (fun idx => rlog (std_n (event (2 :: nil)%nat x idx)))))
    (fun _ _ => Err NotImplementedError) (fun _ _ => Err NotImplementedError)
    (Ok (tzeros (3 :: 2 :: nil)%nat)) (Ok (tzeros (3 :: 2 :: nil)%nat)) (Err NotImplementedError).
Lemma ex_base_densities : has_densities ex_base (3 :: nil)%nat (fun _ => @std_n (prodl (2 :: nil)%nat)).
Proof.
split; first by move=> idx v; apply: Rlt_le; exact: std_n_gt0.
move=> x Wx Sx. eexists. split; first reflexivity. split; first exact: tgen_wf. split=> // idx Hi. by rewrite tget_tgen.
Qed.
Example ex_block_tanh : exists c, block_init (elementwise (mkMeta 0 0 false false) tanh_forward tanh_fldj tanh_inverse tanh_ildj) 1 = Ok c /\
  forall y, wf y -> shp y = (3 :: 2 :: nil)%nat -> (forall idx, inb (3 :: 2 :: nil)%nat idx -> -1 < tget 0 y idx < 1) ->
  exists r, transformed_log_prob ex_base c y = Ok r /\ shp r = (3 :: nil)%nat.
Proof.
have Hc := @block_init_ok (elementwise (mkMeta 0 0 false false) tanh_forward tanh_fldj tanh_inverse tanh_ildj) 1 _ _.
have [||c Ec] := Hc; [by []|by []|]. exists c. split=> // y Wy Sy Hy.
have [|r [Er [Wr [Sr Hr]]]] := @C31_log_prob_block _ ex_base (mkMeta 0 0 false false) _ _ _ _ 1%Z c (3 :: nil)%nat (2 :: nil)%nat _ y ex_base_densities erefl erefl (fun h => h) Ec Wy Sy erefl.
- move=> idx Hi. exact: tanh_inverse_log_det (Hy idx Hi).
- by exists r.
Qed.
Example ex_mean : exists c ym, block_init (elementwise (mkMeta 0 0 true true) (fun x => 2 * x + 1) (fun _ => ln 2) (fun y => (y - 1) / 2) (fun _ => - ln 2)) 1 = Ok c /\
  transformed_mean ex_base c = Ok ym /\ shp ym = (3 :: 2 :: nil)%nat /\
  forall idx, inb (3 :: nil)%nat idx -> mean_after (@std_n (prodl (2 :: nil)%nat)) (fun v => \col_i (2 * v i ord0 + 1)%R)%Ri (event (2 :: nil)%nat ym idx).
Proof.
set e := elementwise _ _ _ _ _. have [||c Ec] := @block_init_ok e 1; [by []|by []|]. exists c.
have He : coherent e by []. have [_ [_ [_ [Hcj [_ [F1 _]]]]]] := block_fields _ _ _ He Ec.
have [|v idx Hi|idx Hi|ym [Em [Wm [Sm Hm]]]] := @C32_mean_vector _ ex_base c (3 :: nil)%nat (2 :: nil)%nat (fun _ v => \col_i (2 * v i ord0 + 1)%R)%Ri (fun _ => (2%R)%:M)%Ri
  (fun _ => @std_n (prodl (2 :: nil)%nat)) (tzeros (3 :: 2 :: nil)%nat) Hcj _ _ erefl (tgen_wf _ _) erefl _.
- move=> x Wx Sx. exists (tmap (fun x => 2 * x + 1) x). rewrite F1 /= check_ok /=; last by rewrite /rank Sx.
  split=> //. split; first exact: tmap_wf. split=> // idx Hi. apply/colP => j. rewrite !mxE (tget_tmap 0) // Sx. apply: (@inb_app (3 :: nil)%nat (2 :: nil)%nat) => //. apply: unravel_inb. apply/ltP. exact: ltn_ord.
- have := jacobian_affine ((2%R)%:M)%Ri (const_mx 1)%Ri idx. apply: jacobian_ext => w. apply/colP => i. by rewrite mul_scalar_mx !mxE addRE mulRE.
- split; first exact: std_n_mass. move=> i. have := std_n_mean i. rewrite mxE tget_tgen; first by [].
  apply: (@inb_app (3 :: nil)%nat (2 :: nil)%nat) => //. apply: unravel_inb. apply/ltP. exact: ltn_ord.
- by exists ym.
Qed.
