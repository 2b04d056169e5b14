From mathcomp Require Import all_ssreflect all_algebra.
From Coq Require Import Reals Lra List ZArith.
From Verif Require Import Base.Result Base.Sums Base.Tensor Model.Bijector Model.Coupling Base.Rmx
  Spec.Bijector Spec.Scalar Spec.Jacobian Spec.Coupling Proofs.Bijector Proofs.Block Proofs.Jacobian Proofs.LogDet Proofs.Coupling.
Set Implicit Arguments.
Unset Strict Implicit.
Unset Printing Implicit Defensive.
Import GRing.Theory.
Delimit Scope ring_scope with Ri.
Delimit Scope R_scope with R.
Local Open Scope R_scope.

Lemma vec_wf n (v : 'cV[R]_n) : wf (vec v).
Proof. by rewrite /wf /vec /= map_length seq_length Nat.mul_1_r. Qed.
Lemma vec_get n (v : 'cV[R]_n) (i : nat) (Hi : (i < n)%nat) : tget 0 (vec v) (cons i nil) = v (Ordinal Hi) ord0.
Proof.
rewrite /tget /vec. cbn [shp dat ravel]. change (prodl nil) with 1%nat. rewrite Nat.mul_1_r Nat.add_0_r.
pose g := fun n0 : nat => match insub n0 with Some j => v j ord0 | None => 0 end : R.
rewrite -/g (nth_indep _ 0 (g O)); last by rewrite map_length seq_length; apply/ltP.
rewrite map_nth seq_nth; last by apply/ltP.
by rewrite Nat.add_0_l /g insubT.
Qed.
Lemma slice_vec_up k r (a : 'cV[R]_k) (b : 'cV[R]_r) : slice_of nil nil 0 k (vec (col_mx a b)) (vec a).
Proof.
split; first exact: vec_wf. split; first by rewrite Nat.sub_0_r.
move=> i q j Hi Hq Hj. rewrite (inb_nil_inv _ Hi) (inb_nil_inv _ Hj) Nat.add_0_l /=.
rewrite Nat.sub_0_r in Hq. move/ltP: Hq => Hq.
have Hq' : (q < k + r)%nat by apply: ltn_addr.
rewrite (vec_get a Hq) (vec_get (col_mx a b) Hq').
have -> : Ordinal Hq' = lshift r (Ordinal Hq) by exact: val_inj.
by rewrite col_mxEu.
Qed.
Lemma slice_vec_down k r (a : 'cV[R]_k) (b : 'cV[R]_r) : slice_of nil nil k (k + r) (vec (col_mx a b)) (vec b).
Proof.
have E : Nat.sub (k + r) k = r by rewrite minusE addKn.
split; first exact: vec_wf. split; first by rewrite E.
move=> i q j Hi Hq Hj. rewrite (inb_nil_inv _ Hi) (inb_nil_inv _ Hj) /=.
rewrite E in Hq. move/ltP: Hq => Hq.
have Hq' : (k + q < k + r)%nat by rewrite ltn_add2l.
rewrite (vec_get b Hq) (vec_get (col_mx a b) Hq').
have -> : Ordinal Hq' = rshift k (Ordinal Hq) by exact: val_inj.
by rewrite col_mxEd.
Qed.

(** ** Determinants *)
Section Det.
Variables k r : nat.
Lemma jac_usub (F : 'cV[R]_(k + r) -> 'cV[R]_(k + r)) v J :
  is_jacobian F v J -> is_jacobian (fun w => usubmx (F w)) v (usubmx J).
Proof.
move=> HJ. have E : forall n (w : 'M[R]_(k + r, n)), ((row_mx 1%:M 0 : 'M[R]_(k, k + r)) *m w + 0)%Ri = usubmx w.
{ move=> n w. by rewrite -{1}[w]vsubmxK mul_row_col mul1mx mul0mx !addr0. }
have := jacobian_comp HJ (jacobian_affine (row_mx 1%:M 0 : 'M[R]_(k, k + r))%Ri 0%Ri (F v)).
have -> : ((row_mx 1%:M 0 : 'M[R]_(k, k + r)) *m J)%Ri = usubmx J by rewrite -[LHS]addr0 E.
by apply: jacobian_ext => w; rewrite E.
Qed.
Lemma jac_dsub (F : 'cV[R]_(k + r) -> 'cV[R]_(k + r)) v J :
  is_jacobian F v J -> is_jacobian (fun w => dsubmx (F w)) v (dsubmx J).
Proof.
move=> HJ. have E : forall n (w : 'M[R]_(k + r, n)), ((row_mx 0 1%:M : 'M[R]_(r, k + r)) *m w + 0)%Ri = dsubmx w.
{ move=> n w. by rewrite -{1}[w]vsubmxK mul_row_col mul1mx mul0mx add0r addr0. }
have := jacobian_comp HJ (jacobian_affine (row_mx 0 1%:M : 'M[R]_(r, k + r))%Ri 0%Ri (F v)).
have -> : ((row_mx 0 1%:M : 'M[R]_(r, k + r)) *m J)%Ri = dsubmx J by rewrite -[LHS]addr0 E.
by apply: jacobian_ext => w; rewrite E.
Qed.
Lemma jac_in_down m (H : 'cV[R]_(k + r) -> 'cV[R]_m) (a : 'cV[R]_k) (b : 'cV[R]_r) J :
  is_jacobian H (col_mx a b) J -> is_jacobian (fun w => H (col_mx a w)) b (rsubmx J).
Proof.
move=> HJ. pose A : 'M[R]_(k + r, r) := (col_mx 0 1%:M)%Ri. pose z : 'cV[R]_(k + r) := (col_mx a 0)%Ri.
have E : forall w, (A *m w + z)%Ri = col_mx a w by move=> w; rewrite mul_col_mx mul0mx mul1mx add_col_mx add0r addr0.
have HA := jacobian_affine A z b.
have HJ' : is_jacobian H (A *m b + z)%Ri J by rewrite E.
have := jacobian_comp HA HJ'.
have -> : (J *m A)%Ri = rsubmx J by rewrite /A -{1}[J]hsubmxK mul_row_col mulmx0 mulmx1 add0r.
by apply: jacobian_ext => w; rewrite E.
Qed.
Lemma jac_in_up m (H : 'cV[R]_(k + r) -> 'cV[R]_m) (a : 'cV[R]_k) (b : 'cV[R]_r) J :
  is_jacobian H (col_mx a b) J -> is_jacobian (fun w => H (col_mx w b)) a (lsubmx J).
Proof.
move=> HJ. pose A : 'M[R]_(k + r, k) := (col_mx 1%:M 0)%Ri. pose z : 'cV[R]_(k + r) := (col_mx 0 b)%Ri.
have E : forall w, (A *m w + z)%Ri = col_mx w b by move=> w; rewrite mul_col_mx mul0mx mul1mx add_col_mx add0r addr0.
have HA := jacobian_affine A z a.
have HJ' : is_jacobian H (A *m a + z)%Ri J by rewrite E.
have := jacobian_comp HA HJ'.
have -> : (J *m A)%Ri = lsubmx J by rewrite /A -{1}[J]hsubmxK mul_row_col mulmx0 mulmx1 addr0.
by apply: jacobian_ext => w; rewrite E.
Qed.
Lemma jac_const n m (a : 'cV[R]_m) (v : 'cV[R]_n) : is_jacobian (fun _ => a) v 0%Ri.
Proof.
have := jacobian_affine (0 : 'M[R]_(m, n))%Ri a v. by apply: jacobian_ext => w; rewrite mul0mx add0r.
Qed.
Lemma jac_id n (v : 'cV[R]_n) : is_jacobian (fun w => w) v 1%:M%Ri.
Proof.
have := jacobian_affine (1%:M : 'M[R]_(n, n))%Ri 0%Ri v. by apply: jacobian_ext => w; rewrite mul1mx addr0.
Qed.

Lemma lower_log_det (G : 'cV[R]_k -> 'cV[R]_r -> 'cV[R]_r) v J l :
  is_jacobian (coupling_lower G) v J -> is_log_det (G (usubmx v)) (dsubmx v) l ->
  (\det J)%Ri <> 0 /\ l = ln (Rabs (\det J)%Ri).
Proof.
move=> HJ [K [HK [K0 ->]]].
have Ev : v = col_mx (usubmx v) (dsubmx v) by rewrite vsubmxK.
have HJ' := HJ. rewrite Ev in HJ'.
have Hu := jac_usub HJ'. have Hd := jac_dsub HJ'.
have E1 : lsubmx (usubmx J) = 1%:M%Ri.
{ apply: (jacobian_unique (jac_in_up Hu)). apply: (@jacobian_ext _ _ (fun w => w)) (jac_id _) => w.
  by rewrite /coupling_lower !col_mxKu. }
have E2 : rsubmx (usubmx J) = 0%Ri.
{ apply: (jacobian_unique (jac_in_down Hu)). apply: (@jacobian_ext _ _ (fun _ => usubmx v)) (jac_const _ _) => w.
  by rewrite /coupling_lower !col_mxKu. }
have E3 : rsubmx (dsubmx J) = K.
{ apply: (jacobian_unique (jac_in_down Hd)). apply: (jacobian_ext _ HK) => w.
  by rewrite /coupling_lower !col_mxKd !col_mxKu. }
have EJ : J = block_mx 1%:M%Ri 0%Ri (dlsubmx J) K.
{ rewrite -{1}[J]submxK. congr block_mx.
  - by rewrite -E1. - by rewrite -E2. - by rewrite -E3. }
by rewrite EJ det_lblock det1 mul1r.
Qed.
Lemma upper_log_det (G : 'cV[R]_r -> 'cV[R]_k -> 'cV[R]_k) v J l :
  is_jacobian (coupling_upper G) v J -> is_log_det (G (dsubmx v)) (usubmx v) l ->
  (\det J)%Ri <> 0 /\ l = ln (Rabs (\det J)%Ri).
Proof.
move=> HJ [K [HK [K0 ->]]].
have Ev : v = col_mx (usubmx v) (dsubmx v) by rewrite vsubmxK.
have HJ' := HJ. rewrite Ev in HJ'.
have Hu := jac_usub HJ'. have Hd := jac_dsub HJ'.
have E1 : rsubmx (dsubmx J) = 1%:M%Ri.
{ apply: (jacobian_unique (jac_in_down Hd)). apply: (@jacobian_ext _ _ (fun w => w)) (jac_id _) => w.
  by rewrite /coupling_upper !col_mxKd. }
have E2 : lsubmx (dsubmx J) = 0%Ri.
{ apply: (jacobian_unique (jac_in_up Hd)). apply: (@jacobian_ext _ _ (fun _ => dsubmx v)) (jac_const _ _) => w.
  by rewrite /coupling_upper !col_mxKd. }
have E3 : lsubmx (usubmx J) = K.
{ apply: (jacobian_unique (jac_in_up Hu)). apply: (jacobian_ext _ HK) => w.
  by rewrite /coupling_upper !col_mxKd !col_mxKu. }
have EJ : J = block_mx K (ursubmx J) 0%Ri 1%:M%Ri.
{ rewrite -{1}[J]submxK. congr block_mx.
  - by rewrite -E3. - by rewrite -E2. - by rewrite -E1. }
by rewrite EJ det_ublock det1 mulr1.
Qed.
End Det.

Section SplitTop.
Variables (P : Type) (cond : arr -> result P) (bijector bb : P -> bij) (par : arr -> P) (k r : nat) (c : bij).
Hypothesis Hpar : forall x, cond x = Ok (par x).
Hypothesis Hbb : forall p, coherent (bijector p) /\ promoted 1 (bijector p) (bb p).

Lemma split_vec_lower (G : P -> 'cV[R]_r -> 'cV[R]_r) (l : P -> 'cV[R]_r -> R) v J :
  split_coupling_init cond bijector (Z.of_nat k) 1 false (-1) = Ok c ->
  (forall p w, b_fal (bb p) (vec w) = Ok (vec (G p w), tscalar (l p w)) /\ is_log_det (G p) w (l p w)) ->
  is_jacobian (coupling_lower (fun a : 'cV[R]_k => G (par (vec a)))) v J ->
  (\det J)%Ri <> 0 /\
  b_fal c (vec v) = Ok (vec (coupling_lower (fun a : 'cV[R]_k => G (par (vec a))) v), tscalar (ln (Rabs (\det J)%Ri))).
Proof.
move=> Hc Hin HJ.
have [_ [_ Hok]] := sc_init_spec cond bijector (Z.of_nat k) 1 false (-1).
have [_ [_ [_ [_ [_ [Ef _]]]]]] := Hok _ Hc.
set p := par (vec (usubmx v)).
have [Eb Hl] := Hin p (dsubmx v).
have [D0 El] := lower_log_det HJ Hl. split; first exact: D0. rewrite -El.
rewrite Ef check_ok //=.
have Ev : v = col_mx (usubmx v) (dsubmx v) by rewrite vsubmxK.
have Ek : Nat.min (Z.to_nat (Z.of_nat k)) (k + r) = k by rewrite Nat2Z.id; apply: Nat.min_l; apply/leP; exact: leq_addr.
have A : slice_of nil nil (kept_lo false (Nat.min (Z.to_nat (Z.of_nat k)) (k + r)) (k + r)) (kept_hi false (Nat.min (Z.to_nat (Z.of_nat k)) (k + r)) (k + r)) (vec v) (vec (usubmx v)).
{ rewrite Ek /=. rewrite {1}Ev. exact: slice_vec_up. }
have B : slice_of nil nil (kept_lo true (Nat.min (Z.to_nat (Z.of_nat k)) (k + r)) (k + r)) (kept_hi true (Nat.min (Z.to_nat (Z.of_nat k)) (k + r)) (k + r)) (vec v) (vec (dsubmx v)).
{ rewrite Ek /=. rewrite {1}Ev. exact: slice_vec_down. }
have [y [E [Wy [Sy [Ay By]]]]] := @sc_apply_spec P cond bijector (Z.of_nat k) 1%Z (-1)%Z false nil nil (k + r) erefl b_fal (vec v) (vec (usubmx v)) (vec (dsubmx v)) p (bb p) _ _ erefl A B (Hpar _) (sc_inner_promoted bijector 1%Z p (bb p) (proj1 (Hbb p)) (proj2 (Hbb p))) Eb (vec_wf _) erefl.
rewrite E. congr Ok. congr pair.
rewrite /= Ek in Ay By.
apply: (@slices_determine nil nil k (k + r) y (vec (coupling_lower (fun a : 'cV[R]_k => G (par (vec a))) v)) (vec (usubmx v)) (vec (G p (dsubmx v)))) => //.
- by apply/leP; exact: leq_addr.
- exact: vec_wf.
- exact: slice_vec_up.
- exact: slice_vec_down.
Qed.
Lemma split_vec_upper (G : P -> 'cV[R]_k -> 'cV[R]_k) (l : P -> 'cV[R]_k -> R) v J :
  split_coupling_init cond bijector (Z.of_nat k) 1 true (-1) = Ok c ->
  (forall p w, b_fal (bb p) (vec w) = Ok (vec (G p w), tscalar (l p w)) /\ is_log_det (G p) w (l p w)) ->
  is_jacobian (coupling_upper (fun a : 'cV[R]_r => G (par (vec a)))) v J ->
  (\det J)%Ri <> 0 /\
  b_fal c (vec v) = Ok (vec (coupling_upper (fun a : 'cV[R]_r => G (par (vec a))) v), tscalar (ln (Rabs (\det J)%Ri))).
Proof.
move=> Hc Hin HJ.
have [_ [_ Hok]] := sc_init_spec cond bijector (Z.of_nat k) 1 true (-1).
have [_ [_ [_ [_ [_ [Ef _]]]]]] := Hok _ Hc.
set p := par (vec (dsubmx v)).
have [Eb Hl] := Hin p (usubmx v).
have [D0 El] := upper_log_det HJ Hl. split; first exact: D0. rewrite -El.
rewrite Ef check_ok //=.
have Ev : v = col_mx (usubmx v) (dsubmx v) by rewrite vsubmxK.
have Ek : Nat.min (Z.to_nat (Z.of_nat k)) (k + r) = k by rewrite Nat2Z.id; apply: Nat.min_l; apply/leP; exact: leq_addr.
have A : slice_of nil nil (kept_lo false (Nat.min (Z.to_nat (Z.of_nat k)) (k + r)) (k + r)) (kept_hi false (Nat.min (Z.to_nat (Z.of_nat k)) (k + r)) (k + r)) (vec v) (vec (usubmx v)).
{ rewrite Ek /=. rewrite {1}Ev. exact: slice_vec_up. }
have B : slice_of nil nil (kept_lo true (Nat.min (Z.to_nat (Z.of_nat k)) (k + r)) (k + r)) (kept_hi true (Nat.min (Z.to_nat (Z.of_nat k)) (k + r)) (k + r)) (vec v) (vec (dsubmx v)).
{ rewrite Ek /=. rewrite {1}Ev. exact: slice_vec_down. }
have [y [E [Wy [Sy [Ay By]]]]] := @sc_apply_spec P cond bijector (Z.of_nat k) 1%Z (-1)%Z true nil nil (k + r) erefl b_fal (vec v) (vec (dsubmx v)) (vec (usubmx v)) p (bb p) _ _ erefl B A (Hpar _) (sc_inner_promoted bijector 1%Z p (bb p) (proj1 (Hbb p)) (proj2 (Hbb p))) Eb (vec_wf _) erefl.
rewrite E. congr Ok. congr pair.
rewrite /= Ek in Ay By.
apply: (@slices_determine nil nil k (k + r) y (vec (coupling_upper (fun a : 'cV[R]_r => G (par (vec a))) v)) (vec (G p (usubmx v))) (vec (dsubmx v))) => //.
- by apply/leP; exact: leq_addr.
- exact: vec_wf.
- exact: slice_vec_up.
- exact: slice_vec_down.
Qed.
End SplitTop.
