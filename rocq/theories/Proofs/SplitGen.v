From mathcomp Require Import all_ssreflect all_algebra.
From Coq Require Import Reals Lra Lia List ZArith.
From Verif Require Import Base.Result Base.Sums Base.Tensor Model.Bijector Model.Coupling Base.Rmx
  Spec.Bijector Spec.Scalar Spec.Jacobian Spec.Coupling Spec.Blockwise Proofs.Bijector Proofs.Block Proofs.Jacobian
  Proofs.LogDet Proofs.Coupling Proofs.CouplingJac Proofs.BlockDiag.
Set Implicit Arguments.
Unset Strict Implicit.
Unset Printing Implicit Defensive.
Import GRing.Theory.
Delimit Scope ring_scope with Ri.
Delimit Scope R_scope with R.
Local Open Scope R_scope.

Lemma app_inj_len (i i' j j' : list nat) : (i ++ j)%list = (i' ++ j')%list -> length i = length i' -> i = i' /\ j = j'.
Proof.
elim: i i' => [|a i IH] [|a' i'] //= [-> H] [L]. by have [-> ->] := IH _ H L.
Qed.
(** Sylvester's determinant identity. *)
Lemma det_sylvester m n (A : 'M[R]_(m, n)) (B : 'M[R]_(n, m)) : (\det (1%:M + A *m B) = \det (1%:M + B *m A))%Ri.
Proof.
have E1 : (block_mx 1%:M A 0 1%:M *m block_mx (1%:M + A *m B) 0 (- B) 1%:M = block_mx 1%:M A (- B) 1%:M)%Ri.
{ rewrite mulmx_block !mul1mx !mul0mx !mulmx1 !add0r mulmxN. by rewrite addrK. }
have E2 : (block_mx 1%:M 0 (- B) 1%:M *m block_mx 1%:M A 0 (1%:M + B *m A) = block_mx 1%:M A (- B) 1%:M)%Ri.
{ rewrite mulmx_block !mul1mx !mulmx1 !mul0mx !addr0 mulNmx. congr block_mx. by rewrite addrC addrK. }
have := E1. rewrite -E2 => /(congr1 determinant). rewrite !det_mulmx !det_ublock !det_lblock !det1.
by rewrite !mul1r !mulr1.
Qed.

(** Changing the coordinates selected by P2 (inserted back by E2) by a map that also looks at P1. *)
Lemma select_log_det N N1 N2 (P1 : 'M[R]_(N1, N)) (P2 : 'M[R]_(N2, N)) (E2 : 'M[R]_(N, N2))
   (G : 'cV[R]_N1 -> 'cV[R]_N2 -> 'cV[R]_N2) v l :
  (P1 *m E2 = 0)%Ri -> (P2 *m E2 = 1%:M)%Ri ->
  (exists J : 'M[R]_(N2, N1 + N2), is_jacobian (fun w => G (usubmx w) (dsubmx w)) (col_mx (P1 *m v) (P2 *m v))%Ri J) ->
  is_log_det (G (P1 *m v)%Ri) (P2 *m v)%Ri l ->
  is_log_det (fun w => w + E2 *m (G (P1 *m w) (P2 *m w) - P2 *m w))%Ri v l.
Proof.
move=> H1 H2 [J HJ] [D [HD [D0 ->]]].
have Hr : rsubmx J = D.
{ apply: (jacobian_unique _ HD).
  have K1 := jacobian_affine (col_mx 0 1%:M : 'M[R]_(N1 + N2, N2))%Ri (col_mx (P1 *m v) 0 : 'cV[R]_(N1 + N2))%Ri (P2 *m v)%Ri.
  have E1 : forall u : 'cV[R]_N2, (col_mx 0 1%:M *m u + col_mx (P1 *m v) 0)%Ri = col_mx (P1 *m v)%Ri u.
  { move=> u. by rewrite mul_col_mx mul0mx mul1mx add_col_mx add0r addr0. }
  have := jacobian_comp K1. rewrite E1 => /(_ _ _ _ HJ) K2.
  have -> : rsubmx J = (J *m col_mx 0 1%:M)%Ri by rewrite -{2}[J]hsubmxK mul_row_col mulmx0 mulmx1 add0r.
  move: K2. apply: jacobian_ext => u. by rewrite E1 col_mxKu col_mxKd. }
set A := lsubmx J.
have HG : is_jacobian (fun w => G (P1 *m w)%Ri (P2 *m w)%Ri) v (A *m P1 + D *m P2)%Ri.
{ have K1 := jacobian_linear (col_mx P1 P2) v.
  have E1 : forall u : 'cV[R]_N, (col_mx P1 P2 *m u)%Ri = col_mx (P1 *m u)%Ri (P2 *m u)%Ri by move=> u; rewrite mul_col_mx.
  have := jacobian_comp K1. rewrite E1 => /(_ _ _ _ HJ).
  rewrite -{1}[J]hsubmxK mul_row_col Hr. apply: jacobian_ext => u. by rewrite E1 col_mxKu col_mxKd. }
exists (1%:M + E2 *m (A *m P1 + (D - 1%:M) *m P2))%Ri.
have Hd : (\det (1%:M + E2 *m (A *m P1 + (D - 1%:M) *m P2)) = \det D)%Ri.
{ rewrite det_sylvester mulmxDl -!mulmxA H1 H2 mulmx0 mulmx1 add0r. congr (\det _)%Ri. by rewrite addrC subrK. }
split; last by rewrite Hd.
have HN : is_jacobian (fun w => - (P2 *m w))%Ri v (- P2)%Ri.
{ have := jacobian_linear (- P2)%Ri v. apply: jacobian_ext => u. by rewrite mulNmx. }
have HE := jacobian_comp (jacobian_add HG HN) (jacobian_linear E2 _).
have HI := jacobian_linear (1%:M : 'M[R]_N)%Ri v.
have := jacobian_add HI HE.
have -> : (A *m P1 + D *m P2 - P2 = A *m P1 + (D - 1%:M) *m P2)%Ri by rewrite mulmxBl mul1mx addrA.
apply: jacobian_ext => u. by rewrite mul1mx.
Qed.

Section Axis.
Variables (e1 e2 : shape) (d : nat).
Let N := prodl (e1 ++ d :: e2)%list.
Let M n := prodl (e1 ++ n :: e2)%list.
Lemma shift_mid lo i a j : length i = length e1 -> shift_axis e1 lo (i ++ a :: j)%list = (i ++ (Nat.add lo a) :: j)%list.
Proof. move=> H. by rewrite /shift_axis -H firstn_mid nth_mid skipn_mid. Qed.
Lemma unshift_mid lo i a j : length i = length e1 -> unshift_axis e1 lo (i ++ a :: j)%list = (i ++ (Nat.sub a lo) :: j)%list.
Proof. move=> H. by rewrite /unshift_axis -H firstn_mid nth_mid skipn_mid. Qed.
Lemma shift_inb lo n idx : (Nat.add lo n <= d)%coq_nat -> inb (e1 ++ n :: e2)%list idx -> inb (e1 ++ d :: e2)%list (shift_axis e1 lo idx).
Proof.
move=> Hd /inb_mid_inv [i [a [j [-> [Hi [Ha Hj]]]]]]. rewrite shift_mid; last exact: (inb_length _ _ Hi).
apply: inb_mid => //. lia.
Qed.
Lemma idxP n (a : 'I_(M n)) : inb (e1 ++ n :: e2)%list (unravel (e1 ++ n :: e2)%list a).
Proof. apply: unravel_inb. apply/ltP. exact: ltn_ord. Qed.
Section Sel.
Variables (lo n : nat).
Hypothesis Hd : (Nat.add lo n <= d)%coq_nat.
Lemma selP (a : 'I_(M n)) : (ravel (e1 ++ d :: e2)%list (shift_axis e1 lo (unravel (e1 ++ n :: e2)%list a)) < N)%nat.
Proof. apply/ltP. apply: ravel_lt. apply: (shift_inb Hd). exact: idxP. Qed.
Definition sel a : 'I_N := Ordinal (selP a).
Definition selM : 'M[R]_(M n, N) := (\matrix_(a, k) (if sel a == k then 1%R else 0%R))%Ri.
Lemma unravel_sel a : unravel (e1 ++ d :: e2)%list (sel a) = shift_axis e1 lo (unravel (e1 ++ n :: e2)%list a).
Proof. apply: unravel_ravel. apply: (shift_inb Hd). exact: idxP. Qed.
Lemma selM_mul p (A : 'M[R]_(N, p)) a j : (selM *m A)%Ri a j = A (sel a) j.
Proof.
rewrite mxE (bigD1 (sel a)) //= big1 ?addr0; first by rewrite mxE eqxx mul1r.
move=> k Hk. by rewrite mxE eq_sym (negbTE Hk) mul0r.
Qed.
Lemma sel_inj a b : sel a = sel b -> a = b.
Proof.
move=> /(congr1 (fun k : 'I_N => unravel (e1 ++ d :: e2)%list k)). rewrite !unravel_sel.
have [i [q [j [Ea [Hi [Hq Hj]]]]]] := inb_mid_inv _ _ _ _ (idxP a).
have [i' [q' [j' [Eb [Hi' [Hq' Hj']]]]]] := inb_mid_inv _ _ _ _ (idxP b).
rewrite Ea Eb. rewrite !shift_mid; try exact: inb_length.
move=> H. have [H1 H2] : i = i' /\ (Nat.add lo q :: j)%list = (Nat.add lo q' :: j')%list.
{ apply: (app_inj_len H). by rewrite (inb_length _ _ Hi) (inb_length _ _ Hi'). }
case: H2 => H2 H3. have H4 : q = q' by lia.
apply: val_inj. have := f_equal (ravel (e1 ++ n :: e2)%list) Ea.
rewrite H1 H4 H3 -Eb. rewrite !ravel_unravel //; apply/ltP; exact: ltn_ord.
Qed.
Lemma part_selM v : part lo n v = (selM *m v)%Ri.
Proof.
apply/colP => a. rewrite selM_mul mxE /= tget_tgen; last exact: idxP. rewrite -unravel_sel. exact: unflat_get.
Qed.
Lemma selM_tr_in a k p (A : 'M[R]_(M n, p)) j : sel a = k -> (selM^T *m A)%Ri k j = A a j.
Proof.
move=> <-. rewrite mxE (bigD1 a) //= big1 ?addr0; first by rewrite !mxE eqxx mul1r.
move=> b Hb. rewrite !mxE. case: eqP => [/sel_inj E|_]; last by rewrite mul0r. by rewrite E eqxx in Hb.
Qed.
Lemma selM_tr_out k p (A : 'M[R]_(M n, p)) j : (forall a, sel a <> k) -> (selM^T *m A)%Ri k j = 0.
Proof. move=> H. rewrite mxE big1 // => a _. rewrite !mxE. case: eqP => [E|_]; last by rewrite mul0r. by case: (H a). Qed.
Lemma selM_tr : (selM *m selM^T = 1%:M)%Ri.
Proof.
apply/matrixP => a b. rewrite selM_mul !mxE.
case: (eqVneq a b) => [->|ne]; first by rewrite eqxx.
case: eqP => [/sel_inj E|_] //. by rewrite E eqxx in ne.
Qed.
End Sel.
Lemma sel_disjoint lo1 n1 lo2 n2 (H1 : (Nat.add lo1 n1 <= d)%coq_nat) (H2 : (Nat.add lo2 n2 <= d)%coq_nat) :
  ((Nat.add lo1 n1 <= lo2)%coq_nat \/ (Nat.add lo2 n2 <= lo1)%coq_nat) -> (selM H1 *m (selM H2)^T = 0)%Ri.
Proof.
move=> Hdis. apply/matrixP => a b. rewrite selM_mul !mxE. case: eqP => // /(congr1 (fun k : 'I_N => unravel (e1 ++ d :: e2)%list k)).
rewrite !unravel_sel.
have [i [q [j [Ea [Hi [Hq Hj]]]]]] := inb_mid_inv _ _ _ _ (idxP a).
have [i' [q' [j' [Eb [Hi' [Hq' Hj']]]]]] := inb_mid_inv _ _ _ _ (idxP b).
rewrite Ea Eb. rewrite !shift_mid; try exact: inb_length.
move=> H. have [_ [E _]] : i' = i /\ (Nat.add lo2 q' :: j')%list = (Nat.add lo1 q :: j)%list.
{ apply: (app_inj_len H). by rewrite (inb_length _ _ Hi) (inb_length _ _ Hi'). }
lia.
Qed.
Lemma split_map_sel lo1 n1 lo2 n2 (H1 : (Nat.add lo1 n1 <= d)%coq_nat) (H2 : (Nat.add lo2 n2 <= d)%coq_nat) G (v : 'cV[R]_N) :
  split_map lo1 lo2 G v = (v + (selM H2)^T *m (G (selM H1 *m v) (selM H2 *m v) - selM H2 *m v))%Ri.
Proof.
apply/colP => k. rewrite /split_map -(part_selM H1) -(part_selM H2). set g := G _ _.
rewrite mxE /= tget_tgen; last exact: idxP.
have [i [q [j [Ek [Hi [Hq Hj]]]]]] := inb_mid_inv _ _ _ _ (idxP k). have Li := inb_length _ _ Hi.
have Ek' : tget 0 (unflat v) (unravel (e1 ++ d :: e2)%list k) = v k ord0 by exact: unflat_get.
have Nq : nth (length e1) (i ++ q :: j)%list 0%nat = q by rewrite -Li nth_mid.
rewrite mxE. rewrite Ek' Ek !Nq.
case: (Nat.leb_spec0 lo2 q) => L1; last first.
{ rewrite /= selM_tr_out ?addr0 // => a /(congr1 (fun k : 'I_N => unravel (e1 ++ d :: e2)%list k)). rewrite unravel_sel Ek.
  have [i' [q' [j' [-> [Hi' [Hq' Hj']]]]]] := inb_mid_inv _ _ _ _ (idxP a). rewrite shift_mid; last exact: inb_length.
  move=> H. have [_ [E _]] : i' = i /\ (Nat.add lo2 q' :: j')%list = (q :: j)%list.
  { apply: (app_inj_len H). by rewrite Li (inb_length _ _ Hi'). }
  lia. }
case: (Nat.ltb_spec0 q (Nat.add lo2 n2)) => L2; last first.
{ rewrite /= selM_tr_out ?addr0 // => a /(congr1 (fun k : 'I_N => unravel (e1 ++ d :: e2)%list k)). rewrite unravel_sel Ek.
  have [i' [q' [j' [-> [Hi' [Hq' Hj']]]]]] := inb_mid_inv _ _ _ _ (idxP a). rewrite shift_mid; last exact: inb_length.
  move=> H. have [_ [E _]] : i' = i /\ (Nat.add lo2 q' :: j')%list = (q :: j)%list.
  { apply: (app_inj_len H). by rewrite Li (inb_length _ _ Hi'). }
  lia. }
rewrite /= unshift_mid //.
have Hin : inb (e1 ++ n2 :: e2)%list (i ++ Nat.sub q lo2 :: j)%list by apply: inb_mid => //; lia.
have Hr := ravel_lt _ _ Hin. move/ltP: Hr => Hr.
have Es : sel H2 (Ordinal Hr) = k.
{ apply: val_inj => /=. rewrite unravel_ravel // shift_mid //. have -> : Nat.add lo2 (Nat.sub q lo2) = q by lia.
  rewrite -Ek. apply: ravel_unravel. apply/ltP. exact: ltn_ord. }
rewrite (selM_tr_in _ _ Es). have Ep : part lo2 n2 v (Ordinal Hr) ord0 = v k ord0 by rewrite part_selM selM_mul Es.
rewrite -{1}(unravel_ravel _ _ Hin). have := unflat_get g (Ordinal Hr). rewrite /= => ->.
have -> : ((g - part lo2 n2 v)%Ri (Ordinal Hr) ord0 = g (Ordinal Hr) ord0 - v k ord0)%Ri.
{ rewrite -Ep. move: (part lo2 n2 v) => z. by rewrite mxE [X in (_ + X)%Ri = _]mxE. }
by rewrite addrC subrK.
Qed.
End Axis.

Section SplitTop.
Variables (P : Type) (cond : arr -> result P) (bijector : P -> bij).
Variables (si ax : Z) (swap : bool) (pre e1 e2 : shape) (d : nat) (c : bij).
Let ev : Z := Z.of_nat (length e1 + S (length e2)).
Hypothesis Hc : split_coupling_init cond bijector si ev swap ax = Ok c.
Hypothesis Hax : ax = (- Z.of_nat (S (length e2)))%Z.
Let k := Nat.min (Z.to_nat si) d.
Let lo1 := kept_lo swap k d. Let hi1 := kept_hi swap k d.
Let lo2 := kept_lo (negb swap) k d. Let hi2 := kept_hi (negb swap) k d.
Let n1 := Nat.sub hi1 lo1. Let n2 := Nat.sub hi2 lo2.
Variable G : list nat -> 'cV[R]_(prodl (e1 ++ n1 :: e2)%list) -> 'cV[R]_(prodl (e1 ++ n2 :: e2)%list) -> 'cV[R]_(prodl (e1 ++ n2 :: e2)%list).
Lemma bounds : (Nat.add lo1 n1 <= d)%coq_nat /\ (Nat.add lo2 n2 <= d)%coq_nat /\
  ((Nat.add lo1 n1 <= lo2)%coq_nat \/ (Nat.add lo2 n2 <= lo1)%coq_nat) /\ Nat.add lo1 n1 = hi1 /\ Nat.add lo2 n2 = hi2 /\
  forall a, (a < d)%coq_nat -> ~ ((lo2 <= a)%coq_nat /\ (a < hi2)%coq_nat) -> ((lo1 <= a)%coq_nat /\ (a < hi1)%coq_nat).
Proof.
rewrite /n1 /n2 /lo1 /lo2 /hi1 /hi2 /kept_lo /kept_hi. have : (k <= d)%coq_nat by rewrite /k; lia.
case: swap => /= H; repeat split; try lia.
Qed.
Lemma slice_event x lo hi n part0 b : (Nat.add lo n <= d)%coq_nat -> n = Nat.sub hi lo -> shp x = (pre ++ e1 ++ d :: e2)%list ->
  slice_of (pre ++ e1)%list e2 lo hi x part0 -> inb pre b ->
  event (e1 ++ n :: e2)%list part0 b = part lo n (event (e1 ++ d :: e2)%list x b).
Proof.
move=> Hd En Hs [W [S V]] Hb. apply/colP => a. rewrite (part_selM Hd) selM_mul !mxE unravel_sel.
have [i [q [j [-> [Hi [Hq Hj]]]]]] := inb_mid_inv _ _ _ _ (idxP a). rewrite shift_mid; last exact: inb_length.
rewrite !app_assoc. apply: V => //; last lia. exact: inb_app.
Qed.
Theorem split_coupling_log_det_gen x x1 x2 p b' :
  wf x -> shp x = (pre ++ e1 ++ d :: e2)%list ->
  slice_of (pre ++ e1)%list e2 lo1 hi1 x x1 -> slice_of (pre ++ e1)%list e2 lo2 hi2 x x2 ->
  cond x1 = Ok p -> coherent (bijector p) -> promoted ev (bijector p) b' ->
  log_det_ok b' pre (suf := (e1 ++ n2 :: e2)%list) (fun b => G b (part lo1 n1 (event (e1 ++ d :: e2)%list x b))) x2 ->
  (forall b, inb pre b -> exists J : 'M[R]_(prodl (e1 ++ n2 :: e2)%list, prodl (e1 ++ n1 :: e2)%list + prodl (e1 ++ n2 :: e2)%list),
     is_jacobian (fun w => G b (usubmx w) (dsubmx w))
       (col_mx (part lo1 n1 (event (e1 ++ d :: e2)%list x b)) (part lo2 n2 (event (e1 ++ d :: e2)%list x b))) J) ->
  log_det_ok c pre (suf := (e1 ++ d :: e2)%list) (fun b => split_map lo1 lo2 (G b)) x.
Proof.
move=> Hw Hs S1 S2 Hp Hco Hpr [y2 [l [E [Wy [Sy [Wl [Sl V]]]]]]] HG.
have [B1 [B2 [B3 [B4 [B5 B6]]]]] := bounds.
have Hs' : shp x = ((pre ++ e1) ++ d :: e2)%list by rewrite -app_assoc.
have Sy' : shp y2 = shp x2 by rewrite Sy (proj1 (proj2 S2)) -app_assoc.
have Hr : (ev <= Z.of_nat (rank x))%Z by rewrite /rank Hs !app_length /ev -!plusE /=; lia.
have [y [E' [Wy' [Sy2 [T1 T2]]]]] := @split_coupling_values P cond bijector si ev swap ax (pre ++ e1)%list e2 d c Hc Hax b_fal x x1 x2 p b' y2 l
  (or_introl erefl) Hs' Hr S1 S2 Hp Hco Hpr E Wy Sy'.
rewrite -/k -/lo1 -/lo2 -/hi1 -/hi2 in T1 T2.
exists y, l. split; first exact: E'. split; first exact: Wy'. split; first by rewrite Sy2.
split; first exact: Wl. split; first exact: Sl. move=> b Hb.
have P1 := slice_event B1 erefl Hs S1 Hb. have P2 := slice_event B2 erefl Hs S2 Hb.
have [V1 V2] := V b Hb. split.
- rewrite (split_map_sel B1 B2). apply/colP => a. rewrite mxE.
  have [i [q [j [Ea [Hi [Hq Hj]]]]]] := inb_mid_inv _ _ _ _ (idxP a). have Li := inb_length _ _ Hi.
  have Hbi : inb (pre ++ e1)%list (b ++ i)%list by apply: inb_app.
  have := split_map_sel B1 B2 (G b) (event (e1 ++ d :: e2)%list x b).
  move=> /(congr1 (fun z : 'cV[R]_(prodl (e1 ++ d :: e2)%list) => z a ord0)) <-.
  rewrite mxE /= tget_tgen; last exact: idxP. rewrite Ea.
  have Nq : nth (length e1) (i ++ q :: j)%list 0%nat = q by rewrite -Li nth_mid.
  rewrite Nq. case: (Nat.leb_spec0 lo2 q) => L1; last first.
  { have L : ((lo1 <= q)%coq_nat /\ (q < hi1)%coq_nat) by apply: B6 => //; lia.
    have [_ [_ X1]] := S1. have [_ [_ Y1]] := T1.
    have := X1 (b ++ i)%list (Nat.sub q lo1) j Hbi ltac:(lia) Hj. have := Y1 (b ++ i)%list (Nat.sub q lo1) j Hbi ltac:(lia) Hj.
    have -> : Nat.add lo1 (Nat.sub q lo1) = q by lia. rewrite -!app_assoc => -> ->.
    rewrite /= -Ea. have := unflat_get (event (e1 ++ d :: e2)%list x b) a. rewrite mxE Ea => ->. by []. }
  case: (Nat.ltb_spec0 q (Nat.add lo2 n2)) => L2; last first.
  { have L : ((lo1 <= q)%coq_nat /\ (q < hi1)%coq_nat) by apply: B6 => //; lia.
    have [_ [_ X1]] := S1. have [_ [_ Y1]] := T1.
    have := X1 (b ++ i)%list (Nat.sub q lo1) j Hbi ltac:(lia) Hj. have := Y1 (b ++ i)%list (Nat.sub q lo1) j Hbi ltac:(lia) Hj.
    have -> : Nat.add lo1 (Nat.sub q lo1) = q by lia. rewrite -!app_assoc => -> ->.
    rewrite /= -Ea. have := unflat_get (event (e1 ++ d :: e2)%list x b) a. rewrite mxE Ea => ->. by []. }
  rewrite /= unshift_mid //. rewrite -P2 -V1.
  have Hin : inb (e1 ++ n2 :: e2)%list (i ++ Nat.sub q lo2 :: j)%list by apply: inb_mid => //; lia.
  have Hr2 := ravel_lt _ _ Hin. move/ltP: Hr2 => Hr2.
  have := unflat_get (event (e1 ++ n2 :: e2)%list y2 b) (Ordinal Hr2). rewrite mxE /= (unravel_ravel _ _ Hin) => ->.
  have [_ [_ Y2]] := T2. have := Y2 (b ++ i)%list (Nat.sub q lo2) j Hbi ltac:(lia) Hj.
  have -> : Nat.add lo2 (Nat.sub q lo2) = q by lia. by rewrite -!app_assoc => ->.
- have [J [HJ HD]] : is_log_det (fun w : 'cV[R]_(prodl (e1 ++ d :: e2)%list) => w + (selM e1 e2 B2)^T *m (G b (selM e1 e2 B1 *m w) (selM e1 e2 B2 *m w) - selM e1 e2 B2 *m w))%Ri
     (event (e1 ++ d :: e2)%list x b) (tget 0 l b).
  { apply: select_log_det; [exact: sel_disjoint | exact: selM_tr | |]; rewrite -?(part_selM B1) -?(part_selM B2).
    - exact: HG. - rewrite -P2. exact: V2. }
  exists J. split; last exact: HD. move: HJ. apply: jacobian_ext => w. by rewrite (split_map_sel B1 B2).
Qed.
End SplitTop.
