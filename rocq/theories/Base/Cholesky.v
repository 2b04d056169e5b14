(** Infrastructure: symmetric positive definite matrices, their Cholesky factor, and trace and determinant. *)
From mathcomp Require Import all_ssreflect all_algebra.
From Coq Require Import Reals Lra.
From Verif Require Import Base.Rmx.
Set Implicit Arguments.
Unset Strict Implicit.
Unset Printing Implicit Defensive.
Import GRing.Theory.
Delimit Scope ring_scope with Ri.
Delimit Scope R_scope with R.
Local Open Scope R_scope.

(** The quadratic form v^T C v. *)
Definition qform (n : nat) (C : 'M[R]_n) (v : 'cV[R]_n) : R := (v^T *m C *m v)%Ri ord0 ord0.
(** Symmetric positive definite. *)
Definition spd (n : nat) (C : 'M[R]_n) : Prop := (C^T = C)%Ri /\ forall v : 'cV[R]_n, v <> 0%Ri -> 0 < qform C v.
(** Lower triangular with a positive diagonal. *)
Definition chol_shape (n : nat) (L : 'M[R]_n) : Prop := (forall i j : 'I_n, leq i.+1 j -> L i j = 0) /\ forall i, 0 < L i i.

Lemma sum_ge0 n (f : 'I_n -> R) : (forall i, 0 <= f i) -> 0 <= (\sum_i f i)%Ri.
Proof.
elim: n f => [|n IH] f H; first by rewrite big_ord0; right.
rewrite big_ord_recl addRE. apply: Rplus_le_le_0_compat => //. exact: IH.
Qed.
Lemma sum_eq0 n (f : 'I_n -> R) : (forall i, 0 <= f i) -> (\sum_i f i)%Ri = 0 -> forall i, f i = 0.
Proof.
elim: n f => [|n IH] f H; first by move=> _ [].
rewrite big_ord_recl addRE => E i. have H0 := H ord0.
have H1 : 0 <= (\sum_(i < n) f (lift ord0 i))%Ri by apply: sum_ge0 => k.
case: (unliftP ord0 i) => [j ->|->]; last by move: E H0 H1; set a := f _; set b := (\sum_(_ < _) _)%Ri => E H0 H1; lra.
apply: (IH (fun i => f (lift ord0 i))) => // . move: E H0 H1; set a := f _; set b := (\sum_(_ < _) _)%Ri => E H0 H1. lra.
Qed.
Lemma sum_le n (f g : 'I_n -> R) : (forall i, f i <= g i) -> (\sum_i f i)%Ri <= (\sum_i g i)%Ri.
Proof.
elim: n f g => [|n IH] f g H; first by rewrite !big_ord0; right.
rewrite !big_ord_recl !addRE. apply: Rplus_le_compat => //. by apply: IH.
Qed.
Lemma prod_gt0 n (f : 'I_n -> R) : (forall i, 0 < f i) -> 0 < (\prod_i f i)%Ri.
Proof.
elim: n f => [|n IH] f H; first by rewrite big_ord0; apply: Rlt_0_1.
rewrite big_ord_recl mulRE. apply: Rmult_lt_0_compat => //. exact: IH.
Qed.
Lemma dotE n (v w : 'cV[R]_n) : (v^T *m w)%Ri ord0 ord0 = (\sum_i (v i ord0 * w i ord0)%R)%Ri.
Proof. rewrite mxE. apply: eq_bigr => i _. by rewrite mxE. Qed.
Lemma sq_norm_ge0 n (v : 'cV[R]_n) : 0 <= (v^T *m v)%Ri ord0 ord0.
Proof. rewrite dotE. apply: sum_ge0 => i. exact: Rle_0_sqr. Qed.
Lemma sq_norm_eq0 n (v : 'cV[R]_n) : (v^T *m v)%Ri ord0 ord0 = 0 -> v = 0%Ri.
Proof.
rewrite dotE => /sum_eq0 H. apply/colP => i. rewrite mxE. apply: Rsqr_0_uniq. apply: (H _ i) => k. exact: Rle_0_sqr.
Qed.
Lemma sq_norm_gt0 n (v : 'cV[R]_n) : v <> 0%Ri -> 0 < (v^T *m v)%Ri ord0 ord0.
Proof. move=> H. case: (sq_norm_ge0 v) => // E. by case: H; apply: sq_norm_eq0. Qed.
Lemma qform_gram n (A : 'M[R]_n) v : qform (A *m A^T)%Ri v = ((A^T *m v)^T *m (A^T *m v))%Ri ord0 ord0.
Proof. by rewrite /qform trmx_mul trmxK !mulmxA. Qed.
Lemma spd_gram n (A : 'M[R]_n) : A \in unitmx -> spd (A *m A^T)%Ri.
Proof.
move=> U. split; first by rewrite trmx_mul trmxK.
move=> v Hv. rewrite qform_gram. apply: sq_norm_gt0 => E. apply: Hv.
have UT : (A^T)%Ri \in unitmx by rewrite unitmx_tr.
by rewrite -[v](mulKmx UT) E mulmx0.
Qed.

Lemma det_chol n (L : 'M[R]_n) : chol_shape L -> (\det L = \prod_i L i i)%Ri.
Proof.
move=> [H _]. apply: det_trig. apply/is_trig_mxP => i j Hij. exact: H.
Qed.
Lemma det_chol_gt0 n (L : 'M[R]_n) : chol_shape L -> 0 < (\det L)%Ri.
Proof. move=> H. rewrite det_chol //. apply: prod_gt0. exact: (proj2 H). Qed.
Lemma chol_unit n (L : 'M[R]_n) : chol_shape L -> L \in unitmx.
Proof.
move=> H. rewrite unitmxE unitfE. apply/eqP => E. have := det_chol_gt0 H. rewrite E. rewrite zeroRE. exact: Rlt_irrefl.
Qed.

Lemma spd_diag n (C : 'M[R]_n) i : spd C -> 0 < C i i.
Proof.
move=> [_ H]. have := H (delta_mx i ord0). rewrite /qform trmx_delta -rowE -colE !mxE. apply.
move=> /matrixP /(_ i ord0). rewrite !mxE !eqxx /=. exact: R1_neq_R0.
Qed.
Theorem cholesky_exists n (C : 'M[R]_n) : spd C -> exists L, chol_shape L /\ (L *m L^T = C)%Ri.
Proof.
elim: n C => [|n IH] C HC.
  exists 0%Ri. split; first by split=> [[]|[]]. by apply/matrixP => -[].
have Ha := spd_diag ord0 HC. case: HC => Hsym Hpos.
pose a := C ord0 ord0.
pose c := (\col_i C (lift ord0 i) ord0)%Ri : 'cV[R]_n.
pose C' := (\matrix_(i, j) C (lift ord0 i) (lift ord0 j))%Ri : 'M[R]_n.
have EC : C = block_mx a%:M (c^T)%Ri c C' :> 'M_(1 + n).
  apply/matrixP => i j.
  have E0 : ord0 = lshift n (ord0 : 'I_1) :> 'I_(n.+1) by apply: val_inj.
  have ES (k : 'I_n) : lift ord0 k = rshift 1 k :> 'I_(n.+1) by apply: val_inj.
  have symE (k l : 'I_(n.+1)) : C k l = C l k by rewrite -{1}Hsym mxE.
  case: (unliftP ord0 i) => [i' ->|->]; case: (unliftP ord0 j) => [j' ->|->].
  - rewrite [in RHS]ES [in RHS]ES block_mxEdr mxE. by [].
  - rewrite [in RHS]ES [X in block_mx _ _ _ _ _ X]E0 block_mxEdl mxE. by [].
  - rewrite [in RHS]ES [X in block_mx _ _ _ _ X _]E0 block_mxEur !mxE. exact: symE.
  - rewrite [X in block_mx _ _ _ _ X _]E0 [X in block_mx _ _ _ _ _ X]E0 block_mxEul mxE /= mulr1n. by [].
have an0 : a != 0%Ri by apply/eqP; move: Ha; rewrite -/a zeroRE; lra.
pose S := (C' - a^-1 *: (c *m c^T))%Ri.
have Sspd : spd S.
  split.
    rewrite /S linearB linearZ /= trmx_mul trmxK. congr (_ - _)%Ri.
    apply/matrixP => i j. rewrite !mxE. by rewrite -{1}Hsym mxE.
  move=> w Hw.
  pose t := (- (a^-1 *: (c^T *m w)))%Ri : 'M[R]_1.
  have : col_mx t w <> 0%Ri -> 0 < ((col_mx t w)^T *m block_mx a%:M (c^T) c C' *m col_mx t w)%Ri ord0 ord0.
    move=> Hn. have := Hpos (col_mx t w : 'cV[R]_(1 + n)) Hn. by rewrite {1}EC.
  rewrite tr_col_mx mul_row_block mul_row_col.
  have tT : (t^T = - (a^-1 *: (w^T *m c)))%Ri by rewrite /t linearN linearZ /= trmx_mul trmxK.
  have -> : (t^T *m a%:M = - (w^T *m c))%Ri.
    rewrite tT mulNmx mul_mx_scalar scalerA mulrV ?unitfE // scale1r. by [].
  rewrite addNr mul0mx add0r => H.
  rewrite /qform. have -> : (w^T *m S *m w = (t^T *m c^T + w^T *m C') *m w)%Ri.
    rewrite /S mulmxBr mulmxBl mulmxDl addrC. congr (_ + _)%Ri.
    rewrite tT !mulNmx -!scalemxAl -!scalemxAr -!scalemxAl. by rewrite !mulmxA.
  apply: H => /(congr1 dsubmx). rewrite col_mxKd => E. apply: Hw. rewrite E. by apply/matrixP => i j; rewrite !mxE.
have [L' [[HT HD] EL]] := IH S Sspd.
pose r := sqrt a.
have rpos : 0 < r by apply: sqrt_lt_R0.
have rr : (r * r = a)%Ri by rewrite mulRE; apply: sqrt_sqrt; apply: Rlt_le.
have rn0 : r != 0%Ri by apply/eqP; rewrite zeroRE; lra.
pose B := block_mx r%:M 0 (r^-1 *: c)%Ri L' : 'M_(1 + n).
have E0 : ord0 = lshift n (ord0 : 'I_1) :> 'I_(n.+1) by apply: val_inj.
have ES (k : 'I_n) : lift ord0 k = rshift 1 k :> 'I_(n.+1) by apply: val_inj.
exists B. split.
  split.
    move=> i j Hij.
    case: (unliftP ord0 j) Hij => [j' ->|->] Hij; last by [].
    case: (unliftP ord0 i) Hij => [i' ->|->] Hij.
      have -> : B (lift ord0 i') (lift ord0 j') = L' i' j' by rewrite (ES i') (ES j'); exact: block_mxEdr.
      apply: HT. move: Hij. by rewrite /= /bump /= !add1n ltnS.
    rewrite (ES j') E0. have -> : B (lshift n ord0) (rshift 1 j') = (0 : 'M[R]_(1, n))%Ri ord0 j' by exact: block_mxEur.
    by rewrite mxE.
  move=> i.
  case: (unliftP ord0 i) => [i' ->|->].
    have -> : B (lift ord0 i') (lift ord0 i') = L' i' i' by rewrite (ES i'); exact: block_mxEdr.
    exact: HD.
  rewrite E0. have -> : B (lshift n ord0) (lshift n ord0) = (r%:M : 'M[R]_1)%Ri ord0 ord0 by exact: block_mxEul.
  rewrite mxE /= mulr1n. exact: rpos.
rewrite [in RHS]EC.
suff : (block_mx r%:M 0 (r^-1 *: c) L' *m (block_mx r%:M 0 (r^-1 *: c) L')^T = block_mx a%:M c^T c C')%Ri by [].
rewrite tr_block_mx mulmx_block trmx0 !mulmx0 !mul0mx !addr0 tr_scalar_mx. f_equal.
- rewrite -scalar_mxM rr. by [].
- rewrite mul_scalar_mx linearZ /= scalerA mulrV ?unitfE // scale1r. by [].
- rewrite mul_mx_scalar scalerA mulrV ?unitfE // scale1r. by [].
- rewrite EL /S linearZ /= -scalemxAl -scalemxAr scalerA -invfM rr addrC subrK. by [].
Qed.
Lemma spd_det_gt0 n (C : 'M[R]_n) : spd C -> 0 < (\det C)%Ri.
Proof.
move=> /cholesky_exists [L [HL <-]]. rewrite det_mulmx det_tr mulRE.
have H := det_chol_gt0 HL. exact: Rmult_lt_0_compat.
Qed.
Lemma spd_unit n (C : 'M[R]_n) : spd C -> C \in unitmx.
Proof.
move=> H. rewrite unitmxE unitfE. apply/eqP => E. have := spd_det_gt0 H. rewrite E zeroRE. exact: Rlt_irrefl.
Qed.

(** ** Traces *)
Lemma tr_gram n m (A : 'M[R]_(n, m)) : (\tr (A *m A^T) = \sum_i \sum_j (A i j * A i j)%R)%Ri.
Proof. rewrite /mxtrace. apply: eq_bigr => i _. rewrite mxE. apply: eq_bigr => j _. by rewrite mxE. Qed.
Lemma ln_prod n (f : 'I_n -> R) : (forall i, 0 < f i) -> ln (\prod_i f i)%Ri = (\sum_i ln (f i))%Ri.
Proof.
elim: n f => [|n IH] f H; first by rewrite !big_ord0; exact: ln_1.
rewrite !big_ord_recl mulRE ln_mult //; last by apply: prod_gt0. rewrite addRE. congr (_ + _). exact: IH.
Qed.
Lemma ln_le_minus1 x : 0 < x -> ln x <= x - 1.
Proof.
move=> H. have := exp_ineq1_le (ln x). rewrite exp_ln //. lra.
Qed.
Lemma ln_eq_minus1 x : 0 < x -> ln x = x - 1 -> x = 1.
Proof.
move=> H E. case: (Req_dec (ln x) 0) => [E0|N].
  rewrite E0 in E. lra.
have := exp_ineq1 (ln x) N. rewrite exp_ln //. lra.
Qed.
Lemma sq_ln_ge0 x : 0 < x -> 0 <= x * x - 1 - 2 * ln x.
Proof.
move=> H. have Hxx : 0 < x * x by apply: Rmult_lt_0_compat. have := ln_le_minus1 Hxx. rewrite ln_mult //. lra.
Qed.
Lemma sq_ln_eq0 x : 0 < x -> x * x - 1 - 2 * ln x = 0 -> x = 1.
Proof.
move=> H E. have Hxx : 0 < x * x by apply: Rmult_lt_0_compat.
have E1 : ln (x * x) = x * x - 1 by rewrite ln_mult //; lra.
have E2 := ln_eq_minus1 Hxx E1. have : (x - 1) * (x + 1) = 0 by ring_simplify; lra.
move=> /Rmult_integral []; lra.
Qed.
Lemma sum_const_INR n : (\sum_(i < n) 1%R)%Ri = INR n.
Proof.
elim: n => [|n IH]; first by rewrite big_ord0. rewrite big_ord_recl IH addRE S_INR. exact: Rplus_comm.
Qed.
(** tr S - n - ln det S >= 0, with equality only at the identity. *)
Theorem trace_logdet n (S : 'M[R]_n) : spd S ->
  0 <= (\tr S)%Ri - INR n - ln (\det S)%Ri /\ ((\tr S)%Ri - INR n - ln (\det S)%Ri = 0 -> S = 1%:M%Ri).
Proof.
move=> /cholesky_exists [L [HL <-]].
have Hd := proj2 HL. have Ht := proj1 HL.
pose off i := (\sum_(j | j != i) (L i j * L i j)%R)%Ri.
have E : (\tr (L *m L^T))%Ri - INR n - ln (\det (L *m L^T))%Ri =
  (\sum_i ((L i i * L i i - 1 - 2 * ln (L i i)) + off i)%R)%Ri.
  rewrite tr_gram det_mulmx det_tr det_chol // mulRE ln_mult; try exact: prod_gt0.
  rewrite ln_prod // -sum_const_INR.
  have -> : (\sum_i (L i i * L i i - 1 - 2 * ln (L i i) + off i)%R =
     \sum_i (\sum_j (L i j * L i j)%R) - \sum_(i < n) 1%R - (\sum_i ln (L i i) + \sum_i ln (L i i)))%Ri.
    rewrite -big_split -!sumrB /=. apply: eq_bigr => i _. rewrite [in RHS](bigD1 i) //= /off.
    move: (\sum_(_ < n | _) _)%Ri (ln (L i i)) (L i i) => b l a. rewrite ?addRE ?oppRE. toR. ring.
  by [].
have offge i : 0 <= off i.
  rewrite /off big_mkcond /=. apply: sum_ge0 => j. case: ifP => _; [exact: Rle_0_sqr|exact: Rle_refl].
have ge i : 0 <= L i i * L i i - 1 - 2 * ln (L i i) + off i.
  have := offge i. have := sq_ln_ge0 (Hd i). lra.
rewrite E. split; first exact: sum_ge0.
move=> /sum_eq0 => /(_ ge) H.
have D i : L i i = 1.
  apply: sq_ln_eq0 => //. have := H i. have := offge i. have := sq_ln_ge0 (Hd i). lra.
have O i j : j != i -> L i j = 0.
  move=> Hij. have Z : off i = 0. { have := H i. have := offge i. have := sq_ln_ge0 (Hd i). lra. }
  move: Z. rewrite /off big_mkcond /= => /sum_eq0 Z. have := Z _ j. rewrite Hij => Z'. apply: Rsqr_0_uniq. apply: Z' => k.
  case: ifP => _; [exact: Rle_0_sqr|exact: Rle_refl].
have -> : L = 1%:M%Ri.
  apply/matrixP => i j. rewrite mxE. case: (altP (i =P j)) => [<-|N]; first by rewrite D. rewrite O //. by rewrite eq_sym.
by rewrite trmx1 mulmx1.
Qed.
