(** Jacobians and determinants of maps acting block by block on a vector of n blocks of length Q. *)
From mathcomp Require Import all_ssreflect all_algebra.
From Coq Require Import Reals Lra List ZArith ClassicalEpsilon.
From Verif Require Import Base.Result Base.Sums Base.Tensor Model.Bijector Model.Coupling Base.Rmx
  Spec.Bijector Spec.Scalar Spec.Jacobian Spec.Coupling Proofs.Bijector Proofs.Block Proofs.Jacobian Proofs.LogDet Proofs.Coupling Proofs.CouplingJac.
Set Implicit Arguments.
Unset Strict Implicit.
Unset Printing Implicit Defensive.
Import GRing.Theory.
Delimit Scope ring_scope with Ri.
Delimit Scope R_scope with R.
Local Open Scope R_scope.

Lemma jacobian_add n m (F G : 'cV[R]_n -> 'cV[R]_m) x J K :
  is_jacobian F x J -> is_jacobian G x K -> is_jacobian (fun v => F v + G v)%Ri x (J + K)%Ri.
Proof.
move=> HF HG eps He. have [d1 [Hd1 H1]] := HF (eps / 2) ltac:(lra). have [d2 [Hd2 H2]] := HG (eps / 2) ltac:(lra).
exists (Rmin d1 d2). split; first exact: Rmin_pos. move=> h Hh.
have := H1 h (Rlt_le_trans _ _ _ Hh (Rmin_l _ _)). have := H2 h (Rlt_le_trans _ _ _ Hh (Rmin_r _ _)).
have -> : (F (x + h) + G (x + h) - (F x + G x) - (J + K) *m h)%Ri = ((F (x + h) - F x - J *m h) + (G (x + h) - G x - K *m h))%Ri.
{ rewrite mulmxDl. apply/colP => i. rewrite !mxE. move: (F (x + h)%Ri i ord0) (G (x + h)%Ri i ord0) (F x i ord0) (G x i ord0) => a b c d.
  move: (\sum_j _)%Ri (\sum_j _)%Ri => e f. rewrite !addRE !oppRE. toR. ring. }
move=> h2 h1. apply: Rle_trans; first exact: norm1_add. move: (norm1 h) h1 h2 => t; lra.
Qed.
Lemma jacobian_const n m (c : 'cV[R]_m) (x : 'cV[R]_n) : is_jacobian (fun _ => c) x 0%Ri.
Proof. have := jacobian_affine (0 : 'M[R]_(m, n))%Ri c x. apply: jacobian_ext => v. by rewrite mul0mx add0r. Qed.
Lemma jacobian_sum n m p (F : 'I_p -> 'cV[R]_n -> 'cV[R]_m) x (J : 'I_p -> 'M[R]_(m, n)) :
  (forall i, is_jacobian (F i) x (J i)) -> is_jacobian (fun v => \sum_i F i v)%Ri x (\sum_i J i)%Ri.
Proof.
elim: p F J => [|p IH] F J H.
- rewrite big_ord0. have := jacobian_const (0 : 'cV[R]_m)%Ri x. apply: jacobian_ext => v. by rewrite big_ord0.
- rewrite big_ord_recl. have := jacobian_add (H ord0) (IH (fun i => F (fintype.lift ord0 i)) (fun i => J (fintype.lift ord0 i)) (fun i => H _)).
  apply: jacobian_ext => v. by rewrite big_ord_recl.
Qed.
Lemma jacobian_linear n m (A : 'M[R]_(m, n)) x : is_jacobian (fun v => A *m v)%Ri x A.
Proof. have := jacobian_affine A 0%Ri x. apply: jacobian_ext => v. by rewrite addr0. Qed.

(** ** Determinant of a block-diagonal matrix *)
Lemma det_blocks Q n (B : 'M[R]_(n * Q)) (A : nat -> nat -> nat -> R) :
  (forall i j : 'I_(n * Q), B i j = if (i %/ Q == j %/ Q)%nat then A (i %/ Q)%nat (i %% Q)%nat (j %% Q)%nat else 0) ->
  (\det B)%Ri = (\prod_(k < n) \det (\matrix_(a < Q, b < Q) A k a b))%Ri.
Proof.
elim: n B A => [|n IH] B A HB.
- rewrite big_ord0. exact: det_mx00.
- rewrite big_ord_recl. pose B' : 'M[R]_(Q + n * Q) := B.
  have -> : (\det B = \det B')%Ri by [].
  have E : B' = block_mx (\matrix_(a < Q, b < Q) A 0%nat a b)%Ri 0%Ri (0 : 'M_(n * Q, Q))%Ri (drsubmx B').
  { rewrite -{1}[B']submxK. congr block_mx.
    - apply/matrixP => a b. rewrite !mxE HB /=. by rewrite !divn_small // !modn_small.
    - apply/matrixP => a b. rewrite !mxE HB /=. rewrite divn_small // divnDl // divnn (leq_ltn_trans (leq0n a) (ltn_ord a)). by [].
    - apply/matrixP => a b. rewrite !mxE HB /=. rewrite [(b %/ Q)%nat]divn_small // divnDl // divnn (leq_ltn_trans (leq0n b) (ltn_ord b)). by []. }
  rewrite E det_ublock. congr (_ * _)%Ri.
  apply: (IH _ (fun k => A k.+1)) => i j. rewrite !mxE HB /=.
  have Q0 : (0 < Q)%nat by rewrite lt0n; apply/eqP => E0; have := ltn_ord i; rewrite {2}E0 muln0.
  by rewrite !divnDl // divnn Q0 /= !modnDl !add1n eqSS.
Qed.

Lemma fin_choice (I : finType) (T : Type) (P : I -> T -> Prop) : (forall i, exists t, P i t) -> exists f, forall i, P i (f i).
Proof. move=> H. exists (fun i => proj1_sig (ClassicalEpsilon.constructive_indefinite_description _ (H i))) => i. exact: proj2_sig. Qed.

Section Blocks.
Variables (n Q N : nat).
Hypothesis HN : N = (n * Q)%nat.
Variables (bk : 'I_n -> 'I_Q -> 'I_N) (bi : 'I_N -> 'I_n) (bo : 'I_N -> 'I_Q).
Hypothesis bik : forall i a, bi (bk i a) = i.
Hypothesis bok : forall i a, bo (bk i a) = a.
Hypothesis bkk : forall k, bk (bi k) (bo k) = k.
Hypothesis biv : forall k, nat_of_ord (bi k) = (k %/ Q)%nat.
Hypothesis bov : forall k, nat_of_ord (bo k) = (k %% Q)%nat.

(** extraction and insertion of a block *)
Definition bP (i : 'I_n) : 'M[R]_(Q, N) := (\matrix_(a, k) (if bk i a == k then 1%R else 0%R))%Ri.
Definition bE (i : 'I_n) : 'M[R]_(N, Q) := (\matrix_(k, a) (if bk i a == k then 1%R else 0%R))%Ri.
Lemma bP_mul p i (A : 'M[R]_(N, p)) a j : (bP i *m A)%Ri a j = A (bk i a) j.
Proof.
rewrite mxE (bigD1 (bk i a)) //= big1 ?addr0; first by rewrite mxE eqxx mul1r.
move=> k Hk. by rewrite mxE eq_sym (negbTE Hk) mul0r.
Qed.
Lemma bE_mul p i (A : 'M[R]_(Q, p)) k j : (bE i *m A)%Ri k j = if bi k == i then A (bo k) j else 0.
Proof.
rewrite mxE. case: eqP => [<-|Hne].
- rewrite (bigD1 (bo k)) //= big1 ?addr0; first by rewrite mxE bkk eqxx mul1r.
  move=> a Ha. rewrite mxE. case: eqP => [E|_]; last by rewrite mul0r. by rewrite -E bok eqxx in Ha.
- rewrite big1 // => a _. rewrite mxE. case: eqP => [E|_]; last by rewrite mul0r. by case: Hne; rewrite -E bik.
Qed.
Lemma mul_bP p i (A : 'M[R]_(p, Q)) j k : (A *m bP i)%Ri j k = if bi k == i then A j (bo k) else 0.
Proof.
rewrite mxE. case: eqP => [<-|Hne].
- rewrite (bigD1 (bo k)) //= big1 ?addr0; first by rewrite mxE bkk eqxx mulr1.
  move=> a Ha. rewrite mxE. case: eqP => [E|_]; last by rewrite mulr0. by rewrite -E bok eqxx in Ha.
- rewrite big1 // => a _. rewrite mxE. case: eqP => [E|_]; last by rewrite mulr0. by case: Hne; rewrite -E bik.
Qed.
Lemma sum_bE p (A : 'I_n -> 'M[R]_(Q, p)) k j : (\sum_i bE i *m A i)%Ri k j = A (bi k) (bo k) j.
Proof.
rewrite summxE (bigD1 (bi k)) //= big1 ?addr0; first by rewrite bE_mul eqxx.
move=> i Hi. by rewrite bE_mul eq_sym (negbTE Hi).
Qed.
Definition bdiag (D : 'I_n -> 'M[R]_Q) : 'M[R]_N := (\sum_i bE i *m (D i *m bP i))%Ri.
Lemma bdiagE D k k' : bdiag D k k' = if bi k == bi k' then D (bi k) (bo k) (bo k') else 0.
Proof. rewrite /bdiag sum_bE mul_bP. by rewrite eq_sym. Qed.
Lemma det_bdiag D : (\det (bdiag D))%Ri = (\prod_i \det (D i))%Ri.
Proof.
have [d0 HD] : exists A : nat -> nat -> nat -> R, forall i a b, A (nat_of_ord i) (nat_of_ord a) (nat_of_ord b) = D i a b.
{ exists (fun i a b => if insub i is Some i' then if insub a is Some a' then if insub b is Some b' then D i' a' b' else 0 else 0 else 0) => i a b. by rewrite !valK. }
have HB := bdiagE D. rewrite (eq_bigr (fun k : 'I_n => \det (\matrix_(a < Q, b < Q) d0 k a b)))%Ri; last first.
{ move=> k _. congr (\det _)%Ri. apply/matrixP => a b. by rewrite mxE HD. }
have HB2 : forall i j : 'I_N, bdiag D i j = if (i %/ Q == j %/ Q)%nat then d0 (i %/ Q)%nat (i %% Q)%nat (j %% Q)%nat else 0.
{ move=> i j. rewrite HB -!biv -!bov HD. by []. }
move: (bdiag D) HB2 => B HB2. clear -HN HB2. subst N. exact: det_blocks.
Qed.

(** A map acting block by block. *)
Lemma blockwise_log_det (g : 'I_n -> 'cV[R]_Q -> 'cV[R]_Q) (v : 'cV[R]_N) (l : 'I_n -> R) :
  (forall i, is_log_det (g i) (bP i *m v)%Ri (l i)) ->
  is_log_det (fun w => \sum_i bE i *m g i (bP i *m w))%Ri v (\sum_i l i)%Ri.
Proof.
move=> H. have [D HD] := fin_choice H.
exists (bdiag D). split.
- apply: jacobian_sum => i. have [HJ _] := HD i.
  exact: (jacobian_comp (jacobian_comp (jacobian_linear (bP i) v) HJ) (jacobian_linear (bE i) _)).
- rewrite det_bdiag. have [h1 h2] := bigprod_ln (fun i => proj1 (proj2 (HD i))).
  split; first exact: h1. rewrite h2. apply: eq_bigr => i _. exact: (proj2 (proj2 (HD i))).
Qed.

(** A coupling map: masked blocks are kept, every other block goes through a map that also
    looks at the masked blocks. *)
Variable mk : 'I_n -> bool.
Definition bK : 'M[R]_N := diag_mx (\row_k (if mk (bi k) then 1%R else 0%R))%Ri.
Lemma mul_bK p (A : 'M[R]_(p, N)) a k : (A *m bK)%Ri a k = if mk (bi k) then A a k else 0.
Proof. rewrite mul_mx_diag !mxE. case: (mk _); by rewrite ?mulr1 ?mulr0. Qed.
Lemma bK_mul p (A : 'M[R]_(N, p)) k a : (bK *m A)%Ri k a = if mk (bi k) then A k a else 0.
Proof. rewrite mul_diag_mx !mxE. case: (mk _); by rewrite ?mul1r ?mul0r. Qed.
Lemma coupling_log_det (G : 'I_n -> 'cV[R]_N -> 'cV[R]_Q -> 'cV[R]_Q) (v : 'cV[R]_N) (l : 'I_n -> R) :
  (forall i, ~~ mk i -> exists J : 'M[R]_(Q, N + Q), is_jacobian (fun w => G i (usubmx w) (dsubmx w)) (col_mx (bK *m v)%Ri (bP i *m v)%Ri) J) ->
  (forall i, ~~ mk i -> is_log_det (G i (bK *m v)%Ri) (bP i *m v)%Ri (l i)) ->
  is_log_det (fun w => \sum_i bE i *m (if mk i then bP i *m w else G i (bK *m w) (bP i *m w)))%Ri v
             (\sum_i if mk i then 0%R else l i)%Ri.
Proof.
move=> HG Hl.
have [A [D [HD H]]] : exists (A : 'I_n -> 'M[R]_(Q, N)) (D : 'I_n -> 'M[R]_Q),
  (forall i, (mk i -> D i = 1%:M%Ri /\ A i = 0%Ri) /\ (\det (D i))%Ri <> 0 /\ (if mk i then 0%R else l i) = ln (Rabs (\det (D i))%Ri)) /\
  (forall i, is_jacobian (fun w => if mk i then bP i *m w else G i (bK *m w) (bP i *m w))%Ri v (A i *m bK + D i *m bP i)%Ri).
{ have H : forall i, exists AD : 'M[R]_(Q, N) * 'M[R]_Q,
    ((mk i -> AD.2 = 1%:M%Ri /\ AD.1 = 0%Ri) /\ (\det AD.2)%Ri <> 0 /\ (if mk i then 0%R else l i) = ln (Rabs (\det AD.2)%Ri)) /\
    is_jacobian (fun w => if mk i then bP i *m w else G i (bK *m w) (bP i *m w))%Ri v (AD.1 *m bK + AD.2 *m bP i)%Ri.
  { move=> i. case E : (mk i).
    - exists (0%Ri, 1%:M%Ri) => /=. rewrite det1 mul0mx add0r mul1mx. split; last exact: jacobian_linear.
      split; first by []. split; first exact: R1_neq_R0. by rewrite Rabs_R1 ln_1.
    - have [J HJ] := HG i (negbT E). have [D [HD [D0 Dl]]] := Hl i (negbT E).
      exists (lsubmx J, D) => /=. split; first by []. 
      have Hr : rsubmx J = D.
      { apply: (jacobian_unique _ HD).
        have H1 := jacobian_affine (col_mx 0 1%:M : 'M[R]_(N + Q, Q))%Ri (col_mx (bK *m v) 0 : 'cV[R]_(N + Q))%Ri (bP i *m v)%Ri.
        have E1 : forall u : 'cV[R]_Q, (col_mx 0 1%:M *m u + col_mx (bK *m v) 0)%Ri = col_mx (bK *m v)%Ri u.
        { move=> u. by rewrite mul_col_mx mul0mx mul1mx add_col_mx add0r addr0. }
        have := jacobian_comp H1. rewrite E1 => /(_ _ _ _ HJ) H2.
        have -> : rsubmx J = (J *m col_mx 0 1%:M)%Ri by rewrite -{2}[J]hsubmxK mul_row_col mulmx0 mulmx1 add0r.
        move: H2. apply: jacobian_ext => u. by rewrite E1 col_mxKu col_mxKd. }
      have H1 := jacobian_linear (col_mx bK (bP i)) v.
      have E1 : forall u : 'cV[R]_N, (col_mx bK (bP i) *m u)%Ri = col_mx (bK *m u)%Ri (bP i *m u)%Ri by move=> u; rewrite mul_col_mx.
      have := jacobian_comp H1. rewrite E1 => /(_ _ _ _ HJ).
      rewrite -{1}[J]hsubmxK mul_row_col Hr. apply: jacobian_ext => u. by rewrite E1 col_mxKu col_mxKd. }
  have [AD HAD] := fin_choice H. exists (fun i => (AD i).1), (fun i => (AD i).2). by split=> i; have [] := HAD i. }
pose Nm : 'M[R]_N := (\sum_i bE i *m (A i *m bK))%Ri.
have NmE : forall k k', Nm k k' = if mk (bi k') && ~~ mk (bi k) then A (bi k) (bo k) k' else 0.
{ move=> k k'. rewrite sum_bE mul_bK. case E' : (mk (bi k')) => //=. case E : (mk (bi k)) => //=.
  have [/(_ E) [_ ->] _] := HD (bi k). by rewrite mxE. }
have HK : (bK *m bdiag D = bK)%Ri.
{ apply/matrixP => k k'. rewrite bK_mul bdiagE [RHS]mxE.
  case E : (mk (bi k)); last by rewrite mxE E; case: eqP => // _; rewrite mul0rn.
  have [/(_ E) [-> _] _] := HD (bi k). rewrite !mxE E.
  case: (eqVneq k k') => [->|ne]; first by rewrite !eqxx.
  case: eqP => // e1. case: eqP => // e2. by case/negP: ne; rewrite -(bkk k) -(bkk k') e1 e2. }
exists ((1%:M + Nm) *m bdiag D)%Ri. split.
- have -> : ((1%:M + Nm) *m bdiag D = \sum_i bE i *m (A i *m bK + D i *m bP i))%Ri.
  { rewrite mulmxDl mul1mx /Nm mulmx_suml /bdiag -big_split /=. apply: eq_bigr => i _.
    rewrite mulmxDr addrC. congr (_ + _)%Ri. by rewrite -!mulmxA -/(bdiag D) HK. }
  apply: jacobian_sum => i. exact: (jacobian_comp (H i) (jacobian_linear (bE i) _)).
- have D1 : (\det (1%:M + Nm) = 1)%Ri.
  { rewrite (@det_masked _ _ (fun k => mk (bi k))).
    - apply: big1 => k _. rewrite mxE NmE mxE eqxx. case: (mk _); by rewrite /= addr0.
    - move=> k k' Hk ne. by rewrite mxE NmE mxE Hk andbF eq_sym (negbTE ne) addr0.
    - move=> k k' Hk Hk' ne. by rewrite mxE NmE mxE (negbTE Hk') /= eq_sym (negbTE ne) addr0. }
  rewrite det_mulmx D1 mul1r det_bdiag. have [h1 h2] := bigprod_ln (fun i => proj1 (proj2 (HD i))).
  split; first exact: h1. rewrite h2. apply: eq_bigr => i _. exact: (proj2 (proj2 (HD i))).
Qed.
End Blocks.
