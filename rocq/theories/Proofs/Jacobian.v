From mathcomp Require Import all_ssreflect all_algebra.
From Coq Require Import Reals Lra.
From Verif Require Import Base.Result Base.Tensor Model.Bijector Base.Rmx Spec.Jacobian.
Set Implicit Arguments.
Unset Strict Implicit.
Unset Printing Implicit Defensive.
Import GRing.Theory.
Delimit Scope ring_scope with Ri.
Delimit Scope R_scope with R.
Local Open Scope R_scope.

(** ** Big sums of reals *)
Lemma Rsum_le (I : Type) (r : seq I) (P : pred I) (F G : I -> R) :
  (forall i, P i -> F i <= G i) -> (\sum_(i <- r | P i) F i)%Ri <= (\sum_(i <- r | P i) G i)%Ri.
Proof.
move=> H; elim/big_ind2: _ => //; first exact: Rle_refl.
by move=> x1 x2 y1 y2 h1 h2; apply: Rplus_le_compat.
Qed.
Lemma Rsum_ge0 (I : Type) (r : seq I) (P : pred I) (F : I -> R) :
  (forall i, P i -> 0 <= F i) -> 0 <= (\sum_(i <- r | P i) F i)%Ri.
Proof.
move=> H; elim/big_ind: _ => //; first exact: Rle_refl.
by move=> x y h1 h2; apply: Rplus_le_le_0_compat.
Qed.
Lemma Rabs_sum (I : Type) (r : seq I) (P : pred I) (F : I -> R) :
  Rabs (\sum_(i <- r | P i) F i)%Ri <= (\sum_(i <- r | P i) Rabs (F i))%Ri.
Proof.
elim/big_ind2: _ => //; first (rewrite Rabs_R0; exact: Rle_refl).
- move=> x1 x2 y1 y2 h1 h2. apply: Rle_trans; first exact: Rabs_triang. exact: Rplus_le_compat.
- move=> i _; exact: Rle_refl.
Qed.
Lemma Rsum_mull (I : Type) (r : seq I) (P : pred I) (c : R) (F : I -> R) :
  (\sum_(i <- r | P i) (c * F i))%Ri = c * (\sum_(i <- r | P i) F i)%Ri.
Proof. by rewrite -mulRE big_distrr. Qed.

Section Norm.
Variable n : nat.
Implicit Types h k : 'cV[R]_n.
Lemma norm1_ge0 h : 0 <= norm1 h.
Proof. apply: Rsum_ge0 => i _; exact: Rabs_pos. Qed.
Lemma norm1_add h k : norm1 (h + k)%Ri <= norm1 h + norm1 k.
Proof.
rewrite /norm1 -addRE -big_split /=. apply: Rsum_le => i _. rewrite mxE. exact: Rabs_triang.
Qed.
Lemma norm1_opp h : norm1 (- h)%Ri = norm1 h.
Proof. rewrite /norm1; apply: eq_bigr => i _. rewrite mxE. exact: Rabs_Ropp. Qed.
Lemma norm1_0 : norm1 (0 : 'cV[R]_n)%Ri = 0.
Proof. rewrite /norm1 big1 // => i _; rewrite mxE; exact: Rabs_R0. Qed.
Lemma norm1_comp h i : Rabs (h i ord0) <= norm1 h.
Proof.
rewrite /norm1 (bigD1 i) //=. rewrite addRE.
have := @Rsum_ge0 _ (index_enum (ordinal_finType n)) (fun j => j != i) (fun j => Rabs (h j ord0)) (fun j _ => Rabs_pos _).
move: (\sum_(_ <- _ | _) _)%Ri => s. move: (Rabs _) => a. lra.
Qed.
Lemma norm1_eq0 h : norm1 h <= 0 -> h = 0%Ri.
Proof.
move=> H; apply/colP => i. rewrite mxE. have := norm1_comp h i. have := Rabs_pos (h i ord0).
move=> h1 h2. have E : Rabs (h i ord0) = 0 by lra.
case: (Req_dec (h i ord0) 0) => // /Rabs_no_R0. by rewrite E.
Qed.
End Norm.

Definition mxnorm m n (A : 'M[R]_(m, n)) : R := (\sum_(i < m) \sum_(j < n) Rabs (A i j))%Ri.
Lemma mxnorm_ge0 m n (A : 'M[R]_(m, n)) : 0 <= mxnorm A.
Proof. by apply: Rsum_ge0 => i _; apply: Rsum_ge0 => j _; apply: Rabs_pos. Qed.
Lemma norm1_mulmx m n (A : 'M[R]_(m, n)) (h : 'cV[R]_n) : norm1 (A *m h)%Ri <= mxnorm A * norm1 h.
Proof.
rewrite /norm1 /mxnorm -mulRE big_distrl /=. apply: Rsum_le => i _. rewrite mxE.
apply: Rle_trans; first exact: Rabs_sum. rewrite big_distrl /=. apply: Rsum_le => j _.
rewrite mulRE Rabs_mult. apply: Rmult_le_compat_l; first exact: Rabs_pos. exact: norm1_comp.
Qed.

(** ** Chain rule *)
Lemma jacobian_comp n m p (F : 'cV[R]_n -> 'cV[R]_m) (G : 'cV[R]_m -> 'cV[R]_p) x J K :
  is_jacobian F x J -> is_jacobian G (F x) K -> is_jacobian (fun v => G (F v)) x (K *m J)%Ri.
Proof.
move=> HF HG eps Heps.
set C := mxnorm J. set D := mxnorm K.
have HC : 0 <= C by exact: mxnorm_ge0. have HD : 0 <= D by exact: mxnorm_ge0.
set e1 := Rmin 1 (eps / (2 * (D + 1))).
have He1 : 0 < e1. { apply: Rmin_pos; first lra. apply: Rdiv_lt_0_compat; lra. }
have He1a : e1 <= 1 by exact: Rmin_l.
have He1b : D * e1 <= eps / 2.
{ have h : e1 <= eps / (2 * (D + 1)) by exact: Rmin_r.
  apply: Rle_trans; first (apply: Rmult_le_compat_l; [exact: HD|exact: h]).
  apply: (Rmult_le_reg_r (2 * (D + 1))); first lra.
  have -> : D * (eps / (2 * (D + 1))) * (2 * (D + 1)) = D * eps by field; lra.
  nra. }
set e2 := eps / (2 * (C + 1)).
have He2 : 0 < e2 by apply: Rdiv_lt_0_compat; lra.
have He2b : e2 * (C + 1) = eps / 2 by rewrite /e2; field; lra.
have [d1 [Hd1 H1]] := HF e1 He1.
have [d2 [Hd2 H2]] := HG e2 He2.
exists (Rmin d1 (d2 / (C + 1))). split.
{ apply: Rmin_pos => //. apply: Rdiv_lt_0_compat; lra. }
move=> h Hh.
have Hh1 : norm1 h < d1 by apply: Rlt_le_trans Hh _; exact: Rmin_l.
have Hh2 : norm1 h * (C + 1) < d2.
{ have : norm1 h < d2 / (C + 1) by apply: Rlt_le_trans Hh _; exact: Rmin_r.
  move=> /(Rmult_lt_compat_r (C + 1)) => H. have := H ltac:(lra).
  have -> : d2 / (C + 1) * (C + 1) = d2 by field; lra. done. }
have Hn := norm1_ge0 h.
set k := (F (x + h) - F x)%Ri. set r := (k - J *m h)%Ri.
have Hr : norm1 r <= e1 * norm1 h by exact: H1.
have Hk : norm1 k <= (C + 1) * norm1 h.
{ have -> : k = (r + J *m h)%Ri by rewrite /r subrK.
  have Ht := norm1_add r (J *m h)%Ri. have HJ := norm1_mulmx J h. rewrite -/C in HJ. nra. }
have HGk := H2 k ltac:(lra).
have Efx : (F x + k)%Ri = F (x + h)%Ri by rewrite /k addrC subrK.
rewrite Efx in HGk.
have -> : (G (F (x + h)) - G (F x) - (K *m J) *m h)%Ri = ((G (F (x + h)) - G (F x) - K *m k) + K *m r)%Ri.
{ clearbody k; rewrite /r mulmxBr mulmxA addrA subrK. done. }
have Ht := norm1_add (G (F (x + h)) - G (F x) - K *m k)%Ri (K *m r)%Ri.
have HK := norm1_mulmx K r. rewrite -/D in HK.
have Hrn := norm1_ge0 r. have Hkn := norm1_ge0 k. nra.
Qed.

(** ** Affine and constant maps *)
Lemma jacobian_affine n m (A : 'M[R]_(m, n)) (b : 'cV[R]_m) x :
  is_jacobian (fun v => (A *m v + b)%Ri) x A.
Proof.
move=> eps He; exists 1; split; first lra. move=> h _.
have -> : (A *m (x + h) + b - (A *m x + b) - A *m h)%Ri = 0%Ri.
{ rewrite mulmxDr; move: (A *m x)%Ri (A *m h)%Ri => u w; apply/colP => i; rewrite !mxE !addRE !oppRE zeroRE; toR; ring. }
rewrite norm1_0. have := norm1_ge0 h. nra.
Qed.
Lemma jacobian_ext n m (F G : 'cV[R]_n -> 'cV[R]_m) x J :
  (forall v, F v = G v) -> is_jacobian F x J -> is_jacobian G x J.
Proof. by move=> E H eps He; have [d [Hd K]] := H eps He; exists d; split => // h Hh; rewrite -!E; apply: K. Qed.

(** ** Partial derivatives read off a Jacobian *)
Definition unitv n (j : 'I_n) : 'cV[R]_n := (\col_i (if i == j then 1 else 0))%Ri.
Lemma norm1_unitv n (j : 'I_n) t : norm1 (t *: unitv j)%Ri = Rabs t.
Proof.
rewrite /norm1 (bigD1 j) //= !mxE eqxx big1 ?addr0.
- by rewrite mulRE Rmult_1_r.
- move=> i Hi. rewrite !mxE (negbTE Hi) mulRE Rmult_0_r. exact: Rabs_R0.
Qed.
Lemma mul_unitv m n (J : 'M[R]_(m, n)) j t i : (J *m (t *: unitv j))%Ri i ord0 = t * J i j.
Proof.
rewrite mxE (bigD1 j) //= big1 ?addr0.
- rewrite !mxE eqxx /= !mulRE. by rewrite Rmult_1_r Rmult_comm.
- move=> k Hk. rewrite !mxE (negbTE Hk) !mulRE. by rewrite Rmult_0_r Rmult_0_r.
Qed.
Lemma jacobian_partial n m (F : 'cV[R]_n -> 'cV[R]_m) x J i j :
  is_jacobian F x J -> derivable_pt_lim (fun t => F (x + t *: unitv j)%Ri i ord0) 0 (J i j).
Proof.
move=> HF eps He. have [d [Hd H]] := HF (eps / 2) ltac:(lra).
exists (mkposreal d Hd) => t Ht Hlt /=.
have Hn := norm1_unitv j t.
have := H (t *: unitv j)%Ri. rewrite Hn => /(_ Hlt) Hle.
have Hc := norm1_comp (F (x + t *: unitv j) - F x - J *m (t *: unitv j))%Ri i.
rewrite !mxE in Hc.
have Hmu := mul_unitv J j t i. rewrite mxE in Hmu. rewrite Hmu in Hc.
rewrite Rplus_0_l scale0r addr0.
rewrite !addRE !oppRE in Hc.
set a := F _ i ord0 in Hc *. set b := F x i ord0 in Hc *.
have Hta : 0 < Rabs t by apply: Rabs_pos_lt.
have -> : (a - b) / t - J i j = (a + - b + - (t * J i j)) / t by field.
rewrite /Rdiv Rabs_mult Rabs_inv -/(Rdiv _ (Rabs t)). apply: (Rmult_lt_reg_r (Rabs t)) => //.
have -> : Rabs (a + - b + - (t * J i j)) / Rabs t * Rabs t = Rabs (a + - b + - (t * J i j)) by field; lra.
nra.
Qed.
Lemma jacobian_unique n m (F : 'cV[R]_n -> 'cV[R]_m) x J K :
  is_jacobian F x J -> is_jacobian F x K -> J = K.
Proof.
move=> HJ HK; apply/matrixP => i j.
exact: (uniqueness_limite _ _ _ _ (jacobian_partial i j HJ) (jacobian_partial i j HK)).
Qed.

(** ** Elementwise maps *)
Lemma finite_delta n (P : 'I_n -> R -> Prop) :
  (forall i d d', 0 < d' -> d' <= d -> P i d -> P i d') ->
  (forall i, exists d, 0 < d /\ P i d) -> exists d, 0 < d /\ forall i, P i d.
Proof.
move=> Hmono Hex.
suff H : forall s : seq 'I_n, exists d, 0 < d /\ forall i, i \in s -> P i d.
{ have [d [Hd H']] := H (enum 'I_n). exists d; split => // i. apply: H'. by rewrite mem_enum. }
elim=> [|a s [d [Hd IH]]]; first by exists 1; split; [lra|].
have [d' [Hd' Ha]] := Hex a. exists (Rmin d d'). split; first exact: Rmin_pos.
move=> i; rewrite inE => /orP [/eqP ->|Hi].
- apply: (Hmono _ d') => //; [exact: Rmin_pos|exact: Rmin_r].
- apply: (Hmono _ d); [exact: Rmin_pos|exact: Rmin_l|exact: IH].
Qed.
Lemma jacobian_diag n (f : 'I_n -> R -> R) (x : 'cV[R]_n) (d : 'rV[R]_n) :
  (forall i, derivable_pt_lim (f i) (x i ord0) (d ord0 i)) ->
  is_jacobian (fun v => (\col_i f i (v i ord0))%Ri) x (diag_mx d).
Proof.
move=> Hd eps He.
have [dl [Hdl H]] : exists dl, 0 < dl /\ forall i : 'I_n, forall t, Rabs t < dl ->
   Rabs (f i (x i ord0 + t) - f i (x i ord0) - d ord0 i * t) <= eps * Rabs t.
{ apply: finite_delta.
  - by move=> i a a' Ha' Hle HP t Ht; apply: HP; lra.
  - move=> i. have [[dl Hdl] H] := Hd i eps He. exists dl; split => // t Ht.
    case: (Req_dec t 0) => [->|Hne].
    + rewrite Rplus_0_r Rmult_0_r Rabs_R0 Rmult_0_r.
      have -> : f i (x i ord0) - f i (x i ord0) - 0 = 0 by ring. rewrite Rabs_R0; exact: Rle_refl.
    + have := H t Hne Ht => /= Hl.
      have -> : f i (x i ord0 + t) - f i (x i ord0) - d ord0 i * t
              = ((f i (x i ord0 + t) - f i (x i ord0)) / t - d ord0 i) * t by field.
      rewrite Rabs_mult. apply: Rmult_le_compat_r; [exact: Rabs_pos|lra]. }
exists dl; split => // h Hh. rewrite {1}/norm1.
have -> : eps * norm1 h = (\sum_(i < n) (eps * Rabs (h i ord0)))%Ri by rewrite Rsum_mull.
apply: Rsum_le => i _. rewrite mul_diag_mx !mxE.
apply: H. apply: Rle_lt_trans Hh. exact: norm1_comp.
Qed.
