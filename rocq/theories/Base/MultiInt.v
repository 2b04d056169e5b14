(** Infrastructure: iterated integrals over R^n, and substitution by a triangular matrix. *)
From mathcomp Require Import all_ssreflect all_algebra.
From Coq Require Import Reals Lra.
From Verif Require Import Base.Integral Base.Gauss Base.IntegralSub Base.Rmx.
Set Implicit Arguments.
Unset Strict Implicit.
Unset Printing Implicit Defensive.
Import GRing.Theory.
Delimit Scope ring_scope with Ri.
Delimit Scope R_scope with R.
Local Open Scope R_scope.

(** The vector with first coordinate [x] and remaining coordinates [z]. *)
Definition vcons (n : nat) (x : R) (z : 'cV[R]_n) : 'cV[R]_(n.+1) :=
  (\col_i match unlift ord0 i with Some j => z j ord0 | None => x end)%Ri.
(** The integral of [f] over R^n: integrate over the last coordinate, then over the one before it, and so on. *)
Fixpoint integral_n (n : nat) : ('cV[R]_n -> R) -> R -> Prop :=
  match n with
  | O => fun f v => v = f 0%Ri
  | S m => fun f v => exists g : R -> R, (forall x, integral_n (fun z : 'cV[R]_m => f (vcons x z)) (g x)) /\ integral g v
  end.

Lemma vcons0 n x (z : 'cV[R]_n) : vcons x z ord0 ord0 = x.
Proof. by rewrite mxE unlift_none. Qed.
Lemma vconsS n x (z : 'cV[R]_n) i : vcons x z (lift ord0 i) ord0 = z i ord0.
Proof. by rewrite mxE liftK. Qed.
Lemma vcons_ext n (u v : 'cV[R]_(n.+1)) : u ord0 ord0 = v ord0 ord0 -> (forall i, u (lift ord0 i) ord0 = v (lift ord0 i) ord0) -> u = v.
Proof. move=> H0 HS; apply/colP => i. by case: (unliftP ord0 i) => [j ->|->]. Qed.
Lemma cV0 (u v : 'cV[R]_0) : u = v. Proof. by apply/colP => -[]. Qed.

Lemma integral_n_ext n (f g : 'cV[R]_n -> R) v : (forall x, f x = g x) -> integral_n f v -> integral_n g v.
Proof.
elim: n f g v => [|n IH] f g v E /=; first by rewrite E.
move=> [h [Hh H]]. exists h. split=> // x. apply: IH (Hh x). by move=> z /=.
Qed.
Lemma integral_n_eq n (f : 'cV[R]_n -> R) v w : v = w -> integral_n f v -> integral_n f w.
Proof. by move=> ->. Qed.
Lemma integral_n_unique n (f : 'cV[R]_n -> R) u v : integral_n f u -> integral_n f v -> u = v.
Proof.
elim: n f u v => [|n IH] f u v /=; first by move=> -> ->.
move=> [g [Hg Ig]] [h [Hh Ih]]. apply: (integral_unique g) => //.
apply: (integral_ext h) => // x. exact: IH (Hh x) (Hg x).
Qed.
Lemma integral_n_plus n (f g : 'cV[R]_n -> R) u v : integral_n f u -> integral_n g v -> integral_n (fun x => f x + g x) (u + v).
Proof.
elim: n f g u v => [|n IH] f g u v /=; first by move=> -> ->.
move=> [a [Ha Ia]] [b [Hb Ib]]. exists (fun x => a x + b x). split; last exact: integral_plus.
move=> x. exact: IH.
Qed.
Lemma integral_n_scal n c (f : 'cV[R]_n -> R) u : integral_n f u -> integral_n (fun x => c * f x) (c * u).
Proof.
elim: n f u => [|n IH] f u /=; first by move=> ->.
move=> [a [Ha Ia]]. exists (fun x => c * a x). split; last exact: integral_scal.
move=> x. exact: IH.
Qed.
Lemma integral_n_zero n : integral_n (fun _ : 'cV[R]_n => 0) 0.
Proof.
elim: n => [|n IH] //=. exists (fun _ => 0). split=> //. exact: integral_zero.
Qed.
Lemma integral_n_sum n m (f : 'I_m -> 'cV[R]_n -> R) (v : 'I_m -> R) : (forall i, integral_n (f i) (v i)) ->
  integral_n (fun x => (\sum_i f i x)%Ri) (\sum_i v i)%Ri.
Proof.
elim: m f v => [|m IH] f v H.
  rewrite big_ord0. apply: integral_n_ext (integral_n_zero n). by move=> x; rewrite big_ord0.
rewrite big_ord_recl. apply: (integral_n_ext (f := fun x => f ord0 x + (\sum_(i < m) f (lift ord0 i) x)%Ri)).
  by move=> x; rewrite big_ord_recl.
apply: integral_n_plus => //. apply: (IH (fun i => f (lift ord0 i))). by move=> i.
Qed.
Lemma integral_n_le n (f g : 'cV[R]_n -> R) u v : (forall x, f x <= g x) -> integral_n f u -> integral_n g v -> u <= v.
Proof.
elim: n f g u v => [|n IH] f g u v E /=; first by move=> -> ->.
move=> [a [Ha Ia]] [b [Hb Ib]]. apply: (integral_le a b) => // x. by apply: IH (Ha x) (Hb x) => z.
Qed.
(** Products of functions of one coordinate each. *)
Lemma integral_n_prod n (f : 'I_n -> R -> R) (v : 'I_n -> R) : (forall i, integral (f i) (v i)) ->
  integral_n (fun x : 'cV[R]_n => (\prod_i f i (x i ord0))%Ri) (\prod_i v i)%Ri.
Proof.
elim: n f v => [|n IH] f v H /=; first by rewrite !big_ord0.
exists (fun x => f ord0 x * (\prod_(i < n) v (lift ord0 i))%Ri). split.
  move=> x. apply: (integral_n_ext (f := fun z : 'cV[R]_n => f ord0 x * (\prod_(i < n) f (lift ord0 i) (z i ord0))%Ri)).
    move=> z. rewrite big_ord_recl vcons0 mulRE. congr (_ * _). apply: eq_bigr => i _. by rewrite vconsS.
  apply: integral_n_scal. apply: (IH (fun i => f (lift ord0 i)) (fun i => v (lift ord0 i))). by move=> i.
rewrite big_ord_recl. rewrite mulRE Rmult_comm.
apply: (integral_ext (fun x => (\prod_(i < n) v (lift ord0 i))%Ri * f ord0 x)); first by move=> x; rewrite Rmult_comm.
apply: integral_scal. exact: H.
Qed.
(** Substitution x = m + L z, with L lower triangular with a positive diagonal. *)
Lemma integral_n_affine n (f : 'cV[R]_n -> R) (m : 'cV[R]_n) (L : 'M[R]_n) v :
  (forall i j : 'I_n, leq i.+1 j -> L i j = 0) -> (forall i, 0 < L i i) ->
  integral_n (fun z => f (m + L *m z)%Ri) v -> integral_n f ((\prod_i L i i)%Ri * v).
Proof.
elim: n f m L v => [|n IH] f m L v Ht Hd /=.
  move=> ->. rewrite big_ord0. rewrite oneRE Rmult_1_l. congr f. exact: cV0.
move=> [g [Hg Ig]]. rewrite big_ord_recl.
pose l := (\col_i L (lift ord0 i) ord0)%Ri : 'cV[R]_n.
pose L' := (\matrix_(i, j) L (lift ord0 i) (lift ord0 j))%Ri : 'M[R]_n.
pose m' := (\col_i m (lift ord0 i) ord0)%Ri : 'cV[R]_n.
pose P := (\prod_(i < n) L' i i)%Ri.
have EP : (\prod_(i < n) L (lift ord0 i) (lift ord0 i))%Ri = P by apply: eq_bigr => i _; rewrite mxE.
rewrite EP.
have H0 := Hd ord0.
exists (fun x => P * g ((x - m ord0 ord0) / L ord0 ord0)). split.
  move=> x. set z0 := (_ / _)%R.
  have := Hg z0 => /(integral_n_ext (g := fun z => f (vcons x (m' + z0 *: l + L' *m z)%Ri))) H.
  apply: (IH _ (m' + z0 *: l)%Ri L').
  - move=> i j Hij. rewrite mxE. apply: Ht. by rewrite /= /bump /= add1n add1n ltnS.
  - move=> i. rewrite mxE. exact: Hd.
  - apply: H => z. congr f. apply: vcons_ext.
      rewrite vcons0 !mxE big_ord_recl vcons0 big1 ?addr0.
        rewrite addRE mulRE /z0. clear -H0. move: (L ord0 ord0) (m ord0 ord0) H0 => a b H0. toR. by field; lra.
      move=> i _. rewrite Ht ?mul0r //. 
    move=> i. rewrite vconsS !mxE big_ord_recl vcons0 -!addrA. congr (_ + _)%Ri. congr (_ + _)%Ri.
      by rewrite mulrC.
    apply: eq_bigr => j _. by rewrite vconsS !mxE.
rewrite mulRE.
have -> : L ord0 ord0 * P * v = L ord0 ord0 * (P * v) by ring.
apply: (integral_affine _ (m ord0 ord0) (L ord0 ord0)) => //.
apply: (integral_ext (fun z => P * g z)).
  move=> z. congr (_ * g _). field. lra.
exact: integral_scal.
Qed.

(** ** The standard normal density on R^n and its first two moments *)
Definition std_n (n : nat) (z : 'cV[R]_n) : R := (\prod_i npdf (z i ord0))%Ri.
Lemma std_n_mass n : integral_n (@std_n n) 1.
Proof.
have := @integral_n_prod n (fun _ => npdf) (fun _ => 1) (fun _ => npdf_mass). by rewrite big1.
Qed.
Lemma std_n_mean n (i : 'I_n) : integral_n (fun z => z i ord0 * std_n z) 0.
Proof.
have H := @integral_n_prod n (fun k => if k == i then (fun z => z * npdf z) else npdf) (fun k => if k == i then 0 else 1).
apply: (integral_n_eq _ (integral_n_ext _ (H _))).
- rewrite (bigD1 i) //= eqxx. exact: mul0r.
- move=> z. rewrite /std_n (bigD1 i) //= eqxx [in RHS](bigD1 i) //= mulRE mulRE Rmult_assoc. congr (_ * (_ * _)).
  apply: eq_bigr => k /negbTE ->. by [].
- move=> k. case: eqP => _; [exact: npdf_mean|exact: npdf_mass].
Qed.
Lemma std_n_second n (i j : 'I_n) : integral_n (fun z => z i ord0 * z j ord0 * std_n z) (if i == j then 1 else 0).
Proof.
case: (altP (i =P j)) => [<-|Hij].
  have H := @integral_n_prod n (fun k => if k == i then (fun z => z * z * npdf z) else npdf) (fun k => 1).
  apply: (integral_n_eq _ (integral_n_ext _ (H _))).
  - by rewrite big1.
  - move=> z. rewrite /std_n (bigD1 i) //= eqxx [in RHS](bigD1 i) //= mulRE mulRE !Rmult_assoc. congr (_ * (_ * (_ * _))).
    congr (_ * _). apply: eq_bigr => k /negbTE ->. by [].
  - move=> k. case: eqP => _; [exact: npdf_second|exact: npdf_mass].
have H := @integral_n_prod n (fun k => if (k == i) || (k == j) then (fun z => z * npdf z) else npdf) (fun k => if (k == i) || (k == j) then 0 else 1).
apply: (integral_n_eq _ (integral_n_ext _ (H _))).
- rewrite (bigD1 i) //= eqxx /=. exact: mul0r.
- move=> z. have Hji : j != i by rewrite eq_sym. rewrite /std_n (bigD1 i) //= eqxx /= (bigD1 j) //= eqxx orbT [in RHS](bigD1 i) //= [in RHS](bigD1 j) //= !mulRE.
  have -> : (\prod_(i0 < n | (i0 != i) && (i0 != j)) (if (i0 == i) || (i0 == j) then fun z0 : R => z0 * npdf z0 else npdf) (z i0 ord0) =
     \prod_(i0 < n | (i0 != i) && (i0 != j)) npdf (z i0 ord0))%Ri.
    apply: eq_bigr => k /andP [/negbTE -> /negbTE ->]. by [].
  move: (npdf (z i ord0)) (npdf (z j ord0)) (z i ord0) (z j ord0) => a b c d. move: (\prod_(i0 < n | _) _)%Ri => e. toR. ring.
- move=> k. case: orP => _; [exact: npdf_mean|exact: npdf_mass].
Qed.
