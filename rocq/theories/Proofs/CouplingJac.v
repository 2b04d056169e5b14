From mathcomp Require Import all_ssreflect all_algebra all_fingroup.
From Coq Require Import Reals Lra List ZArith.
From Verif Require Import Base.Result Base.Sums Base.Tensor Model.Bijector Model.Coupling Base.Rmx
  Spec.Bijector Spec.Scalar Spec.Jacobian Spec.Coupling Proofs.Bijector Proofs.Block Proofs.Jacobian Proofs.LogDet Proofs.Coupling.
Set Implicit Arguments.
Unset Strict Implicit.
Unset Printing Implicit Defensive.
Import GRing.Theory.
Delimit Scope ring_scope with Ri.
Delimit Scope R_scope with R.
Local Open Scope R_scope.

(** A matrix whose masked rows are those of the identity and whose unmasked/unmasked block
    is diagonal has the product of its diagonal as determinant. *)
Lemma det_masked n (J : 'M[R]_n) (mk : 'I_n -> bool) :
  (forall i j, mk i -> j != i -> J i j = 0) ->
  (forall i j, ~~ mk i -> ~~ mk j -> j != i -> J i j = 0) ->
  (\det J)%Ri = (\prod_i J i i)%Ri.
Proof.
move=> H1 H2. rewrite /determinant (bigD1 1%g) //= [X in (_ + X)%Ri]big1 ?addr0.
- rewrite odd_perm1 expr0 mul1r. by apply: eq_bigr => i _; rewrite perm1.
- move=> s Hs.
  have [i Hi] : exists i, s i != i.
  { apply/existsP. apply: contraR Hs. rewrite negb_exists => /forallP H. apply/eqP/permP => i.
    rewrite perm1. by have := H i; rewrite negbK => /eqP. }
  suff [i0 Hz] : exists i0, J i0 (s i0) = 0 by rewrite (bigD1 i0) //= Hz mul0r mulr0.
  case Hm : [exists i, mk i && (s i != i)].
  + have [i0 /andP [m0 n0]] := existsP Hm. exists i0. exact: H1.
  + exists i. have Hf : forall q, mk q -> s q = q.
    { move=> q mq. move/negbT: Hm. rewrite negb_exists => /forallP /(_ q). by rewrite mq /= negbK => /eqP. }
    apply: H2 => //.
    * apply/negP => mi. by rewrite (Hf i mi) eqxx in Hi.
    * apply/negP => mi. have := Hf _ mi => /perm_inj E. by rewrite E eqxx in Hi.
Qed.

Lemma derivable_shift (f : R -> R) a d : derivable_pt_lim f a d -> derivable_pt_lim (fun t => f (a + t)) 0 d.
Proof.
move=> H eps He. have [dl Hd] := H eps He. exists dl => h h0 hl.
have := Hd h h0 hl. by rewrite Rplus_0_l Rplus_0_r.
Qed.

(** ** Arrays and vectors *)
Lemma unflat_wf s v : wf (@unflat s v).
Proof. by rewrite /wf /unflat /= map_length seq_length. Qed.
Lemma unflat_get s (v : 'cV[R]_(prodl s)) (i : 'I_(prodl s)) : tget 0 (unflat v) (unravel s i) = v i ord0.
Proof.
rewrite /tget /unflat /=. have Hi : (i < prodl s)%coq_nat by apply/ltP; exact: ltn_ord.
rewrite ravel_unravel //.
pose g := fun n : nat => match insub n with Some j => v j ord0 | None => 0 end : R.
rewrite -/g (nth_indep _ 0 (g O)); last by rewrite map_length seq_length.
by rewrite map_nth seq_nth //= /g valK.
Qed.
Lemma unflat_event s (x : arr) : wf x -> shp x = s -> unflat (event s x nil) = x.
Proof.
move=> Hw <-. apply: (tensor_ext 0) => //; first exact: unflat_wf.
move=> idx Hi. change (inb (shp x) idx) in Hi.
have Hr := ravel_lt _ _ Hi. move/ltP: (Hr) => Hr'.
rewrite -(unravel_ravel _ _ Hi). have := unflat_get (event (shp x) x nil) (Ordinal Hr'). rewrite /= => ->.
by rewrite mxE.
Qed.
Lemma event_unflat s (v : 'cV[R]_(prodl s)) : event s (unflat v) nil = v.
Proof. by apply/colP => i; rewrite mxE; apply: unflat_get. Qed.

Section MaskedJac.
Variables (P : Type) (cond : arr -> result P) (bijector : P -> bij).
Variables (m : tensor bool) (s : shape) (c : bij).
Hypothesis Hc : masked_coupling_init cond bijector (BoolMask m) (Some (Z.of_nat (length s))) 0 = Ok c.
Hypothesis Hm : bshape (shp m) s = Some s.
Variable (par : arr -> P).
Hypothesis Hpar : forall x, wf x -> shp x = s -> cond x = Ok (par x).
Variables (f lf : P -> list nat -> R -> R).
Hypothesis Hin : forall p, b_in (bijector p) = 0%Z /\ b_out (bijector p) = 0%Z.
Hypothesis Hf : forall p x, wf x -> shp x = s ->
  b_fal (bijector p) x = Ok (tgen s (fun i => f p i (tget 0 x i)), tgen s (fun i => lf p i (tget 0 x i))).
Hypothesis Hd : forall p i r, inb s i -> log_abs_derivative (f p i) (lf p i) r.

Let n := prodl s.
Let mk (i : 'I_n) : bool := mask_at m (unravel s i).
Let pv (v : 'cV[R]_n) : P := par (masked_input m (length s) (unflat v)).

Lemma b_in_c : b_in c = Z.of_nat (length s).
Proof.
have [m' [E [_ [_ [-> _]]]]] := mc_init_ok _ _ _ _ _ _ Hc. done.
Qed.
Lemma inb_unravel (i : 'I_n) : inb s (unravel s i).
Proof. apply: unravel_inb. apply/ltP. exact: ltn_ord. Qed.

Lemma masked_vec_spec (v : 'cV[R]_n) : exists y ld,
  b_fal c (unflat v) = Ok (y, ld) /\ b_fwd c (unflat v) = Ok y /\ wf y /\ shp y = s /\ shp ld = nil /\
  (forall i, event s y nil i ord0 = if mk i then v i ord0 else f (pv v) (unravel s i) (v i ord0)) /\
  tget 0 ld nil = (\sum_(i < n) if mk i then 0 else lf (pv v) (unravel s i) (v i ord0))%Ri.
Proof.
have Hw := unflat_wf v. have Hs : shp (unflat v) = s by [].
have Hc' : masked_coupling_init cond bijector (BoolMask m) (Some (Z.of_nat (length s))) (Z.of_nat (length (@nil nat))) = Ok c by exact: Hc.
have Hs' : shp (unflat v) = (s ++ nil)%list by rewrite app_nil_r.
have Hr : (b_in c <= Z.of_nat (length (s ++ nil)%list))%Z by rewrite b_in_c app_nil_r; exact: Z.le_refl.
have Hp : cond (masked_input m (length s) (unflat v)) = Ok (pv v) by apply: Hpar => //; exact: tgen_wf.
have [Hi Ho] := Hin (pv v).
have Hop := Hf (pv v) Hw Hs.
have [] := masked_coupling_values cond bijector m (Some (Z.of_nat (length s))) s nil c Hc' Hm Hr b_fal (unflat v) (pv v) _ _ (or_introl erefl) Hs' Hp Hi Ho Hop.
{ by rewrite app_nil_r. }
{ by []. }
move=> y [ld [E [Wy [Sy [Wl [Vy Vl]]]]]].
exists y, ld. split; first exact: E.
have Ma : methods_agree c.
{ have [m' [_ [_ [_ [_ [_ [_ [_ [_ [_ Ma]]]]]]]]]] := mc_init_ok _ _ _ _ _ _ Hc. exact: Ma. }
split; first exact: (proj1 (proj1 Ma _ _ _ E)).
split; first exact: Wy. split; first by rewrite Sy app_nil_r.
have [Sl Vl'] := Vl nil s erefl ltac:(rewrite b_in_c /= Z.sub_0_r; reflexivity).
split; first exact: Sl. split.
- move=> i. rewrite mxE. change (nil ++ unravel s i)%list with (unravel s i).
  have := Vy (unravel s i) nil (inb_unravel i) (Forall2_nil _). rewrite app_nil_r => ->.
  rewrite -/(mk i) unflat_get. case: (mk i) => //. rewrite tget_tgen; [by rewrite unflat_get | exact: inb_unravel].
- have Hnil : inb nil nil by constructor. rewrite (Vl' nil Hnil).
  pose h := (fun q : nat => if mask_at m (unravel s q) then 0 else lf (pv v) (unravel s q) (tget 0 (unflat v) (unravel s q))).
  transitivity (\sum_(i < n) h i)%Ri.
  + rewrite (bigsum_sumf _ h) /indices sumf_map. apply: sumf_ext => q /in_seq [_ Hq].
    rewrite /h /=. case: (mask_at m (unravel s q)) => //. rewrite tget_tgen //. exact: unravel_inb.
  + by apply: eq_bigr => i _; rewrite /h unflat_get.
Qed.

Lemma pv_unmasked v j t : ~~ mk j -> pv (v + t *: unitv j)%Ri = pv v.
Proof.
move=> Hj. rewrite /pv. congr par. rewrite /masked_input /=. apply: tgen_ext => idx Hi.
have -> : firstn (length s) idx = idx by rewrite -(inb_length _ _ Hi) firstn_all.
have Hr := ravel_lt _ _ Hi. move/ltP: (Hr) => Hr'.
rewrite -(unravel_ravel _ _ Hi). have Hg := fun w => @unflat_get s w (Ordinal Hr'). rewrite /= in Hg.
rewrite !Hg. case E : (mask_at m _) => //.
rewrite !mxE. case: eqP => [Ej|_]; last by rewrite mulr0 addr0.
move: Hj. by rewrite /mk -Ej /= E.
Qed.

Theorem masked_coupling_log_det (F : 'cV[R]_n -> 'cV[R]_n) (v : 'cV[R]_n) (J : 'M[R]_n) :
  (forall w, b_fwd c (unflat w) = Ok (unflat (F w))) -> is_jacobian F v J ->
  (\det J)%Ri <> 0 /\ exists y ld, b_fal c (unflat v) = Ok (y, ld) /\ ld = tscalar (ln (Rabs (\det J)%Ri)).
Proof.
move=> HF HJ.
have Fi : forall w i, F w i ord0 = if mk i then w i ord0 else f (pv w) (unravel s i) (w i ord0).
{ move=> w i. have [y [ld [_ [E [Wy [Sy [_ [V _]]]]]]]] := masked_vec_spec w.
  rewrite HF in E. case: E => E. rewrite -(V i) -E. by rewrite event_unflat. }
have HP := fun i j => jacobian_partial i j HJ.
have Uj : forall i j t, (v + t *: unitv j)%Ri i ord0 = v i ord0 + (if i == j then t else 0).
{ move=> i j t. rewrite !mxE addRE. case: eqP => _; by rewrite mulRE ?Rmult_1_r ?Rmult_0_r. }
have D1 : forall i j, mk i -> J i j = if i == j then 1 else 0.
{ move=> i j Hi. apply: (uniqueness_limite _ _ _ _ (HP i j)).
  have -> : (fun t => F (v + t *: unitv j)%Ri i ord0) = (fun t => v i ord0 + (if i == j then t else 0)).
  { apply: FunctionalExtensionality.functional_extensionality => t. by rewrite Fi Hi Uj. }
  case: eqP => _.
  - have := derivable_pt_lim_plus (fct_cte (v i ord0)) id 0 0 1 (derivable_pt_lim_const _ _) (derivable_pt_lim_id 0).
    by rewrite Rplus_0_l.
  - exact: (derivable_pt_lim_const (v i ord0 + 0) 0). }
have D2 : forall i j, ~~ mk i -> ~~ mk j -> j != i -> J i j = 0.
{ move=> i j Hi Hj Hne. apply: (uniqueness_limite _ _ _ _ (HP i j)).
  have -> : (fun t => F (v + t *: unitv j)%Ri i ord0) = (fun _ => f (pv v) (unravel s i) (v i ord0)).
  { apply: FunctionalExtensionality.functional_extensionality => t. rewrite Fi (negbTE Hi) pv_unmasked // Uj.
    by rewrite eq_sym (negbTE Hne) Rplus_0_r. }
  exact: derivable_pt_lim_const. }
have D3 : forall i, ~~ mk i -> J i i <> 0 /\ lf (pv v) (unravel s i) (v i ord0) = ln (Rabs (J i i)).
{ move=> i Hi. have [d [Hdd [Hd0 Hl]]] := Hd (pv v) (v i ord0) (inb_unravel i).
  have -> : J i i = d; last by [].
  apply: (uniqueness_limite _ _ _ _ (HP i i)).
  have -> : (fun t => F (v + t *: unitv i)%Ri i ord0) = (fun t => f (pv v) (unravel s i) (v i ord0 + t)).
  { apply: FunctionalExtensionality.functional_extensionality => t. by rewrite Fi (negbTE Hi) pv_unmasked // Uj eqxx. }
  exact: derivable_shift. }
have Hdet : (\det J)%Ri = (\prod_i J i i)%Ri.
{ apply: (@det_masked _ _ mk) => [i j Hi Hne|]; last exact: D2.
  by rewrite D1 // eq_sym (negbTE Hne). }
have Hnz : forall i, J i i <> 0.
{ move=> i. case Hi : (mk i); last by have [] := D3 i (negbT Hi). rewrite D1 // eqxx. exact: R1_neq_R0. }
have [h1 h2] := bigprod_ln Hnz.
rewrite Hdet. split; first exact: h1.
have [y [ld [E [_ [_ [_ [Sl [_ V]]]]]]]] := masked_vec_spec v.
exists y, ld. split; first exact: E.
apply: (tensor_ext 0) => //.
- have := E. have [m' [_ [_ [_ [_ [_ [_ [_ [Ef [_ _]]]]]]]]]] := mc_init_ok _ _ _ _ _ _ Hc.
  move=> _. have Hc' : masked_coupling_init cond bijector (BoolMask m) (Some (Z.of_nat (length s))) (Z.of_nat (length (@nil nat))) = Ok c by exact: Hc.
  have Hs' : shp (unflat v) = (s ++ nil)%list by rewrite app_nil_r.
  have Hr : (b_in c <= Z.of_nat (length (s ++ nil)%list))%Z by rewrite b_in_c app_nil_r; exact: Z.le_refl.
  have Hp : cond (masked_input m (length s) (unflat v)) = Ok (pv v) by apply: Hpar => //; exact: tgen_wf.
  have [Hi Ho] := Hin (pv v).
  have Hop := Hf (pv v) (unflat_wf v) erefl.
  have [] := masked_coupling_values cond bijector m (Some (Z.of_nat (length s))) s nil c Hc' Hm Hr b_fal (unflat v) (pv v) _ _ (or_introl erefl) Hs' Hp Hi Ho Hop.
  { by rewrite app_nil_r. }
  { by []. }
  move=> y' [ld' [E' [_ [_ [Wl _]]]]]. rewrite E in E'. by case: E' => _ ->.
- rewrite Sl => idx Hi. rewrite (inb_nil_inv _ Hi) V /tget /= h2.
  apply: eq_bigr => i _. case Hmi : (mk i).
  + by rewrite D1 // eqxx Rabs_R1 ln_1.
  + exact: (proj2 (D3 i (negbT Hmi))).
Qed.
End MaskedJac.
