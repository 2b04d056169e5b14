From mathcomp Require Import all_ssreflect all_algebra.
From Coq Require Import Reals Lra List ZArith.
From Verif Require Import Base.Result Base.Sums Base.Tensor Model.Bijector Model.ScalarBij Base.Rmx Spec.Bijector Spec.Scalar Spec.Jacobian Proofs.Bijector Proofs.Block Proofs.Jacobian.
Set Implicit Arguments.
Unset Strict Implicit.
Unset Printing Implicit Defensive.
Import GRing.Theory.
Delimit Scope ring_scope with Ri.
Delimit Scope R_scope with R.
Local Open Scope R_scope.

Lemma is_log_det_comp n (F G : 'cV[R]_n -> 'cV[R]_n) x l1 l2 :
  is_log_det F x l1 -> is_log_det G (F x) l2 -> is_log_det (fun v => G (F v)) x (l1 + l2).
Proof.
move=> [J [HJ [J0 ->]]] [K [HK [K0 ->]]]. exists (K *m J)%Ri. split; first exact: jacobian_comp.
rewrite det_mulmx mulRE. split; first by apply: Rmult_integral_contrapositive_currified.
rewrite Rabs_mult ln_mult; [exact: Rplus_comm| |]; exact: Rabs_pos_lt.
Qed.

Lemma chain_links_ok pre suf (bs : list (bij * (list nat -> 'cV[R]_(prodl suf) -> 'cV[R]_(prodl suf)))) x :
  bs <> nil -> (forall b, In b (List.map fst bs) -> methods_agree b) ->
  links_log_det_ok pre bs x -> wf x -> shp x = (pre ++ suf)%list ->
  exists y ld, chain_fal (List.map fst bs) x = Ok (y, ld) /\ compose_forward (List.map fst bs) x = Ok y /\
    wf y /\ shp y = (pre ++ suf)%list /\ wf ld /\ shp ld = pre /\
    forall idx, inb pre idx ->
      event suf y idx = compose_maps (List.map snd bs) idx (event suf x idx) /\
      is_log_det (compose_maps (List.map snd bs) idx) (event suf x idx) (tget 0 ld idx).
Proof.
elim: bs => [|[b F] rest IH] // _ Hm [Hr Hb] Hw Hs.
have Hmb : methods_agree b by apply: Hm; left.
case E : rest => [|p rest'].
- subst rest. have [y [ld [E1 [Hy [Hsy [Hl [Hsl H]]]]]]] := Hb x erefl.
  exists y, ld. cbn. rewrite (proj1 (proj1 Hmb _ _ _ E1)).
  split; [exact: E1|split; [done|]]. split; [done|split; [done|split; [done|split; [done|]]]]. exact: H.
- rewrite -E. have Hne : rest <> nil by rewrite E.
  have Hmr : forall b0, In b0 (List.map fst rest) -> methods_agree b0 by move=> b0 H0; apply: Hm; right.
  have [z [lz [E1 [Ez [Hz [Hsz [Hlz [Hslz HI]]]]]]]] := IH Hne Hmr Hr Hw Hs.
  have [y [ld [E2 [Hy [Hsy [Hl [Hsl H]]]]]]] := Hb z Ez.
  cbn [List.map fst snd compose_maps compose_forward].
  have Hne' : List.map fst rest <> nil by rewrite E.
  rewrite (chain_fal_cons _ _ _ Hne') E1 /accum /= E2 /=.
  have Hsame : shp lz = shp ld by rewrite Hsl Hslz.
  rewrite /tadd (tmap2_same 0 0 Rplus lz ld Hsame) /= Ez (proj1 (proj1 Hmb _ _ _ E2)).
  do 2 eexists. split; first done. split; first done. split; first done. split; first done.
  split; first exact: tgen_wf. split; first exact: Hslz.
  move=> idx Hi. have [e1 d1] := HI idx Hi. have [e2 d2] := H idx Hi.
  split; first by rewrite e2 e1.
  rewrite tget_tgen ?Hslz //. apply: is_log_det_comp d1 _. by rewrite -e1.
Qed.

Lemma chain_log_det pre suf (bs : list (bij * (list nat -> 'cV[R]_(prodl suf) -> 'cV[R]_(prodl suf)))) c x :
  chain_init (List.map fst bs) = Ok c -> (forall b, In b (List.map fst bs) -> methods_agree b) ->
  wf x -> shp x = (pre ++ suf)%list -> links_log_det_ok pre bs x ->
  log_det_ok c pre (compose_maps (List.map snd bs)) x.
Proof.
move=> Hc Hm Hw Hs Hl.
have [_ [_ [Ef [_ [Hne _]]]]] := chain_fields _ _ Hc.
have Hne' : bs <> nil by move=> E; apply: Hne; rewrite E.
have [y [ld [E1 [_ H]]]] := chain_links_ok Hne' Hm Hl Hw Hs.
by exists y, ld; rewrite Ef.
Qed.

(** ** Block of an elementwise map *)
Lemma bigsum_sumf n (f : nat -> R) : (\sum_(i < n) f i)%Ri = sumf f (List.seq 0 n).
Proof.
elim: n => [|n IH]; first by rewrite big_ord0.
rewrite big_ord_recr IH. rewrite seq_S /sumf map_app rsum_app [rsum (List.map f (_ :: nil))]/=. by rewrite Rplus_0_r.
Qed.
Lemma bigprod_ln n (f : 'I_n -> R) : (forall i, f i <> 0) ->
  (\prod_(i < n) f i)%Ri <> 0 /\ ln (Rabs (\prod_(i < n) f i)%Ri) = (\sum_(i < n) ln (Rabs (f i)))%Ri.
Proof.
move=> H. apply: (big_ind2 (fun p s => p <> 0 /\ ln (Rabs p) = s)).
- split; first exact: R1_neq_R0. by rewrite Rabs_R1 ln_1.
- move=> x1 x2 y1 y2 [h1 e1] [h2 e2]. rewrite !mulRE !addRE. split; first by apply: Rmult_integral_contrapositive_currified.
  rewrite Rabs_mult ln_mult; [by rewrite e1 e2| |]; exact: Rabs_pos_lt.
- move=> i _. split; [exact: H|done].
Qed.
Lemma diag_log_det n (f lf : 'I_n -> R -> R) (x : 'cV[R]_n) :
  (forall i, log_abs_derivative (f i) (lf i) (x i ord0)) ->
  is_log_det (fun v => (\col_i f i (v i ord0))%Ri) x (\sum_(i < n) lf i (x i ord0))%Ri.
Proof.
move=> H.
have [d Hd] : exists d : 'rV[R]_n, forall i, derivable_pt_lim (f i) (x i ord0) (d ord0 i) /\ d ord0 i <> 0 /\ lf i (x i ord0) = ln (Rabs (d ord0 i)).
{ have [g Hg] := fin_all_exists H. exists (\row_i g i)%Ri => i. rewrite mxE. exact: Hg. }
exists (diag_mx d). split; first by apply: jacobian_diag => i; exact: (proj1 (Hd i)).
rewrite det_diag.
have [h1 h2] := bigprod_ln (fun i => proj1 (proj2 (Hd i))).
split; first exact: h1. rewrite h2. apply: eq_bigr => i _. exact: (proj2 (proj2 (Hd i))).
Qed.

Lemma block_elementwise_log_det m f lf g lg k c pre suf (x : arr) :
  m_in m = 0%Z -> m_out m = 0%Z -> (m_cj m = true -> m_cl m = true) ->
  block_init (elementwise m f lf g lg) k = Ok c ->
  wf x -> shp x = (pre ++ suf)%list -> Z.of_nat (length suf) = k ->
  (forall idx, inb (pre ++ suf) idx -> log_abs_derivative f lf (tget 0 x idx)) ->
  log_det_ok c pre (fun _ (v : 'cV[R]_(prodl suf)) => (\col_i f (v i ord0))%Ri) x.
Proof.
move=> Hi Ho Hcm Hc Hw Hs Hk Hd.
have Hcoh : coherent (elementwise m f lf g lg) by rewrite /coherent /= Hi Ho.
have := block_spec _ _ _ x Hcoh Hc => -[_ /=]. rewrite Hi Z.add_0_r.
have Hr : (k <= Z.of_nat (rank x))%Z.
{ rewrite -Hk /rank Hs. apply: inj_le. rewrite app_length. apply: Nat.le_add_l. }
move=> H0; have [_ H] := H0 Hr.
have [s [E [Hws [Hss Hv]]]] := H (tmap f x) (tmap lf x) erefl pre suf (tmap_wf lf x Hw) Hs Hk.
exists (tmap f x), s. split; first exact: E. split; first exact: tmap_wf.
split; first exact: Hs. split; first exact: Hws. split; first exact: Hss.
move=> idx Hidx.
have Hin : forall j : 'I_(prodl suf), inb (pre ++ suf) (idx ++ unravel suf j)%list.
{ move=> j. apply: inb_app => //. apply: unravel_inb. apply/ltP. exact: ltn_ord. }
split.
- apply/colP => j. rewrite !mxE. apply: (tget_tmap 0 0) => //. by rewrite Hs.
- rewrite (Hv idx Hidx).
  have -> : sumf (fun j => tget 0 (tmap lf x) (idx ++ j)%list) (indices suf)
     = (\sum_(i < prodl suf) lf (event suf x idx i ord0))%Ri.
  { pose h := (fun n : nat => lf (tget 0 x (idx ++ unravel suf n)%list)).
    transitivity (\sum_(i < prodl suf) h i)%Ri.
    - rewrite (bigsum_sumf _ h) /indices sumf_map. apply: sumf_ext => n /in_seq Hn.
      apply: (tget_tmap 0 0) => //. rewrite Hs. apply: inb_app => //. apply: unravel_inb. exact: (proj2 Hn).
    - by apply: eq_bigr => i _; rewrite mxE. }
  apply: (diag_log_det (f := fun _ => f) (lf := fun _ => lf)) => i. rewrite mxE. apply: Hd. exact: Hin.
Qed.
