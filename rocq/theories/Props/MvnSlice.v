(** C29 for the multivariate normals: indexing an object gives the object whose batch element r is the element the index addresses. *)
From mathcomp Require Import all_ssreflect all_algebra.
From Coq Require Import Reals List ZArith Lra Lia.
From Verif Require Import Base.Result Base.Sums Base.Tensor Base.XR Base.Lift Base.Cholesky Base.Rmx
  Model.Bijector Model.ScalarBij Model.Linear Model.Distribution Model.Compose Model.Transformed Model.Mvn
  Spec.Bijector Spec.Linear Spec.Univariate Spec.Distribution Spec.Mvn Spec.MvnDist
  Proofs.Distribution Proofs.Linear Proofs.Mvn Proofs.MvnPad Proofs.MvnKl Props.Distribution Props.Mvn Props.MvnDiag Props.MvnKl.
Set Implicit Arguments.
Unset Strict Implicit.
Unset Printing Implicit Defensive.
Import GRing.Theory.
Delimit Scope ring_scope with Ri.
Delimit Scope R_scope with R.
Local Open Scope R_scope.

(** The index [ix], applied to an array of shape [bs], gives shape [rs] and reads at [r] the element at [src r]. *)
Definition index_map (bs : shape) (ix : list ielem) (rs : shape) (src : list nat -> list nat) : Prop :=
  indexed_shape bs ix rs /\ forall r, inb rs r -> addresses bs ix rs r (src r).

Lemma legal_index_map bs ix : Spec.Distribution.fits bs ix -> nonzero_steps ix -> exists rs src, np_index bs ix = Ok (rs, src) /\ index_map bs ix rs src.
Proof.
move=> F NZ. have := np_index_fits bs ix NZ. case E: (np_index bs ix) => [[rs src]|e]; last by case=> _ [].
move=> _. exists rs, src. split=> //. split; [exact: np_index_shape E|exact: np_index_spec E].
Qed.
Lemma slice_vectors n a bs (f : list nat -> 'cV[R]_n) ix rs src : bs <> nil -> np_index bs ix = Ok (rs, src) -> index_map bs ix rs src ->
  vectors_are a bs f -> exists q, slice_param 0 bs ix a = Ok q /\ vectors_are q rs (fun r => f (src r)).
Proof.
move=> Ne En IM [W [E Ha]]. have [q [Eq [Wq [Sq Hq]]]] := slice_param_ok 0 bs (n :: nil)%list ix rs src a Ne En E.
exists q. split=> //. do 2!split=> //. move=> r Hr. have [Hb _] := addresses_inb _ _ _ _ _ (proj2 IM r Hr). rewrite -(Ha _ Hb).
apply/matrixP => i j. rewrite !mxE. apply: Hq => //. apply/inb_cons. split; [by apply/ltP; case: i|constructor].
Qed.
Lemma slice_rectangles n k a bs (f : list nat -> 'M[R]_(n, k)) ix rs src : bs <> nil -> np_index bs ix = Ok (rs, src) -> index_map bs ix rs src ->
  rectangles_are a bs f -> exists q, slice_param 0 bs ix a = Ok q /\ rectangles_are q rs (fun r => f (src r)).
Proof.
move=> Ne En IM [W [E Ha]]. have [q [Eq [Wq [Sq Hq]]]] := slice_param_ok 0 bs (n :: k :: nil)%list ix rs src a Ne En E.
exists q. split=> //. do 2!split=> //. move=> r Hr. have [Hb _] := addresses_inb _ _ _ _ _ (proj2 IM r Hr). rewrite -(Ha _ Hb).
apply/matrixP => i j. rewrite !mxE. apply: Hq => //. apply/inb_cons. split; first by apply/ltP; case: i.
apply/inb_cons. split; [by apply/ltP; case: j|constructor].
Qed.
Lemma slice_matrices n a bs (f : list nat -> 'M[R]_n) ix rs src : bs <> nil -> np_index bs ix = Ok (rs, src) -> index_map bs ix rs src ->
  matrices_are a bs f -> exists q, slice_param 0 bs ix a = Ok q /\ matrices_are q rs (fun r => f (src r)).
Proof. exact: slice_rectangles. Qed.
Lemma triangle_idem lower n (T : 'M[R]_n) : triangle lower (triangle lower T) = triangle lower T.
Proof. apply/matrixP => i j. rewrite /triangle. case: lower; rewrite !mxE; case: ifP => // ->; by []. Qed.
Lemma triangle_diag lower n (T : 'M[R]_n) i : triangle lower T i i = T i i.
Proof. rewrite /triangle. case: lower; rewrite !mxE; by rewrite leqnn. Qed.

(** What indexing has to return: an object of the same class whose batch element [r] is the law of element [src r]. *)
Definition is_slice K (rng : K -> shape -> arr) n (d : mvn (K := K)) (cov var std : result arr) (bs : shape) (ix : list ielem) (m : list nat -> 'cV[R]_n) (C : list nat -> 'M[R]_n) : Prop :=
  exists rs src, index_map bs ix rs src /\ is_normal_law d rs (fun r => m (src r)) (fun r => C (src r)) /\
    has_covariance cov var std rs (fun r => C (src r)) /\ mvn_object rng d rs (fun r => m (src r)) (fun r => C (src r)).


Lemma slice_error bs ix (a : arr) : bs <> nil -> nonzero_steps ix -> ~ Spec.Distribution.fits bs ix -> slice_param 0 bs ix a = Err IndexError.
Proof.
move=> Ne NZ NF. have := np_index_fits bs ix NZ. case E: (np_index bs ix) => [p|e]; first by [].
case=> Ee _. rewrite -Ee. exact: slice_param_err.
Qed.

(** MultivariateNormalTri *)
Theorem C29_mvn_tri : forall K (rng : K -> shape -> arr) n loc scale_tri lower lb tb bs (m : list nat -> 'cV[R]_n) T d ix,
  loc <> None \/ scale_tri <> None ->
  vector_arg loc 0%Ri lb m -> matrix_arg scale_tri 1%:M%Ri tb T -> bshape tb lb = Some bs ->
  (forall j i, inb tb j -> T j i i <> 0) ->
  let S j := triangle lower (T (bindex tb j)) in let C j := (S j *m (S j)^T)%Ri in
  mvn_tri_init rng loc scale_tri lower = Ok d -> bs <> nil -> nonzero_steps ix ->
  (Spec.Distribution.fits bs ix -> exists e, mvn_tri_getitem rng lower d ix = Ok e /\
     is_slice rng (fst e) (mvn_covariance (fst e)) (mvn_variance (fst e)) (mvn_stddev (fst e)) bs ix (fun j => m (bindex lb j)) C) /\
  (~ Spec.Distribution.fits bs ix -> mvn_tri_getitem rng lower d ix = Err IndexError).
Proof.
move=> K rng n loc st lower lb tb bs m T d ix NN HL HT Hb Hn S C Ed Ne NZ.
have [d' [E' [Law [_ [_ [[t [Et Ht]] _]]]]]] := @C59_tri K rng n loc st lower lb tb bs m T NN HL HT Hb Hn.
move: E'. rewrite Ed => -[Edd]. rewrite -Edd in Law Et. clear d' Edd.
have [Eb [Edim [_ [_ [_ [_ [l [El [_ [_ [_ [_ Hl]]]]]]]]]]]] := Law.
rewrite /mvn_tri_getitem Et. have -> : mvn_loc (fst d) = Ok l by exact El. cbn [rbind]. rewrite Eb. split; last first.
{ move=> NF. by rewrite slice_error. }
move=> F. have [rs [src [En IM]]] := legal_index_map F NZ.
have [ql [Eql Hql]] := slice_vectors Ne En IM Hl. have [qt [Eqt Hqt]] := slice_matrices Ne En IM Ht.
rewrite Eql Eqt. cbn [rbind].
have Hn' : forall j i, inb rs j -> (fun r => triangle lower (T (bindex tb (src r)))) j i i <> 0.
{ move=> j i Hj. cbv beta. rewrite triangle_diag. apply: Hn. apply: bindex_inb Hb _. exact: (proj1 (addresses_inb _ _ _ _ _ (proj2 IM j Hj))). }
have [e [Ee [Lawe [Cove [_ [_ [_ Oe]]]]]]] := @C59_tri K rng n (Some ql) (Some qt) lower rs rs rs _ _ (or_introl (@some_ne ql)) Hql Hqt (bshape_refl rs) Hn'.
exists e. split=> //. exists rs, src. split=> //.
have EX : forall j, inb rs j -> m (bindex lb (src (bindex rs j))) = m (bindex lb (src j)) /\
  (triangle lower (triangle lower (T (bindex tb (src (bindex rs j))))) *m (triangle lower (triangle lower (T (bindex tb (src (bindex rs j))))))^T = C (src j))%Ri.
{ move=> j Hj. by rewrite (bindex_refl rs j Hj) triangle_idem. }
split; [exact: law_ext EX Lawe|]. split; [|exact: object_ext EX Oe].
apply: cov_ext Cove => j Hj. by have [_ ->] := EX j Hj.
Qed.
Print Assumptions C29_mvn_tri.

(** MultivariateNormalDiag *)
Theorem C29_mvn_diag : forall K (rng : K -> shape -> arr) n loc scale_diag lb db bs (m sg : list nat -> 'cV[R]_n) d ix,
  loc <> None \/ scale_diag <> None ->
  vector_arg loc 0%Ri lb m -> vector_arg scale_diag (const_mx 1)%Ri db sg -> bshape db lb = Some bs ->
  (forall j i, inb db j -> sg j i ord0 <> 0) ->
  let S j := diag_mx ((sg (bindex db j))^T)%Ri in let C j := (S j *m (S j)^T)%Ri in
  mvn_diag_init rng loc scale_diag = Ok d -> bs <> nil -> nonzero_steps ix ->
  (Spec.Distribution.fits bs ix -> exists e, mvn_diag_getitem rng d ix = Ok e /\
     is_slice rng (fst e) (mvn_covariance (fst e)) (mvn_variance (fst e)) (mvn_stddev (fst e)) bs ix (fun j => m (bindex lb j)) C) /\
  (~ Spec.Distribution.fits bs ix -> mvn_diag_getitem rng d ix = Err IndexError).
Proof.
move=> K rng n loc sd lb db bs m sg d ix NN HL HD Hb Hn S C Ed Ne NZ.
have [d' [E' [Law [_ [_ [[t [Et Ht]] _]]]]]] := @C59_diag K rng n loc sd lb db bs m sg NN HL HD Hb Hn.
move: E'. rewrite Ed => -[Edd]. rewrite -Edd in Law Et. clear d' Edd.
have [Eb [Edim [_ [_ [_ [_ [l [El [_ [_ [_ [_ Hl]]]]]]]]]]]] := Law.
rewrite /mvn_diag_getitem Et. have -> : mvn_loc (fst d) = Ok l by exact El. cbn [rbind]. rewrite Eb. split; last first.
{ move=> NF. by rewrite slice_error. }
move=> F. have [rs [src [En IM]]] := legal_index_map F NZ.
have [ql [Eql Hql]] := slice_vectors Ne En IM Hl. have [qt [Eqt Hqt]] := slice_vectors Ne En IM Ht.
rewrite Eql Eqt. cbn [rbind].
have Hn' : forall j i, inb rs j -> (fun r => sg (bindex db (src r))) j i ord0 <> 0.
{ move=> j i Hj. apply: Hn. apply: bindex_inb Hb _. exact: (proj1 (addresses_inb _ _ _ _ _ (proj2 IM j Hj))). }
have [e [Ee [Lawe [Cove [_ [_ [_ [Oe _]]]]]]]] := @C59_diag K rng n (Some ql) (Some qt) rs rs rs _ _ (or_introl (@some_ne ql)) Hql Hqt (bshape_refl rs) Hn'.
exists e. split=> //. exists rs, src. split=> //.
have EX : forall j, inb rs j -> m (bindex lb (src (bindex rs j))) = m (bindex lb (src j)) /\
  (diag_mx ((sg (bindex db (src (bindex rs j))))^T) *m (diag_mx ((sg (bindex db (src (bindex rs j))))^T))^T = C (src j))%Ri.
{ move=> j Hj. by rewrite (bindex_refl rs j Hj). }
split; [exact: law_ext EX Lawe|]. split; [|exact: object_ext EX Oe].
apply: cov_ext Cove => j Hj. by have [_ ->] := EX j Hj.
Qed.
Print Assumptions C29_mvn_diag.

(** MultivariateNormalFullCovariance *)
Theorem C29_mvn_full_covariance : forall K (rng : K -> shape -> arr) n loc covariance_matrix lb cb bs (m : list nat -> 'cV[R]_n) C d ix,
  loc <> None \/ covariance_matrix <> None ->
  vector_arg loc 0%Ri lb m -> matrix_arg covariance_matrix 1%:M%Ri cb C -> bshape cb lb = Some bs ->
  (forall j, inb cb j -> spd (C j)) ->
  mvn_full_init rng loc covariance_matrix = Ok d -> bs <> nil -> nonzero_steps ix ->
  (Spec.Distribution.fits bs ix -> exists e, mvn_full_getitem rng d ix = Ok e /\
     is_slice rng (fst e) (mvn_full_covariance e) (mvn_full_variance e) (mvn_full_stddev e) bs ix (fun j => m (bindex lb j)) (fun j => C (bindex cb j))) /\
  (~ Spec.Distribution.fits bs ix -> mvn_full_getitem rng d ix = Err IndexError).
Proof.
move=> K rng n loc cv lb cb bs m C d ix NN HL HT Hb Hn Ed Ne NZ.
have [d' [L [E' [Law [[[t [Et Ht]] _] _]]]]] := @C59_full_covariance K rng n loc cv lb cb bs m C NN HL HT Hb Hn.
move: E'. rewrite Ed => -[Edd]. rewrite -Edd in Law Et. clear d' Edd.
have [Eb [Edim [_ [_ [_ [_ [l [El [_ [_ [_ [_ Hl]]]]]]]]]]]] := Law.
rewrite /mvn_full_getitem Et. have -> : mvn_loc (fst d) = Ok l by exact El. cbn [rbind]. rewrite Eb. split; last first.
{ move=> NF. by rewrite slice_error. }
move=> F. have [rs [src [En IM]]] := legal_index_map F NZ.
have [ql [Eql Hql]] := slice_vectors Ne En IM Hl. have [qt [Eqt Hqt]] := slice_matrices Ne En IM Ht.
rewrite Eql Eqt. cbn [rbind].
have Hn' : forall j, inb rs j -> spd ((fun r => C (bindex cb (src r))) j).
{ move=> j Hj. apply: Hn. apply: bindex_inb Hb _. exact: (proj1 (addresses_inb _ _ _ _ _ (proj2 IM j Hj))). }
have [e [L' [Ee [Lawe [Cove [_ [_ Oe]]]]]]] := @C59_full_covariance K rng n (Some ql) (Some qt) rs rs rs _ _ (or_introl (@some_ne ql)) Hql Hqt (bshape_refl rs) Hn'.
exists e. split=> //. exists rs, src. split=> //.
have EX : forall j, inb rs j -> m (bindex lb (src (bindex rs j))) = m (bindex lb (src j)) /\ C (bindex cb (src (bindex rs j))) = C (bindex cb (src j)).
{ move=> j Hj. by rewrite (bindex_refl rs j Hj). }
split; [exact: law_ext EX Lawe|]. split; [|exact: object_ext EX Oe].
apply: cov_ext Cove => j Hj. by have [_ ->] := EX j Hj.
Qed.
Print Assumptions C29_mvn_full_covariance.

(** MultivariateNormalDiagPlusLowRank; without low-rank factors the sliced object carries explicit zero factors. *)
Lemma zeros_rectangles n k : rectangles_are (tzeros (n :: k :: nil)) nil (fun _ => 0 : 'M[R]_(n, k))%Ri.
Proof.
split; first exact: tgen_wf. split=> // j Hj. have -> := inb_nil_inv _ Hj. apply/matrixP => i l. rewrite !mxE /tzeros tget_tgen //.
do 2!(constructor; first exact: ltR). constructor.
Qed.
Lemma dplr_factors K (rng : K -> shape -> arr) n k loc sd u v lb db ub vb (m sg : list nat -> 'cV[R]_n) (U V : list nat -> 'M[R]_(n, k)) d bs1 sb bs :
  loc <> None \/ sd <> None \/ u <> None ->
  vector_arg loc 0%Ri lb m -> vector_arg sd (const_mx 1)%Ri db sg -> low_rank_args u v ub vb U V ->
  bshape db ub = Some bs1 -> bshape bs1 vb = Some sb -> bshape sb lb = Some bs ->
  (forall j i, inb db j -> sg j i ord0 <> 0) ->
  (forall j, inb sb j -> (\det (diag_mx (sg (bindex db j))^T + U (bindex ub j) *m (V (bindex vb j))^T))%Ri <> 0) ->
  mvn_dplr_init rng loc sd u v = Ok d ->
  exists k' (U' V' : list nat -> 'M[R]_(n, k')) tu tv, (0 < k')%coq_nat /\ dplr_scale_u d = Ok tu /\ rectangles_are tu bs U' /\
    dplr_scale_v d = Ok tv /\ rectangles_are tv bs V' /\
    forall j, inb bs j -> (U' j *m (V' j)^T = U (bindex ub j) *m (V (bindex vb j))^T)%Ri.
Proof.
move=> NN HL HD HUV Hb1 Hb2 Hb Hn HS Ed.
have [d' [E' [Law [_ [_ [_ [HF _]]]]]]] := @C59_diag_plus_low_rank K rng n k loc sd u v lb db ub vb bs1 sb bs m sg U V NN HL HD HUV Hb1 Hb2 Hb Hn HS.
move: E'. rewrite Ed => -[Edd]. rewrite -Edd in Law HF. clear d' Edd. have [Eb _] := Law.
case: u NN HUV Ed HF => [a|] NN HUV Ed HF.
- have [[tu [Eu Hu]] [tv [Ev Hv]]] := HF (@some_ne a). have Pk : (0 < k)%coq_nat by case: (v) HUV => [w|] [].
  exists k, (fun j => U (bindex ub j)), (fun j => V (bindex vb j)), tu, tv. split=> //; do 4!split=> //.
- case: v HUV Ed => [//|] [Eub [Evb HUV0]] Ed.
  have Nd : match loc, sd, (None : option arr) with
    | Some l, _, _ => trail (shp l) | None, Some d, _ => trail (shp d) | None, None, Some u => mrows (shp u) | None, None, None => 0%nat end = n.
  { case: loc NN HL {Ed} => [l|] NN HL; first by move: HL => [_ [-> _]]; rewrite trail_app.
    case: sd NN HD => [t|] NN HD; first by move: HD => [_ [-> _]]; rewrite trail_app. by case: NN => [|[]]. }
  move: Ed. rewrite /mvn_dplr_init Nd. case: dplr_check => [tt'|//]. cbn [rbind]. cbv zeta. case: diag_scale => [sc|//]. cbn [rbind].
  case: mvn_init => [d0|//]. cbn [rbind] => -[Ed].
  have Eu : dp_u d = tzeros (n :: 1%nat :: nil) by rewrite -Ed. have Ev : dp_v d = tzeros (n :: 1%nat :: nil) by rewrite -Ed.
  have [r [Er Hr]] := bcast_rectangles (zeros_rectangles n 1) (bshape_nil_l bs).
  exists 1%nat, (fun _ => 0)%Ri, (fun _ => 0)%Ri, r, r. split; first lia. rewrite /dplr_scale_u /dplr_scale_v Eu Ev Eb. do 2!(split; first exact: Er; split; first exact: Hr).
  move=> j Hj. have [-> _] := HUV0 (bindex ub j). by rewrite !mul0mx.
Qed.
Theorem C29_mvn_diag_plus_low_rank : forall K (rng : K -> shape -> arr) n k loc scale_diag u v lb db ub vb bs1 sb bs
    (m sg : list nat -> 'cV[R]_n) (U V : list nat -> 'M[R]_(n, k)) d ix,
  loc <> None \/ scale_diag <> None \/ u <> None ->
  vector_arg loc 0%Ri lb m -> vector_arg scale_diag (const_mx 1)%Ri db sg -> low_rank_args u v ub vb U V ->
  bshape db ub = Some bs1 -> bshape bs1 vb = Some sb -> bshape sb lb = Some bs ->
  (forall j i, inb db j -> sg j i ord0 <> 0) ->
  let S j := (diag_mx (sg (bindex db j))^T + U (bindex ub j) *m (V (bindex vb j))^T)%Ri in
  let C j := (S j *m (S j)^T)%Ri in
  (forall j, inb sb j -> (\det (S j))%Ri <> 0) ->
  mvn_dplr_init rng loc scale_diag u v = Ok d -> bs <> nil -> nonzero_steps ix ->
  (Spec.Distribution.fits bs ix -> exists e, mvn_dplr_getitem rng d ix = Ok e /\
     is_slice rng (dp_mvn e) (mvn_covariance (dp_mvn e)) (mvn_variance (dp_mvn e)) (mvn_stddev (dp_mvn e)) bs ix (fun j => m (bindex lb j)) C) /\
  (~ Spec.Distribution.fits bs ix -> mvn_dplr_getitem rng d ix = Err IndexError).
Proof.
move=> K rng n k loc sd u v lb db ub vb bs1 sb bs m sg U V d ix NN HL HD HUV Hb1 Hb2 Hb Hn S C HS Ed Ne NZ.
have [k' [U' [V' [tu [tv [Pk [Eu [Hu [Ev [Hv EUV]]]]]]]]]] := @dplr_factors K rng n k loc sd u v lb db ub vb m sg U V d bs1 sb bs NN HL HD HUV Hb1 Hb2 Hb Hn HS Ed.
have [d' [E' [Law [_ [_ [[t [Et Ht]] [_ [HSb _]]]]]]]] := @C59_diag_plus_low_rank K rng n k loc sd u v lb db ub vb bs1 sb bs m sg U V NN HL HD HUV Hb1 Hb2 Hb Hn HS.
move: E'. rewrite Ed => -[Edd]. rewrite -Edd in Law Et. clear d' Edd.
have [Eb [Edim [_ [_ [_ [_ [l [El [_ [_ [_ [_ Hl]]]]]]]]]]]] := Law.
rewrite /mvn_dplr_getitem Et Eu Ev. have -> : mvn_loc (dp_mvn d) = Ok l by exact El. cbv zeta. cbn [rbind]. rewrite Eb. split; last first.
{ move=> NF. by rewrite slice_error. }
move=> F. have [rs [src [En IM]]] := legal_index_map F NZ.
have [ql [Eql Hql]] := slice_vectors Ne En IM Hl. have [qt [Eqt Hqt]] := slice_vectors Ne En IM Ht.
have [qu [Equ Hqu]] := slice_rectangles Ne En IM Hu. have [qv [Eqv Hqv]] := slice_rectangles Ne En IM Hv.
rewrite Eql Eqt Equ Eqv. cbn [rbind].
have IS : forall j, inb rs j -> inb bs (src j) by move=> j Hj; exact: (proj1 (addresses_inb _ _ _ _ _ (proj2 IM j Hj))).
have Hdb : bshape db bs = Some bs := bshape_trans _ _ _ (bshape_trans _ _ _ (bshape_absorb_l _ _ _ Hb1) (bshape_absorb_l _ _ _ Hb2)) (bshape_absorb_l _ _ _ Hb).
have Hn' : forall j i, inb rs j -> (fun r => sg (bindex db (src r))) j i ord0 <> 0.
{ move=> j i Hj. apply: Hn. exact: bindex_inb Hdb (IS j Hj). }
have ES : forall j, inb rs j -> (diag_mx (sg (bindex db (src (bindex rs j))))^T + U' (src (bindex rs j)) *m (V' (src (bindex rs j)))^T = S (src j))%Ri.
{ move=> j Hj. rewrite (bindex_refl rs j Hj) EUV //. exact: IS. }
have HS' : forall j, inb rs j -> (\det (diag_mx (sg (bindex db (src (bindex rs j))))^T + U' (src (bindex rs j)) *m (V' (src (bindex rs j)))^T))%Ri <> 0.
{ move=> j Hj. rewrite ES //. apply: HSb. exact: IS. }
have [e [Ee [Lawe [Cove [_ [_ [_ [_ Oe]]]]]]]] := @C59_diag_plus_low_rank K rng n k' (Some ql) (Some qt) (Some qu) (Some qv) rs rs rs rs rs rs rs _ _ _ _
  (or_introl (@some_ne ql)) Hql Hqt (conj Pk (conj Hqu Hqv)) (bshape_refl rs) (bshape_refl rs) (bshape_refl rs) Hn' HS'.
exists e. split=> //. exists rs, src. split=> //.
have EX : forall j, inb rs j -> m (bindex lb (src (bindex rs j))) = m (bindex lb (src j)) /\
  ((diag_mx (sg (bindex db (src (bindex rs j))))^T + U' (src (bindex rs j)) *m (V' (src (bindex rs j)))^T) *m
   (diag_mx (sg (bindex db (src (bindex rs j))))^T + U' (src (bindex rs j)) *m (V' (src (bindex rs j)))^T)^T = C (src j))%Ri.
{ move=> j Hj. split; first by rewrite (bindex_refl rs j Hj). by rewrite ES. }
split; [exact: law_ext EX Lawe|]. split; [|exact: object_ext EX Oe].
apply: cov_ext Cove => j Hj. by have [_ ->] := EX j Hj.
Qed.
Print Assumptions C29_mvn_diag_plus_low_rank.

(** Non-vacuity: element -1 of a batch of two triangular normals. *)
Example C29_mvn_nonvacuous : exists d e l, mvn_tri_init ex_rng (Some ex_loc) (Some ex_tri) true = Ok d /\
  mvn_tri_getitem ex_rng true d (IInt (-1) :: nil) = Ok e /\ v_batch (fst e) = nil /\ mvn_mean (fst e) = Ok l /\ vector_at 2 l nil = vector_at 2 ex_loc (1 :: nil)%nat.
Proof.
have [d [Ed _]] := @C59_tri unit ex_rng 2 (Some ex_loc) (Some ex_tri) true (2 :: nil)%nat nil (2 :: nil)%nat _ _ (or_introl (@some_ne _)) ex_loc_vectors ex_tri_matrices erefl ex_tri_diag.
have F : Spec.Distribution.fits (2 :: nil)%nat (IInt (-1) :: nil) by constructor; [lia|constructor].
have NZ : nonzero_steps (IInt (-1) :: nil) by move=> a b [].
have NE : (2 :: nil)%nat <> nil by [].
have [H _] := @C29_mvn_tri unit ex_rng 2 (Some ex_loc) (Some ex_tri) true (2 :: nil)%nat nil (2 :: nil)%nat _ _ d _ (or_introl (@some_ne _)) ex_loc_vectors ex_tri_matrices erefl ex_tri_diag Ed NE NZ.
have [e [Ee [rs [src [IM [Law _]]]]]] := H F. have [Eb [_ [_ [_ [_ [_ [l [El [_ [_ [_ [_ [Wl [Sl Hl]]]]]]]]]]]]]] := Law.
exists d, e, l. split=> //. split=> //. have [IS IA] := IM.
have Ers : rs = nil by inversion IS as [| |? ? ? ? ? IS'| |]; inversion IS'.
rewrite Ers in Eb Hl IA. split=> //. split=> //. have I0 : inb nil nil by constructor. rewrite (Hl nil I0).
have -> : src nil = (1 :: nil)%nat.
{ have := IA nil I0. move=> A. inversion A as [| |? ? ? ? ? p z i Hz Hi A' E1 E2 E3 E4 E5| |]. inversion A'. subst. congr (_ :: _)%list. lia. }
by rewrite bindex_refl //; apply/inb_cons; split; [lia|constructor].
Qed.
