(** C59: MultivariateNormalDiag, MultivariateNormalDiagPlusLowRank, and the constructors' errors. *)
From mathcomp Require Import all_ssreflect all_algebra.
From Coq Require Import Reals List ZArith Lra Lia ClassicalEpsilon.
From Verif Require Import Base.Result Base.Sums Base.Tensor Base.XR Base.Lift Base.Gauss Base.Integral Base.IntegralSub Base.MultiInt Base.Cholesky Base.Rmx
  Model.Bijector Model.ScalarBij Model.Linear Model.Compose Model.Transformed Model.Mvn
  Spec.Bijector Spec.Linear Spec.Density Spec.Univariate Spec.Mvn Spec.MvnDist
  Proofs.Bijector Proofs.Block Proofs.ScalarBij Proofs.ArrayDist Proofs.Linear Proofs.GaussianN Proofs.Mvn Proofs.MvnPad.
Set Implicit Arguments.
Unset Strict Implicit.
Unset Printing Implicit Defensive.
Import GRing.Theory.
Delimit Scope ring_scope with Ri.
Delimit Scope R_scope with R.
Local Open Scope R_scope.

(** MultivariateNormalDiag(loc, scale_diag): N(loc, diag(scale_diag)^2); for positive scales cdf is the probability that
    every coordinate is at most the argument's, and log_cdf its logarithm. *)
Theorem C59_diag : forall K (rng : K -> shape -> arr) n loc scale_diag lb db bs (m sg : list nat -> 'cV[R]_n),
  loc <> None \/ scale_diag <> None ->
  vector_arg loc 0%Ri lb m -> vector_arg scale_diag (const_mx 1)%Ri db sg -> bshape db lb = Some bs ->
  (forall j i, inb db j -> sg j i ord0 <> 0) ->
  let S j := diag_mx ((sg (bindex db j))^T)%Ri in let C j := (S j *m (S j)^T)%Ri in
  exists d, mvn_diag_init rng loc scale_diag = Ok d /\ is_normal_law (fst d) bs (fun j => m (bindex lb j)) C /\
    has_covariance (mvn_covariance (fst d)) (mvn_variance (fst d)) (mvn_stddev (fst d)) bs C /\
    (proper_rng rng -> samples_affinely rng (fst d) bs (fun j => m (bindex lb j)) S) /\
    (exists t, mvn_diag_scale_diag d = Ok t /\ vectors_are t bs (fun j => sg (bindex db j))) /\
    (forall j, inb bs j -> (\det (S j))%Ri <> 0) /\
    mvn_object rng (fst d) bs (fun j => m (bindex lb j)) C /\
    ((forall j i, inb db j -> 0 < sg j i ord0) ->
     forall x xb s v, vectors_are x xb v -> bshape bs xb = Some s ->
     exists r q p, mvn_diag_cdf d x = Ok r /\ mvn_diag_log_cdf d x = Ok q /\
       numbers_are r s p /\ numbers_are q s (fun i => ln (p i)) /\
       forall i, inb s i -> 0 < p i /\ cdf_is_n (mvn_density (m (bindex lb i)) (C i)) (v (bindex xb i)) (p i)).
Proof.
move=> K rng n loc sd lb db bs m sg NN HL HD Hb Hn S C.
have Hl := vector_arg_get HL (zeros_vectors n).
have Hd := vector_arg_get HD (ones_vectors n).
have Ck : diag_check loc sd = Ok tt.
{ rewrite /diag_check /rank. case: loc NN HL {Hl} => [l|] NN HL; case: sd NN HD {Hd} => [t|] NN HD //; last by case: NN.
  - move: HL HD => [_ [Sl _]] [_ [St _]]. rewrite Sl St !app_length !trail_app Nat.eqb_refl /= !PeanoNat.Nat.add_1_r. by [].
  - move: HL => [_ [Sl _]]. by rewrite Sl app_length /= PeanoNat.Nat.add_1_r.
  - move: HD => [_ [St _]]. by rewrite St app_length /= PeanoNat.Nat.add_1_r. }
rewrite /mvn_diag_init Ck. cbn [rbind].
set loc' := match loc with Some _ => _ | None => _ end in Hl.
set sd' := match sd with Some _ => _ | None => _ end in Hd.
have -> : match loc, sd with
    | Some l, None => (l, tones (trail (shp l) :: nil))
    | None, Some d => (tzeros (trail (shp d) :: nil), d)
    | Some l, Some d => (l, d)
    | None, None => (tscalar 0, tscalar 0)
    end = (loc', sd').
{ rewrite /loc' /sd'. case: loc NN HL {Hl Ck loc'} => [l|] NN HL; case: sd NN HD {Hd sd'} => [t|] NN HD //; last by case: NN.
  - move: HL => [_ [Sl _]]. by rewrite Sl trail_app.
  - move: HD => [_ [St _]]. by rewrite St trail_app. }
have Sl : shp loc' = (lb ++ n :: nil)%list by case: Hl => _ [].
have Sd : shp sd' = (db ++ n :: nil)%list by case: Hd => _ [].
have Hb' : bshape lb db = Some bs by rewrite bshape_comm.
rewrite /bcast_shapes /rank Sl Sd bshape_snoc Hb'. cbn [option_map rbind]. rewrite !app_length -!minusE. cbn [length].
set k2 := (_ - _)%coq_nat. set k1 := (_ - _)%coq_nat.
have E1 : k1 = (length bs - length lb)%coq_nat by rewrite /k1; lia.
have E2 : k2 = (length bs - length db)%coq_nat by rewrite /k2; lia.
have Hp : bshape (pad k2 db) (pad k1 lb) = Some bs by rewrite E1 E2; exact: bshape_pad.
have Hl' := expand_first_vectors k1 Hl. have Hd' := expand_first_vectors k2 Hd.
have Pd : forall j, inb (pad k2 db) j -> inb db (bindex db j) by move=> j; exact: bindex_inb (bshape_pad_self db k2).
have Hn' : forall j (i : 'I_n), inb (pad k2 db) j -> sg (bindex db j) i ord0 <> 0 by move=> j i Hj; apply: Hn; exact: Pd.
have [sc [Esc [Hsc _]]] := diag_scale_ok Hd' Hn'.
rewrite Esc. cbn [rbind].
have [d [Ed [V1 [V2 [H1 [H2 [H3 H4]]]]]]] := mvn_full rng Hl' Hsc Hp. rewrite Ed. cbn [rbind].
eexists. split; first by []. cbn [fst].
have ES : forall j, diag_of (sg (bindex db (bindex (pad k2 db) j))) = S j by move=> j; rewrite bindex_pad.
split; [|split; [|split; [|split; [|split; [|split]]]]].
- by apply: law_ext H1 => j Hj; rewrite ES bindex_pad.
- by apply: cov_ext H2 => j Hj; rewrite ES.
- move=> HR. by apply: samples_ext (H3 HR) => j Hj; rewrite ES bindex_pad.
- rewrite /mvn_diag_scale_diag. cbn [fst snd]. have [-> [-> _]] := H1.
  have [r [Er Hr]] := bcast_vectors Hd' (bshape_absorb_l _ _ _ Hp). exists r. split=> //. apply: vectors_ext Hr => j _. by rewrite bindex_pad.
- move=> j Hj. rewrite -ES. exact: H4.
- have O : mvn_object rng d bs (fun j => m (bindex lb (bindex (pad k1 lb) j))) C by apply: (object_intro Hl' Hsc Hp Ed) => j Hj; rewrite ES.
  apply: object_ext O => j Hj. by rewrite bindex_pad.
- move=> Hpos x xb s v Hx Hs.
  have [u Eu] : exists u, bshape xb (pad k1 lb) = Some u.
  { have := bshape_assoc xb (pad k1 lb) (pad k2 db). rewrite (bshape_comm (pad k1 lb)) Hp. rewrite /obind (bshape_comm xb bs) Hs.
    by case: (bshape xb (pad k1 lb)) => [u|] //; exists u. }
  have Eu' : bshape u (pad k2 db) = Some s.
  { have := bshape_assoc xb (pad k1 lb) (pad k2 db). by rewrite (bshape_comm (pad k1 lb)) Hp /obind (bshape_comm xb bs) Hs Eu. }
  have [y [Ey Hy]] := tmap2_vectors Rminus Hx Hl' Eu.
  have [z [Ez Hz]] := tmap2_vectors Rdiv Hy Hd' Eu'.
  have Est : forall g : arr -> result arr, (do z <- mvn_diag_standardize (d, expand_first k2 sd') x; g z) = g z.
  { move=> g. rewrite /mvn_diag_standardize. cbn [fst snd]. rewrite V1 /tsub Ey. cbn [rbind]. by rewrite /tdiv Ez. }
  pose p i := (\prod_k ncdf ((v (bindex xb i) k ord0 - m (bindex lb i) k ord0) / sg (bindex db i) k ord0))%Ri.
  rewrite /mvn_diag_cdf /mvn_diag_log_cdf !Est.
  have VE : forall i, inb s i -> forall k, (\col_k (((\col_k (v (bindex xb (bindex u i)) k ord0 - m (bindex lb (bindex (pad k1 lb) (bindex u i))) k ord0)%R) k ord0) / sg (bindex db (bindex (pad k2 db) i)) k ord0)%R)%Ri k ord0
      = (v (bindex xb i) k ord0 - m (bindex lb i) k ord0) / sg (bindex db i) k ord0.
  { move=> i Hi k. rewrite !mxE !bindex_pad (bindex_bindex xb (pad k1 lb) u) //.
    have -> : bindex lb (bindex u i) = bindex lb i; last by [].
    rewrite bshape_comm in Eu. rewrite -(bindex_pad lb k1 (bindex u i)) (bindex_bindex (pad k1 lb) xb u) // bindex_pad. by []. }
  exists (prod_last (tmap ncdf z)), (sum_axis_last (tmap (fun x => ln (ncdf x)) z)), p. do 2!split=> //.
  split; [|split].
  + apply: numbers_ext (prod_axis_last_ok (tmap_vectors ncdf Hz)) => i Hi. apply: eq_bigr => k _. rewrite [LHS]mxE. by rewrite VE.
  + apply: numbers_ext (sum_axis_last_ok (tmap_vectors (fun x => ln (ncdf x)) Hz)) => i Hi.
    rewrite /p ln_prod; last by move=> k; exact: ncdf_gt0. apply: eq_bigr => k _. rewrite [LHS]mxE. by rewrite VE.
  + move=> i Hi. split; first by apply: prod_gt0 => k; exact: ncdf_gt0.
    apply: diag_cdf => k. apply: Hpos. have Hi' : inb bs (bindex bs i) by exact: bindex_inb Hs Hi.
    have -> : bindex db i = bindex db (bindex bs i) by rewrite (bindex_bindex db lb bs).
    exact: bindex_inb Hb Hi'.
Qed.
Print Assumptions C59_diag.

(** MultivariateNormalDiagPlusLowRank(loc, scale_diag, u, v): N(loc, S S^T) with S = diag(scale_diag) + u v^T. *)
Theorem C59_diag_plus_low_rank : forall K (rng : K -> shape -> arr) n k loc scale_diag u v lb db ub vb bs1 sb bs
    (m sg : list nat -> 'cV[R]_n) (U V : list nat -> 'M[R]_(n, k)),
  loc <> None \/ scale_diag <> None \/ u <> None ->
  vector_arg loc 0%Ri lb m -> vector_arg scale_diag (const_mx 1)%Ri db sg -> low_rank_args u v ub vb U V ->
  bshape db ub = Some bs1 -> bshape bs1 vb = Some sb -> bshape sb lb = Some bs ->
  (forall j i, inb db j -> sg j i ord0 <> 0) ->
  let S j := (diag_mx (sg (bindex db j))^T + U (bindex ub j) *m (V (bindex vb j))^T)%Ri in
  let C j := (S j *m (S j)^T)%Ri in
  (forall j, inb sb j -> (\det (S j))%Ri <> 0) ->
  exists d, mvn_dplr_init rng loc scale_diag u v = Ok d /\ is_normal_law (dp_mvn d) bs (fun j => m (bindex lb j)) C /\
    has_covariance (mvn_covariance (dp_mvn d)) (mvn_variance (dp_mvn d)) (mvn_stddev (dp_mvn d)) bs C /\
    (proper_rng rng -> samples_affinely rng (dp_mvn d) bs (fun j => m (bindex lb j)) S) /\
    (exists t, dplr_scale_diag d = Ok t /\ vectors_are t bs (fun j => sg (bindex db j))) /\
    (u <> None ->
      (exists t, dplr_scale_u d = Ok t /\ rectangles_are t bs (fun j => U (bindex ub j))) /\
      (exists t, dplr_scale_v d = Ok t /\ rectangles_are t bs (fun j => V (bindex vb j)))) /\
    (forall j, inb bs j -> (\det (S j))%Ri <> 0) /\ mvn_object rng (dp_mvn d) bs (fun j => m (bindex lb j)) C.
Proof.
move=> K rng n k loc sd u v lb db ub vb bs1 sb bs m sg U V NN HL HD HUV Hb1 Hb2 Hb Hn S C HS.
have Hl := vector_arg_get HL (zeros_vectors n).
have Hd := vector_arg_get HD (ones_vectors n).
have Nd : match loc, sd, u with
    | Some l, _, _ => trail (shp l) | None, Some d, _ => trail (shp d) | None, None, Some u => mrows (shp u) | None, None, None => 0%nat end = n.
{ case: loc NN HL {Hl} => [l|] NN HL; first by move: HL => [_ [-> _]]; rewrite trail_app.
  case: sd NN HD {Hd} => [t|] NN HD; first by move: HD => [_ [-> _]]; rewrite trail_app.
  case: u NN HUV => [t|] NN HUV; last by case: NN => [|[]].
  case: v HUV => [?|] [_ [[_ [-> _]] _]]; by rewrite mrows_app. }
have Ck : dplr_check loc sd u v = Ok tt.
{ rewrite /dplr_check.
  have -> : onone loc && onone sd && onone u = false by case: loc NN {HL Hl Nd} => //; case: sd {HD Hd} => //; case: u {HUV} => //; case=> [|[]].
  have -> : negb (onone v) && onone u = false by case: u HUV {NN Nd}; case: v.
  have F : (olt 1 loc || olt 1 sd || olt 2 u || olt 2 v) = false.
  { have -> : olt 1 loc = false by case: loc HL {NN Hl Nd} => // l [_ [Sl _]]; rewrite /olt /rank Sl ltb1.
    have -> : olt 1 sd = false by case: sd HD {NN Hd Nd} => // l [_ [Sl _]]; rewrite /olt /rank Sl ltb1.
    have -> : olt 2 u = false by case: u HUV {NN Nd} => // l; case: (v) => [w|] [_ [[_ [Sl _]] _]]; rewrite /olt /rank Sl ltb2.
    case: v HUV => // l. case: u {NN Nd} => // w [_ [_ [_ [Sl _]]]]. by rewrite /olt /rank Sl ltb2. }
  rewrite F.
  have -> : match u, v with Some u, Some v => negb (Nat.eqb (mcols (shp u)) (mcols (shp v))) | _, _ => false end = false.
  { case: u HUV {NN Nd F} => // a; case: v => // b [_ [[_ [Sa _]] [_ [Sb _]]]]. by rewrite Sa Sb !mcols_app Nat.eqb_refl. }
  have -> : match u with Some u => Nat.ltb (mcols (shp u)) 1 | None => false end = false.
  { case: u HUV {NN Nd F} => // a H. have [P Sa] : (0 < k)%coq_nat /\ shp a = (ub ++ n :: k :: nil)%list by case: (v) H => [?|] [P [[_ [? _]] _]].
    rewrite Sa mcols_app. by case: (k) P => [|q] P //; lia. }
  have El : forall l, match l with nil => Ok tt | q :: _ => if List.forallb (Nat.eqb q) l then Ok tt else Err ValueError end = Ok tt \/ ~ (forall q, List.In q l -> q = n).
  { case=> [|q l]; first by left. case E : (List.forallb (Nat.eqb q) (q :: l)); first by left. right=> H. suff : List.forallb (Nat.eqb q) (q :: l) = true by rewrite E.
    apply/forallb_forall => x Hx. by rewrite (H x Hx) (H q (or_introl erefl)) Nat.eqb_refl. }
  set l := (_ ++ _ ++ _ ++ _)%list. case: (El l) => // H. case: H => q. rewrite /l !in_app_iff.
  move=> [|[|[|]]].
  - case: loc HL {NN Hl Nd F l} => // a [_ [-> _]] [<-|//]. by rewrite trail_app.
  - case: sd HD {NN Hd Nd F l} => // a [_ [-> _]] [<-|//]. by rewrite trail_app.
  - case: u HUV {NN Nd F l} => // a. case: (v) => [w|] [_ [[_ [-> _]] _]] [<-|//]; by rewrite mrows_app.
  - case: v HUV {F l} => // a. case: u {NN Nd} => // w [_ [_ [_ [-> _]]]] [<-|//]. by rewrite mrows_app. }
rewrite /mvn_dplr_init Ck Nd. cbn [rbind]. cbv zeta.
set loc' := match loc with Some _ => _ | None => _ end in Hl *.
set sd' := match sd with Some _ => _ | None => _ end in Hd *.
have Hsb := bshape_absorb_l _ _ _ Hb.
have Hdb : bshape db bs = Some bs := bshape_trans _ _ _ (bshape_trans _ _ _ (bshape_absorb_l _ _ _ Hb1) (bshape_absorb_l _ _ _ Hb2)) Hsb.
have Hub : bshape ub bs = Some bs := bshape_trans _ _ _ (bshape_trans _ _ _ (bshape_absorb_r _ _ _ Hb1) (bshape_absorb_l _ _ _ Hb2)) Hsb.
have Hvb : bshape vb bs = Some bs := bshape_trans _ _ _ (bshape_absorb_r _ _ _ Hb2) Hsb.
case: u NN HUV {Ck Nd} => [a|] NN HUV.
- pose b := match v with Some v => v | None => a end.
  have [HU HV] : rectangles_are a ub U /\ rectangles_are b vb V.
  { rewrite /b. case: (v) HUV => [w|]; first by move=> [_ [? ?]]. move=> [_ [H [-> E]]]. split=> //. apply: rectangles_ext H => j _. by rewrite E. }
  have [_ [Su HU']] := HU. have [_ [Sv HV']] := HV.
  have EA : forall j, inb sb j -> (diag_of (sg (bindex db j)) + matrix_at n k a (bindex ub j) *m (matrix_at n k b (bindex vb j))^T = S j)%Ri.
  { move=> j Hj. rewrite HU' ?HV' //; first exact: bindex_inb (bshape_absorb_r _ _ _ Hb2) Hj.
    exact: bindex_inb (bshape_trans _ _ _ (bshape_absorb_r _ _ _ Hb1) (bshape_absorb_l _ _ _ Hb2)) Hj. }
  have HS' : forall j, inb sb j -> (\det (diag_of (sg (bindex db j)) + matrix_at n k a (bindex ub j) *m (matrix_at n k b (bindex vb j))^T))%Ri <> 0.
  { move=> j Hj. rewrite EA //. exact: HS. }
  have [sc [Esc [Hsc _]]] := dplr_scale_ok Hd Su Sv Hb1 Hb2 Hn HS'.
  rewrite -/b Esc. cbn [rbind]. have [d [Ed [V1 [V2 [H1 [H2 [H3 H4]]]]]]] := mvn_full rng Hl Hsc Hb. rewrite Ed. cbn [rbind].
  eexists. split; first by []. rewrite /dplr_scale_diag /dplr_scale_u /dplr_scale_v. cbn [dp_mvn dp_diag dp_u dp_v].
  have [Bt [Dm _]] := H1. rewrite Bt Dm.
  have ES : forall j, inb bs j -> (diag_of (sg (bindex db (bindex sb j))) + matrix_at n k a (bindex ub (bindex sb j)) *m (matrix_at n k b (bindex vb (bindex sb j)))^T = S j)%Ri.
  { move=> j Hj. rewrite EA; last exact: bindex_inb Hb Hj. rewrite /S.
    rewrite (bindex_bindex db sb sb); last exact: bshape_trans (bshape_absorb_l _ _ _ Hb1) (bshape_absorb_l _ _ _ Hb2).
    rewrite (bindex_bindex ub sb sb); last exact: bshape_trans (bshape_absorb_r _ _ _ Hb1) (bshape_absorb_l _ _ _ Hb2).
    by rewrite (bindex_bindex vb sb sb); last exact: bshape_absorb_r Hb2. }
  split; [|split; [|split; [|split; [|split; [|split]]]]].
  + by apply: law_ext H1 => j Hj; rewrite ES.
  + by apply: cov_ext H2 => j Hj; rewrite ES.
  + move=> HR. by apply: samples_ext (H3 HR) => j Hj; rewrite ES.
  + have [r [Er Hr]] := bcast_vectors Hd Hdb. by exists r.
  + move=> _. rewrite Su Sv !mrows_app !mcols_app. have [r [Er Hr]] := bcast_rectangles HU Hub. have [r' [Er' Hr']] := bcast_rectangles HV Hvb.
    split; [by exists r|by exists r'].
  + move=> j Hj. rewrite -ES //. exact: H4.
  + by apply: (object_intro Hl Hsc Hb Ed) => j Hj; rewrite ES.
- have Ev : v = None /\ ub = nil /\ vb = nil /\ forall j, U j = 0%Ri by case: (v) HUV => // -[? [? H]]; do 3!split=> //; move=> j; case: (H j).
  move: Ev => [? [? [? HU]]]. subst v ub vb.
  have Esb : sb = db. { move: Hb1 Hb2. rewrite !bshape_nil_r => E1 E2. case: E1 => ->. by case: E2. } subst sb.
  have [sc [Esc [Hsc _]]] := diag_scale_ok Hd Hn. rewrite Esc. cbn [rbind].
  have [d [Ed [V1 [V2 [H1 [H2 [H3 H4]]]]]]] := mvn_full rng Hl Hsc Hb. rewrite Ed. cbn [rbind].
  eexists. split; first by []. rewrite /dplr_scale_diag. cbn [dp_mvn dp_diag]. have [Bt [Dm _]] := H1. rewrite Bt Dm.
  have ES : forall j, diag_of (sg (bindex db j)) = S j by move=> j; rewrite /S HU mul0mx addr0.
  split; [|split; [|split; [|split; [|split; [|split]]]]].
  + by apply: law_ext H1 => j Hj; rewrite ES.
  + by apply: cov_ext H2 => j Hj; rewrite ES.
  + move=> HR. by apply: samples_ext (H3 HR) => j Hj; rewrite ES.
  + have [r [Er Hr]] := bcast_vectors Hd Hdb. by exists r.
  + by [].
  + move=> j Hj. rewrite -ES //. exact: H4.
  + by apply: (object_intro Hl Hsc Hb Ed) => j Hj; rewrite ES.
Qed.
Print Assumptions C59_diag_plus_low_rank.
