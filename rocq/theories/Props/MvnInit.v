(** C74: the constructors of the multivariate normal distributions accept exactly the arguments whose shapes fit. *)
From mathcomp Require Import all_ssreflect all_algebra.
From Coq Require Import Reals List ZArith Lra Lia.
From Verif Require Import Base.Result Base.Sums Base.Tensor Base.XR Base.Lift Base.Rmx
  Model.Bijector Model.ScalarBij Model.Linear Model.Compose Model.Transformed Model.Mvn
  Spec.Bijector Spec.Linear Spec.MvnInit Proofs.Linear Proofs.Mvn Proofs.MvnPad.
Set Implicit Arguments.
Unset Strict Implicit.
Unset Printing Implicit Defensive.
Delimit Scope ring_scope with Ri.
Delimit Scope R_scope with R.
Local Open Scope R_scope.

(** ** Pieces *)
Definition event_vector (b : bij) : Prop := b_in b = 1%Z /\ b_out b = 1%Z /\ b_cj b = true /\ b_cl b = true.
Lemma diag_scale_iff d : if Nat.ltb (rank d) 1 then diag_scale d = Err ValueError
  else exists sc, diag_scale d = Ok sc /\ s_dims sc = trail (shp d) /\ s_batch sc = lead (shp d) /\ event_vector (s_bij sc).
Proof.
rewrite /diag_scale /diag_linear_init. case: Nat.ltb => //.
rewrite /scalar_affine_init. change (base_init 0 None true None) with (Ok (mkMeta 0 0 true true)).
cbn [rbind sa_params]. rewrite /bcast_shapes bshape_nil_l. cbn [rbind].
eexists. split; first reflexivity. by [].
Qed.
Lemma triangular_scale_iff m lower : if Nat.ltb (rank m) 2 || negb (Nat.eqb (mrows (shp m)) (mcols (shp m))) then triangular_scale m lower = Err ValueError
  else exists sc, triangular_scale m lower = Ok sc /\ s_dims sc = mcols (shp m) /\ s_batch sc = mlead (shp m) /\ event_vector (s_bij sc).
Proof.
rewrite /triangular_scale /triangular_linear_init. case: Nat.ltb => //=. case: Nat.eqb => //=.
eexists. split; first reflexivity. by [].
Qed.
Lemma mvn_init_iff K (rng : K -> shape -> arr) loc sc : event_vector (s_bij sc) ->
  match (if Nat.ltb (rank loc) 1 || negb (Nat.eqb (s_dims sc) (trail (shp loc))) then None else bshape (s_batch sc) (lead (shp loc))) with
  | None => mvn_init rng loc sc = Err ValueError
  | Some bs => exists d, mvn_init rng loc sc = Ok d /\ v_batch d = bs /\ v_dims d = trail (shp loc)
  end.
Proof.
move=> [I [O [CJ CL]]]. rewrite /mvn_init. case: Nat.ltb => //=. case: Nat.eqb => //=. have EB : bcast_shapes (s_batch sc) (lead (shp loc)) = match bshape (s_batch sc) (lead (shp loc)) with Some s => Ok s | None => Err ValueError end by [].
rewrite EB. case E : bshape => [bs|] //. cbn [rbind].
rewrite /std_mvn_dist /normal_pdist /bcast_shapes. rewrite bshape_nil_r. cbn [rbind].
rewrite /independent_init. cbn [p_event p_batch].
have -> : (Z.of_nat (length (bs ++ trail (shp loc) :: nil)%list) <? 1)%Z = false by apply/Z.ltb_ge; rewrite app_length /=; lia.
cbn -[transformed_check block_init]. rewrite /block_init. cbn -[transformed_check chain_init]. rewrite /chain_init. cbn -[transformed_check].
rewrite I O CJ CL. cbn -[transformed_check].
rewrite /transformed_check. cbn.
have -> : (Z.of_nat (length (skipn (Nat.sub (length (bs ++ trail (shp loc) :: nil)%list) (Pos.to_nat 1)) (bs ++ trail (shp loc) :: nil)%list ++ nil)%list) =? 1)%Z = true.
{ apply/Z.eqb_eq. rewrite app_nil_r skipn_length app_length. cbn [length]. lia. }
cbn [rbind]. eexists. split; first reflexivity. by [].
Qed.
Lemma init_shaped K (rng : K -> shape -> arr) loc sc lb n : event_vector (s_bij sc) -> shp loc = (lb ++ n :: nil)%list -> s_dims sc = n ->
  match bshape (s_batch sc) lb with
  | None => mvn_init rng loc sc = Err ValueError
  | Some bs => exists d, mvn_init rng loc sc = Ok d /\ v_batch d = bs /\ v_dims d = n
  end.
Proof.
move=> EV Sl Ed. have := mvn_init_iff rng loc EV. by rewrite /rank Sl ltb1 lead_app trail_app Ed Nat.eqb_refl.
Qed.

(** The result of a constructor: it succeeds exactly when the shapes fit, with the batch and event shapes those arguments have; otherwise ValueError. *)
Definition accepts_exactly {A} (fits : shape -> nat -> Prop) (r : result A) (batch : A -> shape) (dims : A -> nat) : Prop :=
  (forall bs n, fits bs n -> exists d, r = Ok d /\ batch d = bs /\ dims d = n) /\
  ((forall bs n, ~ fits bs n) -> r = Err ValueError).

Lemma tri_with_loc K (rng : K -> shape -> arr) loc st lower lb tb n : shp loc = (lb ++ n :: nil)%list -> matrices_shaped st tb n n ->
  match bshape tb lb with
  | None => mvn_tri_init rng (Some loc) st lower = Err ValueError
  | Some bs => exists d, mvn_tri_init rng (Some loc) st lower = Ok d /\ v_batch (fst d) = bs /\ v_dims (fst d) = n
  end.
Proof.
move=> Sl St. rewrite /mvn_tri_init /tri_check. case: st St => [t|] St.
- rewrite /rank Sl St ltb1 ltb2 mcols_app mrows_app trail_app Nat.eqb_refl. cbn [negb rbind]. cbv zeta.
  have Ss : shp (if lower then trilk false t else triu t) = (tb ++ n :: n :: nil)%list by case: lower; rewrite -St.
  have := triangular_scale_iff (if lower then trilk false t else triu t) lower.
  rewrite /rank Ss ltb2 mrows_app mcols_app mlead_app Nat.eqb_refl. cbn [orb negb]. move=> [sc [Esc [Ed [Eb EV]]]]. rewrite Esc. cbn [rbind].
  have := init_shaped rng EV Sl Ed. rewrite Eb. case: bshape => [bs|]; last by move=> ->.
  move=> [d [-> [B D]]]. by exists (d, if lower then trilk false t else triu t).
- rewrite /rank Sl ltb1 trail_app. cbn [rbind]. cbv zeta. rewrite St bshape_nil_l.
  have := diag_scale_iff (tones (n :: nil)). cbn [rank shp tones tgen length Nat.ltb Nat.leb]. move=> [sc [Esc [Ed [Eb EV]]]].
  rewrite Esc. cbn [rbind]. have := init_shaped rng EV Sl Ed. rewrite Eb bshape_nil_l. move=> [d [-> [B D]]]. by exists (d, teye n).
Qed.
Lemma tri_without_loc K (rng : K -> shape -> arr) t lower tb n : shp t = (tb ++ n :: n :: nil)%list ->
  mvn_tri_init rng None (Some t) lower = mvn_tri_init rng (Some (tzeros (n :: nil))) (Some t) lower.
Proof.
move=> St. rewrite /mvn_tri_init /tri_check /rank St ltb2 mcols_app mrows_app Nat.eqb_refl. cbn [negb rbind]. cbv zeta.
cbn [shp tzeros tgen length Nat.ltb Nat.leb trail List.last]. by rewrite ?Nat.eqb_refl /= ?Nat.eqb_refl.
Qed.

(** MultivariateNormalTri *)
Theorem C74_tri : forall K (rng : K -> shape -> arr) loc scale_tri lower,
  accepts_exactly (mean_and_matrix loc scale_tri) (mvn_tri_init rng loc scale_tri lower) (fun d => v_batch (fst d)) (fun d => v_dims (fst d)).
Proof.
move=> K rng loc st lower. split.
- move=> bs n [NN [lb [tb [Hl [Ht Hb]]]]]. case: loc NN Hl => [l|] NN Hl.
  + have := tri_with_loc rng lower Hl Ht. by rewrite Hb.
  + case: st NN Ht => [t|] NN Ht; last by case: NN. cbn [vectors_shaped matrices_shaped] in *. rewrite (tri_without_loc rng lower Ht).
    have := @tri_with_loc K rng (tzeros (n :: nil)) (Some t) lower nil tb n erefl Ht. by rewrite -Hl Hb.
- move=> NF. case E : (tri_check loc st) => [u|e]; last first.
  { rewrite /mvn_tri_init E. cbn [rbind]. move: E. rewrite /tri_check. case: loc {NF} => [l|]; case: st => [t|]; repeat case: ifP => _; try discriminate; by move=> [<-]. }
  move: E. rewrite /tri_check. case: loc NF => [l|] NF; case: st NF => [t|] NF //.
  + case E1 : Nat.ltb => //. case E2 : Nat.ltb => //. case: Nat.eqb_spec => //= E3. case: Nat.eqb_spec => //= E4 _.
    have [lb [n Sl]] := split1 E1. have [tb [n1 [n2 St]]] := split2 E2. rewrite St Sl mcols_app ?mrows_app ?trail_app in E3 E4. subst n1 n2.
    have := @tri_with_loc K rng l (Some t) lower lb tb n Sl St. case Eb : bshape => [bs|] // _. case: (NF bs n). split; first by left.
    by exists lb, tb.
  + case E1 : Nat.ltb => // _. have [lb [n Sl]] := split1 E1. case: (NF lb n). split; first by left. exists lb, nil. by rewrite bshape_nil_l.
  + case E2 : Nat.ltb => //. case: Nat.eqb_spec => //= E3 _. have [tb [n1 [n2 St]]] := split2 E2. rewrite St mcols_app mrows_app in E3. subst n2.
    case: (NF tb n1). split; first by right. exists nil, tb. by rewrite bshape_nil_r.
Qed.
Print Assumptions C74_tri.

(** MultivariateNormalFullCovariance *)
Lemma cholesky_shape c cb n : shp c = (cb ++ n :: n :: nil)%list -> shp (cholesky c) = (cb ++ n :: n :: nil)%list.
Proof. by move=> E; rewrite /cholesky /mstack E mcols_app mlead_app. Qed.
Lemma full_with_loc K (rng : K -> shape -> arr) loc cv lb cb n : shp loc = (lb ++ n :: nil)%list -> matrices_shaped cv cb n n ->
  match bshape cb lb with
  | None => mvn_full_init rng (Some loc) cv = Err ValueError
  | Some bs => exists d, mvn_full_init rng (Some loc) cv = Ok d /\ v_batch (fst d) = bs /\ v_dims (fst d) = n
  end.
Proof.
move=> Sl Sc. rewrite /mvn_full_init /tri_check. case: cv Sc => [t|] Sc.
- rewrite /rank Sl Sc ltb1 ltb2 mcols_app mrows_app trail_app Nat.eqb_refl. cbn [negb rbind]. cbv zeta.
  have := @tri_with_loc K rng loc (Some (cholesky t)) true lb cb n Sl (cholesky_shape Sc). case: bshape => [bs|]; last by move=> ->.
  move=> [[d q] [-> [B D]]]. by exists (d, t).
- rewrite /rank Sl ltb1 trail_app. cbn [rbind]. cbv zeta.
  have := @tri_with_loc K rng loc None true lb cb n Sl Sc. case: bshape => [bs|]; last by move=> ->.
  move=> [[d q] [-> [B D]]]. by exists (d, teye n).
Qed.
Lemma full_without_loc K (rng : K -> shape -> arr) t tb n : shp t = (tb ++ n :: n :: nil)%list ->
  mvn_full_init rng None (Some t) = mvn_full_init rng (Some (tzeros (n :: nil))) (Some t).
Proof.
move=> St. rewrite /mvn_full_init /tri_check /rank St ltb2 mcols_app mrows_app Nat.eqb_refl. cbn [negb rbind]. cbv zeta.
cbn [shp tzeros tgen length Nat.ltb Nat.leb trail List.last]. by rewrite ?Nat.eqb_refl /= ?Nat.eqb_refl.
Qed.
Theorem C74_full_covariance : forall K (rng : K -> shape -> arr) loc covariance_matrix,
  accepts_exactly (mean_and_matrix loc covariance_matrix) (mvn_full_init rng loc covariance_matrix) (fun d => v_batch (fst d)) (fun d => v_dims (fst d)).
Proof.
move=> K rng loc st. split.
- move=> bs n [NN [lb [tb [Hl [Ht Hb]]]]]. case: loc NN Hl => [l|] NN Hl.
  + have := full_with_loc rng Hl Ht. by rewrite Hb.
  + case: st NN Ht => [t|] NN Ht; last by case: NN. cbn [vectors_shaped matrices_shaped] in *. rewrite (full_without_loc rng Ht).
    have := @full_with_loc K rng (tzeros (n :: nil)) (Some t) nil tb n erefl Ht. by rewrite -Hl Hb.
- move=> NF. case E : (tri_check loc st) => [u|e]; last first.
  { rewrite /mvn_full_init E. cbn [rbind]. move: E. rewrite /tri_check. case: loc {NF} => [l|]; case: st => [t|]; repeat case: ifP => _; try discriminate; by move=> [<-]. }
  move: E. rewrite /tri_check. case: loc NF => [l|] NF; case: st NF => [t|] NF //.
  + case E1 : Nat.ltb => //. case E2 : Nat.ltb => //. case: Nat.eqb_spec => //= E3. case: Nat.eqb_spec => //= E4 _.
    have [lb [n Sl]] := split1 E1. have [tb [n1 [n2 St]]] := split2 E2. rewrite St Sl mcols_app ?mrows_app ?trail_app in E3 E4. subst n1 n2.
    have := @full_with_loc K rng l (Some t) lb tb n Sl St. case Eb : bshape => [bs|] // _. case: (NF bs n). split; first by left.
    by exists lb, tb.
  + case E1 : Nat.ltb => // _. have [lb [n Sl]] := split1 E1. case: (NF lb n). split; first by left. exists lb, nil. by rewrite bshape_nil_l.
  + case E2 : Nat.ltb => //. case: Nat.eqb_spec => //= E3 _. have [tb [n1 [n2 St]]] := split2 E2. rewrite St mcols_app mrows_app in E3. subst n2.
    case: (NF tb n1). split; first by right. exists nil, tb. by rewrite bshape_nil_r.
Qed.
Print Assumptions C74_full_covariance.

(** MultivariateNormalDiag; giving neither argument is an AssertionError (from chex) here. *)
Lemma diag_both K (rng : K -> shape -> arr) l s lb db n : shp l = (lb ++ n :: nil)%list -> shp s = (db ++ n :: nil)%list ->
  match bshape db lb with
  | None => mvn_diag_init rng (Some l) (Some s) = Err ValueError
  | Some bs => exists d, mvn_diag_init rng (Some l) (Some s) = Ok d /\ v_batch (fst d) = bs /\ v_dims (fst d) = n
  end.
Proof.
move=> Sl Ss. rewrite /mvn_diag_init /diag_check /rank Sl Ss !trail_app Nat.eqb_refl.
have N0 : forall q : shape, Nat.eqb (length (q ++ n :: nil)%list) 0 = false by move=> q; rewrite app_length /= PeanoNat.Nat.add_1_r.
rewrite !N0. cbn [negb rbind]. rewrite /bcast_shapes bshape_snoc (bshape_comm lb db). case Hb : (bshape db lb) => [bs|] //.
cbn [option_map rbind]. rewrite !app_length -!minusE. cbn [length]. set k2 := (_ - _)%coq_nat. set k1 := (_ - _)%coq_nat.
have E1 : k1 = (length bs - length lb)%coq_nat by rewrite /k1; lia.
have E2 : k2 = (length bs - length db)%coq_nat by rewrite /k2; lia.
have Hp : bshape (pad k2 db) (pad k1 lb) = Some bs by rewrite E1 E2; exact: bshape_pad.
have Sl' : shp (expand_first k1 l) = (pad k1 lb ++ n :: nil)%list by cbn; rewrite Sl /pad app_assoc.
have Ss' : shp (expand_first k2 s) = (pad k2 db ++ n :: nil)%list by cbn; rewrite Ss /pad app_assoc.
have := diag_scale_iff (expand_first k2 s). rewrite /rank Ss' ltb1 trail_app lead_app. move=> [sc [-> [Ed [Eb EV]]]]. cbn [rbind].
have := init_shaped rng EV Sl' Ed. rewrite Eb Hp. move=> [d [-> [B D]]]. by exists (d, expand_first k2 s).
Qed.
Lemma diag_one_loc K (rng : K -> shape -> arr) l lb n : shp l = (lb ++ n :: nil)%list -> mvn_diag_init rng (Some l) None = mvn_diag_init rng (Some l) (Some (tones (n :: nil))).
Proof.
move=> Sl. have N0 : Nat.eqb (length (lb ++ n :: nil)%list) 0 = false by rewrite app_length /= PeanoNat.Nat.add_1_r.
rewrite /mvn_diag_init /diag_check /rank Sl trail_app N0. cbn [shp tones tgen length Nat.eqb trail List.last]. by rewrite Nat.eqb_refl.
Qed.
Lemma diag_one_scale K (rng : K -> shape -> arr) s db n : shp s = (db ++ n :: nil)%list -> mvn_diag_init rng None (Some s) = mvn_diag_init rng (Some (tzeros (n :: nil))) (Some s).
Proof.
move=> Sl. have N0 : Nat.eqb (length (db ++ n :: nil)%list) 0 = false by rewrite app_length /= PeanoNat.Nat.add_1_r.
rewrite /mvn_diag_init /diag_check /rank Sl trail_app N0. cbn [shp tzeros tgen length Nat.eqb trail List.last]. by rewrite Nat.eqb_refl.
Qed.
Theorem C74_diag : forall K (rng : K -> shape -> arr) loc scale_diag,
  (loc = None /\ scale_diag = None -> mvn_diag_init rng loc scale_diag = Err AssertionError) /\
  (loc <> None \/ scale_diag <> None ->
   accepts_exactly (mean_and_diagonal loc scale_diag) (mvn_diag_init rng loc scale_diag) (fun d => v_batch (fst d)) (fun d => v_dims (fst d))).
Proof.
move=> K rng loc sd. split; first by move=> [-> ->]. move=> NN. split.
- move=> bs n [_ [lb [db [Hl [Hd Hb]]]]]. case: loc NN Hl => [l|] NN Hl; case: sd NN Hd => [s|] NN Hd.
  + have := diag_both rng Hl Hd. by rewrite Hb.
  + rewrite (diag_one_loc rng Hl). have := @diag_both K rng l (tones (n :: nil)) lb db n Hl. rewrite Hb. rewrite (Hd : db = nil). exact.
  + rewrite (diag_one_scale rng Hd). have := @diag_both K rng (tzeros (n :: nil)) s lb db n. rewrite Hb. rewrite (Hl : lb = nil). by move=> /(_ erefl Hd).
  + by case: NN.
- move=> NF.
  have S0 : forall a : arr, Nat.eqb (rank a) 0 = false -> exists b n, shp a = (b ++ n :: nil)%list.
  { move=> a H. apply: split1. rewrite /rank in H. by case: (length (shp a)) H => [|[|q]]. }
  case E : (diag_check loc sd) => [u|e]; last first.
  { rewrite /mvn_diag_init E. cbn [rbind]. move: E. rewrite /diag_check. case: loc NN {NF} => [l|] NN; case: sd NN => [s|] NN; repeat case: ifP => _; try discriminate; first [by move=> [<-] | by case: NN]. }
  move: E. rewrite /diag_check. case: loc NN NF => [l|] NN NF; case: sd NN NF => [s|] NN NF //.
  + case E1 : Nat.eqb => //. case E2 : Nat.eqb => //. have [lb [n Sl]] := S0 _ E2. have [db [n' Ss]] := S0 _ E1. rewrite Sl Ss !trail_app.
    case: Nat.eqb_spec => //= En _. subst n'. have := diag_both rng Sl Ss. case Eb : bshape => [bs|] // _.
    case: (NF bs n). split=> //. by exists lb, db.
  + case E1 : Nat.eqb => // _. have [lb [n Sl]] := S0 _ E1. case: (NF lb n). split=> //. exists lb, nil. by rewrite bshape_nil_l.
  + case E1 : Nat.eqb => // _. have [db [n Sl]] := S0 _ E1. case: (NF db n). split=> //. exists nil, db. by rewrite bshape_nil_r.
Qed.
Print Assumptions C74_diag.

(** MultivariateNormalDiagPlusLowRank *)
Definition three_way (db ub vb : shape) : option shape := match bshape db ub with Some b1 => bshape b1 vb | None => None end.
Lemma low_rank_scale_iff a u v db ub vb n k : shp a = (db ++ n :: nil)%list -> shp u = (ub ++ n :: k :: nil)%list -> shp v = (vb ++ n :: k :: nil)%list ->
  match three_way db ub vb with
  | None => diag_plus_low_rank_scale a u v = Err ValueError
  | Some bs => exists sc, diag_plus_low_rank_scale a u v = Ok sc /\ s_dims sc = n /\ s_batch sc = bs /\ event_vector (s_bij sc)
  end.
Proof.
move=> Sa Su Sv. have [Iff Er] := low_rank_ctor a u v. rewrite /three_way /diag_plus_low_rank_scale.
case E : (diag_plus_low_rank_init a u v) Iff Er => [b|e] Iff Er; last first.
- have -> : e = ValueError by case: (Er erefl). cbn [rbind].
  case E1 : (bshape db ub) => [b1|] //. case E2 : (bshape b1 vb) => [b2|] //.
  have : is_ok (Err e : result bij) = true by apply/Iff; exists n, k, db, ub, vb, b1, b2. by [].
- have [n' [k' [db' [ub' [vb' [b1 [b2 [Sa' [Su' [Sv' [H1 H2]]]]]]]]]]] := proj1 Iff erefl.
  rewrite Sa in Sa'. rewrite Su in Su'. rewrite Sv in Sv'. have [? ?] := app_inj_tail _ _ _ _ Sa'. have [? _] := snoc2_inj Su'. have [? _] := snoc2_inj Sv'. subst db' ub' vb' n'.
  rewrite H1 H2. cbn [rbind]. rewrite Sa Su Sv lead_app !mlead_app trail_app /bcast_shapes H1. cbn [rbind]. rewrite H2. cbn [rbind].
  eexists. split; first reflexivity. split=> //. split=> //. cbn [s_bij].
  move: E. rewrite /diag_plus_low_rank_init. do 7! (move=> H; have [? [_ {}H]] := rbind_ok_inv _ _ _ H; move: H).
  change (base_init 1 None true None) with (Ok (mkMeta 1 1 true true)). cbn [rbind]. by move=> [<-].
Qed.
Lemma vectors_default (a : option arr) (x : arr) b n : vectors_shaped a b n -> shp x = (n :: nil)%list -> shp (match a with Some l => l | None => x end) = (b ++ n :: nil)%list.
Proof. by case: a => [l|] //= ->. Qed.
Lemma dplr_check_iff loc diag u v :
  match dplr_check loc diag u v with
  | Err e => e = ValueError
  | Ok _ => exists lb db ub vb n k, (loc <> None \/ diag <> None \/ u <> None) /\ (v <> None -> u <> None) /\
     vectors_shaped loc lb n /\ vectors_shaped diag db n /\ matrices_shaped u ub n k /\ matrices_shaped v vb n k /\ (0 < k)%coq_nat
  end.
Proof.
have SV : forall o : option arr, olt 1 o = false -> exists b, forall n, (match o with Some a => trail (shp a) = n | None => True end) -> vectors_shaped o b n.
{ move=> [a|] H; last by exists nil. have [b [n E]] := split1 H. exists b => m. by rewrite E trail_app => <-. }
have SM : forall o : option arr, olt 2 o = false -> exists b, forall n k, (match o with Some a => mrows (shp a) = n /\ mcols (shp a) = k | None => True end) -> matrices_shaped o b n k.
{ move=> [a|] H; last by exists nil. have [b [n [k E]]] := split2 H. exists b => m l. by rewrite /= E mrows_app mcols_app => -[<- <-]. }
rewrite /dplr_check. case E1 : (onone loc && onone diag && onone u) => //. case E2 : (negb (onone v) && onone u) => //.
case E3 : (olt 1 loc || olt 1 diag || olt 2 u || olt 2 v) => //. move: E3. case L1 : (olt 1 loc) => //. case L2 : (olt 1 diag) => //. case L3 : (olt 2 u) => //. case L4 : (olt 2 v) => // _.
have [lb Vl] := SV _ L1. have [db Vd] := SV _ L2. have [ub Mu] := SM _ L3. have [vb Mv] := SM _ L4.
case E4 : (match u with Some _ => _ | None => _ end) => //. case E5 : (match u with Some _ => _ | None => _ end) => //. cbv zeta.
have NN : loc <> None \/ diag <> None \/ u <> None.
{ case: loc E1 {Vl L1 SV} => [l|] E1; first by left. case: diag E1 {Vd L2} => [d|] E1; first by right; left. right; right. by case: u E1 {Mu Mv E2 E4 E5 L3}. }
have NV : v <> None -> u <> None by case: v E2 {Mv E4 L4}; case: u {Mu E1 E5 L3 NN}.
have HK : exists k, (0 < k)%coq_nat /\ (match u with Some a => mcols (shp a) = k | None => True end) /\ (match v with Some a => mcols (shp a) = k | None => True end).
{ case: u E4 E5 NV {NN E1 E2 Mu L3} => [u|] E4 E5 NV.
  - exists (mcols (shp u)). split; first by move/PeanoNat.Nat.ltb_ge: E5; lia. split=> //. case: v E4 {NV Mv L4} => [v|] //. by case: Nat.eqb_spec.
  - exists 1%nat. split; first lia. split=> //. case: v NV {Mv L4 E4} => [v|] // NV. by case: NV. }
have [k [Hk [Ku Kv]]] := HK.
have Fin : forall n, (match loc with Some a => trail (shp a) = n | None => True end) -> (match diag with Some a => trail (shp a) = n | None => True end) ->
  (match u with Some a => mrows (shp a) = n | None => True end) -> (match v with Some a => mrows (shp a) = n | None => True end) ->
  exists lb db ub vb n k, (loc <> None \/ diag <> None \/ u <> None) /\ (v <> None -> u <> None) /\
     vectors_shaped loc lb n /\ vectors_shaped diag db n /\ matrices_shaped u ub n k /\ matrices_shaped v vb n k /\ (0 < k)%coq_nat.
{ move=> n H1 H2 H3 H4. exists lb, db, ub, vb, n, k. split=> //. split=> //. split; first exact: Vl. split; first exact: Vd.
  split; first by apply: Mu; case: (u) H3 Ku. split=> //. by apply: Mv; case: (v) H4 Kv. }
move: Fin NN NV. clear. case: loc => [l|]; case: diag => [d|]; case: u => [u|]; case: v => [v|] Fin NN NV; cbn [app List.forallb]; rewrite ?Nat.eqb_refl; cbn [andb];
  try (by exfalso; apply: NV); try (by case: NN => [|[]]);
  do ?(case: Nat.eqb_spec => //= ?); by apply: (Fin _ erefl) || by apply: (Fin _ I erefl) || by apply: (Fin _ I I erefl).
Qed.
Lemma dplr_fits_check loc diag u v lb db ub vb n k :
  (loc <> None \/ diag <> None \/ u <> None) -> (v <> None -> u <> None) ->
  vectors_shaped loc lb n -> vectors_shaped diag db n -> matrices_shaped u ub n k -> matrices_shaped v vb n k -> (0 < k)%coq_nat ->
  dplr_check loc diag u v = Ok tt.
Proof.
move=> NN NV Hl Hd Hu Hv Hk. rewrite /dplr_check.
have K0 : Nat.ltb k 1 = false by apply/PeanoNat.Nat.ltb_ge; lia.
case: loc NN Hl => [l|] NN Hl; case: diag NN Hd => [d|] NN Hd; case: u NN NV Hu => [u|] NN NV Hu; case: v NV Hv => [v|] NV Hv;
  try (by exfalso; apply: NV); try (by case: NN => [|[]]); cbn [vectors_shaped matrices_shaped] in *;
  cbn [onone olt negb andb orb]; rewrite /rank ?Hl ?Hd ?Hu ?Hv ?ltb1 ?ltb2 ?mcols_app ?mrows_app ?trail_app ?Nat.eqb_refl ?K0 /= ?Nat.eqb_refl //.
Qed.
Lemma three_way_default db ub : three_way db ub nil = three_way db ub ub.
Proof. rewrite /three_way. case E : (bshape db ub) => [b|] //. by rewrite bshape_nil_r (bshape_comm b) (bshape_absorb_r _ _ _ E). Qed.
Lemma dplr_shaped K (rng : K -> shape -> arr) loc diag u v lb db ub vb n k :
  (loc <> None \/ diag <> None \/ u <> None) -> (v <> None -> u <> None) ->
  vectors_shaped loc lb n -> vectors_shaped diag db n -> matrices_shaped u ub n k -> matrices_shaped v vb n k -> (0 < k)%coq_nat ->
  match (match three_way db ub vb with Some b => bshape b lb | None => None end) with
  | None => mvn_dplr_init rng loc diag u v = Err ValueError
  | Some bs => exists d, mvn_dplr_init rng loc diag u v = Ok d /\ v_batch (dp_mvn d) = bs /\ v_dims (dp_mvn d) = n
  end.
Proof.
move=> NN NV Hl Hd Hu Hv Hk. rewrite /mvn_dplr_init (dplr_fits_check NN NV Hl Hd Hu Hv Hk). cbn [rbind].
have -> : match loc, diag, u with
    | Some l, _, _ => trail (shp l) | None, Some d, _ => trail (shp d) | None, None, Some u => mrows (shp u) | None, None, None => 0%nat end = n.
{ case: loc NN Hl => [l|] NN; first by move=> /= ->; rewrite trail_app. move=> _. case: diag NN Hd => [d|] NN; first by move=> /= ->; rewrite trail_app.
  move=> _. case: u NN NV Hu => [u|] NN NV; first by move=> /= ->; rewrite mrows_app. by case: NN => [|[]]. }
cbv zeta. set l := match loc with Some _ => _ | None => _ end. set a := match diag with Some _ => _ | None => _ end.
have Sl : shp l = (lb ++ n :: nil)%list by exact: vectors_default Hl _.
have Sa : shp a = (db ++ n :: nil)%list by exact: vectors_default Hd _.
case: u NN NV Hu => [u|] NN NV Hu.
- set w := match v with Some _ => _ | None => _ end.
  have [wb [Sw ->]] : exists wb, shp w = (wb ++ n :: k :: nil)%list /\ three_way db ub vb = three_way db ub wb.
  { rewrite /w. case: (v) Hv => [v'|] Hv; first by exists vb. exists ub. rewrite (Hv : vb = nil). split; [exact: Hu|exact: three_way_default]. }
  have := low_rank_scale_iff Sa Hu Sw. case: (three_way db ub wb) => [b|]; last by move=> ->.
  move=> [sc [-> [Ed [Eb EV]]]]. cbn [rbind]. have := init_shaped rng EV Sl Ed. rewrite Eb. case: bshape => [bs|]; last by move=> ->.
  move=> [d [-> [B D]]]. cbn [rbind]. by eexists.
- have -> : v = None. { case: (v) NV => [x|] //. move=> /(_ ltac:(by [])). by []. }
  have -> : vb = nil. { case: (v) NV Hv => [x|] //. move=> /(_ ltac:(by [])). by []. }
  rewrite (Hu : ub = nil) /three_way bshape_nil_r bshape_nil_r.
  have := diag_scale_iff a. rewrite /rank Sa ltb1 trail_app lead_app. move=> [sc [-> [Ed [Eb EV]]]]. cbn [rbind].
  have := init_shaped rng EV Sl Ed. rewrite Eb. case: bshape => [bs|]; last by move=> ->.
  move=> [d [-> [B D]]]. cbn [rbind]. by eexists.
Qed.
Theorem C74_diag_plus_low_rank : forall K (rng : K -> shape -> arr) loc scale_diag scale_u_matrix scale_v_matrix,
  accepts_exactly (mean_and_low_rank loc scale_diag scale_u_matrix scale_v_matrix) (mvn_dplr_init rng loc scale_diag scale_u_matrix scale_v_matrix)
    (fun d => v_batch (dp_mvn d)) (fun d => v_dims (dp_mvn d)).
Proof.
move=> K rng loc diag u v. split.
- move=> bs n [NN [NV [lb [db [ub [vb [k [b1 [b2 [Hl [Hd [Hu [Hv [Hk [E1 [E2 E3]]]]]]]]]]]]]]]].
  have := dplr_shaped rng NN NV Hl Hd Hu Hv Hk. by rewrite /three_way E1 E2 E3.
- move=> NF. have := dplr_check_iff loc diag u v. case E : dplr_check => [q|e]; last by rewrite /mvn_dplr_init E => ->.
  move=> [lb [db [ub [vb [n [k [NN [NV [Hl [Hd [Hu [Hv Hk]]]]]]]]]]]].
  have := dplr_shaped rng NN NV Hl Hd Hu Hv Hk. rewrite /three_way. case E1 : bshape => [b1|] //. case E2 : bshape => [b2|] //. case E3 : bshape => [bs|] //.
  move=> _. case: (NF bs n). split=> //. split=> //. by exists lb, db, ub, vb, k, b1, b2.
Qed.
Print Assumptions C74_diag_plus_low_rank.

(** MultivariateNormalFromBijector, on any scale over vectors of length [n] with batch shape [sb]. *)
Theorem C74_from_bijector : forall K (rng : K -> shape -> arr) loc sc,
  b_in (s_bij sc) = 1%Z -> b_out (s_bij sc) = 1%Z -> b_cj (s_bij sc) = true -> b_cl (s_bij sc) = true ->
  accepts_exactly (fun bs n => exists lb, shp loc = (lb ++ n :: nil)%list /\ s_dims sc = n /\ bshape (s_batch sc) lb = Some bs)
    (mvn_init rng loc sc) v_batch v_dims.
Proof.
move=> K rng loc sc I O CJ CL. have EV : event_vector (s_bij sc) by []. split.
- move=> bs n [lb [Sl [Ed Eb]]]. have := init_shaped rng EV Sl Ed. by rewrite Eb.
- move=> NF. have := mvn_init_iff rng loc EV. case E1 : (Nat.ltb _ _) => //=. case: Nat.eqb_spec => //= E2.
  have [lb [n Sl]] := split1 E1. rewrite Sl trail_app lead_app in E2 *. case E3 : bshape => [bs|] // _. case: (NF bs n). by exists lb.
Qed.
Print Assumptions C74_from_bijector.

(** ** The hypotheses are met and both outcomes occur: a batched mean with an unbatched matrix; a mean of the wrong length; [v] without [u]. *)
Example C74_example : forall K (rng : K -> shape -> arr),
  (exists d, mvn_tri_init rng (Some (tzeros (3 :: 2 :: nil)%nat)) (Some (teye 2)) true = Ok d /\ v_batch (fst d) = (3 :: nil)%nat /\ v_dims (fst d) = 2%nat) /\
  mvn_tri_init rng (Some (tzeros (3 :: 3 :: nil)%nat)) (Some (teye 2)) true = Err ValueError /\
  (exists d, mvn_dplr_init rng None None (Some (tzeros (4 :: 2 :: 1 :: nil)%nat)) None = Ok d /\ v_batch (dp_mvn d) = (4 :: nil)%nat /\ v_dims (dp_mvn d) = 2%nat) /\
  mvn_dplr_init rng (Some (tzeros (2 :: nil)%nat)) None None (Some (tzeros (2 :: 1 :: nil)%nat)) = Err ValueError.
Proof.
move=> K rng. split; [|split; [|split]].
- apply: (proj1 (C74_tri rng _ _ _)). split; first by left. by exists (3 :: nil)%nat, nil.
- apply: (proj2 (C74_tri rng _ _ _)) => bs n [_ [lb [mb [/= H1 [H2 _]]]]].
  have [_ E1] := app_inj_tail (3 :: nil)%nat lb _ _ H1. have [_ [E2 _]] := @snoc2_inj nil mb _ _ _ _ H2. by move: E1; rewrite -E2.
- apply: (proj1 (C74_diag_plus_low_rank rng _ _ _ _)). split; first by right; right. split=> //. exists nil, nil, (4 :: nil)%nat, nil, 1%nat, (4 :: nil)%nat, (4 :: nil)%nat.
  do 4! split=> //. by repeat constructor.
- apply: (proj2 (C74_diag_plus_low_rank rng _ _ _ _)) => bs n [_ [H _]]. by case: H.
Qed.
