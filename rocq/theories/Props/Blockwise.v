(** C08 and C10 for inner bijectors acting on events of any rank, with any batch shape. *)
From mathcomp Require Import all_ssreflect all_algebra.
From Coq Require Import Reals Lra List ZArith.
From Verif Require Import Base.Result Base.Sums Base.Tensor Model.Bijector Model.ScalarBij Model.Coupling Base.Rmx
  Spec.Bijector Spec.Scalar Spec.Jacobian Spec.Coupling Spec.Blockwise Proofs.ArrayDist Proofs.Bijector Proofs.Block Proofs.Jacobian
  Proofs.ScalarBij Proofs.LogDet Proofs.CouplingJac Proofs.BlockDiag Proofs.Blockwise Proofs.Coupling Proofs.SplitGen Props.LogDet.
Delimit Scope ring_scope with Ri.
Delimit Scope R_scope with R.
Local Open Scope R_scope.

(** Block(b, k) on inputs of shape pre ++ s ++ q, where b takes events of shape q and s are the
    k axes turned into event axes: if b applies [G idx] to the event at each position and reports
    the log|det| of its Jacobian there, then Block applies all of them side by side and reports
    the log|det| of the Jacobian of the map on the whole (s ++ q)-event. *)
Theorem C08_block_any_bijector_true_jacobian :
  forall b k c pre s q G (x : arr),
  coherent b -> block_init b k = Ok c -> Z.of_nat (length s) = k -> b_in b = Z.of_nat (length q) ->
  wf x -> shp x = (pre ++ s ++ q)%list ->
  log_det_ok b (pre ++ s)%list (suf := q) G x ->
  log_det_ok c pre (suf := (s ++ q)%list) (fun b => blockwise (fun i => G (b ++ i)%list)) x.
Proof. exact block_log_det. Qed.
Print Assumptions C08_block_any_bijector_true_jacobian.

(** MaskedCoupling with events of shape s ++ q (the mask ranges over s, or over trailing axes of
    pre ++ s; the inner bijector takes events of shape q), batch shape pre.  [G] describes the
    inner bijector: on the event at position b ++ i it applies G (b ++ i) u, where u is what the
    conditioner may see of batch element b: the event with its unmasked parts zeroed.  Wherever
    the inner bijector reports its own log|det| truthfully and is differentiable jointly in u and
    its input, the coupling layer keeps the masked parts, transforms the others, and reports the
    log|det| of the Jacobian of that map on the whole event. *)
Theorem C10_masked_coupling_any_event_true_jacobian :
  forall (P : Type) (cond : arr -> result P) (bijector : P -> bij) (m : tensor bool) (pre s q : shape) (c : bij),
  masked_coupling_init cond bijector (BoolMask m) (Some (Z.of_nat (length s + length q))) (Z.of_nat (length q)) = Ok c ->
  bshape (shp m) (pre ++ s)%list = Some (pre ++ s)%list ->
  forall (G : list nat -> 'cV[R]_(prodl (s ++ q)%list) -> 'cV[R]_(prodl q) -> 'cV[R]_(prodl q)) (x : arr) p,
  wf x -> shp x = (pre ++ s ++ q)%list ->
  cond (masked_input m (length (pre ++ s)%list) x) = Ok p ->
  b_in (bijector p) = Z.of_nat (length q) -> b_out (bijector p) = Z.of_nat (length q) ->
  log_det_ok (bijector p) (pre ++ s)%list (suf := q)
    (fun bi => let b := firstn (length pre) bi in
       G bi (kept (fun i => mask_at m (b ++ i)%list) (event (s ++ q)%list x b))) x ->
  (forall b i, inb pre b -> inb s i -> mask_at m (b ++ i)%list = false ->
     exists J : 'M[R]_(prodl q, prodl (s ++ q)%list + prodl q),
      is_jacobian (fun w => G (b ++ i)%list (usubmx w) (dsubmx w))
        (col_mx (kept (fun i => mask_at m (b ++ i)%list) (event (s ++ q)%list x b)) (event q x (b ++ i)%list)) J) ->
  log_det_ok c pre (suf := (s ++ q)%list)
    (fun b => coupling_map (fun i => mask_at m (b ++ i)%list) (fun i => G (b ++ i)%list)) x.
Proof. exact masked_coupling_log_det_gen. Qed.
Print Assumptions C10_masked_coupling_any_event_true_jacobian.

(** Non-vacuity of C08: Block(Block(Tanh, 1), 1) on every batch of matrices. *)
Example C08_any_bijector_nonvacuous : forall t c, ex_tanh1 = Ok t -> block_init t 1 = Ok c ->
  forall pre n1 n2 (x : arr), wf x -> shp x = (pre ++ (n1 :: nil) ++ (n2 :: nil))%list ->
  log_det_ok c pre (suf := ((n1 :: nil) ++ (n2 :: nil))%list)
    (fun _ => blockwise (s := n1 :: nil) (q := n2 :: nil) (fun _ v => (\col_i tanh_forward (v i ord0))%Ri)) x.
Proof.
move=> t c Ht Hc pre n1 n2 x Hw Hs.
have Hs' : shp x = ((pre ++ n1 :: nil) ++ n2 :: nil)%list by rewrite Hs app_assoc.
have H := @C08_block_log_det_true_jacobian ex_meta _ _ _ _ 1%Z t (pre ++ n1 :: nil)%list (n2 :: nil) x erefl erefl (fun h => h) Ht Hw Hs' erefl
  (fun _ _ => tanh_log_det _).
have Ct : coherent t.
{ move: Ht => [<-]. by split=> //; split. }
have Bt : b_in t = 1%Z by move: Ht => [<-].
exact: (@C08_block_any_bijector_true_jacobian t 1%Z c pre (n1 :: nil) (n2 :: nil) _ x Ct Hc erefl Bt Hw Hs H).
Qed.

(** Non-vacuity of C10: events of shape 2 x (k+1), first row kept, second row y = 2 x + (first
    entry of the first row), on every batch. *)
Definition ex_row (pre : shape) (k : nat) (p : arr) : bij :=
  base_methods (mkMeta 1 1 false false)
    (fun x => Ok (tgen (shp x) (fun idx => 2 * tget 0 x idx + tget 0 p (firstn (length pre) idx ++ 0%nat :: 0%nat :: nil)%list),
                  tgen (pre ++ 2%nat :: nil)%list (fun _ => INR k.+1 * ln 2)))
    (fun _ => Err NotImplementedError).
Definition ex_G (k : nat) (u : 'cV[R]_(prodl ((2%nat :: nil) ++ (k.+1 :: nil))%list)) (w : 'cV[R]_(prodl (k.+1 :: nil))) : 'cV[R]_(prodl (k.+1 :: nil)) :=
  (2%R *: w + const_mx (tget 0 (unflat (s := ((2%nat :: nil) ++ (k.+1 :: nil))%list) u) (0%nat :: 0%nat :: nil)%list))%Ri.
Definition ex_rows : tensor bool := tvec (true :: false :: nil).

Lemma unflat_event_get suf (x : arr) b idx : inb suf idx -> tget 0 (unflat (event suf x b)) idx = tget 0 x (b ++ idx)%list.
Proof.
move=> Hi. have Hr := ravel_lt _ _ Hi. move/ltP: Hr => Hr.
rewrite -{1}(unravel_ravel _ _ Hi). have := unflat_get (event suf x b) (Ordinal Hr). rewrite /= => ->.
by rewrite mxE unravel_ravel.
Qed.
Lemma bshape_leads pre s : bshape s (pre ++ s)%list = Some (pre ++ s)%list.
Proof. elim: pre => [|a pre IH]; first exact: bshape_refl. exact: (bshape_trans _ _ _ IH (bshape_lead _ _)). Qed.
Lemma kept_get s q mk v i j : inb s i -> inb q j ->
  tget 0 (unflat (kept (s := s) (q := q) mk v)) (i ++ j)%list = if mk i then tget 0 (unflat v) (i ++ j)%list else 0.
Proof.
move=> Hi Hj. have Hij := inb_app _ _ _ _ Hi Hj.
rewrite /kept unflat_event_get // tget_tgen //. by rewrite app_nil_l first_s.
Qed.
Lemma det_scale n : (\det (2%R%:M : 'M[R]_n))%Ri = 2 ^ n.
Proof. rewrite det_scalar. elim: n => [|n IH]; first by []. by rewrite GRing.exprS IH. Qed.

Example C10_any_event_nonvacuous : forall pre k, exists c,
  masked_coupling_init (fun x => Ok x) (ex_row pre k) (BoolMask ex_rows) (Some 2%Z) 1 = Ok c /\
  forall x, wf x -> shp x = (pre ++ (2%nat :: nil) ++ (k.+1 :: nil))%list ->
  log_det_ok c pre (suf := ((2%nat :: nil) ++ (k.+1 :: nil))%list)
    (fun b => coupling_map (s := 2%nat :: nil) (q := k.+1 :: nil) (fun i => mask_at ex_rows (b ++ i)%list) (fun _ => ex_G k)) x.
Proof.
move=> pre k. eexists. split; first reflexivity. move=> x Hw Hs.
have Hm : bshape (shp ex_rows) (pre ++ 2%nat :: nil)%list = Some (pre ++ 2%nat :: nil)%list.
{ exact: bshape_leads. }
set p := masked_input ex_rows (length (pre ++ 2%nat :: nil)%list) x.
apply: (@C10_masked_coupling_any_event_true_jacobian arr (fun x => Ok x) (ex_row pre k) ex_rows pre (2%nat :: nil) (k.+1 :: nil) _ erefl Hm
  (fun _ => ex_G k) x p Hw Hs erefl erefl erefl).
- eexists. eexists. split; first reflexivity. split; first exact: tgen_wf. split; first by rewrite Hs /= -app_assoc.
  split; first exact: tgen_wf. split; first reflexivity. move=> bi Hbi.
  have [b [i [-> [Hb Hi]]]] := inb_app_inv _ _ _ Hbi. cbv zeta. rewrite first_s //.
  split.
  + apply/colP => j. rewrite !mxE.
    have Hj : inb (k.+1 :: nil)%list (unravel (k.+1 :: nil)%list j) by apply: unravel_inb; apply/ltP; exact: ltn_ord.
    rewrite tget_tgen; last by rewrite Hs app_assoc; exact: (inb_app _ _ _ _ (inb_app _ _ _ _ Hb Hi) Hj).
    rewrite -app_assoc first_s //. rewrite addRE mulRE. congr (_ + _).
    have H0 : inb (2%nat :: nil)%list (0%nat :: nil)%list by apply: Forall2_cons; [exact: Nat.lt_0_succ | exact: Forall2_nil].
    have H1 : inb (k.+1 :: nil)%list (0%nat :: nil)%list by apply: Forall2_cons; [exact: Nat.lt_0_succ | exact: Forall2_nil].
    rewrite (kept_get (2%nat :: nil)%list (k.+1 :: nil)%list _ _ (0%nat :: nil)%list (0%nat :: nil)%list H0 H1).
    rewrite unflat_event_get; last exact: (inb_app _ _ _ _ H0 H1).
    rewrite /p /masked_input tget_tgen; last by rewrite Hs; apply: inb_app => //; exact: (inb_app _ _ _ _ H0 H1).
    have -> : firstn (length (pre ++ 2%nat :: nil)%list) (b ++ 0%nat :: 0%nat :: nil)%list = (b ++ 0%nat :: nil)%list.
    { have := first_s (0%nat :: nil)%list (inb_app _ _ _ _ Hb H0). by rewrite -app_assoc. }
    by [].
  + exists (2%R%:M)%Ri. rewrite tget_tgen; last exact: (inb_app _ _ _ _ Hb Hi). rewrite det_scale. split.
    * have := jacobian_affine (2%R%:M : 'M[R]_(prodl (k.+1 :: nil)))%Ri
         (const_mx (tget 0 (unflat (kept (s := 2%nat :: nil) (q := k.+1 :: nil) (fun i => mask_at ex_rows (b ++ i)%list)
           (event ((2%nat :: nil) ++ (k.+1 :: nil))%list x b))) (0%nat :: 0%nat :: nil)%list)) (event (k.+1 :: nil) x (b ++ i)%list).
      apply: jacobian_ext => w. by rewrite mul_scalar_mx.
    * have H2 : 0 < 2 ^ (prodl (k.+1 :: nil)) by apply: pow_lt; lra.
      split; first by move=> E0; rewrite E0 in H2; lra.
      rewrite Rabs_pos_eq; last lra. rewrite ln_pow; last lra.
      have -> : prodl (k.+1 :: nil)%list = k.+1 by exact: Nat.mul_1_r. by [].
- move=> b i Hb Hi _.
  set N := prodl ((2%nat :: nil) ++ (k.+1 :: nil))%list. set Q := prodl (k.+1 :: nil).
  have H0 : (0 < N)%nat by [].
  exists (row_mx (\matrix_(a, c) (if c == Ordinal H0 then 1%R else 0%R)) 2%R%:M : 'M[R]_(Q, N + Q))%Ri.
  have := jacobian_affine (row_mx (\matrix_(a, c) (if c == Ordinal H0 then 1%R else 0%R)) 2%R%:M : 'M[R]_(Q, N + Q))%Ri 0%Ri.
  move=> H. apply: jacobian_ext (H _) => w. rewrite GRing.addr0 -{1}[w]vsubmxK mul_row_col mul_scalar_mx GRing.addrC.
  congr (_ + _)%Ri. apply/colP => a. rewrite !mxE (bigD1 (Ordinal H0)) //= big1.
  + rewrite GRing.addr0 mxE eqxx GRing.mul1r. have := unflat_get (s := ((2%nat :: nil) ++ (k.+1 :: nil))%list) (usubmx w) (Ordinal H0).
    have Hu : unravel ((2%nat :: nil) ++ (k.+1 :: nil))%list 0%nat = (0%nat :: 0%nat :: nil)%list.
    { apply: (unravel_ravel ((2%nat :: nil) ++ (k.+1 :: nil))%list (0%nat :: 0%nat :: nil)%list).
      apply: Forall2_cons; first exact: Nat.lt_0_succ. apply: Forall2_cons; first exact: Nat.lt_0_succ. exact: Forall2_nil. }
    cbn [nat_of_ord]. rewrite Hu. by move=> <-.
  + move=> c Hc. by rewrite mxE (negbTE Hc) GRing.mul0r.
Qed.

(** ** SplitCoupling with any batch shape, event rank and split axis *)
(** Events of shape e1 ++ d :: e2, split along the axis of length d; one part (which one depends
    on [swap]) is kept and shown to the conditioner, the other is transformed by the inner
    bijector, which on batch element b applies G b u to it, u being the kept part.  Wherever the
    inner bijector reports its own log|det| truthfully and is differentiable jointly in u and its
    input, the coupling layer reports the log|det| of the Jacobian of the map on the whole event. *)
Theorem C12_split_coupling_any_event_true_jacobian :
  forall (P : Type) (cond : arr -> result P) (bijector : P -> bij) (si ax : Z) (swap : bool)
    (pre e1 e2 : shape) (d : nat) (c : bij),
  let ev := Z.of_nat (length e1 + S (length e2)) in
  split_coupling_init cond bijector si ev swap ax = Ok c ->
  ax = (- Z.of_nat (S (length e2)))%Z ->
  let k := Nat.min (Z.to_nat si) d in
  let lo1 := kept_lo swap k d in let hi1 := kept_hi swap k d in let n1 := Nat.sub hi1 lo1 in
  let lo2 := kept_lo (negb swap) k d in let hi2 := kept_hi (negb swap) k d in let n2 := Nat.sub hi2 lo2 in
  forall (G : list nat -> 'cV[R]_(prodl (e1 ++ n1 :: e2)%list) -> 'cV[R]_(prodl (e1 ++ n2 :: e2)%list) -> 'cV[R]_(prodl (e1 ++ n2 :: e2)%list))
    x x1 x2 p b',
  wf x -> shp x = (pre ++ e1 ++ d :: e2)%list ->
  slice_of (pre ++ e1)%list e2 lo1 hi1 x x1 -> slice_of (pre ++ e1)%list e2 lo2 hi2 x x2 ->
  cond x1 = Ok p -> coherent (bijector p) -> promoted ev (bijector p) b' ->
  log_det_ok b' pre (suf := (e1 ++ n2 :: e2)%list) (fun b => G b (part lo1 n1 (event (e1 ++ d :: e2)%list x b))) x2 ->
  (forall b, inb pre b -> exists J : 'M[R]_(prodl (e1 ++ n2 :: e2)%list, prodl (e1 ++ n1 :: e2)%list + prodl (e1 ++ n2 :: e2)%list),
     is_jacobian (fun w => G b (usubmx w) (dsubmx w))
       (col_mx (part lo1 n1 (event (e1 ++ d :: e2)%list x b)) (part lo2 n2 (event (e1 ++ d :: e2)%list x b))) J) ->
  log_det_ok c pre (suf := (e1 ++ d :: e2)%list) (fun b => split_map lo1 lo2 (G b)) x.
Proof. move=> P cond bijector si ax swap pre e1 e2 d c ev Hc Hax. exact (split_coupling_log_det_gen Hc Hax). Qed.
Print Assumptions C12_split_coupling_any_event_true_jacobian.

(** Non-vacuity: 2 x (k+1) matrices split into rows, second row y = 2 x + first entry of the first. *)
Definition ex_whole (pre : shape) (k : nat) (p : arr) : bij :=
  base_methods (mkMeta 2 2 false false)
    (fun x => Ok (tgen (shp x) (fun idx => 2 * tget 0 x idx + tget 0 p (firstn (length pre) idx ++ 0%nat :: 0%nat :: nil)%list),
                  tgen pre (fun _ => INR k.+1 * ln 2)))
    (fun _ => Err NotImplementedError).
Definition ex_G2 (k : nat) (u w : 'cV[R]_(prodl (1%nat :: k.+1 :: nil))) : 'cV[R]_(prodl (1%nat :: k.+1 :: nil)) :=
  (2%R *: w + const_mx (tget 0 (unflat (s := (1%nat :: k.+1 :: nil)%list) u) (0%nat :: 0%nat :: nil)%list))%Ri.
Example C12_any_event_nonvacuous : forall pre k, exists c,
  split_coupling_init (fun x => Ok x) (ex_whole pre k) 1 2 false (-2) = Ok c /\
  forall x, wf x -> shp x = (pre ++ 2%nat :: k.+1 :: nil)%list ->
  log_det_ok c pre (suf := (2%nat :: k.+1 :: nil)%list) (fun _ => split_map (e1 := nil) (e2 := k.+1 :: nil) (d := 2) (n1 := 1) (n2 := 1) 0 1 (ex_G2 k)) x.
Proof.
move=> pre k. eexists. split; first reflexivity. move=> x Hw Hs.
have [x1 [x2 [S1 S2]]] := slices_exist (pre ++ nil)%list (k.+1 :: nil)%list 2 1 x ltac:(repeat constructor) ltac:(by rewrite Hs app_nil_r).
have [_ [Sx2 V2]] := S2. have [_ [Sx1 V1]] := S1. rewrite app_nil_r in Sx2.
have H0 : inb (1%nat :: k.+1 :: nil)%list (0%nat :: 0%nat :: nil)%list.
{ apply: Forall2_cons; first exact: Nat.lt_0_succ. apply: Forall2_cons; first exact: Nat.lt_0_succ. exact: Forall2_nil. }
have H1 : inb (k.+1 :: nil)%list (0%nat :: nil)%list.
{ apply: Forall2_cons; first exact: Nat.lt_0_succ. exact: Forall2_nil. }
have H2 : inb (2%nat :: k.+1 :: nil)%list (0%nat :: 0%nat :: nil)%list.
{ apply: Forall2_cons; first exact: Nat.lt_0_succ. exact: H1. }
apply: (@C12_split_coupling_any_event_true_jacobian arr (fun x => Ok x) (ex_whole pre k) 1 (-2) false pre nil (k.+1 :: nil) 2 _ erefl erefl
  (fun _ => ex_G2 k) x x1 x2 x1 (ex_whole pre k x1) Hw Hs S1 S2 erefl).
- by split=> //; split.
- split; first by []. by left.
- eexists. eexists. split; first reflexivity. split; first exact: tgen_wf. split; first by rewrite Sx2.
  split; first exact: tgen_wf. split; first reflexivity. move=> b Hb. split.
  + apply/colP => j. rewrite !mxE.
    have Hj : inb (1%nat :: k.+1 :: nil)%list (unravel (1%nat :: k.+1 :: nil)%list j) by apply: unravel_inb; apply/ltP; exact: ltn_ord.
    rewrite tget_tgen; last by rewrite Sx2; exact: inb_app.
    rewrite first_s // addRE mulRE. congr (_ + _).
    rewrite /part unflat_event_get // app_nil_l tget_tgen //. cbn [shift_axis length firstn nth skipn app Nat.add].
    rewrite unflat_event_get //.
    have := V1 b 0%nat (0%nat :: nil)%list. rewrite app_nil_r => HV.
    have L1 : (0 < 1 - 0)%coq_nat by exact: (Nat.lt_0_succ 0).
    exact: (HV Hb L1 H1).
  + exists (2%R%:M)%Ri. rewrite tget_tgen // det_scale. split.
    * have := jacobian_affine (2%R%:M : 'M[R]_(prodl (1%nat :: k.+1 :: nil)))%Ri
         (const_mx (tget 0 (unflat (part (e1 := nil) (e2 := k.+1 :: nil) (d := 2) 0 1 (event (2%nat :: k.+1 :: nil)%list x b))) (0%nat :: 0%nat :: nil)%list))
         (event (1%nat :: k.+1 :: nil) x2 b).
      apply: jacobian_ext => w. by rewrite mul_scalar_mx.
    * have HP : 0 < 2 ^ (prodl (1%nat :: k.+1 :: nil)) by apply: pow_lt; lra.
      split; first by move=> E0; rewrite E0 in HP; lra.
      rewrite Rabs_pos_eq; last exact: (Rlt_le _ _ HP). rewrite ln_pow; last lra.
      congr (_ * _). congr INR. change (k.+1 = prodl (1%nat :: k.+1 :: nil)%list). cbn [prodl fold_right]. by rewrite Nat.mul_1_l Nat.mul_1_r.
- move=> b Hb.
  set N := prodl (nil ++ 1%nat :: k.+1 :: nil)%list.
  have HN0 : (0 < N)%nat by [].
  exists (row_mx (\matrix_(a, c) (if c == Ordinal HN0 then 1%R else 0%R)) 2%R%:M : 'M[R]_(N, N + N))%Ri.
  have := jacobian_affine (row_mx (\matrix_(a, c) (if c == Ordinal HN0 then 1%R else 0%R)) 2%R%:M : 'M[R]_(N, N + N))%Ri 0%Ri.
  move=> H. apply: jacobian_ext (H _) => w. rewrite GRing.addr0 -{1}[w]vsubmxK mul_row_col mul_scalar_mx GRing.addrC.
  congr (_ + _)%Ri. apply/colP => a. rewrite !mxE (bigD1 (Ordinal HN0)) //= big1.
  + rewrite GRing.addr0 mxE eqxx GRing.mul1r. have := unflat_get (s := (1%nat :: k.+1 :: nil)%list) (usubmx w) (Ordinal HN0).
    have Hu : unravel (1%nat :: k.+1 :: nil)%list 0%nat = (0%nat :: 0%nat :: nil)%list by exact: (unravel_ravel _ _ H0).
    cbn [nat_of_ord]. rewrite Hu. by move=> <-.
  + move=> c Hc. by rewrite mxE (negbTE Hc) GRing.mul0r.
Qed.
