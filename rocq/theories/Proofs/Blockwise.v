From mathcomp Require Import all_ssreflect all_algebra.
From Coq Require Import Reals Lra Lia List ZArith.
From Verif Require Import Base.Result Base.Sums Base.Tensor Model.Bijector Model.Coupling Base.Rmx
  Spec.Bijector Spec.Scalar Spec.Jacobian Spec.Coupling Spec.Blockwise Proofs.Bijector Proofs.Block Proofs.Jacobian
  Proofs.LogDet Proofs.Coupling Proofs.CouplingJac Proofs.BlockDiag.
Set Implicit Arguments.
Unset Strict Implicit.
Unset Printing Implicit Defensive.
Import GRing.Theory.
Delimit Scope ring_scope with Ri.
Delimit Scope R_scope with R.
Local Open Scope R_scope.

Lemma divnE' a b : (a %/ b)%nat = Nat.div a b.
Proof.
case: b => [|b]; first by rewrite divn0.
apply: (Nat.div_unique _ _ _ (a %% b.+1)); first by apply/ltP; exact: ltn_pmod.
rewrite {1}(divn_eq a b.+1). rewrite mulnC. reflexivity.
Qed.
Lemma modnE' a b : (0 < b)%nat -> (a %% b)%nat = Nat.modulo a b.
Proof.
move=> Hb. apply: (Nat.mod_unique _ _ (a %/ b)); first by apply/ltP; exact: ltn_pmod.
rewrite {1}(divn_eq a b). rewrite mulnC. reflexivity.
Qed.

Section Shapes.
Variables (s q : shape).
Let n := prodl s. Let Q := prodl q. Let N := prodl (s ++ q)%list.
Lemma HN : N = (n * Q)%nat.
Proof. rewrite /N prodl_app. reflexivity. Qed.
Lemma bkP (i : 'I_n) (a : 'I_Q) : (i * Q + a < N)%nat.
Proof.
rewrite HN. apply: (@leq_trans (i.+1 * Q)); last by apply: leq_mul.
rewrite mulSn addnC ltn_add2r. exact: ltn_ord.
Qed.
Definition sbk (i : 'I_n) (a : 'I_Q) : 'I_N := Ordinal (bkP i a).
Lemma Qpos (k : 'I_N) : (0 < Q)%nat.
Proof. have := ltn_ord k. rewrite {2}HN lt0n. case: eqP => // ->. by rewrite muln0. Qed.
Lemma biP (k : 'I_N) : (k %/ Q < n)%nat.
Proof. rewrite ltn_divLR ?(Qpos k) // -HN. exact: ltn_ord. Qed.
Lemma boP (k : 'I_N) : (k %% Q < Q)%nat.
Proof. by rewrite ltn_pmod // (Qpos k). Qed.
Definition sbi k : 'I_n := Ordinal (biP k).
Definition sbo k : 'I_Q := Ordinal (boP k).
Lemma sbik i a : sbi (sbk i a) = i.
Proof. apply: val_inj => /=. rewrite divnMDl ?divn_small ?addn0 //. exact: (leq_ltn_trans (leq0n a) (ltn_ord a)). Qed.
Lemma sbok i a : sbo (sbk i a) = a.
Proof. apply: val_inj => /=. by rewrite modnMDl modn_small. Qed.
Lemma sbkk k : sbk (sbi k) (sbo k) = k.
Proof. apply: val_inj => /=. by rewrite -divn_eq. Qed.
Lemma unravel_s (i : 'I_n) : inb s (unravel s i).
Proof. apply: unravel_inb. apply/ltP. exact: ltn_ord. Qed.
Lemma unravel_q (i : 'I_Q) : inb q (unravel q i).
Proof. apply: unravel_inb. apply/ltP. exact: ltn_ord. Qed.
Lemma unravel_bk i a : unravel (s ++ q)%list (sbk i a) = (unravel s i ++ unravel q a)%list.
Proof.
have Hi := unravel_s i. have Ha := unravel_q a.
have -> : (sbk i a : nat) = ravel (s ++ q)%list (unravel s i ++ unravel q a)%list.
{ rewrite ravel_app; last exact: inb_length. rewrite !ravel_unravel; try (apply/ltP; exact: ltn_ord). reflexivity. }
apply: unravel_ravel. exact: inb_app.
Qed.
Lemma first_s i j : inb s i -> firstn (length s) (i ++ j)%list = i.
Proof. move=> H. by rewrite -(inb_length _ _ H) firstn_app Nat.sub_diag firstn_all firstn_O app_nil_r. Qed.
Lemma skip_s i j : inb s i -> skipn (length s) (i ++ j)%list = j.
Proof. move=> H. by rewrite -(inb_length _ _ H) skipn_app Nat.sub_diag skipn_all. Qed.

Lemma bP_event (x : arr) b i : (bP sbk i *m event (s ++ q)%list x b)%Ri = event q x (b ++ unravel s i)%list.
Proof. apply/colP => a. rewrite bP_mul !mxE unravel_bk. by rewrite app_assoc. Qed.
Lemma bP_unflat (v : 'cV[R]_N) i : (bP sbk i *m v)%Ri = event q (unflat v) (unravel s i).
Proof. rewrite -{1}(event_unflat v). exact: bP_event. Qed.
Lemma event_tgen (f : list nat -> R) k :
  event (s ++ q)%list (tgen (s ++ q)%list f) nil k ord0 = f (unravel s (sbi k) ++ unravel q (sbo k))%list.
Proof.
rewrite mxE /=. rewrite -{1}(sbkk k) unravel_bk tget_tgen //. apply: inb_app; [exact: unravel_s | exact: unravel_q].
Qed.
Lemma kept_bK mk v : kept mk v = (bK sbi (fun i => mk (unravel s i)) *m v)%Ri.
Proof.
apply/colP => k. rewrite bK_mul /kept event_tgen first_s; last exact: unravel_s.
case: (mk _) => //. have := unflat_get v k. by rewrite -{1}(sbkk k) unravel_bk.
Qed.
Lemma blockwise_sum G v :
  blockwise G v = (\sum_i bE sbk i *m G (unravel s i) (bP sbk i *m v))%Ri.
Proof.
apply/colP => k. rewrite (sum_bE sbik sbok sbkk) /blockwise event_tgen.
rewrite first_s ?skip_s; try exact: unravel_s. rewrite unflat_get bP_unflat. by [].
Qed.
Lemma coupling_sum mk G v :
  coupling_map mk G v = (\sum_i bE sbk i *m (if mk (unravel s i) then bP sbk i *m v
     else G (unravel s i) (bK sbi (fun i => mk (unravel s i)) *m v) (bP sbk i *m v)))%Ri.
Proof.
apply/colP => k. rewrite (sum_bE sbik sbok sbkk) /coupling_map event_tgen.
rewrite first_s ?skip_s; try exact: unravel_s. case: (mk _).
- rewrite bP_mul. rewrite -unravel_bk sbkk. exact: unflat_get.
- by rewrite unflat_get bP_unflat kept_bK.
Qed.
Lemma sum_indices (f : list nat -> R) : sumf f (indices s) = (\sum_(i < n) f (unravel s i))%Ri.
Proof. by rewrite /indices sumf_map -(bigsum_sumf n (fun i => f (unravel s i))). Qed.

Lemma blockwise_is_log_det G v (l : list nat -> R) :
  (forall i, inb s i -> is_log_det (G i) (event q (unflat v) i) (l i)) ->
  is_log_det (blockwise (s := s) G) v (sumf l (indices s)).
Proof.
move=> H. rewrite sum_indices.
have [J [HJ E]] := blockwise_log_det HN sbik sbok sbkk (fun _ => erefl) (fun _ => erefl)
  (g := fun i => G (unravel s i)) (v := v) (l := fun i => l (unravel s i))
  ltac:(move=> i; rewrite bP_unflat; apply: H; exact: unravel_s).
exists J. split; last exact: E. move: HJ. apply: jacobian_ext => w. by rewrite blockwise_sum.
Qed.
Lemma coupling_is_log_det mk G v (l : list nat -> R) :
  (forall i, inb s i -> mk i = false -> exists J : 'M[R]_(Q, N + Q),
      is_jacobian (fun w => G i (usubmx w) (dsubmx w)) (col_mx (kept mk v) (event q (unflat v) i)) J) ->
  (forall i, inb s i -> mk i = false -> is_log_det (G i (kept mk v)) (event q (unflat v) i) (l i)) ->
  is_log_det (coupling_map (s := s) mk G) v (sumf (fun i => if mk i then 0 else l i) (indices s)).
Proof.
move=> HG Hl. rewrite sum_indices.
have [J [HJ E]] := coupling_log_det HN sbik sbok sbkk (fun _ => erefl) (fun _ => erefl)
  (mk := fun i => mk (unravel s i)) (G := fun i => G (unravel s i)) (v := v) (l := fun i => l (unravel s i))
  ltac:(move=> i /negbTE Hi; rewrite bP_unflat -kept_bK; apply: HG => //; exact: unravel_s)
  ltac:(move=> i /negbTE Hi; rewrite bP_unflat -kept_bK; apply: Hl => //; exact: unravel_s).
exists J. split; last exact: E. move: HJ. apply: jacobian_ext => w. by rewrite coupling_sum.
Qed.
Lemma event_unflat_event (x : arr) b i : inb s i -> event q (unflat (event (s ++ q)%list x b)) i = event q x (b ++ i)%list.
Proof.
move=> Hi. have Hr := ravel_lt _ _ Hi. move/ltP: Hr => Hr.
have E := unravel_ravel _ _ Hi. have := bP_event x b (Ordinal Hr). rewrite bP_unflat /= E. by [].
Qed.
End Shapes.

(** ** Block of any bijector *)
Theorem block_log_det b k c pre s q G (x : arr) :
  coherent b -> block_init b k = Ok c -> Z.of_nat (length s) = k -> b_in b = Z.of_nat (length q) ->
  wf x -> shp x = (pre ++ s ++ q)%list ->
  log_det_ok b (pre ++ s)%list (suf := q) G x ->
  log_det_ok c pre (suf := (s ++ q)%list) (fun b => blockwise (fun i => G (b ++ i)%list)) x.
Proof.
move=> Hc Hb Hk Hin Hw Hs [y [ld [E [Wy [Sy [Wl [Sl V]]]]]]].
have Hr : (k + b_in b <= Z.of_nat (rank x))%Z.
{ rewrite /rank Hs !app_length Hin -Hk. lia. }
have [_ /(_ Hr) [_ /(_ _ _ E pre s Wl Sl Hk) [t [Et [Wt [St Vt]]]]]] := block_spec _ _ _ x Hc Hb.
exists y, t. split; first exact: Et. split; first exact: Wy. split; first by rewrite app_assoc.
split; first exact: Wt. split; first exact: St. move=> idx Hi. split.
- rewrite blockwise_sum. apply/colP => j. rewrite (sum_bE (sbik (q := q)) (@sbok s q) (@sbkk s q)).
  have Hi2 : inb (pre ++ s)%list (idx ++ unravel s (sbi j))%list by apply: inb_app => //; exact: unravel_s.
  rewrite bP_event -(proj1 (V _ Hi2)) !mxE -{1}(sbkk j) unravel_bk. by rewrite app_assoc.
- rewrite Vt //. apply: (blockwise_is_log_det (l := fun i => tget 0 ld (idx ++ i)%list)) => i Hj.
  rewrite event_unflat_event //. exact: (proj2 (V _ (inb_app _ _ _ _ Hi Hj))).
Qed.

(** ** MaskedCoupling *)
Section Masked.
Variables (P : Type) (cond : arr -> result P) (bijector : P -> bij).
Variables (m : tensor bool) (pre s q : shape) (c : bij).
Hypothesis Hc : masked_coupling_init cond bijector (BoolMask m) (Some (Z.of_nat (length s + length q))) (Z.of_nat (length q)) = Ok c.
Hypothesis Hm : bshape (shp m) (pre ++ s)%list = Some (pre ++ s)%list.
Variable G : list nat -> 'cV[R]_(prodl (s ++ q)%list) -> 'cV[R]_(prodl q) -> 'cV[R]_(prodl q).
Let mk (b i : list nat) : bool := mask_at m (b ++ i)%list.
Theorem masked_coupling_log_det_gen (x : arr) p :
  wf x -> shp x = (pre ++ s ++ q)%list ->
  cond (masked_input m (length (pre ++ s)%list) x) = Ok p ->
  b_in (bijector p) = Z.of_nat (length q) -> b_out (bijector p) = Z.of_nat (length q) ->
  log_det_ok (bijector p) (pre ++ s)%list (suf := q)
    (fun bi => G bi (kept (mk (firstn (length pre) bi)) (event (s ++ q)%list x (firstn (length pre) bi)))) x ->
  (forall b i, inb pre b -> inb s i -> mk b i = false -> exists J : 'M[R]_(prodl q, prodl (s ++ q)%list + prodl q),
      is_jacobian (fun w => G (b ++ i)%list (usubmx w) (dsubmx w))
        (col_mx (kept (mk b) (event (s ++ q)%list x b)) (event q x (b ++ i)%list)) J) ->
  log_det_ok c pre (suf := (s ++ q)%list) (fun b => coupling_map (mk b) (fun i => G (b ++ i)%list)) x.
Proof.
move=> Hw Hs Hp Hi Ho [y0 [l0 [E [Wy0 [Sy0 [Wl0 [Sl0 V]]]]]]] HG.
have Hs' : shp x = ((pre ++ s) ++ q)%list by rewrite -app_assoc.
have Hin : b_in c = Z.of_nat (length s + length q).
{ have [m' [_ [_ [_ [-> _]]]]] := mc_init_ok _ _ _ _ _ _ Hc. done. }
have Hr : (b_in c <= Z.of_nat (length ((pre ++ s) ++ q)%list))%Z.
{ rewrite Hin !app_length -plusE. lia. }
have [y [ld [E' [Wy [Sy [Wl [Vy Vl]]]]]]] := masked_coupling_values cond bijector m _ (pre ++ s)%list q c Hc Hm Hr b_fal x p y0 l0
   (or_introl erefl) Hs' Hp Hi Ho E Sy0 Sl0.
have [Sl Vl'] := Vl pre s erefl ltac:(rewrite Hin -plusE; lia).
exists y, ld. split; first exact: E'. split; first exact: Wy. split; first by rewrite Sy app_assoc.
split; first exact: Wl. split; first exact: Sl.
have HF : forall b i, inb pre b -> firstn (length pre) (b ++ i)%list = b by move=> b i; exact: first_s.
move=> b Hb.
split.
- rewrite coupling_sum. apply/colP => j. rewrite (sum_bE (sbik (q := q)) (@sbok s q) (@sbkk s q)).
  have Hi2 : inb (pre ++ s)%list (b ++ unravel s (sbi j))%list by apply: inb_app => //; exact: unravel_s.
  have Vb := proj1 (V _ Hi2). rewrite HF // in Vb.
  rewrite bP_event -kept_bK mxE -{1}(sbkk j) unravel_bk app_assoc Vy //; last exact: unravel_q.
  rewrite /mk. case: (mask_at m _); first by rewrite mxE.
  by rewrite -Vb mxE.
- rewrite Vl' //. apply: (coupling_is_log_det (mk := mk b) (l := fun i => tget 0 l0 (b ++ i)%list)) => i Hj Hmk; rewrite event_unflat_event //.
  + exact: HG.
  + have := proj2 (V _ (inb_app _ _ _ _ Hb Hj)). by rewrite HF.
Qed.
End Masked.
