(** Proofs about sums over axes, stacks and trees. *)
From Coq Require Import Reals List Lia Lra Bool ZArith.
From Verif Require Import Base.Result Base.Sums Base.Tensor Base.Tree Base.XR Base.Lift Model.Distribution Model.ArrayDist Model.Clipped Model.Compose
  Spec.ArrayDist Spec.Distribution Spec.Univariate Spec.Categorical Spec.Product Proofs.ArrayDist Proofs.Univariate.
Import ListNotations.
Local Open Scope R_scope.

Lemma xadd_assoc a b c : xadd a (xadd b c) = xadd (xadd a b) c.
Proof. destruct a, b, c; cbn; try reflexivity. f_equal. ring. Qed.
Lemma xsum_cons a l : xsum (a :: l) = xadd a (xsum l). Proof. reflexivity. Qed.
Lemma fold_xadd l a : fold_left xadd l a = xadd a (xsum l).
Proof.
  revert a. induction l as [|b l IH]; intros a; cbn [fold_left]; [cbn; rewrite xadd_0_r; reflexivity|].
  rewrite IH, xsum_cons, xadd_assoc. reflexivity.
Qed.
Lemma rlog_mult x y : 0 <= x -> 0 <= y -> xadd (rlog x) (rlog y) = rlog (x * y).
Proof.
  intros [Hx| <-] [Hy| <-]; rewrite ?Rmult_0_l, ?Rmult_0_r, ?rlog_0.
  - rewrite !rlog_pos by (try apply Rmult_lt_0_compat; lra). cbn. rewrite ln_mult by lra. reflexivity.
  - rewrite (rlog_pos x) by lra. reflexivity.
  - rewrite (rlog_pos y) by lra. reflexivity.
  - reflexivity.
Qed.
Lemma prodf_nonneg {A} (f : A -> R) l : (forall a, In a l -> 0 <= f a) -> 0 <= prodf f l.
Proof.
  unfold prodf. induction l as [|a l IH]; intros H; cbn; [lra|]. apply Rmult_le_pos; [apply H; left; auto|apply IH; intros; apply H; right; auto].
Qed.
Lemma xsum_rlog {A} (f : A -> R) l : (forall a, In a l -> 0 <= f a) -> xsum (map (fun a => rlog (f a)) l) = rlog (prodf f l).
Proof.
  induction l as [|a l IH]; intros H; cbn [map].
  - cbn. rewrite rlog_pos, ln_1 by lra. reflexivity.
  - rewrite xsum_cons, IH by (intros; apply H; right; auto). rewrite rlog_mult; [reflexivity|apply H; left; auto|].
    apply prodf_nonneg. intros; apply H; right; auto.
Qed.
Lemma xsum_sumf {A} (f : A -> R) l : xsum (map (fun a => Fin (f a)) l) = Fin (sumf f l).
Proof. induction l as [|a l IH]; [reflexivity|]. cbn [map]. rewrite xsum_cons, IH. reflexivity. Qed.

Lemma sum_last_axes_ok k t outer inner v : holds t (outer ++ inner) v -> length inner = k ->
  exists r, sum_last_axes k t = Ok r /\ holds r outer (fun idx => xsum (map (fun e => v (idx ++ e)) (indices inner))).
Proof.
  intros (W & S & H) <-. unfold sum_last_axes, rank. rewrite S, app_length.
  rewrite (proj2 (Nat.leb_le _ _)) by lia. replace (length outer + length inner - length inner)%nat with (length outer) by lia.
  rewrite firstn_app, firstn_all, Nat.sub_diag. cbn [firstn]. rewrite app_nil_r.
  rewrite skipn_app, skipn_all, Nat.sub_diag. cbn [skipn app].
  eexists. split; [reflexivity|]. split; [apply tgen_wf|]. split; [reflexivity|]. intros idx Hi. rewrite tget_tgen by auto. f_equal.
  apply map_ext_in. intros e He. apply in_indices in He. apply H, inb_app; auto.
Qed.
Lemma split_shape k (s : shape) : (k <= length s)%nat -> s = leading k s ++ trailing k s /\ length (trailing k s) = k.
Proof. intros H. unfold leading, trailing. split; [symmetry; apply firstn_skipn|]. rewrite skipn_length. lia. Qed.

(** ** trees *)
Lemma tree_map2M_node {A B C} (f : A -> B -> result C) l m :
  tree_map2M f (Node l) (Node m) =
  (do l' <- (fix go (l : list (tree A)) (m : list (tree B)) {struct l} : result (list (tree C)) :=
                  match l, m with
                  | [], [] => Ok []
                  | s :: l', t :: m' => do c <- tree_map2M f s t; do cs <- go l' m'; Ok (c :: cs)
                  | _, _ => Err ValueError
                  end) l m; Ok (Node l')).
Proof. reflexivity. Qed.
Lemma combine_app {A B} (l1 l2 : list A) (m1 m2 : list B) : length l1 = length m1 -> combine (l1 ++ l2) (m1 ++ m2) = combine l1 m1 ++ combine l2 m2.
Proof. revert m1; induction l1 as [|a l1 IH]; intros [|b m1] H; try discriminate; cbn; [auto|]. f_equal. apply IH. cbn in H; lia. Qed.
Lemma Forall2_app_inv_len {A B} (P : A -> B -> Prop) l1 l2 m : Forall2 P (l1 ++ l2) m -> exists m1 m2, m = m1 ++ m2 /\ Forall2 P l1 m1 /\ Forall2 P l2 m2.
Proof. intros H. destruct (Forall2_app_inv_l _ _ H) as (m1 & m2 & H1 & H2 & ->). eauto. Qed.
Lemma Forall2_len {A B} (P : A -> B -> Prop) l m : Forall2 P l m -> length l = length m.
Proof. induction 1; cbn; auto. Qed.
Lemma same_structure_leaves {A B} (s : tree A) (t : tree B) : same_structure s t -> length (leaves s) = length (leaves t).
Proof. intros H. apply tree_rel_leaves in H. eapply Forall2_len; eauto. Qed.
(** if [f] succeeds on corresponding leaves with results [cs], the map succeeds and its leaves are [cs] *)
Lemma tree_map2M_ok {A B C} (f : A -> B -> result C) s : forall (t : tree B) (cs : list C), same_structure s t ->
  Forall2 (fun ab c => f (fst ab) (snd ab) = Ok c) (combine (leaves s) (leaves t)) cs ->
  exists u, tree_map2M f s t = Ok u /\ leaves u = cs /\ same_structure s u.
Proof.
  induction s as [a|l IH] using tree_ind'; intros t cs HS HF; inversion HS as [a' b _|l' m HM]; subst.
  - cbn in HF. inversion HF as [|? c ? ? Hc HN]; subst. inversion HN; subst. exists (Leaf c). cbn in *. rewrite Hc. repeat split; constructor; auto.
  - rewrite tree_map2M_node. rewrite !leaves_node in HF.
    assert (exists u, (fix go (l : list (tree A)) (m : list (tree B)) {struct l} : result (list (tree C)) :=
                  match l, m with
                  | [], [] => Ok []
                  | s :: l', t :: m' => do c <- tree_map2M f s t; do cs <- go l' m'; Ok (c :: cs)
                  | _, _ => Err ValueError
                  end) l m = Ok u /\ flat_map leaves u = cs /\ Forall2 same_structure l u) as (u & -> & Hu & HR).
    { clear HS. revert m cs HM HF. induction IH as [|s l Hs _ IHl]; intros m cs HM HF; inversion HM as [|? t ? m' Hst HM']; subst.
      - inversion HF; subst. exists []. repeat split; constructor.
      - cbn [flat_map] in HF. rewrite combine_app in HF by (apply same_structure_leaves; auto).
        apply Forall2_app_inv_len in HF as (c1 & c2 & -> & F1 & F2).
        destruct (Hs t c1 Hst F1) as (u1 & -> & U1 & S1). destruct (IHl m' c2 HM' F2) as (u2 & E2 & U2 & S2). cbn [rbind]. rewrite E2. cbn [rbind].
        exists (u1 :: u2). split; [reflexivity|]. cbn. rewrite U1, U2. split; [reflexivity|]. constructor; auto. }
    cbn [rbind]. exists (Node u). rewrite leaves_node. split; [reflexivity|]. split; [exact Hu|]. constructor. exact HR.
Qed.
(** trees of different structure are rejected *)
Lemma tree_map2M_structure {A B C} (f : A -> B -> result C) s : forall (t : tree B) u, tree_map2M f s t = Ok u -> same_structure s t.
Proof.
  induction s as [a|l IH] using tree_ind'; intros [b|m] u H; try discriminate H.
  - constructor; auto.
  - rewrite tree_map2M_node in H. constructor. revert H.
    match goal with |- rbind ?g _ = _ -> _ => destruct g as [u'|] eqn:E; [intros _|discriminate] end. revert m u' E.
    induction IH as [|s l Hs _ IHl]; intros [|t m] u' E; try discriminate E; [constructor|].
    destruct (tree_map2M f s t) as [c|] eqn:E1; [|discriminate E]. cbn [rbind] in E.
    match type of E with rbind ?g _ = _ => destruct g as [cs|] eqn:E2; [|discriminate E] end. constructor; [eapply Hs; eauto|eapply IHl; eauto].
Qed.
Lemma unflatten_ok {A B} (t : tree A) : forall (bs rest : list B), length bs = length (leaves t) ->
  exists u, unflatten t (bs ++ rest) = Ok (u, rest) /\ leaves u = bs /\ same_structure t u.
Proof.
  induction t as [a|l IH] using tree_ind'; intros bs rest H.
  - destruct bs as [|b [|b' bs]]; try discriminate H. exists (Leaf b). cbn. repeat split; constructor; auto.
  - rewrite leaves_node in H.
    assert (exists us, (fix go (l : list (tree A)) (bs : list B) : result (list (tree B) * list B) :=
                  match l with
                  | [] => Ok ([], bs)
                  | t :: l' => do (b, rest) <- unflatten t bs; do (m, rest') <- go l' rest; Ok (b :: m, rest')
                  end) l (bs ++ rest) = Ok (us, rest) /\ flat_map leaves us = bs /\ Forall2 same_structure l us) as (us & E & U & S).
    { revert bs H. induction IH as [|t l Ht _ IHl]; intros bs H.
      - destruct bs; [|discriminate H]. exists []. repeat split; constructor.
      - cbn [flat_map] in H. rewrite app_length in H.
        assert (bs = firstn (length (leaves t)) bs ++ skipn (length (leaves t)) bs) as EB by (symmetry; apply firstn_skipn).
        set (b1 := firstn (length (leaves t)) bs) in *. set (b2 := skipn (length (leaves t)) bs) in *.
        assert (L1 : length b1 = length (leaves t)) by (unfold b1; rewrite firstn_length; lia).
        assert (L2 : length b2 = length (flat_map leaves l)) by (unfold b2; rewrite skipn_length; lia).
        rewrite EB, <- app_assoc. destruct (Ht b1 (b2 ++ rest) L1) as (u1 & -> & U1 & S1). cbn [rbind].
        destruct (IHl b2 L2) as (us & -> & U2 & S2). cbn [rbind]. exists (u1 :: us). split; [reflexivity|]. cbn. rewrite U1, U2. split; [reflexivity|constructor; auto]. }
    exists (Node us). cbn [unflatten]. rewrite E. cbn [rbind]. rewrite leaves_node. split; [reflexivity|]. split; [exact U|constructor; exact S].
Qed.
Lemma unflatten_as_ok {A B} (t : tree A) (bs : list B) : length bs = length (leaves t) ->
  exists u, unflatten_as t bs = Ok u /\ leaves u = bs /\ same_structure t u.
Proof.
  intros H. destruct (unflatten_ok t bs [] H) as (u & E & U & S). rewrite app_nil_r in E. unfold unflatten_as. rewrite E. cbn [rbind]. exists u. auto.
Qed.
Lemma tree_mapM_leaves {A B} (f : A -> B) (t : tree A) : exists u, tree_mapM (fun a => Ok (f a)) t = Ok u /\ leaves u = map f (leaves t) /\ same_structure t u.
Proof.
  destruct (tree_mapM_ok (fun a => Ok (f a)) (fun a b => b = f a) t) as (u & E & R); [intros a _; eauto|]. exists u. split; [exact E|]. split.
  - apply tree_rel_leaves in R. induction R; cbn; [auto|]. f_equal; auto.
  - unfold same_structure. clear E. revert u R. induction t as [a|l IH] using tree_ind'; intros u R; inversion R; subst; constructor; auto.
    clear R. revert l' H0. induction IH; intros l' F; inversion F; subst; constructor; auto.
Qed.
Lemma same_structure_refl {A} (t : tree A) : same_structure t t.
Proof. induction t as [a|l IH] using tree_ind'; constructor; auto. induction IH; constructor; auto. Qed.
Lemma same_structure_trans {A B C} (s : tree A) : forall (t : tree B) (u : tree C), same_structure s t -> same_structure t u -> same_structure s u.
Proof.
  induction s as [a|l IH] using tree_ind'; intros t u H1 H2; inversion H1 as [? ? _|? m F1]; subst; inversion H2 as [? ? _|? k F2]; subst; constructor; auto.
  clear H1 H2. revert m k F1 F2. induction IH as [|s l Hs _ IHl]; intros m k F1 F2.
  - inversion F1; subst. inversion F2; subst. constructor.
  - inversion F1 as [|? t ? m' A1 A2]; subst. inversion F2 as [|? u ? k' B1 B2]; subst. constructor; [apply (Hs t u A1 B1)|apply (IHl m' k' A2 B2)].
Qed.

(** ** sums of arrays *)
Lemma sum_stack_ok ts S (vs : list (list nat -> XR)) : ts <> [] -> Forall2 (fun t v => holds t S v) ts vs ->
  exists r, sum_stack ts = Ok r /\ holds r S (fun idx => xsum (map (fun v => v idx) vs)).
Proof.
  intros Hne HF. destruct ts as [|t ts]; [congruence|]. unfold sum_stack. inversion HF as [|? v ? vs' Ht _]; subst.
  assert (SS : forall u, In u (t :: ts) -> shp u = S).
  { clear -HF. induction HF as [|u w l m Hu HF IH]; intros u' Hin; [destruct Hin|]. destruct Hin as [<-|Hin]; [apply Hu|auto]. }
  rewrite (SS t (or_introl eq_refl)).
  assert (FB : forallb (fun u => shape_eqb (shp u) S) (t :: ts) = true).
  { apply forallb_forall. intros u Hu. rewrite (SS u Hu). unfold shape_eqb. destruct list_eq_dec; congruence. }
  rewrite FB. eexists. split; [reflexivity|]. split; [apply tgen_wf|]. split; [reflexivity|]. intros idx Hi. rewrite tget_tgen by auto. f_equal.
  clear -HF Hi. induction HF as [|u w l m Hu HF IH]; [reflexivity|]. cbn [map]. f_equal; [apply Hu, Hi|exact IH].
Qed.
Lemma py_sum_ok ts S (vs : list (list nat -> XR)) : ts <> [] -> Forall2 (fun t v => exists a, t = Ok a /\ holds a S v) ts vs ->
  exists r, py_sum ts = Ok r /\ holds r S (fun idx => xsum (map (fun v => v idx) vs)).
Proof.
  intros Hne HF. unfold py_sum.
  assert (G : forall acc w, holds acc S w -> forall ts vs, Forall2 (fun t v => exists a, t = Ok a /\ holds a S v) ts vs ->
     exists r, fold_left (fun acc t => do a <- acc; do t <- t; lift2 xadd a t) ts (Ok acc) = Ok r /\ holds r S (fun idx => fold_left xadd (map (fun v => v idx) vs) (w idx))).
  { clear. intros acc w Ha ts vs HF. revert acc w Ha. induction HF as [|t v ts vs (a & -> & Hv) HF IH]; intros acc w Ha.
    - exists acc. split; [reflexivity|exact Ha].
    - cbn [fold_left]. cbn [rbind]. destruct (lift2_holds xadd acc a S w v (holds_reads _ _ _ Ha) (holds_reads _ _ _ Hv) ltac:(left; apply Ha)) as (r & -> & Hr).
      destruct (IH r _ Hr) as (r' & E & Hr'). exists r'. split; [exact E|]. exact Hr'. }
  destruct ts as [|t ts]; [congruence|]. inversion HF as [|? v ? vs' (a & -> & Ha) HF']; subst. cbn [fold_left rbind].
  assert (R0 : reads (tscalar (Fin 0)) S (fun _ => Fin 0)). { split; [apply bshape_nil_l|]. intros idx _. reflexivity. }
  destruct (lift2_holds xadd (tscalar (Fin 0)) a S _ v R0 (holds_reads _ _ _ Ha) ltac:(right; apply Ha)) as (r & -> & Hr).
  destruct (G r _ Hr ts vs' HF') as (r' & E & Hr'). exists r'. split; [exact E|]. eapply holds_ext; [exact Hr'|]. intros idx _. cbv beta.
  cbn [map]. rewrite fold_xadd, xadd_0_l. reflexivity.
Qed.

(** ** products of finite laws *)
Lemma sumf_prod (p : list R) (q : list R) (h : R -> R) : sumf h (flat_map (fun x => map (Rmult x) q) p) = sumf (fun x => sumf (fun y => h (x * y)) q) p.
Proof. rewrite sumf_flat_map. apply sumf_ext. intros x _. apply sumf_map. Qed.
Lemma joint_pmf_ok ps : (forall p, In p ps -> is_pmf p) -> is_pmf (joint_pmf ps).
Proof.
  induction ps as [|p ps IH]; intros H; cbn [joint_pmf].
  - split; [intros x [<-|[]]; lra|cbn; lra].
  - destruct (H p (or_introl eq_refl)) as [Np Sp]. destruct (IH ltac:(intros; apply H; right; auto)) as [Nq Sq]. split.
    + intros z Hz. apply in_flat_map in Hz as (x & Hx & Hz). apply in_map_iff in Hz as (y & <- & Hy). apply Rmult_le_pos; auto.
    + rewrite rsum_sumf, sumf_prod. rewrite (sumf_ext _ (fun x => x * 1)).
      * rewrite sumf_scal_r, <- rsum_sumf, Sp. ring.
      * intros x _. rewrite sumf_scal, <- rsum_sumf, Sq. reflexivity.
Qed.
Lemma xlnx_mult x y : 0 <= x -> 0 <= y -> xlnx (x * y) = y * xlnx x + x * xlnx y.
Proof.
  intros Hx Hy. unfold xlnx. destruct (Req_EM_T x 0) as [-> |Nx]; [destruct Req_EM_T; [|lra]; destruct Req_EM_T; lra|].
  destruct (Req_EM_T y 0) as [-> |Ny]; [destruct Req_EM_T; lra|]. destruct Req_EM_T as [E|]; [apply Rmult_integral in E; lra|].
  rewrite ln_mult by lra. ring.
Qed.
Lemma joint_entropy_sum ps : (forall p, In p ps -> is_pmf p) -> shannon_entropy (joint_pmf ps) = sumf shannon_entropy ps.
Proof.
  induction ps as [|p ps IH]; intros H.
  - unfold shannon_entropy, xlnx, sumf. cbn. destruct Req_EM_T; [lra|]. rewrite ln_1. ring.
  - assert (Hq : forall q, In q ps -> is_pmf q) by (intros; apply H; right; auto). destruct (H p (or_introl eq_refl)) as [Np Sp].
    destruct (joint_pmf_ok ps Hq) as [Nq Sq]. rewrite sumf_cons, <- IH by auto. unfold shannon_entropy. cbn [joint_pmf].
    change (rsum (map xlnx (flat_map (fun x => map (Rmult x) (joint_pmf ps)) p))) with (sumf xlnx (flat_map (fun x => map (Rmult x) (joint_pmf ps)) p)).
    rewrite sumf_prod. rewrite (sumf_ext _ (fun x => xlnx x + x * sumf xlnx (joint_pmf ps))).
    + rewrite sumf_plus, sumf_scal_r, <- rsum_sumf, Sp. unfold sumf. ring.
    + intros x Hx. rewrite (sumf_ext _ (fun y => y * xlnx x + x * xlnx y)) by (intros y Hy; apply xlnx_mult; auto).
      rewrite sumf_plus, sumf_scal_r, sumf_scal, <- rsum_sumf, Sq. ring.
Qed.
Lemma combine_map {A B C D} (f : A -> C) (g : B -> D) l m : combine (map f l) (map g m) = map (fun ab => (f (fst ab), g (snd ab))) (combine l m).
Proof. revert m; induction l as [|a l IH]; intros [|b m]; cbn; auto. f_equal. apply IH. Qed.
Lemma combine_flat (p p' q q' : list R) : length p = length p' -> length q = length q' ->
  combine (flat_map (fun x => map (Rmult x) q) p) (flat_map (fun x => map (Rmult x) q') p') =
  flat_map (fun xx => map (fun yy => (fst xx * fst yy, snd xx * snd yy)) (combine q q')) (combine p p').
Proof.
  intros Lp Lq. revert p' Lp. induction p as [|x p IH]; intros [|x' p'] Lp; try discriminate Lp; [reflexivity|]. cbn [flat_map combine].
  rewrite combine_app by (rewrite !map_length; auto). rewrite combine_map, IH by (cbn in Lp; lia). reflexivity.
Qed.
Lemma joint_pmf_length ps qs : Forall2 (fun p q => length p = length q) ps qs -> length (joint_pmf ps) = length (joint_pmf qs).
Proof.
  induction 1 as [|p q ps qs L F IH]; [reflexivity|]. cbn [joint_pmf].
  assert (X : forall (l m : list R), length (flat_map (fun x => map (Rmult x) m) l) = (length l * length m)%nat).
  { intros l m. induction l as [|a l IHl]; [reflexivity|]. cbn. rewrite app_length, map_length, IHl. reflexivity. }
  rewrite !X. congruence.
Qed.
Lemma combine_In_nth {A B} (l : list A) (m : list B) a b da db : In (a, b) (combine l m) -> exists k, (k < length l)%nat /\ nth k l da = a /\ nth k m db = b.
Proof.
  revert m; induction l as [|x l IH]; intros [|y m] H; try destruct H.
  - injection H as -> ->. exists 0%nat. cbn. repeat split; lia.
  - destruct (IH m H) as (k & H1 & H2 & H3). exists (S k). cbn. repeat split; auto. lia.
Qed.
Lemma combine_fst_sum (h : R -> R) (l m : list R) : length l = length m -> sumf (fun ab => h (fst ab)) (combine l m) = sumf h l.
Proof. revert m; induction l as [|a l IH]; intros [|b m] L; try discriminate; [reflexivity|]. cbn [combine]. rewrite !sumf_cons, IH by (cbn in L; lia). reflexivity. Qed.
Lemma kl_mult x x' y y' : 0 <= x -> 0 <= y -> (0 < x -> 0 < x') -> (0 < y -> 0 < y') ->
  kl_term (x * y, x' * y') = y * kl_term (x, x') + x * kl_term (y, y').
Proof.
  intros Hx Hy Ax Ay. unfold kl_term. destruct (Req_EM_T x 0) as [-> |Nx]; [destruct Req_EM_T; [|lra]; destruct Req_EM_T; lra|].
  destruct (Req_EM_T y 0) as [-> |Ny]; [destruct Req_EM_T; lra|]. destruct Req_EM_T as [E|]; [apply Rmult_integral in E; lra|].
  assert (0 < x) by lra. assert (0 < y) by lra. specialize (Ax H). specialize (Ay H0).
  replace (x * y / (x' * y')) with (x / x' * (y / y')) by (field; lra). rewrite ln_mult by (apply Rdiv_lt_0_compat; lra). ring.
Qed.
Lemma joint_ac ps qs : Forall2 compatible ps qs -> forall k, 0 < nth k (joint_pmf ps) 0 -> 0 < nth k (joint_pmf qs) 0.
Proof.
  intros F k Hk.
  assert (G : forall x y, In (x, y) (combine (joint_pmf ps) (joint_pmf qs)) -> 0 <= x /\ (0 < x -> 0 < y)).
  { clear k Hk. induction F as [|p q ps qs (Hp & L & A) F IH]; intros x y H.
    - cbn in H. destruct H as [H|[]]. injection H as <- <-. lra.
    - cbn [joint_pmf] in H. rewrite combine_flat in H by (auto; apply joint_pmf_length; clear -F; induction F as [|? ? ? ? (H & ? & H')]; constructor; auto).
      apply in_flat_map in H as ([u u'] & Hu & H). apply in_map_iff in H as ([v v'] & E & Hv). cbn in E. injection E as <- <-.
      destruct (IH v v' Hv) as [V0 V1]. destruct (combine_In_nth p q u u' 0 0 Hu) as (j & Hj & N1 & N2).
      assert (U0 : 0 <= u) by (rewrite <- N1; apply Hp, nth_In; auto). specialize (A j). rewrite N1, N2 in A.
      split; [apply Rmult_le_pos; auto|]. intros P. destruct (Rle_lt_or_eq_dec 0 u U0) as [U1|<-]; [|lra]. destruct (Rle_lt_or_eq_dec 0 v V0) as [V2|<-]; [|lra].
      apply Rmult_lt_0_compat; auto. }
  assert (L : length (joint_pmf ps) = length (joint_pmf qs)) by (apply joint_pmf_length; clear -F; induction F as [|? ? ? ? (H & ? & H')]; constructor; auto).
  destruct (Nat.lt_ge_cases k (length (joint_pmf ps))) as [Hl|Hl]; [|rewrite nth_overflow in Hk by auto; lra].
  apply (G (nth k (joint_pmf ps) 0) (nth k (joint_pmf qs) 0)); [|auto]. rewrite <- combine_nth by auto. apply nth_In. rewrite combine_length. lia.
Qed.
Lemma joint_kl_sum ps qs : Forall2 compatible ps qs ->
  kullback_leibler (joint_pmf ps) (joint_pmf qs) = sumf (fun pq => kullback_leibler (fst pq) (snd pq)) (combine ps qs).
Proof.
  induction 1 as [|p q ps qs (Hp & L & A) F IH].
  - unfold kullback_leibler, sumf, kl_term. cbn. destruct Req_EM_T; [lra|]. replace (1 / 1) with 1 by field. rewrite ln_1. ring.
  - cbn [combine]. rewrite sumf_cons, <- IH. cbn [fst snd].
    assert (LJ : length (joint_pmf ps) = length (joint_pmf qs)) by (apply joint_pmf_length; clear -F; induction F as [|? ? ? ? (H & ? & H')]; constructor; auto).
    assert (PJ : is_pmf (joint_pmf ps)) by (apply joint_pmf_ok; clear -F; induction F as [|p q ps qs (H & _) F IH]; intros z Hz; [destruct Hz|]; destruct Hz as [<-|Hz]; [exact H|auto]).
    unfold kullback_leibler. cbn [joint_pmf]. rewrite combine_flat by auto.
    set (PQ := combine p q). set (JJ := combine (joint_pmf ps) (joint_pmf qs)).
    change (rsum (map kl_term ?l)) with (sumf kl_term l). rewrite sumf_flat_map.
    rewrite (sumf_ext _ (fun xx => kl_term xx + fst xx * sumf kl_term JJ)).
    + rewrite sumf_plus, sumf_scal_r. unfold PQ at 2. rewrite (combine_fst_sum (fun x => x)) by auto. rewrite <- rsum_sumf. destruct Hp as [_ ->]. ring.
    + intros [x x'] Hx. rewrite sumf_map. destruct (combine_In_nth p q x x' 0 0 Hx) as (j & Hj & N1 & N2).
      assert (X0 : 0 <= x) by (rewrite <- N1; apply Hp, nth_In; auto). pose proof (A j) as Aj. rewrite N1, N2 in Aj.
      rewrite (sumf_ext _ (fun yy => fst yy * kl_term (x, x') + x * kl_term yy)).
      * rewrite sumf_plus, sumf_scal_r, sumf_scal. unfold JJ at 1. rewrite (combine_fst_sum (fun x => x)) by auto. rewrite <- rsum_sumf. destruct PJ as [_ ->]. cbn [fst]. ring.
      * intros [y y'] Hy. cbn [fst snd]. destruct (combine_In_nth _ _ y y' 0 0 Hy) as (i & Hi & M1 & M2). apply kl_mult; auto.
        -- rewrite <- M1. apply PJ, nth_In; auto.
        -- intros P. rewrite <- M2. apply (joint_ac ps qs F). rewrite M1. exact P.
Qed.
