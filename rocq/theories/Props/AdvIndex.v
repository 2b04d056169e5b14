(** C29 for array-valued indices. *)
From Coq Require Import List Reals ZArith Bool Lia.
From Verif Require Import Base.Result Base.Sums Base.Tensor Base.XR Base.Lift Model.Distribution Model.AdvIndex Spec.Distribution Spec.AdvIndex Proofs.Distribution.
Import ListNotations.

Lemma any_batch_ok bs ix rs src : any_index bs ix = Ok (rs, src) -> (forall r, inb rs r -> inb bs (src r)) ->
  rmapM (fun x => any_getitem 0 x ix) (np_indices bs) = Ok (map (fun k => tgen rs (fun r => nth k (src r) 0)) (seq 0 (length bs))).
Proof.
  intros E H. unfold np_indices. generalize (seq 0 (length bs)). induction l as [|k l IH]; [reflexivity|]. cbn [map rmapM]. unfold any_getitem at 1. cbn [shp tgen].
  rewrite E. cbn [rbind]. fold (@any_getitem nat). rewrite IH. cbn [rbind]. f_equal. f_equal. apply tgen_ext. intros r Hr. apply (tget_tgen 0 bs (fun idx => nth k idx 0)); auto.
Qed.
(** Whatever the index: if it reads, from an array of shape [batch], the position [src r] for the position [r] of a result of shape [rs], slicing
    a parameter reads whole events at those positions. *)
Lemma slice_any_ok {A} (d : A) bs ev ix rs src p : bs <> [] -> any_index bs ix = Ok (rs, src) -> (forall r, inb rs r -> inb bs (src r)) -> shp p = bs ++ ev ->
  exists q, slice_param_any d bs ix p = Ok q /\ wf q /\ shp q = rs ++ ev /\ forall r e, inb rs r -> inb ev e -> tget d q (r ++ e) = tget d p (src r ++ e).
Proof.
  intros Hne E Hin Sp. unfold slice_param_any. rewrite (any_batch_ok _ _ _ _ E Hin). cbn [rbind].
  destruct bs as [|b bs]; [congruence|]. set (bb := b :: bs) in *. eexists; split; [reflexivity|]. unfold adv_getitem.
  remember (map (fun k : nat => tgen rs (fun r => nth k (src r) 0)) (seq 0 (length bb))) as ixs eqn:Eix.
  assert (Hix : ixs = tgen rs (fun r => nth 0 (src r) 0) :: map (fun k : nat => tgen rs (fun r => nth k (src r) 0)) (seq 1 (length bs))) by (rewrite Eix; reflexivity).
  assert (Li : length ixs = length bb) by (rewrite Eix, map_length, seq_length; auto).
  destruct ixs as [|i0 l0]; [discriminate|]. cbv beta iota zeta.
  assert (Hs0 : shp i0 = rs) by (injection Hix as -> _; reflexivity).
  set (ixs := i0 :: l0) in *. unfold rank. rewrite Hs0.
  assert (Hsk : skipn (length ixs) (shp p) = ev) by (rewrite Li, Sp, skipn_app, skipn_all, Nat.sub_diag; reflexivity).
  rewrite Hsk. split; [apply tgen_wf|]. split; [reflexivity|]. intros r e Hr He. rewrite tget_tgen by (apply inb_app; auto).
  pose proof (inb_length _ _ Hr) as Lr. rewrite <- Lr. rewrite firstn_app, firstn_all, Nat.sub_diag. cbn [firstn]. rewrite app_nil_r.
  rewrite skipn_app, skipn_all, Nat.sub_diag. cbn [skipn app]. f_equal. f_equal.
  transitivity (map (fun i : tensor nat => tget 0 i r) (map (fun k : nat => tgen rs (fun r => nth k (src r) 0)) (seq 0 (length bb)))); [f_equal; exact Eix|]. rewrite map_map.
  transitivity (map (fun k => nth k (src r) 0) (seq 0 (length bb))); [|apply map_nth_seq, inb_length; auto]. apply map_ext. intros k. rewrite tget_tgen; auto.
Qed.
Lemma slice_any_err {A} (d : A) bs ix p e : bs <> [] -> any_index bs ix = Err e -> slice_param_any d bs ix p = Err e.
Proof.
  intros Hne E. unfold slice_param_any, np_indices. destruct bs as [|b bs]; [congruence|].
  cbn [length seq map]. rewrite rmapM_err with (e := e); [auto|]. unfold any_getitem. cbn [shp tgen]. rewrite E. auto.
Qed.

(** The old indices are treated as before. *)
Theorem C29_basic_index_unchanged : forall A (d : A) batch ix p, slice_param_any d batch (IxBasic ix) p = slice_param d batch ix p.
Proof. reflexivity. Qed.

(** ** Integer arrays *)
Lemma in_range_spec d z : in_range d z = true <-> (- Z.of_nat d <= z < Z.of_nat d)%Z.
Proof. unfold in_range. rewrite andb_true_iff, Z.leb_le, Z.ltb_lt. tauto. Qed.
Lemma nth_combine_some {A B} (s : list A) (l : list B) j d t : nth_error s j = Some d -> nth_error l j = Some t -> nth_error (combine s l) j = Some (d, t).
Proof. revert s l. induction j as [|j IH]; intros [|a s] [|b l]; cbn; try discriminate; [congruence|apply IH]. Qed.
Lemma combine_nth_some {A B} (s : list A) (l : list B) j p : nth_error (combine s l) j = Some p -> nth_error s j = Some (fst p) /\ nth_error l j = Some (snd p).
Proof. revert s l. induction j as [|j IH]; intros [|a s] [|b l]; cbn; try discriminate; [intros [= <-]; auto|apply IH]. Qed.
Lemma legal_forallb batch l : length l <= length batch -> (forallb (fun p => forallb (in_range (fst p)) (dat (snd p))) (combine batch l) = true <-> legal_arrays batch l).
Proof.
  intros L. rewrite forallb_forall. split.
  - intros H. split; [auto|]. intros j d t z H1 H2 Hz. assert (Q := nth_combine_some _ _ _ _ _ H1 H2). apply nth_error_In, H in Q. cbn in Q. rewrite forallb_forall in Q. apply in_range_spec; auto.
  - intros [_ H] p Hp. apply In_nth_error in Hp as [j Hj]. apply combine_nth_some in Hj as [H1 H2]. apply forallb_forall. intros z Hz. apply in_range_spec. eapply H; eauto.
Qed.
Lemma tget_in_data {A} (d : A) t i : wf t -> inb (shp t) i -> In (tget d t i) (dat t).
Proof. intros W H. unfold tget. apply nth_In. unfold wf in W. rewrite W. apply ravel_lt; auto. Qed.
Lemma wrap_spec d z : (- Z.of_nat d <= z < Z.of_nat d)%Z -> Z.of_nat (wrap d z) = (if (z <? 0)%Z then z + Z.of_nat d else z)%Z /\ wrap d z < d.
Proof. intros H. unfold wrap. destruct (Z.ltb_spec z 0); split; lia. Qed.
Lemma selected_coords batch l bs rb : legal_arrays batch l -> Forall wf l -> bshapes (map shp l) = Some bs -> inb bs rb ->
  let c := map (fun p => wrap (fst p) (tget 0%Z (snd p) (bindex (shp (snd p)) rb))) (combine batch l) in
  selects batch l rb c /\ inb (firstn (length l) batch) c.
Proof.
  intros [L H] W Hb Hr c. assert (Lc : length c = length l) by (unfold c; rewrite map_length, combine_length; lia).
  assert (Q : forall j d t, nth_error batch j = Some d -> nth_error l j = Some t -> nth_error c j = Some (wrap d (tget 0%Z t (bindex (shp t) rb))) /\
    (- Z.of_nat d <= tget 0%Z t (bindex (shp t) rb) < Z.of_nat d)%Z).
  { intros j d t H1 H2. split; [unfold c; rewrite nth_error_map, (nth_combine_some _ _ _ _ _ H1 H2); reflexivity|]. apply (H j d t _ H1 H2).
    assert (Ht : In t l) by (eapply nth_error_In; eauto). apply tget_in_data; [rewrite Forall_forall in W; auto|].
    eapply (bindex_inb (shp t) bs bs); auto. apply (bshapes_absorb _ _ Hb). apply in_map. auto. }
  split.
  - split; [auto|]. intros j d t i H1 H2 H3 z. destruct (Q j d t H1 H2) as [H4 H5]. rewrite H3 in H4. injection H4 as ->. apply wrap_spec. auto.
  - assert (G : forall (a b : list nat), length a = length b -> (forall j x y, nth_error a j = Some x -> nth_error b j = Some y -> x < y) -> Forall2 lt a b).
    { induction a as [|x a IH]; intros [|y b] Le Hh; try discriminate Le; constructor; [apply (Hh 0); reflexivity|]. apply IH; [auto|]. intros j. apply (Hh (S j)). }
    apply G; [rewrite Lc, firstn_length; lia|]. intros j x y Hx Hy.
    assert (Hj : j < length l) by (rewrite <- Lc; apply nth_error_Some; congruence).
    assert (Hb' : nth_error batch j = Some y).
    { rewrite <- Hy. clear -Hj. revert batch Hj. generalize (length l). intros n. revert j. induction n as [|n IH]; intros j batch Hj; [lia|]. destruct batch as [|a batch]; [destruct j; reflexivity|].
      destruct j as [|j]; [reflexivity|]. cbn. apply IH. lia. }
    destruct (nth_error l j) as [t|] eqn:Et; [|apply nth_error_None in Et; lia]. destruct (Q j y t Hb' Et) as [H4 H5]. rewrite Hx in H4. injection H4 as ->. apply wrap_spec. auto.
Qed.
Lemma selects_det batch l rb c c' : length l <= length batch -> selects batch l rb c -> selects batch l rb c' -> c = c'.
Proof.
  intros L [L1 H1] [L2 H2]. apply nth_ext with (d := 0) (d' := 0); [congruence|]. intros j Hj.
  destruct (nth_error batch j) as [d|] eqn:Ed; [|apply nth_error_None in Ed; lia]. destruct (nth_error l j) as [t|] eqn:Et; [|apply nth_error_None in Et; lia].
  destruct (nth_error c j) as [i|] eqn:Ei; [|apply nth_error_None in Ei; lia]. destruct (nth_error c' j) as [i'|] eqn:Ei'; [|apply nth_error_None in Ei'; lia].
  apply (nth_error_nth _ _ 0) in Ei as N1. apply (nth_error_nth _ _ 0) in Ei' as N2. rewrite N1, N2. destruct (H1 j d t i Ed Et Ei) as [Q1 _]. destruct (H2 j d t i' Ed Et Ei') as [Q2 _]. lia.
Qed.
Theorem C29_integer_arrays : forall A (d : A) batch event l bs p,
  batch <> [] -> shp p = batch ++ event -> Forall wf l -> legal_arrays batch l -> bshapes (map shp l) = Some bs ->
  let rest := skipn (length l) batch in
  exists q, slice_param_any d batch (IxArrays l) p = Ok q /\ wf q /\ shp q = bs ++ rest ++ event /\
    (forall rb, inb bs rb -> exists c, selects batch l rb c) /\
    forall rb c rr e, inb bs rb -> selects batch l rb c -> inb rest rr -> inb event e ->
      tget d q (rb ++ rr ++ e) = tget d p (c ++ rr ++ e).
Proof.
  intros A d batch event l bs p Hne Sp W HL Hb rest.
  assert (E : any_index batch (IxArrays l) = Ok (bs ++ rest, fun r => let rb := firstn (length bs) r in
                        map (fun p => wrap (fst p) (tget 0%Z (snd p) (bindex (shp (snd p)) rb))) (combine batch l) ++ skipn (length bs) r)).
  { cbn [any_index]. unfold int_index. destruct (Nat.ltb_spec (length batch) (length l)); [destruct HL; lia|]. rewrite Hb. rewrite (proj2 (legal_forallb batch l (proj1 HL)) HL). reflexivity. }
  assert (Hin : forall rb rr, inb bs rb -> inb rest rr -> firstn (length bs) (rb ++ rr) = rb /\ skipn (length bs) (rb ++ rr) = rr).
  { intros rb rr H1 H2. rewrite <- (inb_length _ _ H1). rewrite firstn_app, firstn_all, Nat.sub_diag, skipn_app, skipn_all, Nat.sub_diag. cbn. rewrite app_nil_r. auto. }
  destruct (slice_any_ok d batch event (IxArrays l) _ _ p Hne E) as (q & Eq & Wq & Sq & Hq); [|auto|].
  - intros r Hr. apply Forall2_app_inv_r in Hr as (rb & rr & H1 & H2 & ->). destruct (Hin rb rr H1 H2) as [-> ->]. cbv zeta.
    rewrite <- (firstn_skipn (length l) batch) at 1. apply inb_app; [|exact H2]. apply (selected_coords batch l bs rb); auto.
  - exists q. split; [auto|]. split; [auto|]. split; [rewrite Sq, <- app_assoc; reflexivity|]. split.
    + intros rb Hr. eexists. apply (selected_coords batch l bs rb); auto.
    + intros rb c rr e H1 Hc H2 He. rewrite app_assoc. rewrite Hq by (auto; apply inb_app; auto). destruct (Hin rb rr H1 H2) as [-> ->]. cbv zeta.
      rewrite <- app_assoc. f_equal. f_equal. apply (selects_det batch l rb); [apply HL| |auto]. apply (selected_coords batch l bs rb); auto.
Qed.
Print Assumptions C29_integer_arrays.
Theorem C29_integer_arrays_illegal : forall A (d : A) batch l p, batch <> [] ->
  (~ legal_arrays batch l \/ bshapes (map shp l) = None) -> slice_param_any d batch (IxArrays l) p = Err IndexError.
Proof.
  intros A d batch l p Hne H. apply slice_any_err; [auto|]. cbn [any_index]. unfold int_index. destruct (Nat.ltb_spec (length batch) (length l)) as [|L]; [auto|].
  destruct (bshapes (map shp l)); [|auto]. destruct H as [H|]; [|discriminate]. destruct (forallb _ _) eqn:F; [|auto]. apply legal_forallb in F; auto. contradiction.
Qed.
Print Assumptions C29_integer_arrays_illegal.

(** ** Boolean masks: the true positions, in row-major order. *)
Theorem C29_mask : forall A (d : A) mb rest event (m : tensor bool) p,
  mb ++ rest <> [] -> shp p = (mb ++ rest) ++ event -> shp m = mb ->
  exists q, slice_param_any d (mb ++ rest) (IxMask m) p = Ok q /\ wf q /\
    shp q = length (filter (tget false m) (indices mb)) :: rest ++ event /\
    forall before i after rr e, indices mb = before ++ i :: after -> tget false m i = true -> inb rest rr -> inb event e ->
      tget d q (length (filter (tget false m) before) :: rr ++ e) = tget d p (i ++ rr ++ e).
Proof.
  intros A d mb rest event m p Hne Sp Sm.
  assert (E : any_index (mb ++ rest) (IxMask m) = Ok (length (mask_hits m) :: rest, fun r => nth (hd 0 r) (mask_hits m) [] ++ tl r)).
  { cbn [any_index]. unfold mask_index, rank. rewrite Sm, firstn_app, firstn_all, Nat.sub_diag. cbn [firstn]. rewrite app_nil_r. destruct list_eq_dec; [|congruence].
    rewrite skipn_app, skipn_all, Nat.sub_diag. reflexivity. }
  assert (Hh : forall k, k < length (mask_hits m) -> inb mb (nth k (mask_hits m) [])).
  { intros k Hk. assert (Hi : In (nth k (mask_hits m) []) (mask_hits m)) by (apply nth_In; auto). apply filter_In in Hi as [Hi _]. rewrite Sm in Hi. apply in_indices; auto. }
  destruct (slice_any_ok d (mb ++ rest) event (IxMask m) _ _ p Hne E) as (q & Eq & Wq & Sq & Hq); [|auto|].
  - intros r Hr. inversion Hr as [|k ? r' ? Hk Hr']; subst. cbn [hd tl]. apply inb_app; auto.
  - exists q. split; [auto|]. split; [auto|]. split; [rewrite Sq; unfold mask_hits; rewrite Sm; reflexivity|].
    intros before i after rr e Hi Ht Hr He.
    assert (Eh : mask_hits m = filter (tget false m) before ++ i :: filter (tget false m) after) by (unfold mask_hits; rewrite Sm, Hi, filter_app; cbn [filter]; rewrite Ht; reflexivity).
    specialize (Hq (length (filter (tget false m) before) :: rr) e). cbn [app hd tl] in Hq. rewrite Hq; [|constructor; [rewrite Eh, app_length; cbn; lia|auto]|auto].
    rewrite Eh, nth_middle, <- app_assoc. reflexivity.
Qed.
Print Assumptions C29_mask.
Theorem C29_mask_illegal : forall A (d : A) batch (m : tensor bool) p, batch <> [] ->
  (forall rest, batch <> shp m ++ rest) -> slice_param_any d batch (IxMask m) p = Err IndexError.
Proof.
  intros A d batch m p Hne H. apply slice_any_err; [auto|]. cbn [any_index]. unfold mask_index. destruct list_eq_dec as [E|]; [|auto].
  exfalso. apply (H (skipn (rank m) batch)). rewrite <- E. symmetry. apply firstn_skipn.
Qed.
Print Assumptions C29_mask_illegal.

(** Logits of shape (2, 3, 4), batch (2, 3): by the arrays ([[0], [-1]], [2, 0]) (broadcast to (2, 2)), by one array, and by a mask. *)
Example C29_arrays_nonvacuous :
  let p := tgen [2; 3; 4] (fun i => i) in
  slice_param_any [] [2; 3] (IxArrays [mkT [2; 1] [0; -1]%Z; mkT [2] [2; 0]%Z]) p = Ok (tgen [2; 2; 4] (fun i => [nth 0 i 0; 2 - 2 * nth 1 i 0; nth 2 i 0])) /\
  slice_param_any [] [2; 3] (IxArrays [mkT [3] [1; 1; 0]%Z]) p = Ok (tgen [3; 3; 4] (fun i => [nth (nth 0 i 0) [1; 1; 0] 0; nth 1 i 0; nth 2 i 0])) /\
  slice_param_any [] [2; 3] (IxMask (mkT [2; 3] [true; false; false; false; true; true])) p
    = Ok (tgen [3; 4] (fun i => nth (nth 0 i 0) [[0; 0]; [1; 1]; [1; 2]] [] ++ [nth 1 i 0])) /\
  slice_param_any [] [2; 3] (IxArrays [mkT [1] [2]%Z]) p = Err IndexError /\
  legal_arrays [2; 3] [mkT [2; 1] [0; -1]%Z; mkT [2] [2; 0]%Z].
Proof.
  cbv zeta. do 4 (split; [reflexivity|]). split; [cbn; lia|]. intros [|[|[|j]]] d t z H1 H2 H3; cbn in H1, H2; try discriminate; injection H1 as <-; injection H2 as <-; cbn in H3;
    destruct H3 as [<-|[<-|[]]]; lia.
Qed.
