(** C68: Jittable objects as pytrees. *)
From Coq Require Import List Bool Arith Lia.
From Verif Require Import Base.Result Model.Jittable Spec.Jittable.
Import ListNotations.

Section Proofs.
Context {A S : Type}.
Notation leaf := (leaf A S).
Notation value := (value A S).
Notation treedef := (treedef A S).

(** ** Induction on values, and the list versions of the recursive functions *)
Lemma value_ind' (P : value -> Prop) :
  P VNone -> (forall l, P (VLeaf l)) -> (forall tag cs, Forall P cs -> P (VNode tag cs)) ->
  (forall cls attrs cs, Forall P cs -> P (VObject cls attrs cs)) -> forall v, P v.
Proof.
  intros H1 H2 H3 H4. fix IH 1. intros [|l|tag cs|cls attrs cs]; [exact H1|apply H2|apply H3|apply H4];
    induction cs as [|c cs IHcs]; constructor; auto.
Qed.
Fixpoint flatten_all (cs : list value) : list leaf * list treedef :=
  match cs with
  | [] => ([], [])
  | c :: cs' => let '(ls, d) := flatten c in let '(ls', ds) := flatten_all cs' in (ls ++ ls', d :: ds)
  end.
Fixpoint unflatten_all (ds : list treedef) (ls : list value) : result (list value * list value) :=
  match ds with
  | [] => Ok ([], ls)
  | d :: ds' => do (v, rest) <- unflatten d ls; do (vs, rest') <- unflatten_all ds' rest; Ok (v :: vs, rest')
  end.
Fixpoint replace_all (inside : bool) (cs : list value) (ls : list value) : list value * list value :=
  match cs with
  | [] => ([], ls)
  | c :: cs' => let '(c1, rest) := replace inside c ls in let '(cs1, rest') := replace_all inside cs' rest in (c1 :: cs1, rest')
  end.
Lemma flatten_node tag cs : flatten (VNode tag cs) = (fst (flatten_all cs), TNode tag (snd (flatten_all cs))).
Proof. change (flatten (VNode tag cs)) with (let '(ls, ds) := flatten_all cs in (ls, TNode tag ds) : list leaf * treedef). destruct (flatten_all cs); reflexivity. Qed.
Lemma flatten_object cls attrs cs : flatten (VObject cls attrs cs) =
  let leaves := fst (flatten_all cs) in
  let children := map (fun l => if is_jax_data l then Some l else None) leaves in
  (flat_map (fun c => match c with Some l => [l] | None => [] end) children,
   TObject cls (map (fun l => if is_jax_data l then None else Some l) leaves) (map is_jax_data leaves) (TNode attrs (snd (flatten_all cs)))
     (map (fun c => match c with Some _ => TLeaf | None => TNone end) children)).
Proof.
  transitivity (let '(leaves, ds) := flatten_all cs in
    (flat_map (fun c => match c with Some l => [l] | None => [] end) (map (fun l => if is_jax_data l then Some l else None) leaves),
     TObject cls (map (fun l => if is_jax_data l then None else Some l) leaves) (map is_jax_data leaves) (TNode attrs ds)
       (map (fun c => match c with Some _ => TLeaf | None => TNone end) (map (fun l => if is_jax_data l then Some l else None) leaves))) : list leaf * treedef);
    [reflexivity|]. destruct (flatten_all cs); reflexivity.
Qed.
Lemma unflatten_node tag ds ls : unflatten (TNode tag ds) ls = (do (vs, rest) <- unflatten_all ds ls; Ok (VNode tag vs, rest)).
Proof. reflexivity. Qed.
Lemma unflatten_object cls md sw def chs ls : unflatten (TObject cls md sw def chs) ls =
  (do (js, rest) <- unflatten_all chs ls;
   do (dict, extra) <- unflatten def (select js md sw);
   match extra, dict with [], VNode attrs cs => Ok (VObject cls attrs cs, rest) | _, _ => Err ValueError end).
Proof. reflexivity. Qed.
Lemma replace_node i tag cs ls : replace i (VNode tag cs) ls = (VNode tag (fst (replace_all i cs ls)), snd (replace_all i cs ls)).
Proof. change (replace i (VNode tag cs) ls) with (let '(cs', rest) := replace_all i cs ls in (VNode tag cs', rest) : value * list value). destruct (replace_all i cs ls); reflexivity. Qed.
Lemma replace_object i cls attrs cs ls : replace i (VObject cls attrs cs) ls = (VObject cls attrs (fst (replace_all true cs ls)), snd (replace_all true cs ls)).
Proof. change (replace i (VObject cls attrs cs) ls) with (let '(cs', rest) := replace_all true cs ls in (VObject cls attrs cs', rest) : value * list value). destruct (replace_all true cs ls); reflexivity. Qed.

(** ** Leaves *)
Lemma all_leaves (cs : list value) : Forall (fun v : value => fst (flatten v) = data_leaves false v) cs -> fst (flatten_all cs) = flat_map (data_leaves false) cs.
Proof.
  induction 1 as [|c cs H _ IH]; [reflexivity|]. cbn [flatten_all flat_map]. rewrite <- H, <- IH.
  destruct (flatten c), (flatten_all cs); reflexivity.
Qed.
Lemma filter_flat_map {X Y} (f : Y -> bool) (g h : X -> list Y) l : Forall (fun x => filter f (g x) = h x) l -> filter f (flat_map g l) = flat_map h l.
Proof. induction 1 as [|x l H _ IH]; [reflexivity|]. cbn. rewrite filter_app, H, IH. reflexivity. Qed.
Lemma static_data (l : leaf) : static l = negb (is_jax_data l). Proof. destruct l; reflexivity. Qed.
Lemma data_static (l : leaf) : static l = false -> is_jax_data l = true. Proof. destruct l; (reflexivity || discriminate). Qed.
Lemma filter_data (v : value) : filter is_jax_data (data_leaves false v) = data_leaves true v /\ filter is_jax_data (data_leaves true v) = data_leaves true v.
Proof.
  induction v as [|l|tag cs IH|cls attrs cs IH] using value_ind'; cbn [data_leaves andb].
  - auto.
  - rewrite static_data. cbn [filter]. destruct (is_jax_data l) eqn:E; cbn [negb filter]; rewrite ?E; auto.
  - split; apply filter_flat_map; apply (Forall_impl _ (fun v H => proj1 H) IH) || apply (Forall_impl _ (fun v H => proj2 H) IH).
  - split; apply filter_flat_map; apply (Forall_impl _ (fun v H => proj2 H) IH).
Qed.
Lemma children_filter (ls : list leaf) :
  flat_map (fun c => match c with Some l => [l] | None => [] end) (map (fun l => if is_jax_data l then Some l else None) ls) = filter is_jax_data ls.
Proof. induction ls as [|l ls IH]; [reflexivity|]. cbn. rewrite IH. destruct (is_jax_data l); reflexivity. Qed.
Lemma flatten_leaves (v : value) : fst (flatten v) = data_leaves false v.
Proof.
  induction v as [|l|tag cs IH|cls attrs cs IH] using value_ind'.
  - reflexivity.
  - reflexivity.
  - rewrite flatten_node. cbn [fst data_leaves]. apply all_leaves; auto.
  - rewrite flatten_object. cbv zeta. cbn [fst data_leaves]. rewrite children_filter, (all_leaves _ IH).
    apply filter_flat_map. apply Forall_forall. intros v _. apply filter_data.
Qed.

(** ** Replacement *)
Lemma skipn_twice {X} (a b : nat) : forall l : list X, skipn a (skipn b l) = skipn (b + a) l.
Proof. induction b as [|b IH]; intros [|x l]; cbn; auto. destruct a; reflexivity. Qed.
Lemma replace_rest i (v : value) : forall ls, length (data_leaves i v) <= length ls -> snd (replace i v ls) = skipn (length (data_leaves i v)) ls.
Proof.
  assert (G : forall i cs, Forall (fun v : value => forall i ls, length (data_leaves i v) <= length ls -> snd (replace i v ls) = skipn (length (data_leaves i v)) ls) cs ->
    forall ls, length (flat_map (data_leaves i) cs) <= length ls -> snd (replace_all i cs ls) = skipn (length (flat_map (data_leaves i) cs)) ls).
  { intros j cs. induction 1 as [|c cs H _ IH]; intros ls Hl; [reflexivity|]. cbn [flat_map replace_all] in *. rewrite app_length in *.
    specialize (H j ls ltac:(lia)). destruct (replace j c ls) as [c1 rest]. cbn [snd] in H. subst rest.
    specialize (IH (skipn (length (data_leaves j c)) ls) ltac:(rewrite skipn_length; lia)).
    destruct (replace_all j cs _) as [cs1 rest']. cbn [snd] in *. rewrite IH, skipn_twice. reflexivity. }
  revert i. induction v as [|l|tag cs IH|cls attrs cs IH] using value_ind'; intros i ls Hl.
  - reflexivity.
  - cbn [replace data_leaves] in *. rewrite static_data in *. destruct (i && negb (is_jax_data l)); [reflexivity|]. destruct ls; [cbn in Hl; lia|reflexivity].
  - rewrite replace_node. cbn [snd data_leaves]. apply G; auto.
  - rewrite replace_object. cbn [snd data_leaves]. apply G; auto.
Qed.
(** filling the leaves of an object: JAX data from the given list, the rest from the metadata *)
Fixpoint fill (leaves : list leaf) (ls : list value) : list value :=
  match leaves with
  | [] => []
  | l :: leaves' => if is_jax_data l then match ls with r :: rest => r :: fill leaves' rest | [] => [] end else VLeaf l :: fill leaves' ls
  end.
Lemma fill_data (v : value) : forall L ls, length (data_leaves true v) <= length ls ->
  replace false v (fill (data_leaves false v ++ L) ls) = (fst (replace true v ls), fill L (snd (replace true v ls))) /\
  replace true v (fill (data_leaves true v ++ L) ls) = (fst (replace true v ls), fill L (snd (replace true v ls))).
Proof.
  assert (G : forall b cs, Forall (fun v : value => forall L ls, length (data_leaves true v) <= length ls ->
        replace false v (fill (data_leaves false v ++ L) ls) = (fst (replace true v ls), fill L (snd (replace true v ls))) /\
        replace true v (fill (data_leaves true v ++ L) ls) = (fst (replace true v ls), fill L (snd (replace true v ls)))) cs ->
      forall L ls, length (flat_map (data_leaves true) cs) <= length ls ->
        replace_all b cs (fill (flat_map (data_leaves b) cs ++ L) ls) = (fst (replace_all true cs ls), fill L (snd (replace_all true cs ls)))).
  { intros b cs. induction 1 as [|c cs H _ IH]; intros L ls Hl; [reflexivity|]. cbn [flat_map replace_all] in *. rewrite app_length in Hl.
    destruct (H (flat_map (data_leaves b) cs ++ L) ls ltac:(lia)) as [H1 H2].
    rewrite <- app_assoc.
    assert (E : replace b c (fill (data_leaves b c ++ flat_map (data_leaves b) cs ++ L) ls) =
      (fst (replace true c ls), fill (flat_map (data_leaves b) cs ++ L) (snd (replace true c ls)))) by (destruct b; auto).
    rewrite E. pose proof (replace_rest true c ls ltac:(lia)) as R.
    destruct (replace true c ls) as [c1 rest]. cbn [fst snd] in *.
    rewrite (IH L rest) by (subst rest; rewrite skipn_length; lia). destruct (replace_all true cs rest). reflexivity. }
  induction v as [|l|tag cs IH|cls attrs cs IH] using value_ind'; intros L ls Hl.
  - split; reflexivity.
  - cbn [data_leaves replace andb] in *. rewrite static_data in *. destruct (is_jax_data l) eqn:E; cbn [negb app] in *.
    + cbn [fill]. rewrite E. destruct ls as [|r rest]; [cbn in Hl; lia|]. split; reflexivity.
    + cbn [fill]. rewrite E. split; reflexivity.
  - rewrite !replace_node. cbn [data_leaves fst snd] in *. split; rewrite G by auto; reflexivity.
  - rewrite !replace_object. cbn [data_leaves fst snd] in *. rewrite G by auto. auto.
Qed.
Lemma children_select (leaves : list leaf) : forall ls, length (filter is_jax_data leaves) <= length ls ->
  exists js, unflatten_all (map (fun c : option leaf => match c with Some _ => TLeaf | None => TNone end) (map (fun l => if is_jax_data l then Some l else None) leaves)) ls
    = Ok (js, skipn (length (filter is_jax_data leaves)) ls) /\
    select js (map (fun l => if is_jax_data l then None else Some l) leaves) (map is_jax_data leaves) = fill leaves ls.
Proof.
  induction leaves as [|l leaves IH]; intros ls Hl; [exists []; auto|]. cbn [map filter fill] in *. destruct (is_jax_data l) eqn:E.
  - cbn [length] in *. destruct ls as [|r rest]; [cbn in Hl; lia|]. destruct (IH rest ltac:(cbn in Hl; lia)) as (js & E1 & E2).
    exists (r :: js). cbn [unflatten_all unflatten rbind]. rewrite E1. cbn [rbind skipn select]. rewrite E2. auto.
  - destruct (IH ls Hl) as (js & E1 & E2). exists (VNone :: js). cbn [unflatten_all unflatten rbind]. rewrite E1. cbn [rbind select]. rewrite E2. auto.
Qed.
Lemma unflatten_replace (v : value) : forall ls, length (data_leaves false v) <= length ls -> unflatten (snd (flatten v)) ls = Ok (replace false v ls).
Proof.
  assert (G : forall cs, Forall (fun v : value => forall ls, length (data_leaves false v) <= length ls -> unflatten (snd (flatten v)) ls = Ok (replace false v ls)) cs ->
    forall ls, length (flat_map (data_leaves false) cs) <= length ls -> unflatten_all (snd (flatten_all cs)) ls = Ok (replace_all false cs ls)).
  { induction 1 as [|c cs H _ IH]; intros ls Hl; [reflexivity|]. cbn [flat_map flatten_all replace_all] in *. rewrite app_length in Hl.
    specialize (H ls ltac:(lia)). pose proof (replace_rest false c ls ltac:(lia)) as R.
    destruct (flatten c) as [l1 d1]. destruct (flatten_all cs) as [l2 d2]. cbn [snd unflatten_all] in *. rewrite H. cbn [rbind].
    destruct (replace false c ls) as [c1 rest]. cbn [snd] in R. rewrite (IH rest) by (subst rest; rewrite skipn_length; lia). cbn [rbind].
    destruct (replace_all false cs rest). reflexivity. }
  induction v as [|l|tag cs IH|cls attrs cs IH] using value_ind'; intros ls Hl.
  - reflexivity.
  - cbn in *. destruct ls; [cbn in Hl; lia|reflexivity].
  - rewrite flatten_node. cbn [snd]. rewrite unflatten_node, (G cs IH ls Hl). cbn [rbind]. rewrite replace_node. destruct (replace_all false cs ls); reflexivity.
  - rewrite flatten_object. cbv zeta. cbn [snd]. rewrite unflatten_object.
    assert (EL : fst (flatten_all cs) = flat_map (data_leaves false) cs) by (apply all_leaves; apply Forall_forall; intros; apply flatten_leaves).
    assert (EF : filter is_jax_data (flat_map (data_leaves false) cs) = flat_map (data_leaves true) cs)
      by (apply filter_flat_map, Forall_forall; intros; apply filter_data).
    cbn [data_leaves] in Hl. rewrite EL.
    destruct (children_select (flat_map (data_leaves false) cs) ls ltac:(rewrite EF; auto)) as (js & E1 & E2). rewrite E1. cbn [rbind]. rewrite E2, EF. clear E1 E2.
    rewrite unflatten_node.
    pose proof (proj1 (fill_data (VNode [] cs) [] ls Hl)) as F. cbn [data_leaves] in F. rewrite app_nil_r, !replace_node in F. cbn [fst snd fill] in F.
    injection F as F1 F2.
    rewrite (G cs IH).
    + cbn [rbind]. rewrite replace_object. rewrite (surjective_pairing (replace_all false cs _)), F1, F2. cbn [rbind].
      do 2 f_equal. pose proof (replace_rest true (VNode [] cs) ls Hl) as R. rewrite replace_node in R. cbn [snd data_leaves] in R. rewrite R. reflexivity.
    + clear - Hl EF. revert ls Hl. rewrite <- EF. generalize (flat_map (data_leaves false) cs). intros L.
      induction L as [|l L IH]; intros ls Hl; [cbn; lia|]. cbn [filter fill] in *. destruct (is_jax_data l).
      * destruct ls as [|r rest]; [cbn in Hl; lia|]. cbn in *. specialize (IH rest ltac:(lia)). lia.
      * cbn. specialize (IH ls Hl). lia.
Qed.
Lemma replace_id (v : value) : forall i ls, replace i v (map VLeaf (data_leaves i v) ++ ls) = (v, ls).
Proof.
  assert (G : forall cs, Forall (fun v : value => forall i ls, replace i v (map VLeaf (data_leaves i v) ++ ls) = (v, ls)) cs ->
    forall i ls, replace_all i cs (map VLeaf (flat_map (data_leaves i) cs) ++ ls) = (cs, ls)).
  { induction 1 as [|c cs H _ IH]; intros i ls; [reflexivity|]. cbn [flat_map replace_all]. rewrite map_app, <- app_assoc, H, IH. reflexivity. }
  induction v as [|l|tag cs IH|cls attrs cs IH] using value_ind'; intros i ls.
  - reflexivity.
  - cbn [data_leaves replace]. destruct (i && static l); reflexivity.
  - rewrite replace_node. cbn [data_leaves]. rewrite (G cs IH). reflexivity.
  - rewrite replace_object. cbn [data_leaves]. rewrite (G cs IH). reflexivity.
Qed.

(** ** Theorems *)
(** The leaves of an object are its JAX data, all of it, in order, and nothing else. *)
Theorem C68_leaves cls attrs (cs : list value) :
  fst (flatten (VObject cls attrs cs)) = flat_map (data_leaves true) cs /\
  Forall (fun l => static l = false) (fst (flatten (VObject cls attrs cs))).
Proof.
  rewrite flatten_leaves. cbn [data_leaves]. split; [reflexivity|]. apply Forall_forall. intros l Hl.
  assert (E : filter is_jax_data (flat_map (data_leaves true) cs) = flat_map (data_leaves true) cs)
    by (apply filter_flat_map, Forall_forall; intros; apply filter_data).
  rewrite <- E in Hl. apply filter_In in Hl. rewrite static_data, (proj2 Hl). reflexivity.
Qed.
(** Flattening and unflattening is the identity. *)
Theorem C68_round_trip (v : value) : tree_unflatten (snd (flatten v)) (map VLeaf (fst (flatten v))) = Ok v.
Proof.
  unfold tree_unflatten. rewrite flatten_leaves, unflatten_replace by (rewrite map_length; lia).
  rewrite <- (app_nil_r (map VLeaf _)), replace_id. reflexivity.
Qed.
(** Unflattening with any other leaves, of any kind, replaces exactly the leaves. *)
Theorem C68_substitute (v : value) (ls : list value) :
  length ls = length (fst (flatten v)) -> tree_unflatten (snd (flatten v)) ls = Ok (fst (replace false v ls)).
Proof.
  intros H. unfold tree_unflatten. rewrite flatten_leaves in H. rewrite unflatten_replace by lia.
  pose proof (replace_rest false v ls ltac:(lia)) as R. rewrite <- H, skipn_all in R. cbn [rbind].
  destruct (replace false v ls) as [w rest]. cbn [snd] in R. rewrite R. reflexivity.
Qed.
(** ... and the wrong number of leaves is an error. *)
Theorem C68_too_many (v : value) (ls : list value) :
  length (fst (flatten v)) < length ls -> tree_unflatten (snd (flatten v)) ls = Err ValueError.
Proof.
  intros H. unfold tree_unflatten. rewrite flatten_leaves in H. rewrite unflatten_replace by lia.
  pose proof (replace_rest false v ls ltac:(lia)) as R. cbn [rbind].
  destruct (replace false v ls) as [w rest]. cbn [snd] in R. rewrite R.
  destruct (skipn _ ls) eqn:E; [|reflexivity]. apply (f_equal (@length value)) in E. rewrite skipn_length in E. cbn in E. lia.
Qed.
(** too few leaves *)
Lemma children_few leaves : forall ls, length ls < length (filter is_jax_data leaves) ->
  unflatten_all (map (fun c : option leaf => match c with Some _ => TLeaf | None => TNone end) (map (fun l => if is_jax_data l then Some l else None) leaves)) ls
    = Err ValueError.
Proof.
  induction leaves as [|l leaves IH]; intros ls Hl; [cbn in Hl; lia|]. cbn [map filter] in *. destruct (is_jax_data l) eqn:E.
  - cbn [length] in Hl. destruct ls as [|r rest]; [reflexivity|]. cbn [unflatten_all unflatten rbind]. rewrite (IH rest) by (cbn in Hl; lia). reflexivity.
  - cbn [unflatten_all unflatten rbind]. rewrite (IH ls Hl). reflexivity.
Qed.
Lemma unflatten_few (v : value) : forall ls, length ls < length (data_leaves false v) -> unflatten (snd (flatten v)) ls = Err ValueError.
Proof.
  assert (G : forall cs, Forall (fun v : value => forall ls, length ls < length (data_leaves false v) -> unflatten (snd (flatten v)) ls = Err ValueError) cs ->
    forall ls, length ls < length (flat_map (data_leaves false) cs) -> unflatten_all (snd (flatten_all cs)) ls = Err ValueError).
  { induction 1 as [|c cs H _ IH]; intros ls Hl; [cbn in Hl; lia|]. cbn [flat_map flatten_all] in *. rewrite app_length in Hl.
    destruct (le_lt_dec (length (data_leaves false c)) (length ls)) as [L|L].
    - pose proof (unflatten_replace c ls L) as R. pose proof (replace_rest false c ls L) as R'.
      destruct (flatten c) as [l1 d1]. destruct (flatten_all cs) as [l2 d2]. cbn [snd unflatten_all] in *. rewrite R.
      destruct (replace false c ls) as [c1 rest]. cbn [snd rbind] in *. rewrite (IH rest) by (subst rest; rewrite skipn_length; lia). reflexivity.
    - specialize (H ls L). destruct (flatten c) as [l1 d1]. destruct (flatten_all cs) as [l2 d2]. cbn [snd unflatten_all] in *. rewrite H. reflexivity. }
  induction v as [|l|tag cs IH|cls attrs cs IH] using value_ind'; intros ls Hl.
  - cbn in Hl. lia.
  - cbn in *. destruct ls; [reflexivity|cbn in Hl; lia].
  - rewrite flatten_node. cbn [snd]. rewrite unflatten_node, (G cs IH ls Hl). reflexivity.
  - rewrite flatten_object. cbv zeta. cbn [snd]. rewrite unflatten_object.
    assert (EL : fst (flatten_all cs) = flat_map (data_leaves false) cs) by (apply all_leaves; apply Forall_forall; intros; apply flatten_leaves).
    assert (EF : filter is_jax_data (flat_map (data_leaves false) cs) = flat_map (data_leaves true) cs)
      by (apply filter_flat_map, Forall_forall; intros; apply filter_data).
    cbn [data_leaves] in Hl. rewrite EL, children_few by (rewrite EF; exact Hl). reflexivity.
Qed.
Theorem C68_too_few (v : value) (ls : list value) :
  length ls < length (fst (flatten v)) -> tree_unflatten (snd (flatten v)) ls = Err ValueError.
Proof. intros H. unfold tree_unflatten. rewrite flatten_leaves in H. rewrite (unflatten_few v ls H). reflexivity. Qed.
(** Substituting JAX data for JAX data keeps the structure, so the result can be passed to the same compiled function. *)
Theorem C68_same_structure (v : value) (ls : list leaf) w :
  length ls = length (fst (flatten v)) -> Forall (fun l => static l = false) ls ->
  tree_unflatten (snd (flatten v)) (map VLeaf ls) = Ok w -> flatten w = (ls, snd (flatten v)).
Proof.
  intros Hl Hj0 H. assert (Hj : Forall (fun l => is_jax_data l = true) ls) by (apply (Forall_impl _ (fun l Q => data_static l Q) Hj0)).
  clear Hj0. rewrite C68_substitute in H by (rewrite map_length; auto). injection H as <-.
  (* general statement: replacing the leaves by JAX data *)
  assert (M : forall (v : value) b (ls : list leaf), Forall (fun l => is_jax_data l = true) ls -> length (data_leaves b v) <= length ls ->
     fst (flatten (fst (replace b v (map VLeaf ls)))) = (if b then fst (flatten (fst (replace b v (map VLeaf ls)))) else firstn (length (data_leaves b v)) ls) /\
     data_leaves b (fst (replace b v (map VLeaf ls))) = firstn (length (data_leaves b v)) ls /\
     snd (flatten (fst (replace b v (map VLeaf ls)))) = snd (flatten v) /\
     map is_jax_data (fst (flatten (fst (replace b v (map VLeaf ls))))) = (if b then map is_jax_data (fst (flatten v)) else repeat true (length (data_leaves b v))) /\
     (b = true -> map (fun l => if is_jax_data l then None else Some l) (fst (flatten (fst (replace b v (map VLeaf ls))))) =
                  map (fun l => if is_jax_data l then None else Some l) (fst (flatten v)))).
  2: { destruct (M v false ls Hj) as (M1 & _ & M3 & _); [rewrite flatten_leaves in Hl; lia|].
       rewrite (surjective_pairing (flatten _)), M1, M3. rewrite flatten_leaves in Hl. rewrite <- Hl, firstn_all. reflexivity. }
  clear v ls Hl Hj.
  assert (J : forall ls : list leaf, Forall (fun l => is_jax_data l = true) ls -> forall k, map is_jax_data (firstn k ls) = repeat true (length (firstn k ls))).
  { intros ls H. induction H as [|l ls E _ IH]; intros k; [destruct k; reflexivity|]. destruct k; [reflexivity|]. cbn. rewrite E, IH. reflexivity. }
  (* list version, as one statement about replace_all *)
  assert (G : forall cs, Forall (fun v : value => forall b (ls : list leaf), Forall (fun l => is_jax_data l = true) ls -> length (data_leaves b v) <= length ls ->
     fst (flatten (fst (replace b v (map VLeaf ls)))) = (if b then fst (flatten (fst (replace b v (map VLeaf ls)))) else firstn (length (data_leaves b v)) ls) /\
     data_leaves b (fst (replace b v (map VLeaf ls))) = firstn (length (data_leaves b v)) ls /\
     snd (flatten (fst (replace b v (map VLeaf ls)))) = snd (flatten v) /\
     map is_jax_data (fst (flatten (fst (replace b v (map VLeaf ls))))) = (if b then map is_jax_data (fst (flatten v)) else repeat true (length (data_leaves b v))) /\
     (b = true -> map (fun l => if is_jax_data l then None else Some l) (fst (flatten (fst (replace b v (map VLeaf ls))))) =
                  map (fun l => if is_jax_data l then None else Some l) (fst (flatten v)))) cs ->
     forall b ls, Forall (fun l => is_jax_data l = true) ls -> length (flat_map (data_leaves b) cs) <= length ls ->
     let cs' := fst (replace_all b cs (map VLeaf ls)) in
     flat_map (data_leaves b) cs' = firstn (length (flat_map (data_leaves b) cs)) ls /\
     snd (flatten_all cs') = snd (flatten_all cs) /\
     map is_jax_data (fst (flatten_all cs')) = (if b then map is_jax_data (fst (flatten_all cs)) else repeat true (length (flat_map (data_leaves b) cs))) /\
     (b = true -> map (fun l => if is_jax_data l then None else Some l) (fst (flatten_all cs')) =
                  map (fun l => if is_jax_data l then None else Some l) (fst (flatten_all cs)))).
  { induction 1 as [|c cs H _ IH]; intros b ls Hj Hl.
    - cbn. split; [auto|]. split; [auto|]. split; [destruct b; auto|auto].
    - cbv zeta. cbn [flat_map replace_all] in *. rewrite app_length in Hl.
      destruct (H b ls Hj ltac:(lia)) as (_ & H2 & H3 & H4 & H5).
      pose proof (replace_rest b c (map VLeaf ls) ltac:(rewrite map_length; lia)) as R.
      destruct (replace b c (map VLeaf ls)) as [c1 rest]. cbn [fst snd] in *. rewrite skipn_map in R. subst rest.
      assert (Hj' : Forall (fun l => is_jax_data l = true) (skipn (length (data_leaves b c)) ls)).
      { apply Forall_forall. intros l Hin. apply (proj1 (Forall_forall _ _) Hj). rewrite <- (firstn_skipn (length (data_leaves b c)) ls). apply in_or_app; auto. }
      specialize (IH b (skipn (length (data_leaves b c)) ls) Hj' ltac:(rewrite skipn_length; lia)). cbv zeta in IH. destruct IH as (I2 & I3 & I4 & I5).
      destruct (replace_all b cs (map VLeaf (skipn (length (data_leaves b c)) ls))) as [cs1 rest']. cbn [fst] in *. cbn [flat_map flatten_all].
      destruct (flatten c1) as [lc1 dc1]. destruct (flatten c) as [lc dc]. destruct (flatten_all cs1) as [l1 d1]. destruct (flatten_all cs) as [l0 d0].
      cbn [fst snd] in *. rewrite H2, I2, app_length. split.
      + clear. generalize (length (flat_map (data_leaves b) cs)) (length (data_leaves b c)). intros m k. revert ls.
        induction k as [|k IH]; intros ls; [reflexivity|]. destruct ls as [|l ls]; [cbn; rewrite firstn_nil; reflexivity|]. cbn. rewrite IH. reflexivity.
      + split; [rewrite H3, I3; auto|]. split.
        * rewrite !map_app, H4, I4. destruct b; [reflexivity|]. rewrite repeat_app. reflexivity.
        * intros Hb. rewrite !map_app, H5, I5 by auto. reflexivity. }
  induction v as [|l|tag cs IH|cls attrs cs IH] using value_ind'; intros b ls Hj Hl.
  - cbn. destruct b; repeat split; auto.
  - cbn [replace data_leaves] in *. rewrite static_data in *. destruct (b && negb (is_jax_data l)) eqn:E.
    + apply andb_prop in E as [-> E]. cbn [fst]. split; [auto|]. split; [|auto]. cbn. rewrite static_data, E. reflexivity.
    + destruct ls as [|r rest]; [cbn in Hl; lia|]. inversion Hj as [|? ? Hr _]; subst. cbn [map fst flatten snd length firstn].
      split; [destruct b; reflexivity|]. split; [cbn; rewrite static_data, Hr, andb_false_r; reflexivity|]. split; [reflexivity|].
      split; [|intros ->]; cbn [map]; rewrite Hr.
      * destruct b; [|reflexivity]. cbn in E. apply negb_false_iff in E. rewrite E. reflexivity.
      * cbn in E. apply negb_false_iff in E. rewrite E. reflexivity.
  - rewrite replace_node. cbn [fst]. destruct (G cs IH b ls Hj Hl) as (G2 & G3 & G4 & G5). cbv zeta in *.
    rewrite !flatten_node. cbn [fst snd data_leaves] in *. split.
    + destruct b; [reflexivity|]. rewrite <- G2. apply all_leaves, Forall_forall. intros; apply flatten_leaves.
    + split; [auto|]. split; [rewrite G3; auto|]. split; auto.
  - rewrite replace_object. cbn [fst]. cbn [data_leaves] in Hl. destruct (G cs IH true ls Hj Hl) as (G2 & G3 & G4 & G5). cbv zeta in *. specialize (G5 eq_refl).
    set (cs' := fst (replace_all true cs (map VLeaf ls))) in *.
    assert (L1 : fst (flatten (VObject cls attrs cs')) = firstn (length (flat_map (data_leaves true) cs)) ls).
    { rewrite flatten_leaves. cbn [data_leaves]. exact G2. }
    assert (L0 : fst (flatten (VObject cls attrs cs)) = flat_map (data_leaves true) cs) by (rewrite flatten_leaves; reflexivity).
    assert (LL : length (firstn (length (flat_map (data_leaves true) cs)) ls) = length (flat_map (data_leaves true) cs)) by (rewrite firstn_length; lia).
    assert (JJ : Forall (fun l => is_jax_data l = true) (flat_map (data_leaves true) cs)).
    { apply Forall_forall. intros l Hin. assert (E : filter is_jax_data (flat_map (data_leaves true) cs) = flat_map (data_leaves true) cs)
        by (apply filter_flat_map, Forall_forall; intros; apply filter_data). rewrite <- E in Hin. apply filter_In in Hin. apply Hin. }
    assert (J0 : map is_jax_data (flat_map (data_leaves true) cs) = repeat true (length (flat_map (data_leaves true) cs))).
    { pose proof (J _ JJ (length (flat_map (data_leaves true) cs))) as J'. rewrite firstn_all in J'. exact J'. }
    split; [rewrite L1; destruct b; reflexivity|]. split; [exact G2|]. split.
    + rewrite !flatten_object. cbv zeta. cbn [snd]. rewrite G3, G5, G4. f_equal. rewrite !map_map.
      assert (C : forall ls : list leaf, map (fun x => match (if is_jax_data x then Some x else None) with Some _ => TLeaf | None => TNone end) ls
                = map (fun s : bool => if s then TLeaf else TNone : treedef) (map is_jax_data ls)).
      { intros l. rewrite map_map. apply map_ext. intros x. destruct (is_jax_data x); reflexivity. }
      rewrite !C, G4. reflexivity.
    + rewrite L1, L0, (J _ Hj), LL, J0. split; [cbn [data_leaves]; destruct b; reflexivity|]. intros _.
      assert (N : forall ls : list leaf, Forall (fun l => is_jax_data l = true) ls -> map (fun l => if is_jax_data l then None else Some l) ls = repeat None (length ls)).
      { intros l H. induction H as [|x l E _ IHl]; [reflexivity|]. cbn. rewrite E, IHl. reflexivity. }
      rewrite (N _ JJ), N; [rewrite LL; reflexivity|]. apply Forall_forall. intros l Hin. apply (proj1 (Forall_forall _ _) Hj).
      rewrite <- (firstn_skipn (length (flat_map (data_leaves true) cs)) ls). apply in_or_app; auto.
Qed.
(** A Python number is not JAX data: substituting one (as [jax.tree_util.tree_map(float, obj)] does) turns the leaf into a
    constant of the structure. *)
Theorem C68_primitive_refuted (a : A) (s : S) :
  exists w : value, tree_unflatten (snd (flatten (VObject 0 [0] [VLeaf (Array a)] : value))) [VLeaf (Primitive s)] = Ok w /\
    fst (flatten (VObject 0 [0] [VLeaf (Array a)] : value)) = [Array a] /\ fst (flatten w) = [] /\ snd (flatten w) <> snd (flatten (VObject 0 [0] [VLeaf (Array a)] : value)).
Proof. eexists. split; [reflexivity|]. split; [reflexivity|]. split; [reflexivity|]. cbn. discriminate. Qed.
End Proofs.

(** Non-vacuity: a distribution with a nested bijector, a dtype and None attributes. *)
Example C68_nonvacuous :
  let inner := VObject 1 [10; 11] [VLeaf (Primitive 7); VLeaf (Array 3)] in
  let obj : value nat nat := VObject 2 [20; 21; 22] [inner; VNone; VNode [30] [VLeaf (Opaque 8); VLeaf (Array 4)]] in
  fst (flatten obj) = [Array 3; Array 4] /\
  tree_unflatten (snd (flatten obj)) (map VLeaf [Tracer 5; Array 6]) =
    Ok (VObject 2 [20; 21; 22] [VObject 1 [10; 11] [VLeaf (Primitive 7); VLeaf (Tracer 5)]; VNone; VNode [30] [VLeaf (Opaque 8); VLeaf (Array 6)]]).
Proof. split; reflexivity. Qed.
