(** Infrastructure: the slices of an array along its first axis, and mapping over them (jax.vmap). *)
From Coq Require Import List Arith Lia.
From Verif Require Import Base.Result Base.Tensor.
Import ListNotations.

(** [x[i]] for an array of rank at least 1 *)
Definition trow {A} (i : nat) (t : tensor A) : tensor A :=
  let s := tl (shp t) in mkT s (firstn (prodl s) (skipn (i * prodl s) (dat t))).
(** [jnp.stack]: equal-shaped arrays along a new first axis (of an empty list: ValueError) *)
Definition tstack {A} (l : list (tensor A)) : result (tensor A) :=
  match l with
  | [] => Err ValueError
  | t :: _ => if forallb (fun u => if list_eq_dec Nat.eq_dec (shp u) (shp t) then true else false) l
              then Ok (mkT (length l :: shp t) (concat (map dat l))) else Err ValueError
  end.
Definition lead_size {A} (t : tensor A) : nat := hd 0 (shp t).
(** [jax.vmap(f)(x)]: [f] on every slice along the first axis, results stacked.  (For an axis of
    size 0 JAX returns an empty array; that case is [Err] here.) *)
Definition vmap {A B} (f : tensor A -> result (tensor B)) (x : tensor A) : result (tensor B) :=
  do l <- rmapM (fun i => f (trow i x)) (seq 0 (lead_size x)); tstack l.
(** [jax.vmap(f)(x)] for [f] returning a pair *)
Definition vmap_pair {A B C} (f : tensor A -> result (tensor B * tensor C)) (x : tensor A)
  : result (tensor B * tensor C) :=
  do l <- rmapM (fun i => f (trow i x)) (seq 0 (lead_size x));
  do a <- tstack (map fst l); do b <- tstack (map snd l); Ok (a, b).
(** [jax.vmap(f)(x, y)] *)
Definition vmap2 {A B C} (f : tensor A -> tensor B -> result (tensor C)) (x : tensor A) (y : tensor B)
  : result (tensor C) :=
  if Nat.eqb (lead_size x) (lead_size y) then
    do l <- rmapM (fun i => f (trow i x) (trow i y)) (seq 0 (lead_size x)); tstack l
  else Err ValueError.

Lemma rmapM_length {A B} (f : A -> result B) l r : rmapM f l = Ok r -> length r = length l.
Proof.
  revert r; induction l as [|a l IH]; cbn; intros r H; [injection H as <-; auto|].
  apply rbind_ok_inv in H as (b & Hb & H). apply rbind_ok_inv in H as (bs & Hbs & H). injection H as <-.
  cbn. f_equal. auto.
Qed.
Lemma rmapM_nth {A B} (f : A -> result B) l r i da db : rmapM f l = Ok r -> i < length l -> f (nth i l da) = Ok (nth i r db).
Proof.
  revert r i; induction l as [|a l IH]; cbn; intros r i H Hi; [lia|].
  apply rbind_ok_inv in H as (b & Hb & H). apply rbind_ok_inv in H as (bs & Hbs & H). injection H as <-.
  destruct i; cbn; auto. apply IH; auto; lia.
Qed.
Lemma rmapM_of_nth {A B} (f : A -> result B) l r da db : length r = length l ->
  (forall i, i < length l -> f (nth i l da) = Ok (nth i r db)) -> rmapM f l = Ok r.
Proof.
  revert r; induction l as [|a l IH]; intros [|b r] L H; cbn in *; try discriminate; auto.
  rewrite (H 0 ltac:(lia)). cbn. rewrite (IH r); cbn; auto. intros i Hi. apply (H (S i)). lia.
Qed.
Lemma rmapM_ext_in {A B} (f g : A -> result B) l : (forall a, In a l -> f a = g a) -> rmapM f l = rmapM g l.
Proof.
  induction l as [|a l IH]; cbn; intros H; auto. rewrite H by auto. rewrite IH; auto.
Qed.

Lemma concat_row {A} (l : list (list A)) k i d : (forall x, In x l -> length x = k) -> i < length l ->
  firstn k (skipn (i * k) (concat l)) = nth i l d.
Proof.
  revert i; induction l as [|x l IH]; intros i H Hi; cbn in Hi; [lia|]. cbn [concat].
  assert (Hx : length x = k) by (apply H; left; auto).
  destruct i as [|i].
  - cbn. rewrite <- Hx, firstn_app, Nat.sub_diag, firstn_all, firstn_O, app_nil_r. reflexivity.
  - cbn [Nat.mul nth]. rewrite skipn_app, skipn_all2 by lia. cbn [app].
    replace (k + i * k - length x) with (i * k) by lia. apply IH; [intros; apply H; right; auto|lia].
Qed.
Lemma concat_length {A} (l : list (list A)) k : (forall x, In x l -> length x = k) -> length (concat l) = length l * k.
Proof.
  induction l as [|x l IH]; intros H; cbn; auto. rewrite app_length, IH by (intros; apply H; right; auto).
  rewrite (H x) by (left; auto). reflexivity.
Qed.
Lemma tstack_inv {A} (l : list (tensor A)) t : tstack l = Ok t -> (forall u, In u l -> wf u) ->
  exists s, shp t = length l :: s /\ wf t /\ (forall u, In u l -> shp u = s) /\ l <> [] /\
    forall i d, i < length l -> trow i t = nth i l d.
Proof.
  unfold tstack. destruct l as [|t0 l]; [discriminate|]. set (L := t0 :: l).
  destruct (forallb _ L) eqn:E; [|discriminate]. intros H W. injection H as <-.
  rewrite forallb_forall in E.
  assert (Hs : forall u, In u L -> shp u = shp t0).
  { intros u Hu. specialize (E u Hu). destruct (list_eq_dec _ _ _); auto; discriminate. }
  assert (Hd : forall x, In x (map dat L) -> length x = prodl (shp t0)).
  { intros x Hx. apply in_map_iff in Hx as (u & <- & Hu). rewrite <- (Hs u Hu). apply W; auto. }
  exists (shp t0). split; [reflexivity|]. split; [|split; [exact Hs|split; [discriminate|]]].
  - unfold wf. change (length (concat (map dat L)) = prodl (length L :: shp t0)).
    rewrite (concat_length _ _ Hd), map_length. reflexivity.
  - intros i d Hi. unfold trow.
    change (mkT (shp t0) (firstn (prodl (shp t0)) (skipn (i * prodl (shp t0)) (concat (map dat L)))) = nth i L d).
    rewrite (concat_row _ _ i (dat d) Hd) by (rewrite map_length; auto). rewrite map_nth.
    rewrite <- (Hs (nth i L d)) by (apply nth_In; auto). destruct (nth i L d); reflexivity.
Qed.
Lemma tstack_ok {A} (l : list (tensor A)) s : l <> [] -> (forall u, In u l -> shp u = s) ->
  tstack l = Ok (mkT (length l :: s) (concat (map dat l))).
Proof.
  destruct l as [|t l]; [congruence|]. intros _ H. unfold tstack.
  assert (Ht : shp t = s) by (apply H; left; auto). rewrite Ht.
  replace (forallb _ (t :: l)) with true; [reflexivity|]. symmetry. apply forallb_forall. intros u Hu.
  rewrite (H u Hu). destruct (list_eq_dec _ s s); congruence.
Qed.
Lemma trow_wf {A} (t : tensor A) n s i : wf t -> shp t = n :: s -> i < n -> wf (trow i t).
Proof.
  unfold wf, trow. intros W E Hi. rewrite E in *. cbn [shp tl dat] in *. cbn in W. rewrite firstn_length, skipn_length.
  change (fold_right Nat.mul 1 s) with (prodl s) in W.
  assert (S i * prodl s <= n * prodl s) by (apply Nat.mul_le_mono_r; lia). cbn in H. lia.
Qed.
Lemma trow_shp {A} (t : tensor A) n s i : shp t = n :: s -> shp (trow i t) = s.
Proof. intros E. unfold trow. rewrite E. reflexivity. Qed.
Lemma skipn_skipn' {A} a b (l : list A) : skipn a (skipn b l) = skipn (b + a) l.
Proof. revert l; induction b as [|b IH]; intros l; [reflexivity|]. destruct l; [destruct a; reflexivity|]. cbn. apply IH. Qed.
Lemma tstack_rows {A} (t : tensor A) n s : wf t -> shp t = n :: s -> 0 < n ->
  tstack (map (fun i => trow i t) (seq 0 n)) = Ok t.
Proof.
  intros W E Hn. rewrite (tstack_ok _ s).
  - f_equal. rewrite map_length, seq_length. destruct t as [sh dt]. cbn in E. subst sh. f_equal.
    unfold wf in W. cbn in W. change (fold_right Nat.mul 1 s) with (prodl s) in W. rewrite map_map.
    unfold trow. cbn [shp dat tl]. clear Hn. revert dt W. induction n as [|n IH]; intros dt W.
    + destruct dt; [reflexivity|discriminate].
    + cbn [seq map concat]. rewrite <- seq_shift, map_map. cbn [Nat.mul skipn].
      transitivity (firstn (prodl s) dt ++ skipn (prodl s) dt); [|apply firstn_skipn]. f_equal.
      rewrite <- (IH (skipn (prodl s) dt)) by (rewrite skipn_length; cbn in W; lia). f_equal.
      apply map_ext. intros i. rewrite skipn_skipn'. f_equal.
  - destruct n; [lia|]. discriminate.
  - intros u Hu. apply in_map_iff in Hu as (i & <- & _). eapply trow_shp; eauto.
Qed.
Lemma row_ext {A} (t u : tensor A) n s : wf t -> wf u -> shp t = n :: s -> shp u = n :: s -> 0 < n ->
  (forall i, i < n -> trow i t = trow i u) -> t = u.
Proof.
  intros Wt Wu Et Eu Hn H. pose proof (tstack_rows t n s Wt Et Hn) as H1. pose proof (tstack_rows u n s Wu Eu Hn) as H2.
  rewrite (map_ext_in _ (fun i => trow i u)) in H1; [congruence|]. intros i Hi. apply in_seq in Hi. apply H; lia.
Qed.
Lemma trow_get {A} (d : A) (t : tensor A) n s i idx : wf t -> shp t = n :: s -> i < n -> inb s idx ->
  tget d (trow i t) idx = tget d t (i :: idx).
Proof.
  intros W E Hi Hx. unfold tget, trow. rewrite E. cbn [shp dat tl ravel].
  pose proof (ravel_lt s idx Hx).
  assert (Hf : forall k (l : list A) j, j < k -> nth j (firstn k l) d = nth j l d).
  { induction k as [|k IH]; intros l j Hj; [lia|]. destruct l; destruct j; cbn; auto. apply IH; lia. }
  rewrite Hf by auto.
  assert (Hs : forall k (l : list A) j, nth j (skipn k l) d = nth (k + j) l d).
  { induction k as [|k IH]; intros l j; [reflexivity|]. destruct l; [destruct j; reflexivity|]. cbn. apply IH. }
  rewrite Hs. reflexivity.
Qed.
