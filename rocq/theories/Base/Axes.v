(** Infrastructure: operations along one axis of an array, counted from the end. *)
From Coq Require Import List Reals Lia.
From Verif Require Import Base.Result Base.Sums Base.Tensor Base.XR Base.Lift.
Import ListNotations.

(** Axis [-1 - k] has [k] axes behind it. *)
(** insert [v] so that [k] entries follow it *)
Definition ins_end {A} (k : nat) (v : A) (l : list A) : list A :=
  firstn (length l - k) l ++ v :: skipn (length l - k) l.
(** remove the entry with [k] entries behind it *)
Definition del_end {A} (k : nat) (l : list A) : list A := firstn (length l - S k) l ++ skipn (length l - k) l.
(** jnp.expand_dims(t, axis=-1-k) *)
Definition expand_dims {A} (k : nat) (t : tensor A) : tensor A := mkT (ins_end k 1 (shp t)) (dat t).
(** t.reshape(t.shape + (1,) * k) *)
Definition add_ones {A} (k : nat) (t : tensor A) : tensor A := mkT (shp t ++ repeat 1 k) (dat t).
(** reduce axis [-1-k] with [f] (jnp.sum, logsumexp) *)
Definition reduce_axis (f : list XR -> XR) (k : nat) (t : tensor XR) : result (tensor XR) :=
  if Nat.leb (S k) (rank t) then
    Ok (tgen (del_end k (shp t)) (fun idx =>
          f (map (fun j => tget (Fin 0) t (ins_end k j idx)) (seq 0 (nth (rank t - S k) (shp t) 0)))))
  else Err ValueError.
(** the vector along the last axis at [idx] *)
Definition last_row (t : tensor XR) (idx : list nat) : list XR :=
  map (fun j => tget (Fin 0) t (idx ++ [j])) (seq 0 (last (shp t) 0)).
(** apply a vector function along the last axis (softmax, log_softmax, cumsum) *)
Definition map_last (f : list XR -> list XR) (t : tensor XR) : tensor XR :=
  tgen (shp t) (fun idx => nth (last idx 0) (f (last_row t (removelast idx))) NaN).

Lemma ins_end_app {A} k (v : A) b e : length e = k -> ins_end k v (b ++ e) = b ++ v :: e.
Proof.
  intros <-. unfold ins_end. rewrite app_length, Nat.add_sub.
  rewrite firstn_app, firstn_all, Nat.sub_diag, skipn_app, skipn_all, Nat.sub_diag. cbn. rewrite app_nil_r. reflexivity.
Qed.
Lemma del_end_app {A} k (v : A) b e : length e = k -> del_end k (b ++ v :: e) = b ++ e.
Proof.
  intros <-. unfold del_end. rewrite app_length. cbn [length].
  replace (length b + S (length e) - S (length e)) with (length b) by lia.
  replace (length b + S (length e) - length e) with (S (length b)) by lia.
  rewrite firstn_app, firstn_all, Nat.sub_diag, skipn_app.
  rewrite skipn_all2 by lia. replace (S (length b) - length b) with 1 by lia. cbn. rewrite app_nil_r. reflexivity.
Qed.
Lemma nth_end_app k d (b e : list nat) : length e = k -> nth (length (b ++ d :: e) - S k) (b ++ d :: e) 0 = d.
Proof.
  intros <-. rewrite app_length. cbn [length]. replace (length b + S (length e) - S (length e)) with (length b) by lia.
  rewrite app_nth2, Nat.sub_diag by lia. reflexivity.
Qed.
Lemma reduce_axis_ok f k t bs d es : shp t = bs ++ d :: es -> length es = k ->
  exists r, reduce_axis f k t = Ok r /\ shp r = bs ++ es /\ wf r /\
    forall b e, inb bs b -> inb es e ->
      tget (Fin 0) r (b ++ e) = f (map (fun j => tget (Fin 0) t (b ++ j :: e)) (seq 0 d)).
Proof.
  intros Hs Hk. unfold reduce_axis, rank. rewrite Hs.
  rewrite (proj2 (Nat.leb_le _ _)) by (rewrite app_length; cbn; lia).
  rewrite (nth_end_app k d bs es Hk), (del_end_app k d bs es Hk).
  eexists. split; [reflexivity|]. split; [reflexivity|]. split; [apply tgen_wf|].
  intros b e Hb He. rewrite tget_tgen by (apply inb_app; auto). f_equal. apply map_ext. intros j.
  rewrite ins_end_app; [reflexivity|]. rewrite (inb_length _ _ He); auto.
Qed.

(** broadcasting of concatenated shapes *)
Lemma bshape_rev_app r1 r2 t1 t2 r t : length r1 = length r2 -> bshape_rev r1 r2 = Some r -> bshape_rev t1 t2 = Some t ->
  bshape_rev (r1 ++ t1) (r2 ++ t2) = Some (r ++ t).
Proof.
  revert r2 r; induction r1 as [|a r1 IH]; intros [|b r2] r L H1 H2; try discriminate L; cbn in *.
  - injection H1 as <-. exact H2.
  - destruct (bdim a b); [|discriminate]. destruct (bshape_rev r1 r2) as [l|] eqn:E; [|discriminate]. injection H1 as <-.
    rewrite (IH r2 l); auto.
Qed.
Lemma bshape_app s1 s2 t1 t2 s t : length t1 = length t2 -> bshape s1 s2 = Some s -> bshape t1 t2 = Some t ->
  bshape (s1 ++ t1) (s2 ++ t2) = Some (s ++ t).
Proof.
  unfold bshape. rewrite !rev_app_distr. intros L H1 H2.
  destruct (bshape_rev (rev s1) (rev s2)) as [x|] eqn:E1; [|discriminate]. cbn in H1. injection H1 as <-.
  destruct (bshape_rev (rev t1) (rev t2)) as [y|] eqn:E2; [|discriminate]. cbn in H2. injection H2 as <-.
  assert (L' : length (rev t1) = length (rev t2)) by (rewrite !rev_length; exact L).
  rewrite (bshape_rev_app _ _ _ _ _ _ L' E2 E1). cbn. rewrite rev_app_distr. reflexivity.
Qed.
Lemma bz_app r1 r2 i1 i2 : length r1 = length i1 -> bz (r1 ++ r2) (i1 ++ i2) = bz r1 i1 ++ bz r2 i2.
Proof.
  revert i1; induction r1 as [|a r1 IH]; intros [|i i1] L; try discriminate L; cbn; [reflexivity|]. rewrite IH by auto. reflexivity.
Qed.
Lemma bindex_app s1 s2 i1 i2 : length s2 = length i2 -> bindex (s1 ++ s2) (i1 ++ i2) = bindex s1 i1 ++ bindex s2 i2.
Proof. intros L. unfold bindex. rewrite !rev_app_distr, bz_app, rev_app_distr by (rewrite !rev_length; auto). reflexivity. Qed.
Lemma bindex_nil i : bindex [] i = []. Proof. reflexivity. Qed.
Lemma bindex_ones k e : length e = k -> bindex (repeat 1 k) e = repeat 0 k.
Proof.
  intros <-. unfold bindex. assert (R : rev (repeat 1 (length e)) = repeat 1 (length (rev e))).
  { rewrite rev_length. generalize (length e) as n. induction n as [|n IH]; [reflexivity|]. cbn [repeat rev]. rewrite IH.
    clear IH. induction n; [reflexivity|]. cbn. f_equal; auto. }
  rewrite R. assert (H : forall l : list nat, bz (repeat 1 (length l)) l = repeat 0 (length l)).
  { induction l; cbn; [auto|f_equal; auto]. }
  rewrite H, rev_length. generalize (length e) as n. induction n as [|n IH]; [reflexivity|]. cbn [repeat rev]. rewrite IH.
  clear. induction n; [reflexivity|]. cbn. f_equal; auto.
Qed.
Lemma bshape_ones s : bshape (repeat 1 (length s)) s = Some s.
Proof.
  induction s as [|d s IH]; [reflexivity|]. cbn [length repeat].
  change (bshape ([1] ++ repeat 1 (length s)) ([d] ++ s) = Some ([d] ++ s)).
  apply bshape_app; [apply repeat_length| |exact IH]. unfold bshape. cbn. unfold bdim.
  destruct (Nat.eqb_spec 1 d) as [<-|]; reflexivity.
Qed.
Lemma bshape_drop s t : bshape t (s ++ t) = Some (s ++ t).
Proof. change t with ([] ++ t) at 1. apply bshape_app; [auto|apply bshape_nil_l|apply bshape_refl]. Qed.
Lemma prodl_ones k : prodl (repeat 1 k) = 1.
Proof. induction k as [|k IH]; [reflexivity|]. change (1 * prodl (repeat 1 k) = 1). rewrite IH. reflexivity. Qed.
Lemma ravel_zeros s : ravel s (repeat 0 (length s)) = 0.
Proof. induction s; cbn; auto. Qed.
Lemma last_app1 {A} (l : list A) a d : last (l ++ [a]) d = a.
Proof. induction l as [|x l IH]; [reflexivity|]. cbn. destruct (l ++ [a]) eqn:E; [destruct l; discriminate|]. exact IH. Qed.
Lemma inb_app_len s1 s2 i : inb (s1 ++ s2) i -> exists i1 i2, i = i1 ++ i2 /\ inb s1 i1 /\ inb s2 i2.
Proof. intros H. destruct (inb_app_inv _ _ _ H) as (i1 & i2 & A & B & C). eauto. Qed.

(** reading through broadcasts *)
Lemma tget_same_dat {A} (d : A) s t1 i1 i2 (l : list A) : ravel s i1 = ravel t1 i2 ->
  tget d (mkT s l) i1 = tget d (mkT t1 l) i2.
Proof. intros H. unfold tget. cbn [shp dat]. rewrite H. reflexivity. Qed.
Lemma xget_self t i : inb (shp t) i -> xget t i = tget (Fin 0) t i.
Proof. intros H. unfold xget. rewrite bindex_refl; auto. Qed.
(** a [bs ++ [K]] array with unit axes appended, read at an index of [bs ++ K :: es] *)
Lemma xget_add_ones t bs K es b j e : shp t = bs ++ [K] -> inb bs b -> j < K -> inb es e ->
  xget (add_ones (length es) t) (b ++ j :: e) = tget (Fin 0) t (b ++ [j]).
Proof.
  intros Hs Hb Hj He. unfold xget, add_ones. cbn [shp]. rewrite Hs, <- app_assoc.
  pose proof (inb_length _ _ Hb). pose proof (inb_length _ _ He).
  change (b ++ j :: e) with (b ++ ([j] ++ e)).
  rewrite bindex_app by (rewrite !app_length, repeat_length; cbn; lia).
  rewrite (bindex_app [K]) by (rewrite repeat_length; lia).
  rewrite bindex_ones by lia. rewrite (bindex_refl bs b Hb), (bindex_refl [K] [j]) by (repeat constructor; auto).
  unfold tget. cbn [shp dat]. rewrite Hs. f_equal. rewrite app_assoc, (app_assoc b).
  rewrite (ravel_app (bs ++ [K])) by (rewrite !app_length; cbn; lia). rewrite prodl_ones.
  rewrite <- (repeat_length 1 (length es)) at 2. rewrite ravel_zeros. lia.
Qed.
Lemma add_ones_bshape bs K es : bshape ((bs ++ [K]) ++ repeat 1 (length es)) (bs ++ K :: es) = Some (bs ++ K :: es).
Proof.
  change (bs ++ K :: es) with (bs ++ [K] ++ es). rewrite app_assoc.
  apply bshape_app; [apply repeat_length|apply bshape_refl|apply bshape_ones].
Qed.
(** an array of shape [bs ++ es] with a unit axis between, read at an index of [bs ++ K :: es] *)
Lemma xget_expand t bs es b j e : shp t = bs ++ es -> inb bs b -> inb es e ->
  xget (expand_dims (length es) t) (b ++ j :: e) = tget (Fin 0) t (b ++ e).
Proof.
  intros Hs Hb He. unfold xget, expand_dims. cbn [shp]. rewrite Hs, ins_end_app by auto.
  pose proof (inb_length _ _ Hb). pose proof (inb_length _ _ He).
  change (b ++ j :: e) with (b ++ ([j] ++ e)). change (bs ++ 1 :: es) with (bs ++ [1] ++ es).
  rewrite bindex_app by (cbn; lia). rewrite (bindex_app [1]) by lia.
  rewrite (bindex_refl bs b Hb), (bindex_refl es e He). change (bindex [1] [j]) with [0].
  unfold tget. cbn [shp dat]. rewrite Hs. f_equal.
  rewrite (ravel_app bs ([1] ++ es)), (ravel_app bs es) by lia. rewrite prodl_app. cbn [app ravel]. cbn. lia.
Qed.
Lemma expand_bshape bs K es : bshape (ins_end (length es) 1 (bs ++ es)) (bs ++ K :: es) = Some (bs ++ K :: es).
Proof.
  rewrite ins_end_app by auto. change (bs ++ K :: es) with (bs ++ [K] ++ es). change (bs ++ 1 :: es) with (bs ++ [1] ++ es).
  apply bshape_app; [reflexivity|apply bshape_refl|]. apply bshape_app; [reflexivity|apply (bshape_ones [K])|apply bshape_refl].
Qed.
(** entry of the expanded array itself *)
Lemma tget_expand {A} (d : A) t bs es b e : shp t = bs ++ es -> inb bs b -> inb es e ->
  tget d (expand_dims (length es) t) (b ++ 0 :: e) = tget d t (b ++ e).
Proof.
  intros Hs Hb He. unfold expand_dims, tget. cbn [shp dat]. rewrite Hs, ins_end_app by auto.
  pose proof (inb_length _ _ Hb). rewrite (ravel_app bs (1 :: es)), (ravel_app bs es) by lia. f_equal. cbn. rewrite Nat.add_0_r. reflexivity.
Qed.
Lemma expand_wf {A} k (t : tensor A) bs es : wf t -> shp t = bs ++ es -> length es = k -> wf (expand_dims k t).
Proof.
  intros W Hs Hk. unfold wf, expand_dims in *. cbn [shp dat]. rewrite W, Hs, ins_end_app by auto.
  rewrite !prodl_app. cbn. rewrite Nat.add_0_r. reflexivity.
Qed.
Lemma map_last_shp f t : shp (map_last f t) = shp t. Proof. reflexivity. Qed.
Lemma tget_map_last f t bs K b j : shp t = bs ++ [K] -> inb bs b -> j < K ->
  tget (Fin 0) (map_last f t) (b ++ [j]) = nth j (f (last_row t b)) NaN.
Proof.
  intros Hs Hb Hj. unfold map_last. rewrite tget_tgen.
  - rewrite last_app1, removelast_last. reflexivity.
  - rewrite Hs. apply inb_app; auto. repeat constructor; auto.
Qed.
Lemma last_row_length t bs K b : shp t = bs ++ [K] -> length (last_row t b) = K.
Proof. intros Hs. unfold last_row. rewrite map_length, seq_length, Hs, last_app1. reflexivity. Qed.
Lemma last_row_nth t bs K b j d : shp t = bs ++ [K] -> j < K -> nth j (last_row t b) d = tget (Fin 0) t (b ++ [j]).
Proof.
  intros Hs Hj. rewrite (nth_indep _ _ (tget (Fin 0) t (b ++ [0]))) by (rewrite (last_row_length t bs K); auto).
  unfold last_row. rewrite Hs, last_app1. rewrite (map_nth (fun j => tget (Fin 0) t (b ++ [j]))). rewrite seq_nth by auto. reflexivity.
Qed.
