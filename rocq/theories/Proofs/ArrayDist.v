(** Lemmas for the array level of univariate distributions. *)
From Coq Require Import Reals List Lia Lra.
From Verif Require Import Base.Result Base.Sums Base.Tensor Base.XR Base.Lift Model.ScalarDist Model.ArrayDist Spec.ArrayDist.
Import ListNotations.

Lemma xget_in t S idx (P : XR -> Prop) : wf t -> Forall P (dat t) -> bshape (shp t) S = Some S -> inb S idx -> P (xget t idx).
Proof.
  intros W F B I. unfold xget, tget. rewrite Forall_forall in F. apply F, nth_In. rewrite W.
  apply ravel_lt. eapply bindex_inb; eauto.
Qed.
Lemma finite_at t S idx : all_finite t -> bshape (shp t) S = Some S -> inb S idx -> exists r, xget t idx = Fin r.
Proof. intros [W F] B I. apply (xget_in t S idx (fun a => exists r, a = Fin r)); auto. Qed.
Lemma positive_at t S idx : all_positive t -> bshape (shp t) S = Some S -> inb S idx -> exists r, xget t idx = Fin r /\ (0 < r)%R.
Proof. intros [W F] B I. apply (xget_in t S idx (fun a => exists r, a = Fin r /\ (0 < r)%R)); auto. Qed.

Lemma lift1_ok f a : lift1 f a = Ok (tgen (shp a) (fun idx => f (xget a idx))).
Proof. unfold lift1, lift. cbn. rewrite bshape_nil_r. reflexivity. Qed.
Lemma lift2_ok f a b s : bshape (shp a) (shp b) = Some s ->
  lift2 f a b = Ok (tgen s (fun idx => f (xget a idx) (xget b idx))).
Proof. intros H. unfold lift2, lift. cbn [map]. rewrite bshapes_perm2, H. reflexivity. Qed.
Lemma lift2_top f a b S : bshape (shp a) S = Some S -> bshape (shp b) S = Some S -> shp a = S \/ shp b = S ->
  lift2 f a b = Ok (tgen S (fun idx => f (xget a idx) (xget b idx))).
Proof.
  intros Ha Hb E. unfold lift2. rewrite (lift_top _ [a; b] S); [reflexivity|repeat constructor; auto|].
  destruct E; [left; auto|right; left; auto].
Qed.
Lemma lift3_top f a b c S : bshape (shp a) S = Some S -> bshape (shp b) S = Some S -> bshape (shp c) S = Some S ->
  shp a = S \/ shp b = S \/ shp c = S ->
  lift3 f a b c = Ok (tgen S (fun idx => f (xget a idx) (xget b idx) (xget c idx))).
Proof.
  intros Ha Hb Hc E. unfold lift3. rewrite (lift_top _ [a; b; c] S); [reflexivity|repeat constructor; auto|].
  destruct E as [E|[E|E]]; [left; auto|right; left; auto|right; right; left; auto].
Qed.
Lemma lift4_top f a b c d S : bshape (shp a) S = Some S -> bshape (shp b) S = Some S -> bshape (shp c) S = Some S ->
  bshape (shp d) S = Some S -> shp a = S ->
  lift4 f a b c d = Ok (tgen S (fun idx => f (xget a idx) (xget b idx) (xget c idx) (xget d idx))).
Proof.
  intros Ha Hb Hc Hd E. unfold lift4. rewrite (lift_top _ [a; b; c; d] S); [reflexivity|repeat constructor; auto|left; auto].
Qed.
Lemma lift3_ok f a b c s : bshape (shp b) (shp c) = Some s -> forall S, bshape (shp a) s = Some S ->
  lift3 f a b c = Ok (tgen S (fun idx => f (xget a idx) (xget b idx) (xget c idx))).
Proof.
  intros H S HS. unfold lift3, lift. cbn [map]. rewrite bshapes_cons. rewrite bshapes_perm2, H. cbn [obind]. rewrite HS. reflexivity.
Qed.
Lemma broadcast_to_ok t s : bshape (shp t) s = Some s -> broadcast_to t s = Ok (tgen s (fun idx => xget t idx)).
Proof. intros H. unfold broadcast_to. rewrite H. destruct list_eq_dec; [auto|congruence]. Qed.
Lemma param_ok t a b s : bshape (shp a) (shp b) = Some s -> bshape (shp t) s = Some s ->
  param t a b = Ok (tgen s (fun idx => xget t idx)).
Proof. intros H Ht. unfold param, batch_shape2. rewrite H. cbn. apply broadcast_to_ok; auto. Qed.
(** reading a broadcast parameter *)
Lemma xget_tgen s f S idx : bshape s S = Some S -> inb S idx -> xget (tgen s f) idx = f (bindex s idx).
Proof. intros H I. unfold xget. cbn [shp tgen]. apply tget_tgen. eapply bindex_inb; eauto. Qed.
Lemma xget_bparam t s S idx : bshape (shp t) s = Some s -> bshape s S = Some S -> inb S idx ->
  xget (tgen s (fun i => xget t i)) idx = xget t idx.
Proof. intros H HS I. rewrite (xget_tgen s _ S idx); auto. unfold xget. f_equal. eapply bindex_bindex; eauto. Qed.
Lemma xget_tgen_same s f idx : inb s idx -> xget (tgen s f) idx = f idx.
Proof. intros I. rewrite (xget_tgen s f s idx) by (auto using bshape_refl). rewrite bindex_refl; auto. Qed.
Lemma bshape_lead n s : bshape s (n :: s) = Some (n :: s).
Proof.
  unfold bshape. cbn [rev]. assert (H : forall r t, bshape_rev r (r ++ t) = Some (r ++ t)).
  { induction r as [|x r IH]; intros t; cbn; [destruct t; auto|]. rewrite IH. unfold bdim. destruct (Nat.eqb x x) eqn:E; [reflexivity|].
    rewrite Nat.eqb_refl in E. discriminate. }
  rewrite H. cbn. rewrite rev_app_distr, rev_involutive. reflexivity.
Qed.
Lemma bz_skip s idx x : length idx = length s -> bz s (idx ++ x) = bz s idx.
Proof. revert idx; induction s as [|d s IH]; intros [|i idx] H; cbn in *; auto; try lia. rewrite IH by lia. reflexivity. Qed.
Lemma bindex_lead s i idx : inb s idx -> bindex s (i :: idx) = idx.
Proof.
  intros H. unfold bindex. cbn [rev]. rewrite bz_skip.
  - apply bindex_refl in H. unfold bindex in H. exact H.
  - rewrite !rev_length. apply inb_length; auto.
Qed.

(** repeat0 *)
Lemma nth_concat_repeat {A} (l : list A) n i j d : i < n -> j < length l -> nth (i * length l + j) (concat (repeat l n)) d = nth j l d.
Proof.
  revert i; induction n as [|n IH]; intros i Hi Hj; [lia|]. cbn [repeat concat]. destruct i as [|i].
  - cbn. rewrite app_nth1 by lia. reflexivity.
  - rewrite app_nth2 by (cbn; lia). replace (S i * length l + j - length l) with (i * length l + j) by (cbn; lia). apply IH; lia.
Qed.
Lemma repeat0_wf n a : wf a -> wf (repeat0 n a).
Proof. unfold wf, repeat0. cbn [shp dat prodl fold_right]. intros H. fold (prodl (shp a)). rewrite <- H. induction n; cbn; auto. rewrite app_length, IHn. reflexivity. Qed.
Lemma repeat0_get n a i idx : wf a -> i < n -> inb (shp a) idx -> tget (Fin 0) (repeat0 n a) (i :: idx) = tget (Fin 0) a idx.
Proof.
  intros W Hi Hx. unfold tget, repeat0. cbn [shp dat ravel]. pose proof (ravel_lt _ _ Hx). rewrite <- W in H.
  rewrite <- W. apply nth_concat_repeat; auto.
Qed.
Lemma elementwise1_tgen s f a : elementwise1 s f a (tgen s (fun idx => f (xget a idx))).
Proof. split; [apply tgen_wf|]. split; [reflexivity|]. intros idx H. rewrite tget_tgen; auto. Qed.
Lemma elementwise2_tgen s f a b : elementwise2 s f a b (tgen s (fun idx => f (xget a idx) (xget b idx))).
Proof. split; [apply tgen_wf|]. split; [reflexivity|]. intros idx H. rewrite tget_tgen; auto. Qed.
Lemma elementwise3_tgen s f a b c : elementwise3 s f a b c (tgen s (fun idx => f (xget a idx) (xget b idx) (xget c idx))).
Proof. split; [apply tgen_wf|]. split; [reflexivity|]. intros idx H. rewrite tget_tgen; auto. Qed.

(** statistics computed from broadcast parameters *)
Lemma param1 t a b s : bshape (shp a) (shp b) = Some s -> bshape (shp t) s = Some s ->
  exists r, param t a b = Ok r /\ elementwise1 s (fun x => x) t r.
Proof. intros H Ht. rewrite (param_ok t a b s) by auto. eexists; split; [reflexivity|]. apply (elementwise1_tgen s (fun x => x)). Qed.
Lemma param_lift1 f t a b s : bshape (shp a) (shp b) = Some s -> bshape (shp t) s = Some s ->
  exists r, (do p <- param t a b; lift1 f p) = Ok r /\ elementwise1 s f t r.
Proof.
  intros H Ht. rewrite (param_ok t a b s) by auto. cbn [rbind]. rewrite lift1_ok. cbn [shp tgen]. eexists; split; [reflexivity|].
  split; [apply tgen_wf|]. split; [reflexivity|]. intros idx Hi. rewrite tget_tgen by auto. rewrite xget_tgen_same by auto. reflexivity.
Qed.
Lemma lift2_stat f a b s : bshape (shp a) (shp b) = Some s -> exists r, lift2 f a b = Ok r /\ elementwise2 s f a b r.
Proof. intros H. rewrite (lift2_ok f a b s H). eexists; split; [reflexivity|]. apply elementwise2_tgen. Qed.
Lemma param_lift2 f a b s : bshape (shp a) (shp b) = Some s ->
  exists r, (do l <- param a a b; do h <- param b a b; lift2 f l h) = Ok r /\ elementwise2 s f a b r.
Proof.
  intros H. pose proof (bshape_absorb_l _ _ _ H) as A. pose proof (bshape_absorb_r _ _ _ H) as B.
  rewrite (param_ok a a b s), (param_ok b a b s) by auto. cbn [rbind].
  rewrite (lift2_top f _ _ s) by (cbn; auto using bshape_refl). eexists; split; [reflexivity|].
  split; [apply tgen_wf|]. split; [reflexivity|]. intros idx Hi. rewrite tget_tgen by auto. rewrite !xget_tgen_same by auto. reflexivity.
Qed.
Lemma param_lift3 f v a b s S : bshape (shp a) (shp b) = Some s -> bshape (shp v) s = Some S ->
  exists r, (do l <- param a a b; do h <- param b a b; lift3 f v l h) = Ok r /\ elementwise3 S f v a b r.
Proof.
  intros H HS. pose proof (bshape_absorb_l _ _ _ H) as A. pose proof (bshape_absorb_r _ _ _ H) as B.
  pose proof (bshape_absorb_r _ _ _ HS) as C.
  rewrite (param_ok a a b s), (param_ok b a b s) by auto. cbn [rbind].
  rewrite (lift3_ok f v _ _ s) with (S := S) by (cbn; auto using bshape_refl). eexists; split; [reflexivity|].
  split; [apply tgen_wf|]. split; [reflexivity|]. intros idx Hi. rewrite tget_tgen by auto. rewrite !(xget_bparam _ s S) by auto. reflexivity.
Qed.
Lemma lift3_stat f v a b s S : bshape (shp a) (shp b) = Some s -> bshape (shp v) s = Some S ->
  exists r, lift3 f v a b = Ok r /\ elementwise3 S f v a b r.
Proof. intros H HS. rewrite (lift3_ok f v a b s H S HS). eexists; split; [reflexivity|]. apply elementwise3_tgen. Qed.

(** sample_and_log_prob of a location-scale family *)
Lemma salp_generic samp lpf logp rnd loc scale n batch :
  bshape (shp loc) (shp scale) = Some batch -> shp rnd = n :: batch ->
  (forall idx, inb (n :: batch) idx ->
     lpf (xget rnd idx) (xget scale idx) = logp (samp (xget rnd idx) (xget loc idx) (xget scale idx)) (xget loc idx) (xget scale idx)) ->
  exists ys lps, (do ys <- lift3 samp rnd loc scale; do lp <- lift2 lpf rnd scale; Ok (ys, lp)) = Ok (ys, lps) /\
    lift3 samp rnd loc scale = Ok ys /\ lift3 logp ys loc scale = Ok lps /\ wf ys /\ shp ys = n :: batch /\ shp lps = n :: batch.
Proof.
  intros B R E. pose proof (bshape_absorb_l _ _ _ B) as Bl. pose proof (bshape_absorb_r _ _ _ B) as Br.
  pose proof (bshape_trans _ _ _ Bl (bshape_lead n batch)) as Cl. pose proof (bshape_trans _ _ _ Br (bshape_lead n batch)) as Cr.
  assert (Rr : bshape (shp rnd) (n :: batch) = Some (n :: batch)) by (rewrite R; apply bshape_refl).
  rewrite (lift3_top samp rnd loc scale (n :: batch)) by auto. rewrite (lift2_top lpf rnd scale (n :: batch)) by auto.
  cbn [rbind]. do 2 eexists. split; [reflexivity|]. split; [reflexivity|]. split; [|split; [apply tgen_wf|split; reflexivity]].
  rewrite (lift3_top logp _ loc scale (n :: batch)) by (cbn; auto using bshape_refl). f_equal. apply tgen_ext.
  intros idx Hi. rewrite xget_tgen_same by auto. symmetry. apply E; auto.
Qed.
