(** Lemmas about arrays read through broadcasting, and about clipping and quantisation. *)
From Coq Require Import Reals List Lia Lra Bool ZArith.
From Coquelicot Require Import Coquelicot.
From Verif Require Import Base.Result Base.Sums Base.Tensor Base.XR Base.Lift Model.Distribution Model.ScalarDist Model.ArrayDist
  Model.Clipped Model.Quantized Spec.ArrayDist Spec.Distribution Spec.Density Spec.Univariate Proofs.Density Proofs.ArrayDist Proofs.Distribution.
Import ListNotations.
Local Open Scope R_scope.

Lemma holds_reads t s v : holds t s v -> reads t s v.
Proof. intros (W & E & H). split; [rewrite E; apply bshape_refl|]. intros idx Hi. rewrite <- H by auto. apply xget_same. rewrite E; auto. Qed.
Lemma holds_ext t s v v' : holds t s v -> (forall idx, inb s idx -> v idx = v' idx) -> holds t s v'.
Proof. intros (W & E & H) X. split; [auto|]. split; [auto|]. intros idx Hi. rewrite H, X; auto. Qed.
Lemma reads_ext t s v v' : reads t s v -> (forall idx, inb s idx -> v idx = v' idx) -> reads t s v'.
Proof. intros (E & H) X. split; [auto|]. intros idx Hi. rewrite H, X; auto. Qed.
Lemma holds_eq t t' s v : holds t s v -> holds t' s v -> t = t'.
Proof. intros (W & E & H) (W' & E' & H'). apply (tensor_ext (Fin 0)); auto; [congruence|]. rewrite E. intros idx Hi. rewrite H, H'; auto. Qed.
(** reading through a larger shape *)
Lemma reads_up t s S v : reads t s v -> bshape s S = Some S -> reads t S (fun idx => v (bindex s idx)).
Proof.
  intros (E & H) B. split; [eapply bshape_trans; eauto|]. intros idx Hi. rewrite <- H by (eapply bindex_inb; eauto).
  unfold xget. f_equal. symmetry. eapply bindex_bindex; eauto.
Qed.
Lemma reads_tmap f t s v : wf t -> reads t s v -> reads (tmap f t) s (fun idx => f (v idx)).
Proof.
  intros W (E & H). split; [exact E|]. intros idx Hi. rewrite <- H by auto. unfold xget. cbn [shp tmap].
  rewrite (tget_tmap (Fin 0) (Fin 0)); auto. eapply bindex_inb; eauto.
Qed.
Lemma holds_tmap f t s v : holds t s v -> holds (tmap f t) s (fun idx => f (v idx)).
Proof. intros (W & E & H). split; [apply tmap_wf; auto|]. split; [exact E|]. intros idx Hi. rewrite (tget_tmap (Fin 0) (Fin 0)); rewrite ?E; auto. rewrite H; auto. Qed.
Lemma holds_tgen s (f v : list nat -> XR) : (forall idx, inb s idx -> f idx = v idx) -> holds (tgen s f) s v.
Proof. intros H. split; [apply tgen_wf|]. split; [reflexivity|]. intros idx Hi. rewrite tget_tgen; auto. Qed.
Lemma lift1_holds f a s va : holds a s va -> exists r, lift1 f a = Ok r /\ holds r s (fun i => f (va i)).
Proof.
  intros Ha. rewrite lift1_ok. eexists. split; [reflexivity|]. destruct Ha as (W & <- & H).
  apply holds_tgen. intros i Hi. rewrite xget_same by auto. rewrite H; auto.
Qed.
Lemma lift2_holds f a b s va vb : reads a s va -> reads b s vb -> shp a = s \/ shp b = s ->
  exists r, lift2 f a b = Ok r /\ holds r s (fun i => f (va i) (vb i)).
Proof.
  intros (Ba & Ha) (Bb & Hb) HS. rewrite (lift2_top f a b s) by auto. eexists. split; [reflexivity|].
  apply holds_tgen. intros i Hi. rewrite Ha, Hb; auto.
Qed.
Lemma lift3_holds f a b c s va vb vc : reads a s va -> reads b s vb -> reads c s vc -> shp a = s \/ shp b = s \/ shp c = s ->
  exists r, lift3 f a b c = Ok r /\ holds r s (fun i => f (va i) (vb i) (vc i)).
Proof.
  intros (Ba & Ha) (Bb & Hb) (Bc & Hc) HS. rewrite (lift3_top f a b c s) by auto. eexists. split; [reflexivity|].
  apply holds_tgen. intros i Hi. rewrite Ha, Hb, Hc; auto.
Qed.
Lemma lift4_holds f a b c d s va vb vc vd : reads a s va -> reads b s vb -> reads c s vc -> reads d s vd ->
  shp a = s \/ shp b = s \/ shp c = s \/ shp d = s ->
  exists r, lift4 f a b c d = Ok r /\ holds r s (fun i => f (va i) (vb i) (vc i) (vd i)).
Proof.
  intros (Ba & Ha) (Bb & Hb) (Bc & Hc) (Bd & Hd) HS. unfold lift4.
  rewrite (lift_top _ [a; b; c; d] s); [|repeat constructor; auto|destruct HS as [E|[E|[E|E]]]; [left|right; left|right; right; left|right; right; right; left]; auto].
  eexists. split; [reflexivity|].
  apply holds_tgen. intros i Hi. cbn [map]. rewrite Ha, Hb, Hc, Hd; auto.
Qed.
Lemma broadcast_holds t s v : reads t s v -> exists r, broadcast_to t s = Ok r /\ holds r s v.
Proof. intros (B & H). rewrite broadcast_to_ok by auto. eexists. split; [reflexivity|]. apply holds_tgen; auto. Qed.
Lemma bshape_le_length s b : bshape s b = Some b -> (length s <= length b)%nat.
Proof.
  unfold bshape. intros H. assert (R : forall r1 r2 r, bshape_rev r1 r2 = Some r -> (length r1 <= length r)%nat).
  { induction r1 as [|a r1 IH]; intros [|b0 r2] r E; cbn in E; try (injection E as <-; cbn; lia).
    destruct (bdim a b0); [|discriminate]. destruct (bshape_rev r1 r2) as [r'|] eqn:Er; [|discriminate]. injection E as <-.
    cbn. apply le_n_S. eapply IH; eauto. }
  destruct (bshape_rev (rev s) (rev b)) as [r|] eqn:E; [|discriminate]. cbn in H. injection H as <-. apply R in E.
  rewrite rev_length in *. exact E.
Qed.
(** a method of a batched distribution applied to values read at shape S *)
Lemma computes_at f batch g v S x : computes f batch g -> wf v -> bshape (shp v) batch = Some S -> reads v S (fun i => Fin (x i)) ->
  exists r, f v = Ok r /\ holds r S (fun idx => g (bindex batch idx) (x idx)).
Proof. intros C; apply C. Qed.
Lemma computes_lift3 (f : XR -> XR -> XR -> XR) loc scale batch g :
  bshape (shp loc) (shp scale) = Some batch ->
  (forall b x, inb batch b -> f (Fin x) (xget loc b) (xget scale b) = g b x) ->
  computes (fun v => lift3 f v loc scale) batch g.
Proof.
  intros B Hg v S x W BS R. pose proof (bshape_absorb_l _ _ _ B) as Bl. pose proof (bshape_absorb_r _ _ _ B) as Bs.
  pose proof (bshape_absorb_r _ _ _ BS) as Bb.
  rewrite (lift3_ok f v loc scale batch B S BS). eexists. split; [reflexivity|].
  apply holds_tgen. intros i Hi. destruct R as [_ HR]. rewrite HR by auto. rewrite <- Hg by (eapply bindex_inb; eauto).
  f_equal; unfold xget; f_equal; symmetry; eapply bindex_bindex; eauto.
Qed.

(** ** Building the array-level interface from scalar facts *)
Lemma density_with_cdf_is_cdf f F : density_with_cdf f F -> is_cdf F /\ density_of F f.
Proof.
  intros D. pose proof D as (P & C & DF & L0 & L1). split.
  - split; [intros x; apply (density_range _ _ D)|]. intros x y H. apply (density_increasing _ _ D); auto.
  - split; [exact P|]. intros x y H. apply (is_RInt_derive F f); [intros; apply DF|intros; apply C].
Qed.
Lemma is_cdf_ext F G : (forall x, F x = G x) -> is_cdf F -> is_cdf G.
Proof. intros E [A B]. split; intros; rewrite <- ?E; auto. Qed.
Lemma density_of_ext F G f g : (forall x, F x = G x) -> (forall x, f x = g x) -> density_of F f -> density_of G g.
Proof. intros E E' [A B]. split; [intros; rewrite <- E'; auto|]. intros x y H. rewrite <- !E. apply (is_RInt_ext f); auto. Qed.

(** ** Clipping *)
Lemma clip_range lo hi x : lo <= hi -> lo <= clip lo hi x <= hi.
Proof. intros. unfold clip. repeat destruct Rlt_dec; lra. Qed.
Lemma xclip_fin lo hi x : lo <= hi -> xclip (Fin x) (Fin lo) (Fin hi) = Fin (clip lo hi x).
Proof.
  intros H. unfold xclip, xmax, xmin, clip. cbn [xis_nan orb]. unfold xltb.
  repeat (destruct Rlt_dec; cbn [xis_nan orb]); try lra; f_equal; lra.
Qed.
