(** C77 for MixtureSameFamily, MixtureOfTwo, CategoricalUniform and Dirichlet. *)
From Coq Require Import List Reals ZArith Bool Lia Lra.
From Verif Require Import Base.Result Base.Sums Base.Tensor Base.XR Base.Lift Base.Axes Model.Distribution Model.AdvIndex Model.MathUtils Model.ScalarDist Model.ArrayDist Model.Categorical Model.CatSlicing
  Model.Mixture Model.Slicing Model.GammaFamily Model.MixSlicing
  Spec.Distribution Spec.AdvIndex Spec.Slicing Spec.Categorical Spec.CatSlicing Spec.MixSlicing Proofs.Distribution Proofs.ArrayDist Proofs.MathUtils Proofs.Categorical Props.AdvIndex Props.Slicing Props.CatSlicing.
Import ListNotations.

(** Methods that are elementwise for every shape of the value that broadcasts against the batch *)
Definition elementwise3' (ev : tensor XR -> tensor XR -> tensor XR -> result (tensor XR)) (F : XR -> XR -> XR -> XR) : Prop :=
  forall x p q batch s, bshape (shp p) (shp q) = Some batch -> bshape (shp x) batch = Some s -> ev x p q = Ok (tgen s (fun i => F (xget x i) (xget p i) (xget q i))).
Lemma ew3'_lift F : elementwise3' (fun x p q => lift3 F x p q) F.
Proof. intros x p q batch s Hb Hs. apply (lift3_ok F x p q batch Hb s Hs). Qed.
Lemma ew3'_param F : elementwise3' (fun x p q => do l <- param p p q; do s <- param q p q; lift3 F x l s) F.
Proof.
  intros x p q batch s Hb Hs. rewrite (param_ok p p q batch Hb), (param_ok q p q batch Hb) by below. cbn [rbind].
  rewrite (lift3_ok F x (tgen batch _) (tgen batch _) batch (bshape_refl batch) s Hs). f_equal. apply tgen_ext. intros i Hi. pose proof (bshape_absorb_r _ _ _ Hs).
  rewrite (xget_bparam p batch s), (xget_bparam q batch s); try reflexivity; auto; below.
Qed.
Record ew_family (F : family) (lp : XR -> XR -> XR -> XR) (mn vr : XR -> XR -> XR) : Prop := {
  ew_lp : elementwise3' (fam_log_prob F) lp; ew_mean : elementwise2 (fam_mean F) mn; ew_var : elementwise2 (fam_variance F) vr }.

Lemma batch_index_ok bs ix rs src : bs <> [] -> index_ok ix -> any_index bs ix = Ok (rs, src) ->
  exists index, batch_index bs ix = Ok index /\ index_ok index /\ forall inner, exists src', any_index (bs ++ inner) index = Ok (rs ++ inner, src') /\ forall r e, inb rs r -> inb inner e -> src' (r ++ e) = src r ++ e.
Proof.
  intros Hne W E. pose proof (any_index_inb _ _ _ _ W E) as Hin. unfold batch_index. rewrite (any_batch_ok bs ix rs src E Hin). cbn [rbind]. eexists. split; [reflexivity|].
  split; [apply (tuple_index_ok bs [] rs src Hne Hin)|]. intros inner. apply (tuple_index_ok bs inner rs src Hne Hin).
Qed.
Lemma batch_index_self bs rs src index : (forall inner, exists src', any_index (bs ++ inner) index = Ok (rs ++ inner, src') /\ forall r e, inb rs r -> inb inner e -> src' (r ++ e) = src r ++ e) ->
  exists src0, any_index bs index = Ok (rs, src0) /\ forall r, inb rs r -> src0 r = src r.
Proof.
  intros H. destruct (H []) as (s0 & E & H0). rewrite !app_nil_r in E. exists s0. split; [exact E|]. intros r Hr. specialize (H0 r [] Hr ltac:(constructor)). rewrite !app_nil_r in H0. exact H0.
Qed.
Lemma batch_index_err bs ix e : bs <> [] -> any_index bs ix = Err e -> batch_index bs ix = Err e.
Proof.
  intros Hne E. unfold batch_index, np_indices. destruct bs as [|b bs]; [congruence|]. cbn [length seq map].
  rewrite rmapM_err with (e := e); [auto|]. unfold any_getitem. cbn [shp tgen]. rewrite E. auto.
Qed.

(** ** What the methods of a mixture compute at one batch element *)
Section Rows.
Variables (F : family) (lp : XR -> XR -> XR -> XR) (mn vr : XR -> XR -> XR).
Hypothesis HF : ew_family F lp mn vr.
Definition lw (c : categorical) (K : nat) : list XR := log_softmax (map (fun k => nth k (cat_logits c) NaN) (seq 0 K)).
Definition row_log_prob (c : categorical) (K : nat) (v : XR) (p q : nat -> XR) : XR := xlogsumexp (map (fun k => xadd (lp v (p k) (q k)) (nth k (lw c K) NaN)) (seq 0 K)).
Definition row_mean (c : categorical) (K : nat) (p q : nat -> XR) : XR := xsum (map (fun k => xmul (mn (p k) (q k)) (xexp (nth k (lw c K) NaN))) (seq 0 K)).
Definition row_variance (c : categorical) (K : nat) (p q : nat -> XR) : XR :=
  xadd (xsum (map (fun k => xmul (xexp (nth k (lw c K) NaN)) (vr (p k) (q k))) (seq 0 K)))
       (xsum (map (fun k => xmul (xexp (nth k (lw c K) NaN)) (xsquare (xsub (mn (p k) (q k)) (row_mean c K p q)))) (seq 0 K))).

Variables (cat : catb) (bs : shape) (K : nat) (p q : tensor XR) (d : msfb).
Hypothesis Sp : shp (cb_param cat) = bs ++ [K].
Hypothesis Hb : bshape (shp p) (shp q) = Some (bs ++ [K]).
Hypothesis Hd : msfb_init F cat (p, q) = Ok d.
Let pr b k := xget p (b ++ [k]).
Let qr b k := xget q (b ++ [k]).

Lemma built : mb_cat d = cat /\ mb_comp d = (p, q) /\ msf_batch_shape (mb_msf d) = bs /\
  x_log_prob (cp (mb_msf d)) = (fun x => fam_log_prob F x p q) /\ x_mean (cp (mb_msf d)) = fam_mean F p q /\ x_variance (cp (mb_msf d)) = fam_variance F p q /\ ev_rank (mb_msf d) = 0 /\
  log_w (mb_msf d) = map_last log_softmax (catb_logits cat).
Proof.
  unfold msfb_init, fam_dist, batch_shape2 in Hd. rewrite Hb in Hd. cbn [rbind] in Hd. unfold msf_init in Hd. cbn [x_batch] in Hd. destruct list_eq_dec; [|discriminate]. cbn [rbind] in Hd. injection Hd as <-.
  cbn. unfold msf_batch_shape. cbn. rewrite removelast_last. auto 10.
Qed.
Lemma weights_at b k : inb bs b -> k < K -> tget (Fin 0) (log_w (mb_msf d)) (b ++ [k]) = nth k (lw (cat_at cat b) K) NaN.
Proof.
  intros Hi Hk. destruct built as (_ & _ & _ & _ & _ & _ & _ & ->). rewrite (tget_map_last log_softmax (catb_logits cat) bs K b k Sp Hi Hk). f_equal. unfold lw. f_equal.
  unfold last_row. cbn [shp catb_logits tgen]. rewrite Sp, last_last. apply map_ext_in. intros j Hj. apply in_seq in Hj. unfold catb_logits. rewrite tget_tgen by (rewrite Sp; apply inb_snoc; [auto|lia]).
  rewrite last_last, removelast_last. reflexivity.
Qed.
Lemma Sw : shp (log_w (mb_msf d)) = bs ++ [K].
Proof. destruct built as (_ & _ & _ & _ & _ & _ & _ & ->). exact Sp. Qed.
Lemma Ww : wf (log_w (mb_msf d)).
Proof. destruct built as (_ & _ & _ & _ & _ & _ & _ & ->). apply tgen_wf. Qed.
Lemma param_prefix t s i : bshape (shp t) (bs ++ [K]) = Some (bs ++ [K]) -> inb (bs ++ [K]) i -> xget t (s ++ i) = xget t i.
Proof. intros. eapply xget_prefix; eauto. Qed.
Lemma log_prob_rows S x : wf x -> shp x = S ++ bs ->
  exists y, msf_log_prob (mb_msf d) x = Ok y /\ shp y = S ++ bs /\ forall s b, inb S s -> inb bs b -> tget (Fin 0) y (s ++ b) = row_log_prob (cat_at cat b) K (tget (Fin 0) x (s ++ b)) (pr b) (qr b).
Proof.
  intros Wx Sx. destruct built as (_ & _ & _ & El & _ & _ & Er & _). unfold msf_log_prob. rewrite Er, El.
  assert (Se : shp (expand_dims 0 x) = S ++ bs ++ [1]). { unfold expand_dims. cbn [shp]. rewrite Sx. rewrite <- (app_nil_r (S ++ bs)) at 1. rewrite ins_end_app by auto. rewrite <- app_assoc. reflexivity. }
  assert (Bs : bshape (shp (expand_dims 0 x)) (bs ++ [K]) = Some (S ++ bs ++ [K])).
  { rewrite Se. rewrite !app_assoc. apply bshape_app; [reflexivity| |apply (bshape_ones [K])]. rewrite bshape_comm. apply bshape_drop. }
  rewrite (ew_lp _ _ _ _ HF _ p q _ _ Hb Bs). cbn [rbind].
  assert (BW : bshape (bs ++ [K]) (S ++ bs ++ [K]) = Some (S ++ bs ++ [K])) by apply bshape_drop.
  rewrite (lift2_top xadd _ _ (S ++ bs ++ [K])) by (cbn [shp tgen]; rewrite ?Sw; auto using bshape_refl). cbn [rbind].
  match goal with |- context [reduce_axis _ _ ?P] => destruct (reduce_axis_ok xlogsumexp 0 P (S ++ bs) K [] ltac:(cbn [shp tgen]; rewrite <- app_assoc; reflexivity) eq_refl) as (r & E2 & Sr & Wr & Hr) end.
  exists r. split; [exact E2|]. rewrite app_nil_r in Sr. split; [exact Sr|]. intros s b Hs Hi.
  specialize (Hr (s ++ b) [] (inb_app _ _ _ _ Hs Hi) ltac:(constructor)). rewrite app_nil_r in Hr. rewrite Hr. unfold row_log_prob. f_equal. apply map_ext_in. intros k Hk. apply in_seq in Hk. rewrite <- app_assoc.
  assert (Hin : inb (S ++ bs ++ [K]) (s ++ b ++ [k])) by (apply inb_app; [auto|apply inb_snoc; [auto|lia]]).
  assert (Hin' : inb (bs ++ [K]) (b ++ [k])) by (apply inb_snoc; [auto|lia]).
  rewrite tget_tgen by exact Hin. rewrite xget_tgen_same by exact Hin. f_equal.
  - unfold pr, qr. rewrite (param_prefix p s), (param_prefix q s) by (auto; below). f_equal. rewrite app_assoc.
    rewrite <- (app_nil_r (S ++ bs)) in Sx. rewrite <- (app_nil_r (s ++ b)) at 2. apply (xget_expand x (S ++ bs) [] (s ++ b) k [] Sx); [apply inb_app; auto|constructor].
  - unfold xget. rewrite Sw, bindex_prefix by (rewrite (inb_length _ _ Hin'); auto). rewrite bindex_refl by auto. apply weights_at; [auto|lia].
Qed.
Lemma weight_array b k : inb bs b -> k < K -> xget (msf_weights (mb_msf d)) (b ++ [k]) = xexp (nth k (lw (cat_at cat b) K) NaN) .
Proof.
  intros Hi Hk. destruct built as (_ & _ & _ & _ & _ & _ & Er & _). unfold msf_weights. rewrite Er.
  transitivity (tget (Fin 0) (tmap xexp (log_w (mb_msf d))) (b ++ [k])); [exact (xget_add_ones (tmap xexp (log_w (mb_msf d))) bs K [] b k [] Sw Hi Hk ltac:(constructor))|].
  rewrite (tget_tmap (Fin 0) (Fin 0) xexp) by (try apply Ww; rewrite Sw; apply inb_snoc; auto). rewrite weights_at by auto. reflexivity.
Qed.
Lemma weights_shape : shp (msf_weights (mb_msf d)) = bs ++ [K].
Proof. destruct built as (_ & _ & _ & _ & _ & _ & Er & _). unfold msf_weights, add_ones. rewrite Er. cbn [shp tmap repeat]. rewrite Sw, app_nil_r. reflexivity. Qed.
Lemma mean_rows : exists y, msf_mean (mb_msf d) = Ok y /\ shp y = bs /\ wf y /\ forall b, inb bs b -> tget (Fin 0) y b = row_mean (cat_at cat b) K (pr b) (qr b).
Proof.
  destruct built as (_ & _ & _ & _ & Em & _ & Er & _). unfold msf_mean. rewrite Em, Er. rewrite (ew_mean _ _ _ _ HF p q _ Hb). cbn [rbind].
  rewrite (lift2_top xmul _ _ (bs ++ [K])) by (cbn [shp tgen]; rewrite ?weights_shape; auto using bshape_refl). cbn [rbind].
  match goal with |- context [reduce_axis _ _ ?P] => destruct (reduce_axis_ok xsum 0 P bs K [] eq_refl eq_refl) as (r & E2 & Sr & Wr & Hr) end.
  exists r. split; [exact E2|]. rewrite app_nil_r in Sr. split; [exact Sr|]. split; [exact Wr|]. intros b Hi. specialize (Hr b [] Hi ltac:(constructor)). rewrite app_nil_r in Hr. rewrite Hr.
  unfold row_mean. f_equal. apply map_ext_in. intros k Hk. apply in_seq in Hk. assert (Hin : inb (bs ++ [K]) (b ++ [k])) by (apply inb_snoc; [auto|lia]).
  rewrite tget_tgen by exact Hin. rewrite xget_tgen_same by exact Hin. rewrite weight_array by (auto; lia). reflexivity.
Qed.
Lemma variance_rows : exists y, msf_variance (mb_msf d) = Ok y /\ shp y = bs /\ forall b, inb bs b -> tget (Fin 0) y b = row_variance (cat_at cat b) K (pr b) (qr b).
Proof.
  destruct mean_rows as (m & Em & Sm & Wm & Hm). destruct built as (_ & _ & _ & _ & Ex & Ev & Er & _). unfold msf_mean in Em. unfold msf_variance. rewrite Er in *. rewrite Ex, Ev in *.
  rewrite (ew_mean _ _ _ _ HF p q _ Hb) in *. rewrite (ew_var _ _ _ _ HF p q _ Hb). cbn [rbind] in *.
  rewrite (lift2_top xmul (tgen (bs ++ [K]) (fun i => mn (xget p i) (xget q i))) _ (bs ++ [K])) in * by (cbn [shp tgen]; rewrite ?weights_shape; auto using bshape_refl). cbn [rbind] in *. rewrite Em. cbn [rbind].
  assert (RED : forall G, exists r, reduce_axis xsum 0 (tgen (bs ++ [K]) G) = Ok r /\ shp r = bs /\ forall b, inb bs b -> tget (Fin 0) r b = xsum (map (fun k => G (b ++ [k])) (seq 0 K))).
  { intros G. destruct (reduce_axis_ok xsum 0 (tgen (bs ++ [K]) G) bs K [] eq_refl eq_refl) as (r & E2 & Sr & Wr & Hr). exists r. split; [exact E2|]. rewrite app_nil_r in Sr. split; [exact Sr|].
    intros b Hi. specialize (Hr b [] Hi ltac:(constructor)). rewrite app_nil_r in Hr. rewrite Hr. f_equal. apply map_ext_in. intros k Hk. apply in_seq in Hk. apply tget_tgen. apply inb_snoc; [auto|lia]. }
  rewrite (lift2_top xmul (msf_weights (mb_msf d)) (tgen (bs ++ [K]) (fun i => vr (xget p i) (xget q i))) (bs ++ [K])) by (cbn [shp tgen]; rewrite ?weights_shape; auto using bshape_refl). cbn [rbind].
  destruct (RED (fun i => xmul (xget (msf_weights (mb_msf d)) i) (xget (tgen (bs ++ [K]) (fun i => vr (xget p i) (xget q i))) i))) as (r1 & -> & S1 & H1). cbn [rbind].
  rewrite (lift2_top xsub _ (expand_dims 0 m) (bs ++ [K])); [|apply bshape_refl| |left; reflexivity].
  2:{ unfold expand_dims. cbn [shp]. rewrite Sm. rewrite <- (app_nil_r bs) at 1. apply (expand_bshape bs K []). }
  cbn [rbind]. rewrite lift1_ok. cbn [rbind shp tgen].
  rewrite (lift2_top xmul (msf_weights (mb_msf d)) _ (bs ++ [K])) by (cbn [shp tgen]; rewrite ?weights_shape; auto using bshape_refl). cbn [rbind].
  match goal with |- context [reduce_axis xsum 0 (tgen _ ?G)] => destruct (RED G) as (r2 & -> & S2 & H2) end. cbn [rbind].
  rewrite (lift2_top xadd r1 r2 bs) by (rewrite ?S1, ?S2; auto using bshape_refl). eexists. split; [reflexivity|]. split; [reflexivity|]. intros b Hi. rewrite tget_tgen by auto.
  rewrite !xget_self by (rewrite ?S1, ?S2; auto). rewrite H1, H2 by auto. unfold row_variance. f_equal; f_equal; apply map_ext_in; intros k Hk; apply in_seq in Hk;
    (assert (Hin : inb (bs ++ [K]) (b ++ [k])) by (apply inb_snoc; [auto|lia])); rewrite ?xget_tgen_same by exact Hin; rewrite weight_array by (auto; lia); [reflexivity|]. f_equal. f_equal. f_equal.
  assert (Sm' : shp m = bs ++ []) by (rewrite app_nil_r; exact Sm). transitivity (tget (Fin 0) m (b ++ [])); [exact (xget_expand m bs [] b k [] Sm' Hi ltac:(constructor))|]. rewrite app_nil_r, Hm by auto. reflexivity.
Qed.
End Rows.

Lemma catb_item_shape k t dt d batch K ix rs src : legal_rows k t batch K -> construct k t dt = Ok d -> batch <> [] -> index_ok ix -> any_index batch ix = Ok (rs, src) ->
  exists d', catb_getitem d ix = Ok d' /\ shp (cb_param d') = rs ++ [K] /\ forall r, inb rs r -> cat_at d' r = cat_at d (src r).
Proof.
  intros HL E Hne W Ei. destruct (catb_item k t dt d batch K ix rs src HL E Hne W Ei) as (HB & d' & E' & HB' & HK & HD & H). exists d'. split; [exact E'|]. split; [|exact H].
  assert (Sp : shp (cb_param d) = batch ++ [K]) by (apply construct_ok in E as (-> & _); apply HL).
  rewrite item_construct in E'. rewrite HB in E'. destruct (slice_any_ok NaN batch [K] ix rs src (cb_param d) Hne Ei (any_index_inb _ _ _ _ W Ei) Sp) as (q & Eq & _ & Sq & _). rewrite Eq in E'. cbn [rbind] in E'.
  apply construct_ok in E' as (-> & _). exact Sq.
Qed.

(** MixtureSameFamily(Categorical(t), F(p, q))[ix] evaluates, at every position, to what the original evaluates to at the position picked; log_prob with any leading sample axes,
    mean and variance.  An illegal index raises the error that indexing an array of the batch shape raises. *)
Definition mixture_indexing (F : family) : Prop := forall k t dt cat bs K p q d ix,
  legal_rows k t bs K -> construct k t dt = Ok cat -> batch_shape2 p q = Ok (bs ++ [K]) -> bs <> [] -> msfb_init F cat (p, q) = Ok d -> index_ok ix ->
  (forall e, any_index bs ix = Err e -> msfb_getitem F d ix = Err e) /\
  forall rs, (exists src, any_index bs ix = Ok (rs, src)) -> exists d', msfb_getitem F d ix = Ok d' /\ msf_batch_shape (mb_msf d') = rs /\
    draws_agree bs ix rs [] (msf_log_prob (mb_msf d)) (msf_log_prob (mb_msf d')) /\
    stats_agree bs ix rs [] (msf_mean (mb_msf d)) (msf_mean (mb_msf d')) /\ stats_agree bs ix rs [] (msf_variance (mb_msf d)) (msf_variance (mb_msf d')).
Lemma mixture_indexing_ok F lp mn vr : ew_family F lp mn vr -> mixture_indexing F.
Proof.
  intros HF k t dt cat bs K p q d ix HL Ec Hb0 Hne Hd W. assert (Hb : bshape (shp p) (shp q) = Some (bs ++ [K])) by (unfold batch_shape2 in Hb0; destruct bshape as [b0|]; [injection Hb0 as ->; auto|discriminate Hb0]).
  assert (Sp : shp (cb_param cat) = bs ++ [K]) by (pose proof (construct_ok _ _ _ _ Ec) as (Q & _); rewrite Q; apply HL).
  destruct (built F cat bs K p q d Hb Hd) as (B1 & B2 & B3 & _). split.
  { intros e E. unfold msfb_getitem. rewrite B3, (batch_index_err bs ix e) by auto. reflexivity. }
  intros rs [src E]. destruct (batch_index_ok bs ix rs src Hne W E) as (index & EI & WI & HI). destruct (batch_index_self bs rs src index HI) as (src0 & E0 & H0).
  destruct (catb_item_shape k t dt cat bs K index rs src0 HL Ec Hne WI E0) as (cat' & Ec' & Sp' & Hc').
  destruct (HI [K]) as (src' & E' & Hs').
  assert (Hne' : bs ++ [K] <> []) by (destruct bs; discriminate).
  pose proof (pair_getitem_ok p q (bs ++ [K]) index (rs ++ [K]) src' WI Hb Hne' E') as Ep.
  set (p' := at_src (rs ++ [K]) src' p) in *. set (q' := at_src (rs ++ [K]) src' q) in *.
  assert (Hb' : bshape (shp p') (shp q') = Some (rs ++ [K])) by apply bshape_refl.
  assert (Hd' : exists d', msfb_init F cat' (p', q') = Ok d').
  { unfold msfb_init, fam_dist, batch_shape2. rewrite Hb'. cbn [rbind]. unfold msf_init. cbn [x_batch m_batch catb_mixing]. destruct list_eq_dec as [|N]; [cbn [rbind]; eauto|].
    exfalso. apply N. unfold catb_batch. rewrite Sp', !removelast_last. reflexivity. }
  destruct Hd' as [d' Hd']. exists d'. split.
  { unfold msfb_getitem. rewrite B3, EI. cbn [rbind]. rewrite B1, Ec'. cbn [rbind]. rewrite B2. cbn [fst snd]. rewrite Ep. cbn [rbind]. exact Hd'. }
  split; [apply (built F cat' rs K p' q' d' Hb' Hd')|].
  pose proof (any_index_inb _ _ _ _ W E) as Hin.
  assert (PK : forall r c, picks bs ix rs r c -> inb rs r /\ inb bs c /\ cat_at cat' r = cat_at cat c /\
     (forall j, j < K -> xget p' (r ++ [j]) = xget p (c ++ [j])) /\ (forall j, j < K -> xget q' (r ++ [j]) = xget q (c ++ [j]))).
  { intros r c (s2 & E2 & Hr & ->). rewrite E in E2. injection E2 as <-. split; [auto|]. split; [auto|]. split; [rewrite Hc', H0 by auto; reflexivity|].
    split; intros j Hj; unfold p', q'; rewrite xget_at_src by (apply inb_snoc; auto); rewrite Hs' by (auto; repeat constructor; auto); reflexivity. }
  split; [|split].
  - intros S x x' Wx Wx' Sx Sx' Hx. rewrite app_nil_r in Sx, Sx'.
    destruct (log_prob_rows F lp mn vr HF cat bs K p q d Sp Hb Hd S x Wx Sx) as (y & Ey & Sy & Hy). destruct (log_prob_rows F lp mn vr HF cat' rs K p' q' d' Sp' Hb' Hd' S x' Wx' Sx') as (y' & Ey' & Sy' & Hy').
    exists y, y'. repeat (split; [assumption|]). intros s r c Hs Hp. destruct (PK r c Hp) as (Hr & Hc & Ecat & Pp & Pq). rewrite Hy, Hy' by auto. unfold row_log_prob. rewrite Ecat.
    specialize (Hx s r c [] Hs Hp ltac:(constructor)). rewrite !app_nil_r in Hx. rewrite Hx. f_equal. apply map_ext_in. intros j Hj. apply in_seq in Hj. rewrite Pp, Pq by lia. reflexivity.
  - destruct (mean_rows F lp mn vr HF cat bs K p q d Sp Hb Hd) as (y & Ey & Sy & _ & Hy). destruct (mean_rows F lp mn vr HF cat' rs K p' q' d' Sp' Hb' Hd') as (y' & Ey' & Sy' & _ & Hy').
    exists y, y'. rewrite !app_nil_r. repeat (split; [assumption|]). intros r c e Hp He. inversion He. rewrite !app_nil_r. destruct (PK r c Hp) as (Hr & Hc & Ecat & Pp & Pq). rewrite Hy, Hy' by auto.
    unfold row_mean. rewrite Ecat. f_equal. apply map_ext_in. intros j Hj. apply in_seq in Hj. rewrite Pp, Pq by lia. reflexivity.
  - destruct (variance_rows F lp mn vr HF cat bs K p q d Sp Hb Hd) as (y & Ey & Sy & Hy). destruct (variance_rows F lp mn vr HF cat' rs K p' q' d' Sp' Hb' Hd') as (y' & Ey' & Sy' & Hy').
    exists y, y'. rewrite !app_nil_r. repeat (split; [assumption|]). intros r c e Hp He. inversion He. rewrite !app_nil_r. destruct (PK r c Hp) as (Hr & Hc & Ecat & Pp & Pq). rewrite Hy, Hy' by auto.
    assert (RM : row_mean mn (cat_at cat' r) K (fun k => xget p' (r ++ [k])) (fun k => xget q' (r ++ [k])) = row_mean mn (cat_at cat c) K (fun k => xget p (c ++ [k])) (fun k => xget q (c ++ [k]))).
    { unfold row_mean. rewrite Ecat. f_equal. apply map_ext_in. intros j Hj. apply in_seq in Hj. rewrite Pp, Pq by lia. reflexivity. }
    unfold row_variance. rewrite RM, Ecat. f_equal; f_equal; apply map_ext_in; intros j Hj; apply in_seq in Hj; rewrite Pp, Pq by lia; reflexivity.
Qed.
Definition normal_family := mkFamily normal_log_prob_arr normal_mean_arr normal_variance_arr.
Definition laplace_family := mkFamily laplace_log_prob_arr laplace_mean_arr laplace_variance_arr.
Definition logistic_family := mkFamily logistic_log_prob_arr logistic_mean_arr logistic_variance_arr.
Definition uniform_family := mkFamily uniform_log_prob_arr uniform_mean_arr uniform_variance_arr.
Definition gamma_family lgamma := mkFamily (gamma_log_prob_arr lgamma) gamma_mean_arr gamma_variance_arr.
Definition beta_family lgamma := mkFamily (beta_log_prob_arr lgamma) beta_mean_arr beta_variance_arr.
Lemma families_ew lgamma : (exists l m v, ew_family normal_family l m v) /\ (exists l m v, ew_family laplace_family l m v) /\ (exists l m v, ew_family logistic_family l m v) /\
  (exists l m v, ew_family uniform_family l m v) /\ (exists l m v, ew_family (gamma_family lgamma) l m v) /\ (exists l m v, ew_family (beta_family lgamma) l m v).
Proof.
  split; [|split; [|split; [|split; [|split]]]].
  - exists normal_log_prob, (fun a _ => a), (fun _ b => xsquare b). split; [exact (ew3'_lift normal_log_prob)|exact ew2_first|exact (ew2_second_lift xsquare)].
  - exists laplace_log_prob, (fun a _ => a). eexists. split; [exact (ew3'_lift laplace_log_prob)|exact ew2_first|exact (ew2_second_lift _)].
  - exists logistic_log_prob, (fun a _ => a). eexists. split; [exact (ew3'_param logistic_log_prob)|exact ew2_first|exact (ew2_second_lift _)].
  - exists uniform_log_prob. eexists _, _. split; [exact (ew3'_param uniform_log_prob)|exact (ew2_params _)|exact (ew2_params _)].
  - exists (gamma_log_prob lgamma), gamma_mean, gamma_variance. split; [exact (ew3'_lift (gamma_log_prob lgamma))|exact (ew2_lift _)|exact (ew2_lift _)].
  - exists (beta_log_prob lgamma), beta_mean, beta_variance. split; [exact (ew3'_lift (beta_log_prob lgamma))|exact (ew2_lift _)|exact (ew2_lift _)].
Qed.
Theorem C77_mixture_same_family : forall lgamma, mixture_indexing normal_family /\ mixture_indexing laplace_family /\ mixture_indexing logistic_family /\ mixture_indexing uniform_family /\
  mixture_indexing (gamma_family lgamma) /\ mixture_indexing (beta_family lgamma).
Proof.
  intros lgamma. destruct (families_ew lgamma) as ((l1 & m1 & v1 & H1) & (l2 & m2 & v2 & H2) & (l3 & m3 & v3 & H3) & (l4 & m4 & v4 & H4) & (l5 & m5 & v5 & H5) & (l6 & m6 & v6 & H6)).
  repeat split; try (eapply mixture_indexing_ok; eauto; fail).
Qed.
Print Assumptions C77_mixture_same_family.

(** ** MixtureOfTwo *)
Definition known_family lgamma (F : family) : Prop :=
  In F [normal_family; laplace_family; logistic_family; uniform_family; gamma_family lgamma; beta_family lgamma].
Lemma known_ew lgamma F : known_family lgamma F -> exists l m v, ew_family F l m v.
Proof. destruct (families_ew lgamma) as (H1 & H2 & H3 & H4 & H5 & H6). intros [<-|[<-|[<-|[<-|[<-|[<-|[]]]]]]]; auto. Qed.
Lemma fam_lp_rows F l m v p q bs S x : ew_family F l m v -> bshape (shp p) (shp q) = Some bs -> shp x = S ++ bs ->
  exists y, fam_log_prob F x p q = Ok y /\ shp y = S ++ bs /\ wf y /\ forall s b, inb S s -> inb bs b -> xget y (s ++ b) = l (tget (Fin 0) x (s ++ b)) (xget p b) (xget q b).
Proof.
  intros HF Hb Sx. assert (Bs : bshape (shp x) bs = Some (S ++ bs)) by (rewrite Sx, bshape_comm; apply bshape_drop). rewrite (ew_lp _ _ _ _ HF x p q bs _ Hb Bs).
  eexists. split; [reflexivity|]. split; [reflexivity|]. split; [apply tgen_wf|]. intros s b Hs Hi. assert (Hin : inb (S ++ bs) (s ++ b)) by (apply inb_app; auto).
  rewrite xget_tgen_same by exact Hin. rewrite (xget_prefix p bs), (xget_prefix q bs) by (auto; below). rewrite (xget_same x) by (rewrite Sx; auto). reflexivity.
Qed.
Lemma mo2_built F G prob pa qa pb qb bs d : bshape (shp pa) (shp qa) = Some bs -> bshape (shp pb) (shp qb) = Some bs -> mo2b_init F G prob (pa, qa) (pb, qb) = Ok d ->
  tb_prob d = prob /\ tb_a d = (pa, qa) /\ tb_b d = (pb, qb) /\ mo2_batch_shape (tb_mo2 d) = bs /\ prob_a (tb_mo2 d) = prob /\
  x_log_prob (comp_a (tb_mo2 d)) = (fun x => fam_log_prob F x pa qa) /\ x_log_prob (comp_b (tb_mo2 d)) = (fun x => fam_log_prob G x pb qb).
Proof.
  intros Ha Hb H. unfold mo2b_init, fam_dist, batch_shape2 in H. rewrite Ha, Hb in H. cbn [rbind] in H. unfold mo2_init in H. cbn [Nat.eqb negb x_event x_batch] in H.
  destruct list_eq_dec; [|congruence]. destruct list_eq_dec; [|congruence]. cbn [rbind] in H. injection H as <-. cbn. auto 10.
Qed.
Lemma mo2_rows F G l1 m1 v1 l2 m2 v2 prob pa qa pb qb bs d S x : ew_family F l1 m1 v1 -> ew_family G l2 m2 v2 -> bshape (shp pa) (shp qa) = Some bs -> bshape (shp pb) (shp qb) = Some bs ->
  mo2b_init F G prob (pa, qa) (pb, qb) = Ok d -> shp x = S ++ bs ->
  exists y, mo2_log_prob (tb_mo2 d) x = Ok y /\ shp y = S ++ bs /\ forall s b, inb S s -> inb bs b -> tget (Fin 0) y (s ++ b) =
    xlogaddexp (xadd (xlog prob) (l1 (tget (Fin 0) x (s ++ b)) (xget pa b) (xget qa b))) (xadd (xlog (xsub (Fin 1) prob)) (l2 (tget (Fin 0) x (s ++ b)) (xget pb b) (xget qb b))).
Proof.
  intros HF HG Ha Hb Hd Sx. destruct (mo2_built _ _ _ _ _ _ _ _ _ Ha Hb Hd) as (_ & _ & _ & _ & Ep & Ea & Eb). unfold mo2_log_prob. rewrite Ea, Eb, Ep.
  destruct (fam_lp_rows F l1 m1 v1 pa qa bs S x HF Ha Sx) as (ya & -> & Sa & _ & Hya). cbn [rbind]. rewrite lift1_ok. cbn [rbind].
  destruct (fam_lp_rows G l2 m2 v2 pb qb bs S x HG Hb Sx) as (yb & -> & Sb & _ & Hyb). cbn [rbind]. rewrite lift1_ok. cbn [rbind].
  rewrite (lift2_top xlogaddexp _ _ (S ++ bs)) by (cbn [shp tgen]; rewrite ?Sa, ?Sb; auto using bshape_refl).
  eexists. split; [reflexivity|]. split; [reflexivity|]. intros s b Hs Hi. assert (Hin : inb (S ++ bs) (s ++ b)) by (apply inb_app; auto).
  rewrite tget_tgen by exact Hin. rewrite !xget_tgen_same by (rewrite ?Sa, ?Sb; exact Hin). rewrite Hya, Hyb by auto. reflexivity.
Qed.
Theorem C77_mixture_of_two : forall lgamma F G prob pa qa pb qb bs d ix, known_family lgamma F -> known_family lgamma G ->
  batch_shape2 pa qa = Ok bs -> batch_shape2 pb qb = Ok bs -> bs <> [] -> mo2b_init F G prob (pa, qa) (pb, qb) = Ok d -> index_ok ix ->
  (forall e, any_index bs ix = Err e -> mo2b_getitem F G d ix = Err e) /\
  forall rs, (exists src, any_index bs ix = Ok (rs, src)) -> exists d', mo2b_getitem F G d ix = Ok d' /\ mo2_batch_shape (tb_mo2 d') = rs /\ prob_a (tb_mo2 d') = prob /\
    draws_agree bs ix rs [] (mo2_log_prob (tb_mo2 d)) (mo2_log_prob (tb_mo2 d')).
Proof.
  intros lgamma F G prob pa qa pb qb bs d ix KF KG Ha0 Hb0 Hne Hd W.
  assert (Ha : bshape (shp pa) (shp qa) = Some bs) by (unfold batch_shape2 in Ha0; destruct bshape; congruence). assert (Hb : bshape (shp pb) (shp qb) = Some bs) by (unfold batch_shape2 in Hb0; destruct bshape; congruence).
  destruct (known_ew _ _ KF) as (l1 & m1 & v1 & HF). destruct (known_ew _ _ KG) as (l2 & m2 & v2 & HG).
  destruct (mo2_built _ _ _ _ _ _ _ _ _ Ha Hb Hd) as (B1 & B2 & B3 & B4 & _). split.
  { intros e E. unfold mo2b_getitem. rewrite B4, (batch_index_err bs ix e) by auto. reflexivity. }
  intros rs [src E]. destruct (batch_index_ok bs ix rs src Hne W E) as (index & EI & WI & HI). destruct (batch_index_self bs rs src index HI) as (src0 & E0 & H0).
  pose proof (pair_getitem_ok pa qa bs index rs src0 WI Ha Hne E0) as Epa. pose proof (pair_getitem_ok pb qb bs index rs src0 WI Hb Hne E0) as Epb.
  set (pa' := at_src rs src0 pa) in *. set (qa' := at_src rs src0 qa) in *. set (pb' := at_src rs src0 pb) in *. set (qb' := at_src rs src0 qb) in *.
  assert (Ha' : bshape (shp pa') (shp qa') = Some rs) by apply bshape_refl. assert (Hb' : bshape (shp pb') (shp qb') = Some rs) by apply bshape_refl.
  assert (Hd' : exists d', mo2b_init F G prob (pa', qa') (pb', qb') = Ok d').
  { unfold mo2b_init, fam_dist, batch_shape2. rewrite Ha', Hb'. cbn [rbind]. unfold mo2_init. cbn [Nat.eqb negb x_event x_batch]. destruct list_eq_dec; [|congruence]. destruct list_eq_dec; [|congruence]. cbn [rbind]. eauto. }
  destruct Hd' as [d' Hd']. exists d'. destruct (mo2_built _ _ _ _ _ _ _ _ _ Ha' Hb' Hd') as (_ & _ & _ & B4' & B5' & _). split.
  { unfold mo2b_getitem. rewrite B4, EI. cbn [rbind]. rewrite B2, B3, B1. cbn [fst snd]. rewrite Epa, Epb. cbn [rbind]. exact Hd'. }
  split; [exact B4'|]. split; [exact B5'|]. intros S x x' Wx Wx' Sx Sx' Hx. rewrite app_nil_r in Sx, Sx'.
  destruct (mo2_rows F G _ _ _ _ _ _ prob pa qa pb qb bs d S x HF HG Ha Hb Hd Sx) as (y & Ey & Sy & Hy). destruct (mo2_rows F G _ _ _ _ _ _ prob pa' qa' pb' qb' rs d' S x' HF HG Ha' Hb' Hd' Sx') as (y' & Ey' & Sy' & Hy').
  exists y, y'. repeat (split; [assumption|]). intros s r c Hs Hp. specialize (Hx s r c [] Hs Hp ltac:(constructor)). rewrite !app_nil_r in Hx.
  destruct Hp as (s2 & E2 & Hr & ->). rewrite E in E2. injection E2 as <-. pose proof (any_index_inb _ _ _ _ W E r Hr) as Hc. rewrite Hy, Hy' by auto. rewrite Hx.
  unfold pa', qa', pb', qb'. rewrite !xget_at_src, H0 by auto. reflexivity.
Qed.
Print Assumptions C77_mixture_of_two.

(** ** CategoricalUniform: the element of d[ix] at a position is the element of d at the position picked; log_prob, entropy, mean, variance and samples (given the same noise) are functions of it. *)
Theorem C77_categorical_uniform : forall low high logits d bs ix, cub_init low high logits = Ok d -> cub_batch d = Ok bs -> bs <> [] -> index_ok ix ->
  (forall e, any_index bs ix = Err e -> cub_getitem d ix = Err e) /\
  forall rs, (exists src, any_index bs ix = Ok (rs, src)) -> exists d', cub_getitem d ix = Ok d' /\ cub_batch d' = Ok rs /\ forall r c, picks bs ix rs r c -> cub_at d' r = cub_at d c.
Proof.
  intros low high logits d bs ix Hd Hb0 Hne W. unfold cub_init in Hd. destruct (Nat.ltb_spec (rank logits) 1) as [|Rk]; [discriminate|]. injection Hd as <-.
  unfold cub_getitem. rewrite Hb0. cbn [rbind]. unfold cub_batch in Hb0. cbn [ub_low ub_high ub_logits] in *. destruct bshapes as [b0|] eqn:Hb; [|discriminate]. injection Hb0 as ->.
  assert (Bl : bshape (shp low) bs = Some bs) by (apply (bshapes_absorb _ _ Hb); cbn; auto). assert (Bh : bshape (shp high) bs = Some bs) by (apply (bshapes_absorb _ _ Hb); cbn; auto).
  assert (Bg : bshape (removelast (shp logits)) bs = Some bs) by (apply (bshapes_absorb _ _ Hb); cbn; auto). set (K := last (shp logits) 0) in *.
  assert (Sl : shp logits = removelast (shp logits) ++ [K]). { apply app_removelast_last. intros Q. unfold rank in Rk. rewrite Q in Rk. cbn in Rk. lia. }
  assert (BL : bshape (shp logits) (bs ++ [K]) = Some (bs ++ [K])) by (rewrite Sl; apply bshape_app; [reflexivity|exact Bg|apply bshape_refl]).
  unfold cub_bins. cbn [ub_logits]. fold K. rewrite (broadcast_to_ok low bs Bl), (broadcast_to_ok high bs Bh), (broadcast_to_ok logits (bs ++ [K]) BL). cbn [rbind].
  split; [intros e E; rewrite (slice_any_err _ _ _ _ _ Hne E); reflexivity|]. intros rs [src E]. pose proof (any_index_inb _ _ _ _ W E) as Hin.
  rewrite (slice_full bs ix rs src low W Hne E Bl). cbn [rbind]. rewrite (slice_full bs ix rs src high W Hne E Bh). cbn [rbind].
  destruct (slice_any_ok (Fin 0) bs [K] ix rs src (tgen (bs ++ [K]) (fun i => xget logits i)) Hne E Hin eq_refl) as (lg & -> & Wg & Sg & Hg). cbn [rbind].
  unfold cub_init, rank. rewrite Sg, app_length. cbn [length]. destruct (Nat.ltb_spec (length rs + 1) 1); [lia|]. eexists. split; [reflexivity|]. split.
  - unfold cub_batch. cbn [ub_low ub_high ub_logits at_src shp tgen]. rewrite Sg, removelast_last. rewrite bshapes_top by (repeat constructor; apply bshape_refl). reflexivity.
  - intros r c (s2 & E2 & Hr & ->). rewrite E in E2. injection E2 as <-. unfold cub_at, cub_bins. cbn [ub_low ub_high ub_logits]. rewrite Sg, last_last. fold K. rewrite !xget_at_src by auto. f_equal.
    apply map_ext_in. intros k Hk. apply in_seq in Hk. rewrite (xget_same lg) by (rewrite Sg; apply inb_snoc; [auto|lia]). rewrite Hg by (auto; repeat constructor; lia). apply tget_tgen. apply inb_snoc; [auto|lia].
Qed.
Print Assumptions C77_categorical_uniform.

(** ** Dirichlet *)
Lemma dirb_rows f d bs K S x : shp (db_conc d) = bs ++ [K] -> shp x = S ++ bs ++ [K] ->
  exists y, dirb_eval f d x = Ok y /\ shp y = S ++ bs /\ forall s b, inb S s -> inb bs b ->
    tget (Fin 0) y (s ++ b) = f (map (fun k => tget (Fin 0) x (s ++ b ++ [k])) (seq 0 K)) (map (fun k => xget (db_conc d) (b ++ [k])) (seq 0 K)).
Proof.
  intros Sc Sx. unfold dirb_eval. rewrite Sc, Sx. rewrite (bshape_comm (S ++ bs ++ [K])), bshape_drop. rewrite app_assoc, last_last, removelast_last.
  eexists. split; [reflexivity|]. split; [reflexivity|]. intros s b Hs Hi. rewrite tget_tgen by (apply inb_app; auto). f_equal; apply map_ext_in; intros k Hk; apply in_seq in Hk; rewrite <- app_assoc.
  - apply xget_same. rewrite Sx. apply inb_app; [auto|apply inb_snoc; [auto|lia]].
  - eapply xget_prefix with (batch := bs ++ [K]); [rewrite Sc; apply bshape_refl|apply inb_snoc; [auto|lia]].
Qed.
Theorem C77_dirichlet : forall lgamma digamma conc d bs K ix, wf conc -> shp conc = bs ++ [K] -> dirb_init conc = Ok d -> bs <> [] -> index_ok ix ->
  (forall e, any_index bs ix = Err e -> dirb_getitem d ix = Err e) /\
  forall rs, (exists src, any_index bs ix = Ok (rs, src)) -> exists d', dirb_getitem d ix = Ok d' /\ dirb_batch d' = rs /\
    draws_agree bs ix rs [K] (dirb_eval (dir_log_prob lgamma) d) (dirb_eval (dir_log_prob lgamma) d') /\
    stats_agree bs ix rs [] (dirb_stat (dir_entropy lgamma digamma) d) (dirb_stat (dir_entropy lgamma digamma) d') /\
    stats_agree bs ix rs [K] (dirb_events dir_mean d) (dirb_events dir_mean d') /\ stats_agree bs ix rs [K] (dirb_events dir_mode d) (dirb_events dir_mode d') /\
    stats_agree bs ix rs [K] (dirb_events dir_variance d) (dirb_events dir_variance d').
Proof.
  intros lgamma digamma conc d bs K ix Wc0 Sc Hd Hne W. unfold dirb_init in Hd. destruct (dirichlet_shapes (shp conc)) as [sh|] eqn:Esh; [|discriminate]. injection Hd as <-.
  assert (HB : dirb_batch (mkDirb conc) = bs) by (unfold dirb_batch; cbn [db_conc]; rewrite Sc; apply removelast_last).
  assert (HK : Nat.ltb K 2 = false). { unfold dirichlet_shapes in Esh. rewrite Sc, rev_app_distr in Esh. cbn [rev app] in Esh. destruct (Nat.ltb K 2); [discriminate|auto]. }
  unfold dirb_getitem. rewrite HB. cbn [db_conc]. split; [intros e E; rewrite (slice_any_err _ _ _ _ _ Hne E); reflexivity|].
  intros rs [src E]. pose proof (any_index_inb _ _ _ _ W E) as Hin. destruct (slice_any_ok NaN bs [K] ix rs src conc Hne E Hin Sc) as (c' & -> & Wc & Sc' & Hc). cbn [rbind].
  unfold dirb_init, dirichlet_shapes. rewrite Sc', rev_app_distr. cbn [rev app]. rewrite HK. cbn [rbind]. eexists. split; [reflexivity|]. split; [unfold dirb_batch; cbn [db_conc]; rewrite Sc'; apply removelast_last|].
  assert (RV : forall r, inb rs r -> vec c' r = vec conc (src r)) by (intros r Hr; eapply vec_tgen_slice; eauto).
  assert (DV : forall (t : tensor XR) i, wf t -> inb (shp t) i -> xget t i = tget NaN t i).
  { intros t i Wt Ht. rewrite xget_same by auto. unfold tget. apply nth_indep. unfold wf in Wt. rewrite Wt. apply ravel_lt; auto. }
  assert (PK : forall r c, picks bs ix rs r c -> inb rs r /\ inb bs c /\ vec c' r = vec conc c).
  { intros r c (s2 & E2 & Hr & ->). rewrite E in E2. injection E2 as <-. auto. }
  assert (EV : forall f, (forall l, length (f l) = length l) -> stats_agree bs ix rs [K] (dirb_events f (mkDirb conc)) (dirb_events f (mkDirb c'))).
  { intros f _. unfold dirb_events. cbn [db_conc]. eexists _, _. split; [reflexivity|]. split; [reflexivity|]. split; [exact Sc|]. split; [exact Sc'|]. intros r c e Hp He.
    destruct (PK r c Hp) as (Hr & Hcc & Ev). inversion He as [|k ? l ? Hk Hl]; subst. inversion Hl; subst. unfold along_last.
    rewrite !tget_tgen by (rewrite ?Sc, ?Sc'; apply inb_snoc; auto). rewrite !last_last, !removelast_last, Ev. reflexivity. }
  split; [|split; [|split; [|split]]].
  - intros S x x' Wx Wx' Sx Sx' Hx. destruct (dirb_rows (dir_log_prob lgamma) (mkDirb conc) bs K S x Sc Sx) as (y & Ey & Sy & Hy). destruct (dirb_rows (dir_log_prob lgamma) (mkDirb c') rs K S x' Sc' Sx') as (y' & Ey' & Sy' & Hy').
    exists y, y'. repeat (split; [assumption|]). intros s r c Hs Hp. destruct (PK r c Hp) as (Hr & Hcc & Ev). rewrite Hy, Hy' by auto. cbn [db_conc]. f_equal; apply map_ext_in; intros k Hk; apply in_seq in Hk.
    + apply Hx; auto. repeat constructor. lia.
    + rewrite !DV by (auto; rewrite ?Sc, ?Sc'; apply inb_snoc; auto; lia). rewrite <- !vec_nth by (rewrite ?(last_axis_snoc _ _ _ Sc), ?(last_axis_snoc _ _ _ Sc'); lia). rewrite Ev. reflexivity.
  - unfold dirb_stat. eexists _, _. split; [reflexivity|]. split; [reflexivity|]. rewrite HB. unfold dirb_batch at 1. cbn [db_conc shp tgen]. rewrite Sc', removelast_last, !app_nil_r. split; [reflexivity|]. split; [reflexivity|].
    intros r c e Hp He. inversion He. rewrite !app_nil_r. destruct (PK r c Hp) as (Hr & Hcc & Ev). unfold dirb_batch. cbn [db_conc]. rewrite !tget_tgen by (rewrite ?Sc', ?removelast_last; auto). rewrite Ev. reflexivity.
  - apply EV. intros l. unfold dir_mean. apply map_length.
  - apply EV. intros l. unfold dir_mode. rewrite !map_length. auto.
  - apply EV. intros l. unfold dir_variance. rewrite !map_length. auto.
Qed.
Print Assumptions C77_dirichlet.

(** A mixture of two Normals for each of three batch elements, probs of shape (3, 2), loc of shape (3, 2), scale of shape (2,); indexing with [[2, 0]] is legal.
    CategoricalUniform(0, 1, logits of shape (3, 2)) and Dirichlet over the same array. *)
Example C77_mixture_nonvacuous :
  let t := mkT [3; 2] (map Fin [1; 1; 2; 1; 1; 3]%R) in let p := mkT [3; 2] (map Fin [0; 1; 2; 3; 4; 5]%R) in let q := mkT [2] (map Fin [1; 2]%R) in
  let ix := IxArrays [mkT [2] [2; 0]%Z] in
  legal_rows KProbs t [3] 2 /\ (exists cat d, construct KProbs t DInt = Ok cat /\ batch_shape2 p q = Ok ([3] ++ [2]) /\ msfb_init normal_family cat (p, q) = Ok d) /\
  index_ok ix /\ (exists src, any_index [3] ix = Ok ([2], src)) /\ picks [3] ix [2] [1] [0] /\
  (exists d, cub_init (tscalar (Fin 0)) (tscalar (Fin 1)) t = Ok d /\ cub_batch d = Ok [3]) /\ (exists d, dirb_init t = Ok d) /\
  (exists d, mo2b_init normal_family uniform_family (Fin (1/2)) (p, q) (p, q) = Ok d).
Proof.
  cbv zeta. split; [|split; [do 2 eexists; split; [reflexivity|split; reflexivity]|split; [repeat constructor|split; [eexists; reflexivity|split; [eexists; split; [reflexivity|split; [repeat constructor|reflexivity]]|split; [eexists; split; reflexivity|split; eexists; reflexivity]]]]]].
  split; [reflexivity|]. split; [reflexivity|]. intros i Hi. inversion Hi as [|a ? l ? Ha Hl]; subst. inversion Hl; subst.
  destruct a as [|[|[|a]]]; [exists [1; 1]%R|exists [2; 1]%R|exists [1; 3]%R|lia]; (split; [reflexivity|split; [intros y; cbn; intros [<-|[<-|[]]]; lra|cbn; lra]]).
Qed.
