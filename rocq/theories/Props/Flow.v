(** C76: a Transformed distribution over a coupling (or blocked elementwise) bijector has exactly the law of forward(X). *)
From Coq Require Import Reals List ZArith Bool Lra Lia FunctionalExtensionality.
From Coquelicot Require Import Coquelicot.
From Verif Require Import Base.Result Base.Sums Base.Tensor Base.XR Base.Lift Base.Integral Base.Gauss Model.Bijector Model.ScalarBij Model.Coupling
  Model.Transformed Spec.Bijector Spec.Coupling Spec.Scalar Spec.Transformed Spec.Flow Proofs.Bijector Proofs.Block Proofs.ScalarBij Proofs.Coupling
  Proofs.Density Proofs.Transformed Proofs.Flow Props.Transformed Props.Coupling.
Import ListNotations.
Local Open Scope R_scope.

(** the array of shape [s] with the coordinates of a point *)
Notation array_of s y := (tgen s (y : point)).
(** [base] has event shape [s] and density [q] *)
Definition density_of {K} (base : dist K) (s : shape) (q : point -> R) : Prop :=
  (forall x, 0 <= q x) /\ (forall x y, (forall i, inb s i -> x i = y i) -> q x = q y) /\
  (forall x, d_log_prob base (array_of s x) = Ok (tscalar (rlog (q x)))).
Definition unmasked (m : tensor bool) (s : shape) : list coord := filter (fun i => negb (mask_at m i)) (indices s).
Definition masked (m : tensor bool) (s : shape) : list coord := filter (mask_at m) (indices s).

Lemma in_unmasked m s i : In i (unmasked m s) <-> inb s i /\ mask_at m i = false.
Proof. unfold unmasked. rewrite filter_In, in_indices, negb_true_iff. tauto. Qed.
Lemma in_masked m s i : In i (masked m s) <-> inb s i /\ mask_at m i = true.
Proof. unfold masked. rewrite filter_In, in_indices. tauto. Qed.

Lemma pos_prodf {A} (h : A -> R) l : (forall i, In i l -> 0 < h i) -> 0 < prodf h l.
Proof. intros H. apply rprod_pos. intros a Ha. apply in_map_iff in Ha as (i & <- & Hi). auto. Qed.
Lemma ln_prodf {A} (h : A -> R) l : (forall i, In i l -> 0 < h i) -> ln (prodf h l) = sumf (fun i => ln (h i)) l.
Proof. intros H. unfold prodf, sumf. rewrite ln_rprod; [rewrite map_map; reflexivity|]. intros a Ha. apply in_map_iff in Ha as (i & <- & Hi). auto. Qed.
Lemma sumf_filter {A} (b : A -> bool) (h : A -> R) l : sumf (fun i => if b i then h i else 0) l = sumf h (filter b l).
Proof. induction l as [|i l IH]; [reflexivity|]. cbn [filter]. unfold sumf in *. cbn [map rsum fold_right]. change (fold_right Rplus 0) with rsum. rewrite IH. destruct (b i); cbn [map rsum fold_right]; [reflexivity|]. change (fold_right Rplus 0) with rsum. ring. Qed.
Lemma scalar_tget s0 (t : arr) : wf t -> shp t = [] -> tget 0 t [] = s0 -> t = tscalar s0.
Proof. intros W S E. apply (tensor_ext 0); auto; [reflexivity|]. intros i Hi. rewrite S in Hi. apply inb_nil_inv in Hi as ->. rewrite E. reflexivity. Qed.

(** A family of bijectors of scalars (on arrays of shape [s]): with parameters [p] coordinate number [i] is mapped by [f p i], a smooth bijection of R
    onto the interval [D i] with inverse [g p i], and the reported inverse log-det is log|g'|. *)
Definition moves_coordinates {P} (bijector : P -> bij) (s : shape) (D : box) (f g : P -> coord -> R -> R) : Prop :=
  exists f' lf lg : P -> coord -> R -> R,
  (forall p, b_in (bijector p) = 0%Z /\ b_out (bijector p) = 0%Z) /\
  (forall p x, b_fal (bijector p) (array_of s x) = Ok (tgen s (fun i => f p i (x i)), tgen s (fun i => lf p i (x i)))) /\
  (forall p y, b_ial (bijector p) (array_of s y) = Ok (tgen s (fun i => g p i (y i)), tgen s (fun i => lg p i (y i)))) /\
  (forall p i, inb s i -> smooth_bijection (f p i) (f' p i) (g p i) (fst (D i)) (snd (D i))) /\
  (forall p i y, inb s i -> inside (fst (D i)) (snd (D i)) y -> log_abs_derivative (g p i) (lg p i) y).

(** *** MaskedCoupling.  [par] is the conditioner; with parameters [p] the inner bijector maps the coordinate number [i] by [f p i], a smooth
    bijection of R onto the interval [D i] with inverse [g p i]; it reports [lf] and [lg] as log-dets, [lg] being log|g'|. *)
Section Coupling.
Context {K P : Type}.
Variables (cond : arr -> result P) (par : arr -> P) (bijector : P -> bij) (m : tensor bool) (s : shape) (c : bij) (D : box).
Variables (f f' g lf lg : P -> coord -> R -> R).
Hypothesis Hc : masked_coupling_init cond bijector (BoolMask m) (Some (Z.of_nat (length s))) 0 = Ok c.
Hypothesis Hm : bshape (shp m) s = Some s.
Hypothesis Hpar : forall x, wf x -> shp x = s -> cond x = Ok (par x).
Hypothesis Hinner : forall p, b_in (bijector p) = 0%Z /\ b_out (bijector p) = 0%Z.
Hypothesis Hfal : forall p x, b_fal (bijector p) (array_of s x) = Ok (tgen s (fun i => f p i (x i)), tgen s (fun i => lf p i (x i))).
Hypothesis Hial : forall p y, b_ial (bijector p) (array_of s y) = Ok (tgen s (fun i => g p i (y i)), tgen s (fun i => lg p i (y i))).
Hypothesis HS : forall p i, inb s i -> smooth_bijection (f p i) (f' p i) (g p i) (fst (D i)) (snd (D i)).
Hypothesis Hlg : forall p i y, inb s i -> inside (fst (D i)) (snd (D i)) y -> log_abs_derivative (g p i) (lg p i) y.

(** the parameters: the conditioner applied to the input with the unmasked entries replaced by zero *)
Let params (x : point) : P := par (tgen s (fun i => if mask_at m i then x i else 0)).
Let F (i : coord) (x : point) : R -> R := f (params x) i.
Let G (i : coord) (x : point) : R -> R := g (params x) i.
Let U := unmasked m s.

Lemma masked_array x : masked_input m (length s) (array_of s x) = tgen s (fun i => if mask_at m i then x i else 0).
Proof.
  unfold masked_input. cbn [shp]. apply tgen_ext. intros i Hi. rewrite firstn_all2 by (rewrite (inb_length _ _ Hi); lia).
  rewrite tget_tgen by auto. reflexivity.
Qed.
Lemma params_outside : depends_only_outside U params.
Proof.
  intros x y H. unfold params. f_equal. apply tgen_ext. intros i Hi. destruct (mask_at m i) eqn:E; auto. apply H. intros A. apply in_unmasked in A as [_ A]. congruence.
Qed.
Lemma coupling_at op x h lh : (op = b_fal \/ op = b_ial) ->
  (forall p, op (bijector p) (array_of s x) = Ok (tgen s (fun i => h p i (x i)), tgen s (fun i => lh p i (x i)))) ->
  op c (array_of s x) = Ok (array_of s (moved U (fun i x => h (params x) i) x), tscalar (sumf (fun i => lh (params x) i (x i)) U)).
Proof.
  intros Hop Ho. assert (Ei : b_in c = Z.of_nat (length s)) by (destruct (mc_init_ok _ _ _ _ _ _ Hc) as (? & _ & H); apply H).
  destruct (masked_coupling_values cond bijector m (Some (Z.of_nat (length s))) s [] c Hc Hm ltac:(rewrite app_nil_r; lia) op (array_of s x) (params x)
    (tgen s (fun i => h (params x) i (x i))) (tgen s (fun i => lh (params x) i (x i))) Hop) as (y & t & E & Wy & Sy & Wt & Vy & Vt); auto.
  { rewrite app_nil_r. reflexivity. }
  { rewrite masked_array. apply Hpar; [apply tgen_wf|reflexivity]. }
  { apply Hinner. } { apply Hinner. } { rewrite app_nil_r. reflexivity. }
  rewrite E. f_equal. f_equal.
  - rewrite app_nil_r in Sy. apply (tensor_ext 0); auto; [apply tgen_wf|]. rewrite Sy. intros i Hi. specialize (Vy i [] Hi (Forall2_nil _)). rewrite app_nil_r in Vy.
    rewrite Vy, !tget_tgen by auto. unfold moved. destruct (in_dec coord_dec i U) as [A|A].
    + apply in_unmasked in A as [_ ->]. reflexivity.
    + destruct (mask_at m i) eqn:B; auto. contradiction A. apply in_unmasked. auto.
  - destruct (Vt [] s eq_refl ltac:(rewrite Ei; cbn; lia)) as [St Vt']. specialize (Vt' [] (Forall2_nil _)). apply scalar_tget; auto. rewrite Vt'. unfold U, unmasked.
    rewrite <- sumf_filter. apply sumf_ext. intros i Hi. apply in_indices in Hi. cbn [app]. rewrite tget_tgen by auto. destruct (mask_at m i); reflexivity.
Qed.

Lemma coupling_law (base : dist K) q : density_of base s q ->
  (* samples are F(X) *)
  (forall x, b_fwd c (array_of s x) = Ok (array_of s (moved U F x))) /\
  (* log_prob is the logarithm of d, at every point of the support *)
  (forall y, in_box (box_of D U) y -> transformed_log_prob base c (array_of s y) = Ok (tscalar (rlog (moved_density U G q y)))) /\
  (* and d is the density of F(X): E phi(F(X)) = integral of phi * d *)
  (forall phi v, iterated_smooth (masked m s ++ U) (fun x => q x * phi (moved U F x)) v ->
     iterated_on (box_of D U) (masked m s ++ U) (fun y => moved_density U G q y * phi y) v).
Proof.
  intros (Pq & Lq & Hq). assert (NU : NoDup U) by (apply NoDup_filter, indices_NoDup).
  assert (IU : forall i, In i U -> inb s i) by (intros i Hi; apply in_unmasked in Hi; tauto). split; [|split].
  - intros x. pose proof (coupling_at b_fal x f lf (or_introl eq_refl) (fun p => Hfal p x)) as E.
    destruct (mc_init_ok _ _ _ _ _ _ Hc) as (? & _ & _ & _ & _ & _ & _ & _ & _ & _ & A). apply (proj1 A) in E. apply E.
  - intros y Hy. unfold transformed_log_prob. rewrite (coupling_at b_ial y g lg (or_intror eq_refl) (fun p => Hial p y)). cbn [rbind]. rewrite Hq. cbn [rbind].
    assert (L : forall i, In i U -> lg (params y) i (y i) = ln (Rabs (Derive (G i y) (y i))) /\ 0 < Rabs (Derive (G i y) (y i))).
    { intros i Hi. specialize (Hy i). rewrite box_of_in in Hy by auto. destruct (Hlg (params y) i (y i) (IU i Hi) Hy) as (d & Hd & Nz & ->).
      apply is_derive_Reals, is_derive_unique in Hd. unfold G. rewrite Hd. split; auto. apply Rabs_pos_lt; auto. }
    unfold moved_density. rewrite <- rlog_mult; [|apply Pq|apply pos_prodf; intros; apply L; auto].
    rewrite ln_prodf by (intros; apply L; auto). rewrite (sumf_ext (fun i => lg (params y) i (y i)) (fun i => ln (Rabs (Derive (G i y) (y i))))) by (intros; apply L; auto).
    reflexivity.
  - intros phi v HI. apply (moved_expectation_all U D F (fun i x => f' (params x) i) G); auto.
    + intros i x Hi. apply HS. auto.
    + intros i x y H. unfold G. rewrite (params_outside x y H). reflexivity.
    + intros i x y H. unfold F. rewrite (params_outside x y H). reflexivity.
    + intros i Hi A. apply in_masked in Hi as [_ Hi]. apply in_unmasked in A as [_ A]. congruence.
Qed.
End Coupling.

(** ** The theorems *)
Theorem C76_masked_coupling_law : forall K P (base : dist K) q (cond : arr -> result P) par bijector m s c D f g,
  density_of base s q ->
  masked_coupling_init cond bijector (BoolMask m) (Some (Z.of_nat (length s))) 0 = Ok c -> bshape (shp m) s = Some s ->
  (forall x, wf x -> shp x = s -> cond x = Ok (par x)) -> moves_coordinates bijector s D f g ->
  let params (x : point) := par (tgen s (fun i => if mask_at m i then x i else 0)) in
  let U := unmasked m s in
  let F i x := f (params x) i in
  let G i y := g (params y) i in
  (* forward, hence a sample, is F(X) *)
  (forall x, b_fwd c (array_of s x) = Ok (array_of s (moved U F x))) /\
  (* log_prob is the logarithm of a function, at every point of the support *)
  (forall y, in_box (box_of D U) y -> transformed_log_prob base c (array_of s y) = Ok (tscalar (rlog (moved_density U G q y)))) /\
  (* that function is the density of F(X): E phi(F(X)) is its integral against phi *)
  (forall phi v, iterated_smooth (masked m s ++ U) (fun x => q x * phi (moved U F x)) v ->
     iterated_on (box_of D U) (masked m s ++ U) (fun y => moved_density U G q y * phi y) v).
Proof.
  intros K P base q cond par bijector m s c D f g Hq Hc Hm Hp (f' & lf & lg & H1 & H2 & H3 & H4 & H5) params U F G.
  exact (coupling_law cond par bijector m s c D f f' g lf lg Hc Hm Hp H1 H2 H3 H4 H5 base q Hq).
Qed.
Print Assumptions C76_masked_coupling_law.

Lemma product_density_perm l l' p x : Permutation.Permutation l l' -> product_density l p x = product_density l' p x.
Proof.
  intros H. unfold product_density, prodf, rprod. induction H; cbn [map fold_right]; auto; [rewrite IHPermutation; auto|ring|congruence].
Qed.
Lemma NoDup_app_disj {A} (l l' : list A) : NoDup l -> NoDup l' -> (forall i, In i l -> ~ In i l') -> NoDup (l ++ l').
Proof.
  induction l as [|a l IH]; intros N N' H; cbn; auto. inversion N; subst. constructor; [|apply IH; auto; intros; apply H; right; auto].
  intros A1. apply in_app_or in A1 as [A1|A1]; auto. apply (H a); auto. left; auto.
Qed.
Lemma partition_perm m s : Permutation.Permutation (indices s) (masked m s ++ unmasked m s).
Proof.
  apply Permutation.NoDup_Permutation; [apply indices_NoDup| |].
  - apply NoDup_app_disj; [apply NoDup_filter, indices_NoDup|apply NoDup_filter, indices_NoDup|].
    intros i A B. apply in_masked in A as [_ A]. apply in_unmasked in B as [_ B]. congruence.
  - intros i. rewrite in_app_iff, in_masked, in_unmasked, in_indices. destruct (mask_at m i); intuition congruence.
Qed.
(** Independent coordinates with continuous densities [p i]: the density of the flow integrates to one, and the law of the masked coordinates is unchanged. *)
Theorem C76_masked_coupling_mass : forall K P (base : dist K) p (cond : arr -> result P) par bijector m s c D f g,
  (forall i, inb s i -> (forall t, 0 <= p i t /\ continuous (p i) t) /\ integral (p i) 1) ->
  (forall x, d_log_prob base (array_of s x) = Ok (tscalar (rlog (prodf (fun i => p i (x i)) (indices s))))) ->
  masked_coupling_init cond bijector (BoolMask m) (Some (Z.of_nat (length s))) 0 = Ok c -> bshape (shp m) s = Some s ->
  (forall x, wf x -> shp x = s -> cond x = Ok (par x)) -> moves_coordinates bijector s D f g ->
  exists d : point -> R, let B := box_of D (unmasked m s) in
  (forall y, in_box B y -> transformed_log_prob base c (array_of s y) = Ok (tscalar (rlog (d y)))) /\
  iterated_on B (unmasked m s) d (fun y => prodf (fun i => p i (y i)) (masked m s)) /\
  iterated_on B (masked m s ++ unmasked m s) d (fun _ => 1).
Proof.
  intros K P base p cond par bijector m s c D f g Hp Hb Hc Hm Hpar (f' & lf & lg & H1 & H2 & H3 & H4 & H5).
  set (q := fun x : point => prodf (fun i => if in_dec coord_dec i (indices s) then p i (x i) else 0) (indices s)).
  assert (Eq : forall x, q x = product_density (indices s) p x).
  { intros x. unfold q, product_density, prodf. f_equal. apply map_ext_in. intros i Hi. destruct (in_dec coord_dec i (indices s)); tauto. }
  assert (Hq : density_of base s q).
  { split; [|split].
    - intros x. assert (Z : forall l : list coord, 0 <= prodf (fun i => if in_dec coord_dec i (indices s) then p i (x i) else 0) l); [|apply Z].
      induction l as [|i l IH]; [cbn; lra|]. change (0 <= (if in_dec coord_dec i (indices s) then p i (x i) else 0) *
        prodf (fun i => if in_dec coord_dec i (indices s) then p i (x i) else 0) l). apply Rmult_le_pos; auto.
      destruct (in_dec coord_dec i (indices s)) as [A|A]; [|lra]. apply in_indices in A. apply Hp; auto.
    - intros x y H. unfold q, prodf. f_equal. apply map_ext_in. intros i Hi. rewrite H by (apply in_indices; auto). reflexivity.
    - intros x. rewrite Eq. apply Hb. }
  assert (Sm : forall l, NoDup l -> (forall i, In i l -> inb s i) -> forall r, (forall i, In i r -> ~ In i l) -> Permutation.Permutation (indices s) (r ++ l) ->
    iterated_smooth l (fun x => q x * 1) (product_density r p)).
  { intros l Nl Hl r Hr Pm. replace (fun x => q x * 1) with (product_density (r ++ l) p) by (extensionality x; rewrite Eq, (product_density_perm _ _ p x Pm); ring).
    apply product_smooth; auto. intros i Hi. destruct (Hp i (Hl i Hi)) as [A B]. split; auto. intros t. apply A. }
  assert (NU : NoDup (unmasked m s)) by (apply NoDup_filter, indices_NoDup).
  assert (Dj : forall i, In i (masked m s) -> ~ In i (unmasked m s)) by (intros i A B; apply in_masked in A as [_ A]; apply in_unmasked in B as [_ B]; congruence).
  destruct (coupling_law cond par bijector m s c D f f' g lf lg Hc Hm Hpar H1 H2 H3 H4 H5 base q Hq) as (_ & LP & Ex).
  eexists. split; [exact LP|]. split.
  - pose proof (moved_expectation (unmasked m s) D (fun i x => f (par (tgen s (fun i => if mask_at m i then x i else 0))) i) (fun i x => f' (par (tgen s (fun i => if mask_at m i then x i else 0))) i)
      (fun i x => g (par (tgen s (fun i => if mask_at m i then x i else 0))) i)) as E.
    specialize (E ltac:(intros i x Hi; apply H4; apply in_unmasked in Hi; tauto)).
    specialize (E ltac:(intros i x y H; rewrite (params_outside par m s x y H); reflexivity)).
    specialize (E ltac:(intros i x y H; rewrite (params_outside par m s x y H); reflexivity)).
    specialize (E q (fun _ => 1) (product_density (masked m s) p) NU). cbv beta in E.
    eapply iterated_ext; [|apply E; apply Sm; auto]. { intros y _. cbv beta. ring. } { intros i Hi. apply in_unmasked in Hi. tauto. } apply partition_perm.
  - eapply iterated_ext; [|apply (Ex (fun _ => 1) (fun _ => 1))]. { intros y _. cbv beta. ring. }
    replace (fun _ : point => 1) with (product_density [] p) by (extensionality x; reflexivity). apply Sm; auto.
    + apply (Permutation.Permutation_NoDup (partition_perm m s)), indices_NoDup.
    + intros i Hi. apply in_app_or in Hi as [Hi|Hi]; [apply in_masked in Hi|apply in_unmasked in Hi]; tauto.
    + apply partition_perm.
Qed.
Print Assumptions C76_masked_coupling_mass.

(** *** Block over a bijector of scalars: every coordinate is moved. *)
Theorem C76_block_law : forall K (base : dist K) q (b c : bij) s D f g,
  density_of base s q -> coherent b -> methods_agree b -> block_init b (Z.of_nat (length s)) = Ok c ->
  moves_coordinates (fun _ : unit => b) s D (fun _ => f) (fun _ => g) ->
  let F i (_ : point) := f i in let G i (_ : point) := g i in let U := indices s in
  (forall x, b_fwd c (array_of s x) = Ok (array_of s (moved U F x))) /\
  (forall y, in_box (box_of D U) y -> transformed_log_prob base c (array_of s y) = Ok (tscalar (rlog (moved_density U G q y)))) /\
  (forall phi v, iterated_smooth U (fun x => q x * phi (moved U F x)) v ->
     iterated_on (box_of D U) U (fun y => moved_density U G q y * phi y) v).
Proof.
  intros K base q b c s D f g (Pq & Lq & Hq) Co Ag Hc (f' & lf & lg & H1 & H2 & H3 & H4 & H5) F G U. destruct (H1 tt) as [Bi Bo].
  assert (Mv : forall h x, array_of s (moved U (fun i _ => h i) x) = tgen s (fun i => h i (x i))).
  { intros h x. apply tgen_ext. intros i Hi. unfold moved. destruct (in_dec coord_dec i U) as [A|A]; auto. contradiction A. apply in_indices. auto. }
  split; [|split].
  - intros x. destruct (block_spec b _ c (array_of s x) Co Hc) as [_ B]. rewrite (proj1 (B ltac:(rewrite Bi; unfold rank; cbn [shp tgen]; lia))).
    specialize (H2 tt x). apply (proj1 Ag) in H2 as [-> _]. unfold F. rewrite (Mv f). reflexivity.
  - intros y Hy. destruct (block_inverse_spec b _ c (array_of s y) Co Hc) as [_ B]. destruct (B ltac:(rewrite Bo; unfold rank; cbn [shp tgen]; lia)) as [_ B'].
    destruct (B' _ _ (H3 tt y) [] s (tgen_wf _ _) eq_refl eq_refl) as (t & E & Wt & St & Vt). unfold transformed_log_prob. rewrite E. cbn [rbind].
    rewrite <- (Mv g). rewrite Hq. cbn [rbind].
    assert (L : forall i, In i U -> lg tt i (y i) = ln (Rabs (Derive (G i y) (y i))) /\ 0 < Rabs (Derive (G i y) (y i))).
    { intros i Hi. specialize (Hy i). rewrite box_of_in in Hy by auto. apply in_indices in Hi. destruct (H5 tt i (y i) Hi Hy) as (d & Hd & Nz & ->).
      apply is_derive_Reals, is_derive_unique in Hd. unfold G. rewrite Hd. split; auto. apply Rabs_pos_lt; auto. }
    assert (Et : t = tscalar (sumf (fun i => ln (Rabs (Derive (G i y) (y i)))) U)).
    { apply scalar_tget; auto. rewrite (Vt [] (Forall2_nil _)). apply sumf_ext. intros i Hi. cbn [app]. rewrite tget_tgen by (apply in_indices; auto). apply L; auto. }
    rewrite Et. unfold moved_density. rewrite <- rlog_mult; [|apply Pq|apply pos_prodf; intros; apply L; auto].
    rewrite ln_prodf by (intros; apply L; auto). reflexivity.
  - intros phi v HI. apply (moved_expectation U D F (fun i _ => f' tt i) G); auto.
    + intros i x Hi. apply (H4 tt). apply in_indices. auto.
    + intros i x y _. reflexivity.
    + intros i x y _. reflexivity.
    + apply indices_NoDup.
Qed.
Print Assumptions C76_block_law.
Theorem C76_block_mass : forall K (base : dist K) p (b c : bij) s D f g,
  (forall i, inb s i -> (forall t, 0 <= p i t /\ continuous (p i) t) /\ integral (p i) 1) ->
  density_of base s (fun x => prodf (fun i => p i (x i)) (indices s)) ->
  coherent b -> methods_agree b -> block_init b (Z.of_nat (length s)) = Ok c ->
  moves_coordinates (fun _ : unit => b) s D (fun _ => f) (fun _ => g) ->
  exists d : point -> R,
  (forall y, in_box (box_of D (indices s)) y -> transformed_log_prob base c (array_of s y) = Ok (tscalar (rlog (d y)))) /\
  iterated_on (box_of D (indices s)) (indices s) d (fun _ => 1).
Proof.
  intros K base p b c s D f g Hp Hq Co Ag Hc Hm. destruct (C76_block_law K base _ b c s D f g Hq Co Ag Hc Hm) as (_ & LP & Ex).
  eexists. split; [exact LP|]. eapply iterated_ext; [|apply (Ex (fun _ => 1) (fun _ => 1))]. { intros y _. cbv beta. ring. }
  cbv beta. replace (fun x : point => prodf (fun i => p i (x i)) (indices s) * 1) with (product_density ([] ++ indices s) p) by (extensionality x; symmetry; apply Rmult_1_r).
  replace (fun _ : point => 1) with (product_density [] p) by (extensionality x; reflexivity).
  apply product_smooth; [apply indices_NoDup| |intros i []]. intros i Hi. apply in_indices in Hi. destruct (Hp i Hi) as [A B]. split; auto. intros t. apply A.
Qed.
Print Assumptions C76_block_mass.

(** *** Non-vacuity: independent standard normals; tanh in every coordinate of an array of any shape, and a coupling that adds the first entry to the second. *)
Definition ex_base (s : shape) : dist unit :=
  mkDist [] (Some s) (fun x => Ok (tscalar (rlog (prodf (fun i => npdf (tget 0 x i)) (indices s))))) (fun _ _ => Err NotImplementedError) (fun _ _ => Err NotImplementedError)
    (Err NotImplementedError) (Err NotImplementedError) (Err NotImplementedError).
Lemma ex_base_log_prob s x : d_log_prob (ex_base s) (array_of s x) = Ok (tscalar (rlog (prodf (fun i => npdf (x i)) (indices s)))).
Proof. cbn [ex_base d_log_prob]. do 3 f_equal. unfold prodf. f_equal. apply map_ext_in. intros i Hi. rewrite tget_tgen by (apply in_indices; auto). reflexivity. Qed.
Lemma ex_base_density s : density_of (ex_base s) s (fun x => prodf (fun i => npdf (x i)) (indices s)).
Proof.
  split; [|split]; [intros x; apply Rlt_le, pos_prodf; intros; apply npdf_pos| |apply ex_base_log_prob].
  intros x y H. unfold prodf. f_equal. apply map_ext_in. intros i Hi. rewrite H by (apply in_indices; auto). reflexivity.
Qed.
Lemma tmap_array (h : R -> R) s x : tmap h (array_of s x) = tgen s (fun i => h (x i)).
Proof. unfold tmap, tgen. cbn [shp dat]. f_equal. rewrite map_map. reflexivity. Qed.
Lemma npdf_factor : (forall t, 0 <= npdf t /\ continuous npdf t) /\ integral npdf 1.
Proof. split; [intros t; split; [apply Rlt_le, npdf_pos|apply (ex_derive_continuous (V := R_NormedModule)); eexists; apply npdf_derive]|]. apply (density_integral npdf ncdf std_normal_density). Qed.

Example C76_block_tanh s b c : tanh_bij = Ok b -> block_init b (Z.of_nat (length s)) = Ok c -> exists d : point -> R,
  (forall y, (forall i, inb s i -> -1 < y i < 1) -> transformed_log_prob (ex_base s) c (array_of s y) = Ok (tscalar (rlog (d y)))) /\
  iterated_on (box_of (fun _ => (Finite (-1), Finite 1)) (indices s)) (indices s) d (fun _ => 1).
Proof.
  intros Hb Hc. unfold tanh_bij in Hb. cbn in Hb. injection Hb as Hb.
  assert (Co : coherent b) by (subst b; unfold coherent; cbn; repeat split; try lia; auto).
  assert (Ag : methods_agree b) by (subst b; split; intros x y l E; cbn in *; injection E as <- <-; auto).
  destruct (C76_block_mass unit (ex_base s) (fun _ => npdf) b c s (fun _ => (Finite (-1), Finite 1)) (fun _ => tanh) (fun _ => arctanh)
    ltac:(intros; apply npdf_factor) (ex_base_density s) Co Ag Hc) as (d & H1 & H2).
  - subst b. exists (fun _ _ x => 1 - tanh x ^ 2), (fun _ _ => tanh_fldj), (fun _ _ => tanh_ildj). split; [cbn; auto|]. split; [|split; [|split]].
    + intros _ x. cbn. rewrite !tmap_array. reflexivity.
    + intros _ x. cbn. rewrite !tmap_array. reflexivity.
    + intros _ i _. apply tanh_smooth.
    + intros _ i y _ Hy. apply tanh_inverse_log_det. exact Hy.
  - exists d. split; auto. intros y Hy. apply H1. intros i. unfold box_of. destruct (in_dec coord_dec i (indices s)) as [A|A]; [apply in_indices, Hy in A; exact A|split; exact I].
Qed.
Example C76_coupling_add : exists c (d : point -> R),
  masked_coupling_init (fun x : arr => Ok (tget 0 x [0%nat])) ex_add (BoolMask (tvec [true; false])) (Some 1%Z) 0 = Ok c /\
  (forall y, transformed_log_prob (ex_base [2%nat]) c (array_of [2%nat] y) = Ok (tscalar (rlog (d y)))) /\
  iterated_on (fun _ => (m_infty, p_infty)) [[0%nat]; [1%nat]] d (fun _ => 1).
Proof.
  eexists. destruct (C76_masked_coupling_mass unit R (ex_base [2%nat]) (fun _ => npdf) (fun x : arr => Ok (tget 0 x [0%nat])) (fun x => tget 0 x [0%nat]) ex_add
    (tvec [true; false]) [2%nat] _ (fun _ => (m_infty, p_infty)) (fun p _ x => x + p) (fun p _ y => y - p) ltac:(intros; apply npdf_factor) (ex_base_log_prob [2%nat]) eq_refl eq_refl ltac:(auto)) as (d & H1 & _ & H2).
  - exists (fun _ _ _ => 1), (fun _ _ _ => 0), (fun _ _ _ => 0). split; [cbn; auto|]. split; [|split; [|split]].
    + intros p x. cbn [ex_add elementwise base_methods b_fal]. rewrite !tmap_array. reflexivity.
    + intros p x. cbn [ex_add elementwise base_methods b_ial]. rewrite !tmap_array. reflexivity.
    + intros p i _. split; [|split; [intros x; split; [split; exact I|ring]|intros y _; ring]]. intros x. split; [auto_derive; auto; ring|]. split; [apply continuous_const|lra].
    + intros p i y _ _. exists 1. split; [apply is_derive_Reals; auto_derive; auto; ring|]. split; [lra|]. rewrite Rabs_R1, ln_1. reflexivity.
  - assert (EB : box_of (fun _ => (m_infty, p_infty)) (unmasked (tvec [true; false]) [2%nat]) = (fun _ => (m_infty, p_infty))) by (extensionality i; unfold box_of; destruct in_dec; reflexivity).
    rewrite EB in H1, H2. exists d. split; [reflexivity|]. split; [intros y; apply H1; intros i; split; exact I|exact H2].
Qed.
