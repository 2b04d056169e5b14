(** C76, SplitCoupling: a Transformed distribution over a SplitCoupling has exactly the law of forward(X). *)
From Coq Require Import Reals List ZArith Bool Lra Lia FunctionalExtensionality.
From Coquelicot Require Import Coquelicot.
From Verif Require Import Base.Result Base.Sums Base.Tensor Base.XR Base.Lift Base.Integral Base.Gauss Model.Bijector Model.ScalarBij Model.Coupling
  Model.Transformed Spec.Bijector Spec.Coupling Spec.Scalar Spec.Transformed Spec.Flow Proofs.Bijector Proofs.Block Proofs.ScalarBij Proofs.Coupling
  Proofs.Density Proofs.Transformed Proofs.Flow Props.Transformed Props.Coupling Props.Flow.
Import ListNotations.
Local Open Scope R_scope.
Lemma app_inj_len (i i' j j' : list nat) : (i ++ j)%list = (i' ++ j')%list -> length i = length i' -> i = i' /\ j = j'.
Proof. revert i'. induction i as [|a i IH]; intros [|a' i'] H L; cbn in *; try discriminate; auto. injection H as -> H. injection L as L. destruct (IH _ H L) as [-> ->]. auto. Qed.

(** ** SplitCoupling, unbatched: the event shape is [pre ++ d :: post], split at [si] along the axis between. *)
Lemma mid_inv (pre post : shape) m i : inb (pre ++ m :: post) i -> exists i1 a i2, i = i1 ++ a :: i2 /\ inb pre i1 /\ (a < m)%nat /\ inb post i2 /\ length i1 = length pre.
Proof.
  intros H. apply Forall2_app_inv_r in H as (i1 & r & H1 & H2 & ->). inversion H2 as [|a m' i2 post' L H3]; subst. exists i1, a, i2. repeat split; auto. apply (inb_length _ _ H1).
Qed.
Lemma up_at pre lo i1 a i2 : length i1 = length pre -> up pre lo (i1 ++ a :: i2) = i1 ++ (lo + a)%nat :: i2.
Proof.
  intros L. unfold up. rewrite <- L. rewrite firstn_app, Nat.sub_diag, firstn_all, firstn_O, app_nil_r. rewrite nth_middle. f_equal. f_equal.
  replace (S (length i1)) with (length (i1 ++ [a])) by (rewrite app_length; cbn; lia). replace (i1 ++ a :: i2) with ((i1 ++ [a]) ++ i2) by (rewrite <- app_assoc; reflexivity).
  rewrite skipn_app, Nat.sub_diag, skipn_all. reflexivity.
Qed.
Lemma down_at pre lo i1 a i2 : length i1 = length pre -> down pre lo (i1 ++ a :: i2) = i1 ++ (a - lo)%nat :: i2.
Proof.
  intros L. unfold down. rewrite <- L. rewrite firstn_app, Nat.sub_diag, firstn_all, firstn_O, app_nil_r. rewrite nth_middle. f_equal. f_equal.
  replace (S (length i1)) with (length (i1 ++ [a])) by (rewrite app_length; cbn; lia). replace (i1 ++ a :: i2) with ((i1 ++ [a]) ++ i2) by (rewrite <- app_assoc; reflexivity).
  rewrite skipn_app, Nat.sub_diag, skipn_all. reflexivity.
Qed.
Lemma down_up pre post lo hi j : inb (part_shape pre post lo hi) j -> down pre lo (up pre lo j) = j.
Proof. intros H. apply mid_inv in H as (i1 & a & i2 & -> & _ & _ & _ & L). rewrite up_at, down_at by auto. f_equal. f_equal. lia. Qed.
Lemma mid_inb (pre post : shape) m i1 a i2 : inb pre i1 -> (a < m)%nat -> inb post i2 -> inb (pre ++ m :: post) (i1 ++ a :: i2).
Proof. intros. apply Forall2_app; [|constructor]; auto. Qed.
Lemma in_part pre post lo hi i1 a i2 : length i1 = length pre ->
  In (i1 ++ a :: i2) (part_coords pre post lo hi) <-> inb pre i1 /\ inb post i2 /\ (lo <= a < hi)%nat.
Proof.
  intros L. unfold part_coords. rewrite in_map_iff. split.
  - intros (j & E & Hj). apply in_indices, mid_inv in Hj as (j1 & b & j2 & -> & H1 & Hb & H2 & Lj). rewrite up_at in E by auto.
    assert (E1 : j1 = i1 /\ (lo + b)%nat :: j2 = a :: i2) by (apply app_inj_len; auto; congruence). destruct E1 as [-> E1]. injection E1 as <- <-. repeat split; auto; lia.
  - intros (H1 & H2 & H3). exists (i1 ++ (a - lo)%nat :: i2). split; [rewrite up_at by auto; do 2 f_equal; lia|]. apply in_indices, mid_inb; auto. lia.
Qed.
Lemma part_NoDup pre post lo hi : NoDup (part_coords pre post lo hi).
Proof.
  unfold part_coords. assert (H : forall i, In i (indices (part_shape pre post lo hi)) -> down pre lo (up pre lo i) = i) by (intros i Hi; apply in_indices in Hi; eapply down_up; eauto).
  generalize (indices_NoDup (part_shape pre post lo hi)). revert H. generalize (indices (part_shape pre post lo hi)) as l. induction l as [|i l IH]; intros H N; cbn; [constructor|].
  inversion N; subst. constructor; [|apply IH; auto; intros; apply H; right; auto]. intros A. apply in_map_iff in A as (j & E & Hj).
  assert (i = j); [|subst j; contradiction]. transitivity (down pre lo (up pre lo i)); [symmetry; apply H; left; auto|]. rewrite <- E. apply H; right; auto.
Qed.

Section Split.
Context {K P : Type}.
Variables (cond : arr -> result P) (par : arr -> P) (bijector : P -> bij) (si : Z) (swap : bool) (pre post : shape) (d : nat) (c : bij) (D : box).
Variables (f f' g lf lg : P -> coord -> R -> R).
Let s := pre ++ d :: post.
Let k := Nat.min (Z.to_nat si) d.
Let lo1 := kept_lo swap k d. Let hi1 := kept_hi swap k d.
Let lo2 := kept_lo (negb swap) k d. Let hi2 := kept_hi (negb swap) k d.
Let s1 := part_shape pre post lo1 hi1. Let s2 := part_shape pre post lo2 hi2.
Hypothesis Hc : split_coupling_init cond bijector si (Z.of_nat (length s)) swap (- Z.of_nat (S (length post)))%Z = Ok c.
Hypothesis Hpar : forall x, wf x -> shp x = s1 -> cond x = Ok (par x).
Hypothesis Hco : forall p, coherent (bijector p) /\ methods_agree (bijector p).
Hypothesis Hinner : forall p, b_in (bijector p) = 0%Z /\ b_out (bijector p) = 0%Z.
Hypothesis Hfal : forall p x, b_fal (bijector p) (array_of s2 x) = Ok (tgen s2 (fun i => f p i (x i)), tgen s2 (fun i => lf p i (x i))).
Hypothesis Hial : forall p y, b_ial (bijector p) (array_of s2 y) = Ok (tgen s2 (fun i => g p i (y i)), tgen s2 (fun i => lg p i (y i))).
Hypothesis HS : forall p i, inb s2 i -> smooth_bijection (f p i) (f' p i) (g p i) (fst (D i)) (snd (D i)).
Hypothesis Hlg : forall p i y, inb s2 i -> inside (fst (D i)) (snd (D i)) y -> log_abs_derivative (g p i) (lg p i) y.

Let params (x : point) : P := par (tgen s1 (fun j => x (up pre lo1 j))).
Let A := part_coords pre post lo1 hi1.
Let U := part_coords pre post lo2 hi2.
Lemma bounds : (k <= d /\ (lo1 <= hi1 <= d) /\ (lo2 <= hi2 <= d))%nat.
Proof. unfold lo1, hi1, lo2, hi2, kept_lo, kept_hi, k. destruct swap; cbn [negb]; repeat split; try apply Nat.le_min_r; lia. Qed.
Lemma either_part a : (a < d)%nat -> ((lo1 <= a < hi1) /\ ~ (lo2 <= a < hi2) \/ ~ (lo1 <= a < hi1) /\ (lo2 <= a < hi2))%nat.
Proof. pose proof bounds. unfold lo1, hi1, lo2, hi2, kept_lo, kept_hi in *. destruct swap; cbn [negb] in *; lia. Qed.
Lemma slice_array lo hi (x : point) : (lo <= hi <= d)%nat -> slice_of pre post lo hi (array_of s x) (tgen (part_shape pre post lo hi) (fun j => x (up pre lo j))).
Proof.
  intros H. split; [apply tgen_wf|]. split; [reflexivity|]. intros i a j Hi Ha Hj. rewrite !tget_tgen by (apply mid_inb; auto; lia). rewrite up_at by (apply (inb_length _ _ Hi)). reflexivity.
Qed.
Lemma split_params_outside : depends_only_outside U params.
Proof.
  intros x y H. unfold params. f_equal. apply tgen_ext. intros j Hj. apply H. apply mid_inv in Hj as (i1 & a & i2 & -> & H1 & Ha & H2 & L). rewrite up_at by auto. intros B.
  apply in_part in B as (_ & _ & B); auto. pose proof bounds. destruct (either_part (lo1 + a)) as [C|C]; lia.
Qed.
Lemma split_at op x h lh : (op = b_fal \/ op = b_ial) ->
  (forall p z, op (bijector p) (array_of s2 z) = Ok (tgen s2 (fun i => h p i (z i)), tgen s2 (fun i => lh p i (z i)))) ->
  op c (array_of s x) = Ok (array_of s (moved U (fun i x => h (params x) (down pre lo2 i)) x), tscalar (sumf (fun i => lh (params x) (down pre lo2 i) (x i)) U)).
Proof.
  intros Hop Ho. pose proof bounds as (Hk & B1 & B2). destruct (Hco (params x)) as [Co _]. destruct (Hinner (params x)) as [Ei Eo].
  destruct (block_init_ok (bijector (params x)) (Z.of_nat (length s)) Co ltac:(lia)) as (b' & Eb).
  set (z := fun j => x (up pre lo2 j)).
  assert (Ls : (0 < length s)%nat) by (unfold s; rewrite app_length; cbn; lia).
  assert (L2 : length s2 = length s) by (unfold s, s2, part_shape; rewrite !app_length; reflexivity).
  assert (exists t, op b' (array_of s2 z) = Ok (tgen s2 (fun j => h (params x) j (z j)), t) /\ t = tscalar (sumf (fun j => lh (params x) j (z j)) (indices s2))) as (t & E2 & Et).
  { assert (W : Z.of_nat (length s2) = Z.of_nat (length s)) by lia. destruct Hop as [-> | ->].
    - destruct (block_spec _ _ b' (array_of s2 z) Co Eb) as [_ B]. destruct (B ltac:(rewrite Ei; unfold rank; cbn [shp tgen]; lia)) as [_ B'].
      destruct (B' _ _ (Ho (params x) z) [] s2 (tgen_wf _ _) eq_refl W) as (t & E & Wt & St & Vt). exists t. split; auto. apply scalar_tget; auto. rewrite (Vt [] (Forall2_nil _)).
      apply sumf_ext. intros j Hj. cbn [app]. rewrite tget_tgen by (apply in_indices; auto). reflexivity.
    - destruct (block_inverse_spec _ _ b' (array_of s2 z) Co Eb) as [_ B]. destruct (B ltac:(rewrite Eo; unfold rank; cbn [shp tgen]; lia)) as [_ B'].
      destruct (B' _ _ (Ho (params x) z) [] s2 (tgen_wf _ _) eq_refl W) as (t & E & Wt & St & Vt). exists t. split; auto. apply scalar_tget; auto. rewrite (Vt [] (Forall2_nil _)).
      apply sumf_ext. intros j Hj. cbn [app]. rewrite tget_tgen by (apply in_indices; auto). reflexivity. }
  destruct (split_coupling_values cond bijector si (Z.of_nat (length s)) swap _ pre post d c Hc eq_refl op (array_of s x) (tgen s1 (fun j => x (up pre lo1 j))) (array_of s2 z) (params x) b'
    (tgen s2 (fun j => h (params x) j (z j))) t Hop) as (y & E & Wy & Sy & Y1 & Y2); auto.
  { unfold rank. cbn [shp tgen]. lia. } { apply slice_array; auto. } { apply slice_array; auto. } { apply Hpar; [apply tgen_wf|reflexivity]. }
  { unfold promoted. rewrite Ei, Eo. split; auto. right. split; [lia|]. rewrite Z.sub_0_r. exact Eb. }
  { apply tgen_wf. }
  rewrite E. f_equal. f_equal.
  - apply (tensor_ext 0); auto; [apply tgen_wf|]. rewrite Sy. cbn [shp tgen]. intros i Hi. rewrite (tget_tgen 0 s) by auto. apply mid_inv in Hi as (i1 & a & i2 & -> & H1 & Ha & H2 & L).
    destruct Y1 as (_ & _ & Y1). destruct Y2 as (_ & _ & Y2). fold k lo1 hi1 in Y1. fold k lo2 hi2 in Y2.
    unfold moved. destruct (in_dec coord_dec (i1 ++ a :: i2) U) as [Q|Q].
    + apply in_part in Q as (_ & _ & Q); auto. specialize (Y2 i1 (a - lo2)%nat i2 H1 ltac:(lia) H2). replace (lo2 + (a - lo2))%nat with a in Y2 by lia. rewrite <- Y2.
      rewrite tget_tgen by (apply mid_inb; auto; lia). rewrite down_at by auto. unfold z. rewrite up_at by auto. replace (lo2 + (a - lo2))%nat with a by lia. reflexivity.
    + destruct (either_part a Ha) as [[C _]|[_ C]]; [|contradiction Q; apply in_part; auto].
      specialize (Y1 i1 (a - lo1)%nat i2 H1 ltac:(lia) H2). replace (lo1 + (a - lo1))%nat with a in Y1 by lia. rewrite <- Y1. rewrite tget_tgen by (apply mid_inb; auto; lia). rewrite up_at by auto.
      replace (lo1 + (a - lo1))%nat with a by lia. reflexivity.
  - rewrite Et. f_equal. unfold U, part_coords, sumf. rewrite map_map. f_equal. apply map_ext_in. intros j Hj. apply in_indices in Hj. rewrite (down_up pre post lo2 hi2) by auto. reflexivity.
Qed.
Lemma split_law (base : dist K) q : density_of base s q ->
  let F i x := f (params x) (down pre lo2 i) in let G i y := g (params y) (down pre lo2 i) in let B := box_of (fun i => D (down pre lo2 i)) U in
  (forall x, b_fwd c (array_of s x) = Ok (array_of s (moved U F x))) /\
  (forall y, in_box B y -> transformed_log_prob base c (array_of s y) = Ok (tscalar (rlog (moved_density U G q y)))) /\
  (forall phi v, iterated_smooth (A ++ U) (fun x => q x * phi (moved U F x)) v -> iterated_on B (A ++ U) (fun y => moved_density U G q y * phi y) v).
Proof.
  intros (Pq & Lq & Hq) F G B. assert (NU : NoDup U) by apply part_NoDup.
  assert (IU : forall i, In i U -> inb s2 (down pre lo2 i)).
  { intros i Hi. unfold U, part_coords in Hi. apply in_map_iff in Hi as (j & <- & Hj). apply in_indices in Hj. rewrite (down_up pre post lo2 hi2); auto. }
  split; [|split].
  - intros x. pose proof (split_at b_fal x f lf (or_introl eq_refl) Hfal) as E. destruct (sc_init_spec cond bijector si (Z.of_nat (length s)) swap (- Z.of_nat (S (length post)))%Z) as (_ & _ & Q). destruct (Q c Hc) as (_ & _ & _ & _ & Ag & _). apply (proj1 Ag) in E. apply E.
  - intros y Hy. unfold transformed_log_prob. rewrite (split_at b_ial y g lg (or_intror eq_refl) Hial). cbn [rbind]. rewrite Hq. cbn [rbind].
    assert (L : forall i, In i U -> lg (params y) (down pre lo2 i) (y i) = ln (Rabs (Derive (G i y) (y i))) /\ 0 < Rabs (Derive (G i y) (y i))).
    { intros i Hi. specialize (Hy i). unfold B in Hy. rewrite box_of_in in Hy by auto. destruct (Hlg (params y) _ (y i) (IU i Hi) Hy) as (e & Hd & Nz & ->).
      apply is_derive_Reals, is_derive_unique in Hd. unfold G. rewrite Hd. split; auto. apply Rabs_pos_lt; auto. }
    unfold moved_density. rewrite <- rlog_mult; [|apply Pq|apply pos_prodf; intros; apply L; auto].
    rewrite ln_prodf by (intros; apply L; auto). rewrite (sumf_ext (fun i => lg (params y) (down pre lo2 i) (y i)) (fun i => ln (Rabs (Derive (G i y) (y i))))) by (intros; apply L; auto).
    reflexivity.
  - intros phi v HI. apply (moved_expectation_all U (fun i => D (down pre lo2 i)) F (fun i x => f' (params x) (down pre lo2 i)) G); auto.
    + intros i x Hi. apply HS. auto.
    + intros i x y H. unfold G. rewrite (split_params_outside x y H). reflexivity.
    + intros i x y H. unfold F. rewrite (split_params_outside x y H). reflexivity.
    + intros i Hi Q. unfold A, part_coords in Hi. apply in_map_iff in Hi as (j & <- & Hj). apply in_indices, mid_inv in Hj as (i1 & a & i2 & -> & H1 & Ha & H2 & L').
      rewrite up_at in Q by auto. apply in_part in Q as (_ & _ & Q); auto. pose proof bounds. destruct (either_part (lo1 + a)) as [C|C]; lia.
Qed.
End Split.

(** ** The theorems.  [k] is where the axis is cut; without [swap] the entries before [k] are kept and condition the others. *)
Theorem C76_split_coupling_law : forall K P (base : dist K) q (cond : arr -> result P) par bijector si swap pre post d c D f g,
  let s := pre ++ d :: post in let k := Nat.min (Z.to_nat si) d in
  let lo1 := kept_lo swap k d in let hi1 := kept_hi swap k d in let lo2 := kept_lo (negb swap) k d in let hi2 := kept_hi (negb swap) k d in
  density_of base s q ->
  split_coupling_init cond bijector si (Z.of_nat (length s)) swap (- Z.of_nat (S (length post)))%Z = Ok c ->
  (forall x, wf x -> shp x = part_shape pre post lo1 hi1 -> cond x = Ok (par x)) ->
  (forall p, coherent (bijector p) /\ methods_agree (bijector p)) ->
  moves_coordinates bijector (part_shape pre post lo2 hi2) D f g ->
  let params (x : point) := par (tgen (part_shape pre post lo1 hi1) (fun j => x (up pre lo1 j))) in
  let A := part_coords pre post lo1 hi1 in let U := part_coords pre post lo2 hi2 in
  let F i x := f (params x) (down pre lo2 i) in let G i y := g (params y) (down pre lo2 i) in
  let B := box_of (fun i => D (down pre lo2 i)) U in
  (forall x, b_fwd c (array_of s x) = Ok (array_of s (moved U F x))) /\
  (forall y, in_box B y -> transformed_log_prob base c (array_of s y) = Ok (tscalar (rlog (moved_density U G q y)))) /\
  (forall phi v, iterated_smooth (A ++ U) (fun x => q x * phi (moved U F x)) v -> iterated_on B (A ++ U) (fun y => moved_density U G q y * phi y) v).
Proof.
  intros K P base q cond par bijector si swap pre post d c D f g s k lo1 hi1 lo2 hi2 Hq Hc Hp Hco (f' & lf & lg & H1 & H2 & H3 & H4 & H5) params A U F G B.
  exact (split_law cond par bijector si swap pre post d c D f f' g lf lg Hc Hp Hco H1 H2 H3 H4 H5 base q Hq).
Qed.
Print Assumptions C76_split_coupling_law.

Lemma parts_perm swap k pre post d : (k <= d)%nat -> Permutation.Permutation (indices (pre ++ d :: post))
  (part_coords pre post (kept_lo swap k d) (kept_hi swap k d) ++ part_coords pre post (kept_lo (negb swap) k d) (kept_hi (negb swap) k d)).
Proof.
  intros Hk. apply Permutation.NoDup_Permutation; [apply indices_NoDup| |].
  - apply NoDup_app_disj; [apply part_NoDup|apply part_NoDup|]. intros i A B. unfold part_coords in A. apply in_map_iff in A as (j & <- & Hj).
    apply in_indices, mid_inv in Hj as (i1 & a & i2 & -> & H1 & Ha & H2 & L). rewrite up_at in B by auto. apply in_part in B as (_ & _ & B); auto.
    unfold kept_lo, kept_hi in *. destruct swap; cbn [negb] in *; lia.
  - intros i. rewrite in_app_iff, in_indices. split.
    + intros H. apply mid_inv in H as (i1 & a & i2 & -> & H1 & Ha & H2 & L). rewrite !in_part by auto. unfold kept_lo, kept_hi. destruct (le_lt_dec k a), swap; cbn [negb]; intuition lia.
    + assert (Q : forall lo hi, (lo <= hi <= d)%nat -> In i (part_coords pre post lo hi) -> inb (pre ++ d :: post) i).
      { intros lo hi B H. unfold part_coords in H. apply in_map_iff in H as (j & <- & Hj). apply in_indices, mid_inv in Hj as (i1 & a & i2 & -> & H1 & Ha & H2 & L). rewrite up_at by auto. apply mid_inb; auto. lia. }
      intros [H|H]; (eapply Q; [|exact H]); unfold kept_lo, kept_hi; destruct swap; cbn [negb]; lia.
Qed.
Theorem C76_split_coupling_mass : forall K P (base : dist K) p (cond : arr -> result P) par bijector si swap pre post d c D f g,
  let s := pre ++ d :: post in let k := Nat.min (Z.to_nat si) d in
  let lo1 := kept_lo swap k d in let hi1 := kept_hi swap k d in let lo2 := kept_lo (negb swap) k d in let hi2 := kept_hi (negb swap) k d in
  (forall i, inb s i -> (forall t, 0 <= p i t /\ continuous (p i) t) /\ integral (p i) 1) ->
  density_of base s (fun x => prodf (fun i => p i (x i)) (indices s)) ->
  split_coupling_init cond bijector si (Z.of_nat (length s)) swap (- Z.of_nat (S (length post)))%Z = Ok c ->
  (forall x, wf x -> shp x = part_shape pre post lo1 hi1 -> cond x = Ok (par x)) ->
  (forall p, coherent (bijector p) /\ methods_agree (bijector p)) ->
  moves_coordinates bijector (part_shape pre post lo2 hi2) D f g ->
  exists dens : point -> R,
  let A := part_coords pre post lo1 hi1 in let U := part_coords pre post lo2 hi2 in let B := box_of (fun i => D (down pre lo2 i)) U in
  (forall y, in_box B y -> transformed_log_prob base c (array_of s y) = Ok (tscalar (rlog (dens y)))) /\
  iterated_on B (A ++ U) dens (fun _ => 1).
Proof.
  intros K P base p cond par bijector si swap pre post d c D f g s k lo1 hi1 lo2 hi2 Hp Hq Hc Hpar Hco Hm.
  destruct (C76_split_coupling_law K P base _ cond par bijector si swap pre post d c D f g Hq Hc Hpar Hco Hm) as (_ & LP & Ex).
  eexists. cbv zeta. split; [exact LP|]. eapply iterated_ext; [|apply (Ex (fun _ => 1) (fun _ => 1))]. { intros y _. cbv beta. ring. }
  pose proof (parts_perm swap k pre post d (Nat.le_min_r _ _)) as Pm. fold lo1 hi1 lo2 hi2 s in Pm. cbv beta.
  assert (E : (fun x : point => prodf (fun i => p i (x i)) (indices s) * 1) = product_density ([] ++ part_coords pre post lo1 hi1 ++ part_coords pre post lo2 hi2) p).
  { extensionality x. rewrite Rmult_1_r. apply (product_density_perm _ _ p x Pm). }
  match goal with |- iterated_smooth _ ?h _ => change h with (fun x : point => prodf (fun i => p i (x i)) (indices s) * 1) end.
  match goal with |- iterated_smooth ?l _ _ => change l with (part_coords pre post lo1 hi1 ++ part_coords pre post lo2 hi2) end. rewrite E.
  replace (fun _ : point => 1) with (product_density [] p) by (extensionality x; reflexivity).
  apply product_smooth; [|intros i Hi|intros i []].
  - apply (Permutation.Permutation_NoDup Pm), indices_NoDup.
  - apply (Permutation.Permutation_in _ (Permutation.Permutation_sym Pm)), in_indices in Hi. destruct (Hp i Hi) as [X Y]. split; auto. intros t. apply X.
Qed.
Print Assumptions C76_split_coupling_mass.
Example C76_split_add : exists c (dens : point -> R),
  split_coupling_init (fun x : arr => Ok (tget 0 x [0%nat])) ex_add 1 1 false (-1) = Ok c /\
  (forall y, transformed_log_prob (ex_base [2%nat]) c (array_of [2%nat] y) = Ok (tscalar (rlog (dens y)))) /\
  iterated_on (fun _ => (m_infty, p_infty)) [[0%nat]; [1%nat]] dens (fun _ => 1).
Proof.
  eexists. destruct (C76_split_coupling_mass unit R (ex_base [2%nat]) (fun _ => npdf) (fun x : arr => Ok (tget 0 x [0%nat])) (fun x => tget 0 x [0%nat]) ex_add
    1 false [] [] 2 _ (fun _ => (m_infty, p_infty)) (fun p _ x => x + p) (fun p _ y => y - p) ltac:(intros; apply npdf_factor) (ex_base_density [2%nat]) eq_refl ltac:(auto)) as (dens & H1 & H2).
  - intros p. split; [unfold coherent; cbn; repeat split; try lia; auto|]. split; intros x y l E; cbn in *; injection E as <- <-; auto.
  - exists (fun _ _ _ => 1), (fun _ _ _ => 0), (fun _ _ _ => 0). split; [cbn; auto|]. split; [|split; [|split]].
    + intros p x. cbn [ex_add elementwise base_methods b_fal]. rewrite !tmap_array. reflexivity.
    + intros p x. cbn [ex_add elementwise base_methods b_ial]. rewrite !tmap_array. reflexivity.
    + intros p i _. split; [|split; [intros x; split; [split; exact I|ring]|intros y _; ring]]. intros x. split; [auto_derive; auto; ring|]. split; [apply continuous_const|lra].
    + intros p i y _ _. exists 1. split; [apply is_derive_Reals; auto_derive; auto; ring|]. split; [lra|]. rewrite Rabs_R1, ln_1. reflexivity.
  - assert (EB : forall l, box_of (fun _ => (m_infty, p_infty)) l = (fun _ => (m_infty, p_infty))) by (intros l; extensionality i; unfold box_of; destruct in_dec; reflexivity).
    rewrite EB in H1, H2. exists dens. split; [reflexivity|]. split; [intros y; apply H1; intros i; split; exact I|exact H2].
Qed.
