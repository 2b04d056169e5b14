(** Change of variables in iterated integrals for maps that move some coordinates one by one. *)
From Coq Require Import Reals List Bool Lra Lia FunctionalExtensionality.
From Coquelicot Require Import Coquelicot.
From Verif Require Import Base.Sums Base.Integral Spec.Scalar Spec.Transformed Spec.Flow Proofs.Transformed.
Import ListNotations.
Local Open Scope R_scope.

Lemma upd_same x i t : upd x i t i = t. Proof. unfold upd. destruct (coord_dec i i); congruence. Qed.
Lemma upd_other x i t j : j <> i -> upd x i t j = x j. Proof. intros H. unfold upd. destruct (coord_dec j i); congruence. Qed.
Lemma upd_swap x i s j t : i <> j -> upd (upd x i s) j t = upd (upd x j t) i s.
Proof. intros H. extensionality k. unfold upd. destruct (coord_dec k j), (coord_dec k i); congruence. Qed.
Lemma upd_upd x i s t : upd (upd x i s) i t = upd x i t.
Proof. extensionality k. unfold upd. destruct (coord_dec k i); congruence. Qed.
Lemma dep_upd {A} U (f : point -> A) x i t : depends_only_outside U f -> In i U -> f (upd x i t) = f x.
Proof. intros H Hi. apply H. intros j Hj. apply upd_other. congruence. Qed.

Lemma iter_sub D D' i (r c : point -> R) : forall l Q h, ~ In i l -> (forall j, In j l -> D' j = D j) ->
  (forall x, in_box D' x -> in_box D (upd x i (r x))) ->
  (forall x j t, In j l -> r (upd x j t) = r x /\ c (upd x j t) = c x) ->
  iterated_on D l Q h -> iterated_on D' l (fun y => Q (upd y i (r y)) * c y) (fun y => h (upd y i (r y)) * c y).
Proof.
  induction l as [|j l IH]; intros Q h Ni HD HB HR HI; cbn [iterated_on] in *.
  - intros x Hx. rewrite HI by auto. reflexivity.
  - destruct HI as (k & Hk & HI). exists (fun y => k (upd y i (r y)) * c y). split.
    { apply IH; auto; [intros A; apply Ni; right; auto|intros; apply HD; right; auto|intros; apply HR; right; auto]. }
    intros x Hx. rewrite (HD j) by (left; auto). specialize (HI _ (HB x Hx)).
    replace (fun t => k (upd (upd x j t) i (r (upd x j t))) * c (upd x j t)) with (fun t => scal (c x) (k (upd (upd x i (r x)) j t))).
    + replace (h (upd x i (r x)) * c x) with (scal (c x) (h (upd x i (r x)))) by (unfold scal; cbn; unfold mult; cbn; ring).
      unfold integral_on in *. apply (is_RInt_gen_scal (V := R_NormedModule)); auto.
    + extensionality t. destruct (HR x j t) as [-> ->]; [left; auto|]. rewrite (upd_swap x j t i (r x)) by (intros ->; apply Ni; left; auto). unfold scal; cbn; unfold mult; cbn. ring.
Qed.

Section Moved.
Variables (U : list coord) (D : box) (f f' g : coord -> point -> R -> R).
Hypothesis HS : forall i x, In i U -> smooth_bijection (f i x) (f' i x) (g i x) (fst (D i)) (snd (D i)).
Hypothesis Hg : forall i, depends_only_outside U (g i).
Hypothesis Hf : forall i, depends_only_outside U (f i).
Hypothesis Hf' : forall i, depends_only_outside U (f' i).

Lemma moved_density_cons i l q y : In i U -> (forall j, In j l -> In j U) -> ~ In i l ->
  moved_density (i :: l) g q y = moved_density l g q (upd y i (g i y (y i))) * Rabs (Derive (g i y) (y i)).
Proof.
  intros Hi Hl Ni. unfold moved_density. cbn [prodf map rprod].
  assert (E1 : moved (i :: l) g y = moved l g (upd y i (g i y (y i)))).
  { extensionality j. unfold moved. rewrite (dep_upd U (g j)) by auto. destruct (in_dec coord_dec j (i :: l)) as [A|A], (in_dec coord_dec j l) as [B|B].
    - rewrite upd_other by congruence. reflexivity.
    - assert (j = i) as -> by (destruct A; [auto|contradiction]). rewrite upd_same. reflexivity.
    - contradiction A. right. auto.
    - rewrite upd_other by (intros ->; apply A; left; auto). reflexivity. }
  rewrite E1. assert (E2 : prodf (fun i0 => Rabs (Derive (g i0 (upd y i (g i y (y i)))) (upd y i (g i y (y i)) i0))) l = prodf (fun i0 => Rabs (Derive (g i0 y) (y i0))) l).
  { unfold prodf. f_equal. apply map_ext_in. intros j Hj. rewrite (dep_upd U (g j)) by auto. rewrite upd_other by congruence. reflexivity. }
  rewrite E2. unfold prodf. cbn [map]. change (rprod (Rabs (Derive (g i y) (y i)) :: ?l)) with (Rabs (Derive (g i y) (y i)) * rprod l). ring.
Qed.
Lemma box_of_in l i : In i l -> box_of D l i = D i. Proof. intros. unfold box_of. destruct (in_dec coord_dec i l); tauto. Qed.
Lemma box_of_out l i : ~ In i l -> box_of D l i = (m_infty, p_infty). Proof. intros. unfold box_of. destruct (in_dec coord_dec i l); tauto. Qed.
Lemma moved_integral q : forall l v, NoDup l -> (forall i, In i l -> In i U) -> iterated_smooth l q v ->
  iterated_on (box_of D l) l (moved_density l g q) v.
Proof.
  induction l as [|i l IH]; intros v Nd Hl HI.
  - cbn in *. intros x _. rewrite HI. unfold moved_density. cbn. replace (moved [] g x) with x by (extensionality j; reflexivity). ring.
  - inversion Nd as [|? ? Ni Nd']; subst. destruct HI as (h & Hh & HI). assert (Hi : In i U) by (apply Hl; left; auto).
    assert (Hl' : forall j, In j l -> In j U) by (intros; apply Hl; right; auto).
    specialize (IH h Nd' Hl' Hh).
    exists (fun y => h (upd y i (g i y (y i))) * Rabs (Derive (g i y) (y i))). split.
    + replace (moved_density (i :: l) g q) with (fun y => moved_density l g q (upd y i (g i y (y i))) * Rabs (Derive (g i y) (y i)))
        by (extensionality y; symmetry; apply moved_density_cons; auto).
      apply (iter_sub (box_of D l) (box_of D (i :: l)) i (fun y => g i y (y i)) (fun y => Rabs (Derive (g i y) (y i)))); auto.
      * intros j Hj. rewrite !box_of_in; auto. right; auto.
      * intros x Hx j. destruct (coord_dec j i) as [->|N]; [rewrite box_of_out by auto; split; exact I|].
        rewrite upd_other by auto. specialize (Hx j). destruct (in_dec coord_dec j l) as [A|A].
        -- rewrite box_of_in in Hx |- * by (auto; right; auto). exact Hx.
        -- rewrite box_of_out by auto. split; exact I.
      * intros x j t Hj. rewrite (dep_upd U (g i)) by auto. rewrite upd_other by congruence. auto.
    + intros x _. rewrite box_of_in by (left; auto). destruct (HI x) as [Cu In1].
      replace (fun t => h (upd (upd x i t) i (g i (upd x i t) (upd x i t i))) * Rabs (Derive (g i (upd x i t)) (upd x i t i)))
        with (fun t => (fun s => h (upd x i s)) (g i x t) * Rabs (Derive (g i x) t)).
      * apply (subst_integral (f i x) (f' i x) (g i x) _ _ (HS i x Hi) (fun s => h (upd x i s))); auto.
      * extensionality t. rewrite upd_same, (dep_upd U (g i)) by auto. rewrite upd_upd. reflexivity.
Qed.
Lemma iterated_ext B l q q' v : (forall x, in_box B x -> q x = q' x) -> iterated_on B l q v -> iterated_on B l q' v.
Proof.
  intros E. revert v. induction l as [|i l IH]; intros v; cbn; [intros H x Hx; rewrite <- E; auto|]. intros (h & Hh & H). exists h. auto.
Qed.
Lemma moved_round_trip y : in_box (box_of D U) y -> moved U f (moved U g y) = y.
Proof.
  intros Hy. extensionality i. unfold moved at 1. destruct (in_dec coord_dec i U) as [A|A].
  - assert (E : f i (moved U g y) = f i y). { apply Hf. intros j Hj. unfold moved. destruct (in_dec coord_dec j U); tauto. }
    rewrite E. unfold moved. destruct (in_dec coord_dec i U); [|contradiction]. destruct (HS i y A) as [_ B]. specialize (Hy i). rewrite box_of_in in Hy by auto.
    destruct B as (_ & B). apply B. auto.
  - unfold moved. destruct (in_dec coord_dec i U); tauto.
Qed.
(** expectations: E phi(F X) is the integral of phi against the moved density *)
Lemma moved_expectation q phi v : NoDup U -> iterated_smooth U (fun x => q x * phi (moved U f x)) v ->
  iterated_on (box_of D U) U (fun y => moved_density U g q y * phi y) v.
Proof.
  intros Nd HI. apply (iterated_ext _ _ (moved_density U g (fun x => q x * phi (moved U f x)))).
  - intros y Hy. unfold moved_density. rewrite moved_round_trip by auto. ring.
  - apply moved_integral; auto.
Qed.
(** the coordinates that stay are integrated outside *)
Lemma moved_expectation_all q phi : NoDup U -> forall A v, (forall i, In i A -> ~ In i U) ->
  iterated_smooth (A ++ U) (fun x => q x * phi (moved U f x)) v ->
  iterated_on (box_of D U) (A ++ U) (fun y => moved_density U g q y * phi y) v.
Proof.
  intros Nd. induction A as [|i A IH]; intros v HA HI; cbn [app] in *; [apply moved_expectation; auto|].
  destruct HI as (h & Hh & HI). exists h. split; [apply IH; auto; intros; apply HA; right; auto|].
  intros x _. rewrite box_of_out by (apply HA; left; auto). destruct (HI x) as [_ J]. exact J.
Qed.
End Moved.

(** Densities of independent coordinates have smooth iterated integrals. *)
Definition product_density (l : list coord) (p : coord -> R -> R) (x : point) : R := prodf (fun i => p i (x i)) l.
Lemma product_smooth (p : coord -> R -> R) l : forall m : list coord, NoDup l -> (forall i, In i l -> (forall t, continuous (p i) t) /\ integral (p i) 1) -> (forall i, In i m -> ~ In i l) ->
  iterated_smooth l (product_density (m ++ l) p) (product_density m p).
Proof.
  induction l as [|i l IH]; intros m Nd Hp Hm; cbn [iterated_smooth].
  - intros x. rewrite app_nil_r. reflexivity.
  - inversion Nd as [|? ? Ni Nd']; subst. exists (product_density (m ++ [i]) p). split.
    + replace (m ++ i :: l) with ((m ++ [i]) ++ l) by (rewrite <- app_assoc; reflexivity). apply IH; auto; [intros; apply Hp; right; auto|].
      intros j Hj. apply in_app_or in Hj as [Hj|[<-|[]]]; auto. intros Hl. apply (Hm j Hj). right. auto.
    + intros x. destruct (Hp i (or_introl eq_refl)) as [C1 I1].
      assert (E : forall t, product_density (m ++ [i]) p (upd x i t) = product_density m p x * p i t).
      { intros t. unfold product_density, prodf. rewrite map_app, rprod_app. cbn [map rprod fold_right]. rewrite upd_same. rewrite Rmult_1_r. f_equal. f_equal.
        apply map_ext_in. intros j Hj. rewrite upd_other; auto. intros ->. apply (Hm i Hj). left. auto. }
      split.
      * intros t. apply (continuous_ext (fun t => product_density m p x * p i t)); [intros; symmetry; apply E|].
        apply (continuous_scal_r (product_density m p x) (p i)). auto.
      * replace (fun t => product_density (m ++ [i]) p (upd x i t)) with (fun t => scal (product_density m p x) (p i t)) by (extensionality t; rewrite E; reflexivity).
        pose proof (is_RInt_gen_scal (V := R_NormedModule) (p i) (product_density m p x) 1 I1) as G.
        change (scal (product_density m p x) 1) with (product_density m p x * 1) in G. rewrite Rmult_1_r in G. exact G.
Qed.
