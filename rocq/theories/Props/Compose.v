(** C54, C55 (and C30): Independent and Joint. *)
From Coq Require Import Reals List Lia Lra Bool ZArith.
From Verif Require Import Base.Result Base.Sums Base.Tensor Base.Tree Base.XR Base.Lift Model.Distribution Model.ArrayDist Model.Clipped Model.Compose
  Spec.ArrayDist Spec.Distribution Spec.Univariate Spec.Categorical Spec.Product Proofs.Distribution Proofs.ArrayDist Proofs.Univariate Proofs.Compose.
Import ListNotations.
Local Open Scope R_scope.

(** ** The meaning of the sums: for independent finite random variables the joint law has the products of the probabilities, total
    mass one, and its entropy and KL divergence are the sums of the components'. *)
Theorem C54_product_law : forall ps qs, Forall2 compatible ps qs ->
  is_pmf (joint_pmf ps) /\ shannon_entropy (joint_pmf ps) = sumf shannon_entropy ps /\
  kullback_leibler (joint_pmf ps) (joint_pmf qs) = sumf (fun pq => kullback_leibler (fst pq) (snd pq)) (combine ps qs).
Proof.
  intros ps qs F. assert (HP : forall p, In p ps -> is_pmf p) by (induction F as [|p q ps qs (H & _) F IH]; intros z Hz; [destruct Hz|]; destruct Hz as [<-|Hz]; [exact H|auto]).
  split; [apply joint_pmf_ok, HP|]. split; [apply joint_entropy_sum, HP|apply joint_kl_sum, F].
Qed.
Print Assumptions C54_product_law.

(** ** Independent *)
Theorem C54_constructor : forall K E (d : pdist K E),
  (p_event d = None -> forall k, independent_init d k = Err ValueError) /\
  (forall ev k, p_event d = Some ev -> (exists e, independent_init d (Some k) = Err e) <-> (k < 0 \/ Z.of_nat (length (p_batch d)) < k)%Z) /\
  (forall ev k, p_event d = Some ev -> (k < 0 \/ Z.of_nat (length (p_batch d)) < k)%Z -> independent_init d (Some k) = Err ValueError) /\
  (forall ev outer inner, p_event d = Some ev -> p_batch d = outer ++ inner ->
     exists i, independent_init d (Some (Z.of_nat (length inner))) = Ok i /\ i_dist i = d /\
       independent_batch_shape i = outer /\ independent_event_shape i = inner ++ ev) /\
  (forall ev, p_event d = Some ev -> p_batch d = [] ->
     exists i, independent_init d None = Ok i /\ i_dist i = d /\ independent_batch_shape i = [] /\ independent_event_shape i = ev) /\
  (forall ev b0 inner, p_event d = Some ev -> p_batch d = b0 :: inner ->
     exists i, independent_init d None = Ok i /\ i_dist i = d /\ independent_batch_shape i = [b0] /\ independent_event_shape i = inner ++ ev).
Proof.
  intros K E d. unfold independent_init.
  assert (SH : forall outer inner : shape, firstn (length (outer ++ inner) - length inner) (outer ++ inner) = outer /\
                 skipn (length (outer ++ inner) - length inner) (outer ++ inner) = inner).
  { intros o i. rewrite app_length, Nat.add_sub, firstn_app, skipn_app, firstn_all, skipn_all, Nat.sub_diag. cbn. rewrite app_nil_r. auto. }
  split; [intros -> k; reflexivity|]. split; [|split; [|split; [|split]]].
  - intros ev k ->. destruct (Z.ltb_spec (Z.of_nat (length (p_batch d))) k), (Z.ltb_spec k 0); split; intros H1; try lia; eauto. destruct H1; discriminate.
  - intros ev k ->. destruct (Z.ltb_spec (Z.of_nat (length (p_batch d))) k), (Z.ltb_spec k 0); intros; try lia; reflexivity.
  - intros ev o i He Hb. rewrite He, Hb. destruct (Z.ltb_spec (Z.of_nat (length (o ++ i))) (Z.of_nat (length i))); [rewrite app_length in *; lia|].
    destruct (Z.ltb_spec (Z.of_nat (length i)) 0); [lia|]. rewrite Nat2Z.id. eexists. split; [reflexivity|]. split; [reflexivity|].
    unfold independent_batch_shape, independent_event_shape. cbn. rewrite Hb, He. destruct (SH o i) as [-> ->]. auto.
  - intros ev He Hb. rewrite He, Hb. eexists. split; [reflexivity|]. split; [reflexivity|]. unfold independent_batch_shape, independent_event_shape. cbn. rewrite Hb, He. auto.
  - intros ev b0 i He Hb. rewrite He, Hb. eexists. split; [reflexivity|]. split; [reflexivity|]. unfold independent_batch_shape, independent_event_shape. cbn -[firstn skipn]. rewrite Hb, He.
    rewrite Nat.sub_0_r, Nat.max_0_r. change (b0 :: i) with ([b0] ++ i). destruct (SH [b0] i) as [-> ->]. auto.
Qed.
Print Assumptions C54_constructor.

(** an Independent distribution whose base has batch shape outer + inner, with [inner] reinterpreted *)
Definition reinterprets {K E} (i : independent K E) (d : pdist K E) (outer inner : shape) : Prop :=
  independent_init d (Some (Z.of_nat (length inner))) = Ok i /\ p_batch d = outer ++ inner.
Lemma reinterprets_inv {K E} (i : independent K E) d outer inner : reinterprets i d outer inner -> i = mkIndependent d (length inner).
Proof.
  intros [H _]. unfold independent_init in H. destruct (p_event d); [|discriminate]. destruct (_ <? _)%Z in H; [discriminate|]. destruct (_ <? _)%Z in H; [discriminate|]. rewrite Nat2Z.id in H. congruence.
Qed.
(** log_prob (and log_cdf): the log of the product of the densities (cdfs) over the reinterpreted axes, for a value with sample axes [S] *)
Theorem C54_log_prob : forall K E (i : independent K E) d outer inner S v t (f : list nat -> R), reinterprets i d outer inner ->
  (forall idx, inb (S ++ outer ++ inner) idx -> 0 <= f idx) ->
  (p_log_prob d v = Ok t -> holds t (S ++ outer ++ inner) (fun idx => rlog (f idx)) ->
     exists r, independent_log_prob i v = Ok r /\ holds r (S ++ outer) (fun idx => rlog (prodf (fun e => f (idx ++ e)) (indices inner)))) /\
  (p_log_cdf d v = Ok t -> holds t (S ++ outer ++ inner) (fun idx => rlog (f idx)) ->
     exists r, independent_log_cdf i v = Ok r /\ holds r (S ++ outer) (fun idx => rlog (prodf (fun e => f (idx ++ e)) (indices inner)))).
Proof.
  intros K E i d outer inner S v t f HI Hf. rewrite (reinterprets_inv _ _ _ _ HI). rewrite (app_assoc S outer inner) in *.
  assert (G : holds t ((S ++ outer) ++ inner) (fun idx => rlog (f idx)) -> exists r, sum_last_axes (length inner) t = Ok r /\
     holds r (S ++ outer) (fun idx => rlog (prodf (fun e => f (idx ++ e)) (indices inner)))).
  { intros Ht. destruct (sum_last_axes_ok _ t (S ++ outer) inner _ Ht eq_refl) as (r & Er & Hr). exists r. split; [exact Er|]. eapply holds_ext; [exact Hr|].
    intros idx Hi. cbv beta. apply xsum_rlog. intros e He. apply Hf, inb_app; auto. apply in_indices, He. }
  split; intros E1 Ht; [unfold independent_log_prob|unfold independent_log_cdf]; unfold independent_reduce; cbn [i_dist i_ndims]; rewrite E1; cbn [rbind]; auto.
Qed.
Print Assumptions C54_log_prob.
(** entropy: the sum over the reinterpreted axes; for finite laws this is the entropy of the joint law *)
Theorem C54_entropy : forall K E (i : independent K E) d outer inner t, reinterprets i d outer inner -> p_entropy d = Ok t ->
  (forall h, holds t (outer ++ inner) (fun idx => Fin (h idx)) ->
     exists r, independent_entropy i = Ok r /\ holds r outer (fun b => Fin (sumf (fun e => h (b ++ e)) (indices inner)))) /\
  (forall p : list nat -> list R, (forall idx, inb (outer ++ inner) idx -> is_pmf (p idx)) -> holds t (outer ++ inner) (fun idx => Fin (shannon_entropy (p idx))) ->
     exists r, independent_entropy i = Ok r /\ holds r outer (fun b => Fin (shannon_entropy (joint_pmf (map (fun e => p (b ++ e)) (indices inner)))))).
Proof.
  intros K E i d outer inner t HI Et. rewrite (reinterprets_inv _ _ _ _ HI).
  assert (G : forall h, holds t (outer ++ inner) (fun idx => Fin (h idx)) ->
     exists r, independent_entropy (mkIndependent d (length inner)) = Ok r /\ holds r outer (fun b => Fin (sumf (fun e => h (b ++ e)) (indices inner)))).
  { intros h Ht. destruct (sum_last_axes_ok _ t outer inner _ Ht eq_refl) as (r & Er & Hr). exists r. unfold independent_entropy, independent_reduce. cbn [i_dist i_ndims]. rewrite Et. cbn [rbind].
    split; [exact Er|]. eapply holds_ext; [exact Hr|]. intros idx _. cbv beta. apply xsum_sumf. }
  split; [exact G|]. intros p Hp Ht. destruct (G _ Ht) as (r & Er & Hr). exists r. split; [exact Er|]. eapply holds_ext; [exact Hr|]. intros b Hb. cbv beta. f_equal.
  rewrite joint_entropy_sum; [rewrite sumf_map; reflexivity|]. intros q Hq. apply in_map_iff in Hq as (e & <- & He). apply Hp, inb_app; auto. apply in_indices, He.
Qed.
Print Assumptions C54_entropy.
(** KL: summed over the reinterpreted axes; the KL of the joint laws.  [B] is the broadcast of the outer batch shapes. *)
Theorem C54_kl : forall K E (i1 i2 : independent K E) d1 d2 o1 o2 inner1 inner2 ev1 ev2 kl,
  reinterprets i1 d1 o1 inner1 -> reinterprets i2 d2 o2 inner2 -> p_event d1 = Some ev1 -> p_event d2 = Some ev2 ->
  (inner1 ++ ev1 <> inner2 ++ ev2 -> independent_kl kl i1 i2 = Err ValueError) /\
  (inner1 ++ ev1 = inner2 ++ ev2 -> ev1 <> ev2 -> independent_kl kl i1 i2 = Err NotImplementedError) /\
  (inner1 = inner2 -> ev1 = ev2 -> forall B t, kl d1 d2 = Ok t ->
     (forall h, holds t (B ++ inner1) (fun idx => Fin (h idx)) ->
        exists r, independent_kl kl i1 i2 = Ok r /\ holds r B (fun b => Fin (sumf (fun e => h (b ++ e)) (indices inner1)))) /\
     (forall p q : list nat -> list R, (forall idx, inb (B ++ inner1) idx -> compatible (p idx) (q idx)) ->
        holds t (B ++ inner1) (fun idx => Fin (kullback_leibler (p idx) (q idx))) ->
        exists r, independent_kl kl i1 i2 = Ok r /\
          holds r B (fun b => Fin (kullback_leibler (joint_pmf (map (fun e => p (b ++ e)) (indices inner1))) (joint_pmf (map (fun e => q (b ++ e)) (indices inner1))))))).
Proof.
  intros K E i1 i2 d1 d2 o1 o2 n1 n2 ev1 ev2 kl H1 H2 E1 E2.
  destruct (proj1 (proj2 (proj2 (proj2 (C54_constructor K E d1)))) ev1 o1 n1 E1 (proj2 H1)) as (j1 & J1 & _ & _ & Ev1).
  destruct (proj1 (proj2 (proj2 (proj2 (C54_constructor K E d2)))) ev2 o2 n2 E2 (proj2 H2)) as (j2 & J2 & _ & _ & Ev2).
  destruct H1 as [H1 B1], H2 as [H2 B2]. rewrite H1 in J1. injection J1 as <-. rewrite H2 in J2. injection J2 as <-.
  assert (D1 : i_dist i1 = d1) by (rewrite (reinterprets_inv i1 d1 o1 n1 (conj H1 B1)); reflexivity).
  assert (D2 : i_dist i2 = d2) by (rewrite (reinterprets_inv i2 d2 o2 n2 (conj H2 B2)); reflexivity).
  unfold independent_kl. rewrite Ev1, Ev2, D1, D2, E1, E2. unfold shape_eqb. split; [|split].
  - intros N. destruct list_eq_dec; [contradiction|reflexivity].
  - intros N M. destruct list_eq_dec; [|contradiction]. destruct (list_eq_dec Nat.eq_dec ev1 ev2); [contradiction|reflexivity].
  - intros -> -> B t Ek. destruct list_eq_dec; [|congruence]. destruct (list_eq_dec Nat.eq_dec ev2 ev2); [|congruence].
    rewrite app_length, Nat.add_sub, Ek. cbn [rbind].
    assert (G : forall h, holds t (B ++ n2) (fun idx => Fin (h idx)) -> exists r, sum_last_axes (length n2) t = Ok r /\ holds r B (fun b => Fin (sumf (fun e => h (b ++ e)) (indices n2)))).
    { intros h Ht. destruct (sum_last_axes_ok _ t B n2 _ Ht eq_refl) as (r & Er & Hr). exists r. split; [exact Er|]. eapply holds_ext; [exact Hr|]. intros idx _. cbv beta. apply xsum_sumf. }
    split; [exact G|]. intros p q Hpq Ht. destruct (G _ Ht) as (r & Er & Hr). exists r. split; [exact Er|]. eapply holds_ext; [exact Hr|]. intros b Hb. cbv beta. f_equal.
    rewrite joint_kl_sum.
    + rewrite combine_map. assert (C : forall l : list (list nat), combine l l = map (fun e => (e, e)) l) by (induction l; cbn; congruence).
      rewrite C, map_map, sumf_map. reflexivity.
    + assert (F : forall l, (forall e, In e l -> inb n2 e) -> Forall2 compatible (map (fun e => p (b ++ e)) l) (map (fun e => q (b ++ e)) l)).
      { induction l as [|x l IH]; intros Hl; constructor; [apply Hpq, inb_app; auto; apply Hl; left; auto|apply IH; intros; apply Hl; right; auto]. }
      apply F. intros x Hx. apply in_indices, Hx.
Qed.
Print Assumptions C54_kl.
(** samples and moments are those of the base; shapes as constructed *)
Theorem C54_samples : forall K E (i : independent K E) d outer inner ev, reinterprets i d outer inner -> p_event d = Some ev ->
  let D := independent_dist i in
  p_batch D = outer /\ p_event D = Some (inner ++ ev) /\
  (forall key n, p_sample D key n = p_sample d key n) /\
  p_mean D = p_mean d /\ p_median D = p_median d /\ p_mode D = p_mode d /\ p_variance D = p_variance d /\ p_stddev D = p_stddev d.
Proof.
  intros K E i d outer inner ev HI Ev D. destruct (proj1 (proj2 (proj2 (proj2 (C54_constructor K E d)))) ev outer inner Ev (proj2 HI)) as (j & J & Dj & Bj & Ej).
  destruct HI as [H1 _]. rewrite H1 in J. injection J as <-. unfold D, independent_dist. cbn. rewrite Dj, Bj, Ej. auto 10.
Qed.
Print Assumptions C54_samples.
(** slicing the batch keeps the reinterpreted axes; [base_item] is the base's own slicing *)
Theorem C54_slicing : forall K E (i : independent K E) d d' outer inner ev ix ixs rs base_item,
  reinterprets i d outer inner -> p_event d = Some ev -> to_batch_shape_index outer ix = Ok ixs -> base_item ixs = Ok d' ->
  p_batch d' = rs ++ inner -> p_event d' = Some ev ->
  exists i', independent_getitem base_item i ix = Ok i' /\ reinterprets i' d' rs inner /\
    independent_batch_shape i' = rs /\ independent_event_shape i' = independent_event_shape i.
Proof.
  intros K E i d d' outer inner ev ix ixs rs bi HI Ev Ei Eb Hb He.
  destruct (proj1 (proj2 (proj2 (proj2 (C54_constructor K E d)))) ev outer inner Ev (proj2 HI)) as (j & J & Dj & Bj & Ej).
  destruct (proj1 (proj2 (proj2 (proj2 (C54_constructor K E d')))) ev rs inner He Hb) as (i' & J' & Dj' & Bj' & Ej').
  pose proof (reinterprets_inv _ _ _ _ HI) as EI. destruct HI as [H1 _]. rewrite H1 in J. injection J as <-.
  exists i'. unfold independent_getitem. rewrite Bj, Ei. cbn [rbind]. rewrite Eb. cbn [rbind]. rewrite EI. cbn [i_ndims]. split; [exact J'|].
  split; [split; auto|]. split; [exact Bj'|]. rewrite Ej'. rewrite EI in Ej. rewrite Ej. reflexivity.
Qed.
Print Assumptions C54_slicing.
(** sample_and_log_prob agrees with sample and log_prob if it does for the base *)
Definition salp_agrees {K E} (d : pdist K E) (key : K) (n : nat) (y : E) (lp : tensor XR) : Prop :=
  p_salp d key n = Ok (y, lp) /\ p_sample d key n = Ok y /\ p_log_prob d y = Ok lp.
Theorem C30_independent : forall K E (i : independent K E) d outer inner S key n y lp v, reinterprets i d outer inner ->
  salp_agrees d key n y lp -> holds lp (S ++ outer ++ inner) v ->
  exists r, salp_agrees (independent_dist i) key n y r /\ shp r = S ++ outer.
Proof.
  intros K E i d outer inner S key n y lp v HI (H1 & H2 & H3) Hl. rewrite app_assoc in Hl.
  destruct (sum_last_axes_ok _ lp (S ++ outer) inner _ Hl eq_refl) as (r & Er & Hr). exists r. rewrite (reinterprets_inv _ _ _ _ HI).
  split; [|apply Hr]. unfold salp_agrees, independent_dist, independent_salp, independent_log_prob, independent_reduce. cbn. rewrite H1, H3. cbn [rbind]. rewrite Er. cbn [rbind]. auto.
Qed.
Print Assumptions C30_independent.

(** ** Joint *)
(** Construction: accepted exactly when, after the leading leaves with empty batch shape, all leaves have one batch shape. *)
Lemma joint_check_spec {K E} (s : shape) (ds : list (pdist K E)) : s <> [] -> joint_check s ds = true <-> List.Forall (fun d => p_batch d = s) ds.
Proof.
  intros Hs. induction ds as [|d ds IH]; cbn; [split; auto|]. destruct s as [|a s]; [congruence|]. rewrite andb_true_iff, IH. unfold shape_eqb.
  destruct list_eq_dec as [e|n]; split; [intros [_ H]; constructor; auto|intros H; inversion H; auto|intros [H _]; discriminate|intros H; inversion H; contradiction].
Qed.
Theorem C55_constructor : forall K E (ds : tree (pdist K E)),
  (joint_init ds = Ok ds <-> exists first rest s, leaves ds = first ++ rest /\ List.Forall (fun d => p_batch d = []) first /\ List.Forall (fun d => p_batch d = s) rest) /\
  (joint_init ds = Ok ds \/ joint_init ds = Err ValueError) /\
  (forall d rest, leaves ds = d :: rest -> joint_batch_shape ds = Ok (p_batch d) /\
     (p_batch d <> [] -> joint_init ds = Ok ds <-> (forall d', In d' rest -> p_batch d' = p_batch d))) /\
  (leaves ds = [] -> joint_batch_shape ds = Err IndexError).
Proof.
  intros K E ds. unfold joint_init, joint_batch_shape. split; [|split; [|split]]; [| | |intros ->; reflexivity].
  - assert (G : joint_check [] (leaves ds) = true <-> exists first rest s, leaves ds = first ++ rest /\ List.Forall (fun d => p_batch d = []) first /\ List.Forall (fun d => p_batch d = s) rest).
    { generalize (leaves ds) as l. induction l as [|d l IH].
      - split; [intros _; exists [], [], []; auto|reflexivity].
      - cbn [joint_check]. assert (shape_eqb (p_batch d) (p_batch d) = true) as -> by (unfold shape_eqb; destruct list_eq_dec; congruence). cbn [andb].
        destruct (p_batch d) as [|a s] eqn:Eb.
        + rewrite IH. split; [intros (f & r & s & -> & F1 & F2); exists (d :: f), r, s; repeat split; auto|].
          intros (f & r & s & E' & F1 & F2). destruct f as [|d' f]; cbn in E'.
          * subst r. inversion F2 as [|? ? Hd F3]; subst. rewrite Eb in F3. exists [], l, []. auto.
          * injection E' as -> ->. inversion F1; subst. exists f, r, s. auto.
        + rewrite joint_check_spec by discriminate. split.
          * intros F. exists [], (d :: l), (a :: s). repeat split; auto.
          * intros (f & r & s' & E' & F1 & F2). destruct f as [|d' f]; cbn in E'.
            -- subst r. inversion F2 as [|? ? Hd F3]; subst. rewrite Eb in F3. exact F3.
            -- injection E' as -> ->. inversion F1; subst. congruence. }
    destruct (joint_check [] (leaves ds)); [split; auto; intros _; apply G; auto|]. split; [discriminate|]. intros H. apply G in H. discriminate.
  - destruct joint_check; auto.
  - intros d rest El. rewrite El. split; [reflexivity|]. intros Hb. cbn [joint_check].
    assert (shape_eqb (p_batch d) (p_batch d) = true) as -> by (unfold shape_eqb; destruct list_eq_dec; congruence). cbn [andb].
    assert (G : joint_check (p_batch d) rest = true <-> (forall d', In d' rest -> p_batch d' = p_batch d)) by (rewrite joint_check_spec by auto; apply Forall_forall).
    destruct (joint_check (p_batch d) rest); [split; auto; intros _; apply G; auto|]. split; [discriminate|]. intros H. apply G in H. discriminate.
Qed.
Print Assumptions C55_constructor.
(** "all distributions must have the same batch shape" is not enforced: a leading leaf without batch shape is not compared *)
Theorem C55_mixed_batch_shapes_refuted : forall K E (d1 d2 : pdist K E), p_batch d1 = [] -> p_batch d2 = [3%nat] ->
  joint_init (Node [Leaf d1; Leaf d2]) = Ok (Node [Leaf d1; Leaf d2]) /\
  joint_batch_shape (Node [Leaf d1; Leaf d2]) = Ok [] /\
  joint_init (Node [Leaf d2; Leaf d1]) = Err ValueError /\
  (forall v1 v2 t1 t2, p_log_prob d1 v1 = Ok t1 -> p_log_prob d2 v2 = Ok t2 -> shp t1 = [] -> shp t2 = [3%nat] ->
     joint_log_prob (Node [Leaf d1; Leaf d2]) (Node [Leaf v1; Leaf v2]) = Err ValueError).
Proof.
  intros K E d1 d2 H1 H2. unfold joint_init, joint_batch_shape, joint_log_prob. cbn. rewrite H1, H2. cbn.
  repeat split. intros v1 v2 t1 t2 E1 E2 S1 S2. rewrite E1, E2. cbn. rewrite S1, S2. reflexivity.
Qed.
Print Assumptions C55_mixed_batch_shapes_refuted.

(** log_prob: the log of the product of the leaves' densities; [fs] lists the densities of the leaves at the values.  Values of another
    structure are rejected. *)
Theorem C55_log_prob : forall K E (ds : tree (pdist K E)) (vals : tree E) S (fs : list (list nat -> R)),
  (leaves ds <> [] -> same_structure ds vals ->
   Forall2 (fun dv f => exists t, p_log_prob (fst dv) (snd dv) = Ok t /\ holds t S (fun idx => rlog (f idx)) /\ forall idx, inb S idx -> 0 <= f idx)
     (combine (leaves ds) (leaves vals)) fs ->
   exists r, joint_log_prob ds vals = Ok r /\ holds r S (fun idx => rlog (prodf (fun f => f idx) fs))) /\
  (~ same_structure ds vals -> exists e, joint_log_prob ds vals = Err e).
Proof.
  intros K E ds vals S fs. split.
  - intros Hne HS HF.
    assert (exists ts, Forall2 (fun dv t => p_log_prob (fst dv) (snd dv) = Ok t) (combine (leaves ds) (leaves vals)) ts /\
              Forall2 (fun t v => holds t S v) ts (map (fun f idx => rlog (f idx)) fs)) as (ts & F1 & F2).
    { clear Hne. induction HF as [|dv f l m (t & Et & Ht & _) HF (ts & F1 & F2)]; [exists []; split; constructor|]. exists (t :: ts). split; constructor; auto. }
    destruct (tree_map2M_ok (fun d v => p_log_prob d v) ds vals ts HS F1) as (u & Eu & Lu & _). unfold joint_log_prob. rewrite Eu. cbn [rbind]. rewrite Lu.
    assert (Hts : ts <> []). { intros ->. inversion F1 as [E0|]. pose proof (same_structure_leaves _ _ HS) as L. destruct (leaves ds), (leaves vals); try discriminate; congruence. }
    destruct (sum_stack_ok ts S _ Hts F2) as (r & Er & Hr). exists r. split; [exact Er|]. eapply holds_ext; [exact Hr|]. intros idx Hi. cbv beta. rewrite map_map.
    apply (xsum_rlog (fun f => f idx)). intros f Hf. clear -HF Hf Hi. induction HF as [|dv g l m (t & _ & _ & Hg) HF IH]; [destruct Hf|]. destruct Hf as [<-|Hf]; auto.
  - intros HN. unfold joint_log_prob. destruct (tree_map2M (fun d v => p_log_prob d v) ds vals) as [u|e] eqn:E1; [exfalso; apply HN; eapply tree_map2M_structure; eauto|]. cbn. eauto.
Qed.
Print Assumptions C55_log_prob.
(** log_cdf, of independent variables *)
Theorem C55_log_cdf : forall K E (ds : tree (pdist K E)) (vals : tree E) S (fs : list (list nat -> R)),
  leaves ds <> [] -> same_structure ds vals ->
  Forall2 (fun dv f => exists t, p_log_cdf (fst dv) (snd dv) = Ok t /\ holds t S (fun idx => rlog (f idx)) /\ forall idx, inb S idx -> 0 <= f idx)
     (combine (leaves ds) (leaves vals)) fs ->
  exists r, joint_log_cdf ds vals = Ok r /\ holds r S (fun idx => rlog (prodf (fun f => f idx) fs)).
Proof.
  intros K E ds vals S fs Hne HS HF. unfold joint_log_cdf. pose proof (same_structure_leaves _ _ HS) as L.
  revert Hne L HF. generalize (leaves ds) as l, (leaves vals) as m. intros l m Hne L HF.
  assert (F2 : Forall2 (fun t v => exists a, t = Ok a /\ holds a S v) (zip_with (fun d v => p_log_cdf d v) l m) (map (fun f idx => rlog (f idx)) fs)).
  { clear Hne. revert m fs L HF. induction l as [|d l IH]; intros [|v m] fs L HF; try discriminate L; cbn in HF; inversion HF as [|? f ? fs' (t & Et & Ht & _) HF']; subst; cbn; constructor; eauto. }
  assert (Hts : zip_with (fun d v => p_log_cdf d v) l m <> []) by (destruct l, m; try discriminate; congruence).
  destruct (py_sum_ok _ S _ Hts F2) as (r & Er & Hr). exists r. split; [exact Er|]. eapply holds_ext; [exact Hr|]. intros idx Hi. cbv beta. rewrite map_map.
  apply (xsum_rlog (fun f => f idx)). intros f Hf. clear -HF Hf Hi. induction HF as [|dv g l' m' (t & _ & _ & Hg) HF IH]; [destruct Hf|]. destruct Hf as [<-|Hf]; auto.
Qed.
Print Assumptions C55_log_cdf.
(** entropy: the sum; for finite laws, the entropy of the joint law *)
Theorem C55_entropy : forall K E (ds : tree (pdist K E)) S, leaves ds <> [] ->
  (forall hs : list (list nat -> R), Forall2 (fun d h => exists t, p_entropy d = Ok t /\ holds t S (fun idx => Fin (h idx))) (leaves ds) hs ->
     exists r, joint_entropy ds = Ok r /\ holds r S (fun idx => Fin (sumf (fun h => h idx) hs))) /\
  (forall ps : list (list nat -> list R),
     Forall2 (fun d p => exists t, p_entropy d = Ok t /\ holds t S (fun idx => Fin (shannon_entropy (p idx))) /\ forall idx, inb S idx -> is_pmf (p idx)) (leaves ds) ps ->
     exists r, joint_entropy ds = Ok r /\ holds r S (fun idx => Fin (shannon_entropy (joint_pmf (map (fun p => p idx) ps))))).
Proof.
  intros K E ds S Hne.
  assert (G : forall hs : list (list nat -> R), Forall2 (fun d h => exists t, p_entropy d = Ok t /\ holds t S (fun idx => Fin (h idx))) (leaves ds) hs ->
     exists r, joint_entropy ds = Ok r /\ holds r S (fun idx => Fin (sumf (fun h => h idx) hs))).
  { intros hs HF. unfold joint_entropy.
    assert (F2 : Forall2 (fun t v => exists a, t = Ok a /\ holds a S v) (map p_entropy (leaves ds)) (map (fun h idx => Fin (h idx)) hs)).
    { clear Hne. induction HF as [|d h l m (t & Et & Ht) HF IH]; cbn; constructor; eauto. }
    assert (Hts : map p_entropy (leaves ds) <> []) by (destruct (leaves ds); [congruence|discriminate]).
    destruct (py_sum_ok _ S _ Hts F2) as (r & Er & Hr). exists r. split; [exact Er|]. eapply holds_ext; [exact Hr|]. intros idx Hi. cbv beta. rewrite map_map. apply (xsum_sumf (fun h => h idx)). }
  split; [exact G|]. intros ps HF. destruct (G (map (fun p idx => shannon_entropy (p idx)) ps)) as (r & Er & Hr).
  { clear -HF. induction HF as [|d p l m (t & Et & Ht & _) HF IH]; cbn; constructor; eauto. }
  exists r. split; [exact Er|]. eapply holds_ext; [exact Hr|]. intros idx Hi. cbv beta. f_equal. rewrite joint_entropy_sum, !sumf_map; [reflexivity|].
  intros q Hq. apply in_map_iff in Hq as (p & <- & Hp). clear -HF Hp Hi. induction HF as [|d g l m (t & _ & _ & Hg) HF IH]; [destruct Hp|]. destruct Hp as [<-|Hp]; auto.
Qed.
Print Assumptions C55_entropy.
(** KL of two joints of the same structure: the sum of the leaves' divergences *)
Theorem C55_kl : forall K E kl (ds1 ds2 : tree (pdist K E)) S,
  (~ same_structure ds1 ds2 -> exists e, joint_kl kl ds1 ds2 = Err e) /\
  (leaves ds1 <> [] -> same_structure ds1 ds2 ->
   (forall hs : list (list nat -> R), Forall2 (fun dd h => exists t, kl (fst dd) (snd dd) = Ok t /\ holds t S (fun idx => Fin (h idx))) (combine (leaves ds1) (leaves ds2)) hs ->
     exists r, joint_kl kl ds1 ds2 = Ok r /\ holds r S (fun idx => Fin (sumf (fun h => h idx) hs))) /\
   (forall pqs : list ((list nat -> list R) * (list nat -> list R)),
     Forall2 (fun dd pq => exists t, kl (fst dd) (snd dd) = Ok t /\ holds t S (fun idx => Fin (kullback_leibler (fst pq idx) (snd pq idx))) /\
                forall idx, inb S idx -> compatible (fst pq idx) (snd pq idx)) (combine (leaves ds1) (leaves ds2)) pqs ->
     exists r, joint_kl kl ds1 ds2 = Ok r /\
       holds r S (fun idx => Fin (kullback_leibler (joint_pmf (map (fun pq => fst pq idx) pqs)) (joint_pmf (map (fun pq => snd pq idx) pqs)))))).
Proof.
  intros K E kl ds1 ds2 S. split.
  - intros HN. unfold joint_kl. destruct (tree_map2M (fun _ _ => Ok tt) ds1 ds2) as [u|e] eqn:E1; [exfalso; apply HN; eapply tree_map2M_structure; eauto|]. cbn. eauto.
  - intros Hne HS.
    assert (G : forall hs : list (list nat -> R), Forall2 (fun dd h => exists t, kl (fst dd) (snd dd) = Ok t /\ holds t S (fun idx => Fin (h idx))) (combine (leaves ds1) (leaves ds2)) hs ->
       exists r, joint_kl kl ds1 ds2 = Ok r /\ holds r S (fun idx => Fin (sumf (fun h => h idx) hs))).
    { intros hs HF. unfold joint_kl.
      destruct (tree_map2M_ok (fun (_ _ : pdist K E) => Ok tt) ds1 ds2 (map (fun _ => tt) (combine (leaves ds1) (leaves ds2))) HS) as (u & -> & _).
      { clear. induction (combine (leaves ds1) (leaves ds2)); constructor; auto. }
      cbn [rbind]. pose proof (same_structure_leaves _ _ HS) as L. revert Hne L HF. generalize (leaves ds1) as l, (leaves ds2) as m. intros l m Hne L HF.
      assert (F2 : Forall2 (fun t v => exists a, t = Ok a /\ holds a S v) (zip_with kl l m) (map (fun h idx => Fin (h idx)) hs)).
      { clear Hne. revert m hs L HF. induction l as [|d l IH]; intros [|v m] hs L HF; try discriminate L; cbn in HF; inversion HF as [|? f ? fs' (t & Et & Ht) HF']; subst; cbn; constructor; eauto. }
      assert (Hts : zip_with kl l m <> []) by (destruct l, m; try discriminate; congruence).
      destruct (py_sum_ok _ S _ Hts F2) as (r & Er & Hr). exists r. split; [exact Er|]. eapply holds_ext; [exact Hr|]. intros idx Hi. cbv beta. rewrite map_map. apply (xsum_sumf (fun h => h idx)). }
    split; [exact G|]. intros pqs HF. destruct (G (map (fun pq idx => kullback_leibler (fst pq idx) (snd pq idx)) pqs)) as (r & Er & Hr).
    { clear -HF. induction HF as [|d p l m (t & Et & Ht & _) HF IH]; cbn; constructor; eauto. }
    exists r. split; [exact Er|]. eapply holds_ext; [exact Hr|]. intros idx Hi. cbv beta. f_equal. rewrite joint_kl_sum.
    + rewrite combine_map. assert (C : combine pqs pqs = map (fun e => (e, e)) pqs) by (clear; induction pqs; cbn; congruence). rewrite C, map_map, !sumf_map. reflexivity.
    + clear -HF Hi. induction HF as [|d g l m (t & _ & _ & Hg) HF IH]; cbn; constructor; auto.
Qed.
Print Assumptions C55_kl.
(** Sampling: the i-th leaf is sampled with the i-th of the keys the split produces, and sample_and_log_prob agrees with sample and
    log_prob if it does for the leaves. *)
Theorem C55_sample : forall K E split (ds : tree (pdist K E)) key n ys, length (split key (length (leaves ds))) = length (leaves ds) ->
  Forall2 (fun dk y => p_sample (fst dk) (snd dk) n = Ok y) (combine (leaves ds) (split key (length (leaves ds)))) ys ->
  exists r, joint_sample_n split ds key n = Ok r /\ same_structure ds r /\ leaves r = ys.
Proof.
  intros K E split ds key n ys HL HF. destruct (unflatten_as_ok ds _ HL) as (ks & Ek & Lk & Sk). unfold joint_sample_n. rewrite Ek. cbn [rbind].
  rewrite <- Lk in HF. destruct (tree_map2M_ok (fun d k => p_sample d k n) ds ks ys Sk HF) as (u & Eu & Lu & Su). exists u. auto.
Qed.
Print Assumptions C55_sample.
Theorem C30_joint : forall K E split (ds : tree (pdist K E)) key n S (ys : list (E * tensor XR)), leaves ds <> [] ->
  length (split key (length (leaves ds))) = length (leaves ds) ->
  Forall2 (fun dk y => salp_agrees (fst dk) (snd dk) n (fst y) (snd y) /\ wf (snd y) /\ shp (snd y) = S) (combine (leaves ds) (split key (length (leaves ds)))) ys ->
  exists r lp, joint_salp split ds key n = Ok (r, lp) /\ joint_sample_n split ds key n = Ok r /\ joint_log_prob ds r = Ok lp /\ wf lp /\ shp lp = S /\ leaves r = map fst ys.
Proof.
  intros K E split ds key n S ys Hne HL HF. destruct (unflatten_as_ok ds _ HL) as (ks & Ek & Lk & Sk). rewrite <- Lk in HF.
  assert (F1 : Forall2 (fun dk y => p_salp (fst dk) (snd dk) n = Ok y) (combine (leaves ds) (leaves ks)) ys).
  { clear -HF. induction HF as [|dk [y l] ? ? ((H & _) & _) HF IH]; constructor; auto. }
  assert (F2 : Forall2 (fun dk y => p_sample (fst dk) (snd dk) n = Ok y) (combine (leaves ds) (leaves ks)) (map fst ys)).
  { clear -HF. induction HF as [|dk [y l] ? ? ((_ & H & _) & _) HF IH]; cbn; constructor; auto. }
  destruct (tree_map2M_ok (fun d k => p_salp d k n) ds ks ys Sk F1) as (b & Eb & Lb & Sb).
  destruct (tree_map2M_ok (fun d k => p_sample d k n) ds ks (map fst ys) Sk F2) as (u & Eu & Lu & Su).
  destruct (tree_mapM_leaves (@fst E (tensor XR)) b) as (u' & Eu' & Lu' & Su'). destruct (tree_mapM_leaves (@snd E (tensor XR)) b) as (l & El & Ll & Sl).
  assert (UU : u' = u).
  { rewrite Lb in Lu'. rewrite <- Lu in Lu'. clear -Lu' Su' Sb Su. assert (S1 : same_structure ds u') by exact (same_structure_trans ds b u' Sb Su'). clear Sb Su' b.
    revert u' u Lu' S1 Su. induction ds as [a|m IH] using tree_ind'; intros u' u EL S1 S2; inversion S1 as [? x _|? m1 A1]; subst; inversion S2 as [? y _|? m2 A2]; subst.
    - cbn in EL. congruence.
    - f_equal. rewrite !leaves_node in EL. clear S1 S2. revert m1 m2 EL A1 A2. induction IH as [|d m Hd _ IHm]; intros m1 m2 EL A1 A2.
      + inversion A1; subst. inversion A2; subst. reflexivity.
      + inversion A1 as [|? x ? m1' X1 Y1]; subst. inversion A2 as [|? y ? m2' X2 Y2]; subst. cbn [flat_map] in EL.
        assert (LL : length (leaves x) = length (leaves y)) by (rewrite <- (same_structure_leaves _ _ X1), <- (same_structure_leaves _ _ X2); reflexivity).
        assert (AP : forall (a1 a2 b1 b2 : list E), length a1 = length a2 -> a1 ++ b1 = a2 ++ b2 -> a1 = a2 /\ b1 = b2).
        { induction a1 as [|h a1 IHa]; intros [|h' a2] b1 b2 La Ha; try discriminate La; [auto|]. cbn in Ha. injection Ha as -> Ha. apply Nat.succ_inj in La. destruct (IHa a2 b1 b2 La Ha) as [-> ->]. auto. }
        destruct (AP _ _ _ _ LL EL) as [Q1 Q2]. f_equal; [apply Hd; auto|]. specialize (IHm m1' m2' Q2 Y1 Y2). exact IHm. }
  subst u'. assert (F3 : Forall2 (fun dv t => p_log_prob (fst dv) (snd dv) = Ok t) (combine (leaves ds) (leaves u)) (map snd ys)).
  { rewrite Lu. assert (LK : length (leaves ks) = length (leaves ds)) by congruence. revert LK HF. generalize (leaves ks) as kk, (leaves ds) as dd. clear. intros kk dd LK HF.
    revert kk ys LK HF. induction dd as [|d dd IH]; intros [|k kk] ys LK HF; try discriminate LK; cbn in HF; inversion HF as [|? [y l] ? ys' ((_ & _ & H) & _) HF']; subst; cbn; constructor; eauto. }
  destruct (tree_map2M_ok (fun d v => p_log_prob d v) ds u (map snd ys) Su F3) as (l2 & E2 & L2 & _).
  assert (F4 : Forall2 (fun t v => holds t S v) (map snd ys) (map (fun y idx => tget (Fin 0) (snd y) idx) ys)).
  { clear -HF. induction HF as [|dk [y l] ? ? (_ & W & SS) HF IH]; cbn; constructor; auto. split; auto. }
  assert (Hts : map snd ys <> []). { destruct ys; [|discriminate]. inversion HF as [E0|]. assert (LK : length (leaves ks) = length (leaves ds)) by congruence. destruct (leaves ds), (leaves ks); try discriminate; congruence. }
  destruct (sum_stack_ok _ S _ Hts F4) as (r & Er & Hr). exists u, r.
  unfold joint_salp, joint_sample_n, joint_log_prob. rewrite Ek. cbn [rbind]. rewrite Eb. cbn [rbind]. rewrite Eu', El. cbn [rbind]. rewrite Ll, Lb, Er. cbn [rbind]. rewrite E2. cbn [rbind]. rewrite L2.
  repeat split; auto; apply Hr.
Qed.
Print Assumptions C30_joint.
