(** C66 for laws with densities: the Monte Carlo estimators are unbiased. *)
From Coq Require Import Reals List Arith Bool Lia Lra ZArith FunctionalExtensionality.
From Coquelicot Require Import Coquelicot.
From Verif Require Import Base.Result Base.XR Base.Sums Base.Tensor Base.Lift Base.Integral Base.Gauss Base.IntegralSub Model.ArrayDist Model.MathUtils Model.Compose Model.MonteCarlo
  Spec.FiniteLaw Spec.Univariate Spec.MonteCarlo Spec.Flow Spec.Expectation Proofs.MathUtils Proofs.FiniteLaw Proofs.Univariate Proofs.Flow Props.MonteCarlo.
Import ListNotations.
Local Open Scope R_scope.

Lemma average_sum {K} (E : (K -> R) -> R -> Prop) (G : nat -> K -> R) v : linear_average E -> forall n, (0 < n)%nat -> (forall i, (i < n)%nat -> E (G i) v) ->
  E (fun k => sumf (fun i => G i k) (seq 0 n)) (INR n * v).
Proof.
  intros (Lp & Ls). induction n as [|n IH]; intros Hn H; [lia|]. destruct n as [|n].
  - specialize (H 0%nat ltac:(lia)). pose proof (Ls 1 _ _ H) as H1. replace (INR 1 * v) with (1 * v) by (cbn; ring).
    replace (fun k => sumf (fun i => G i k) (seq 0 1)) with (fun k => 1 * G 0%nat k); auto. extensionality k. unfold sumf. cbn. ring.
  - specialize (IH ltac:(lia) ltac:(intros; apply H; lia)). pose proof (Lp _ _ _ _ IH (H (S n) ltac:(lia))) as H1.
    replace (INR (S (S n)) * v) with (INR (S n) * v + v) by (rewrite (S_INR (S n)); ring).
    replace (fun k => sumf (fun i => G i k) (seq 0 (S (S n)))) with (fun k => sumf (fun i => G i k) (seq 0 (S n)) + G (S n) k); auto.
    extensionality k. rewrite (seq_S (S n)). unfold sumf. rewrite map_app, rsum_app. cbn. ring.
Qed.
Lemma average_mean {K X} (E : (K -> R) -> R -> Prop) I (draw : K -> nat -> X) n q g v : linear_average E -> draws_with_density E I draw n q -> (0 < n)%nat ->
  I (fun x => g x * q x) v -> E (fun key => sumf g (map (draw key) (seq 0 n)) / INR n) v.
Proof.
  intros L D Hn H. pose proof (average_sum E (fun i key => g (draw key i)) v L n Hn (fun i Hi => D i g v Hi H)) as S.
  apply (proj2 L (/ INR n)) in S. pose proof (lt_0_INR n Hn). replace (/ INR n * (INR n * v)) with v in S by (field; lra).
  replace (fun key => sumf g (map (draw key) (seq 0 n)) / INR n) with (fun k => / INR n * sumf (fun i => g (draw k i)) (seq 0 n)); auto.
  extensionality k. unfold Rdiv. rewrite Rmult_comm. f_equal. unfold sumf. rewrite map_map. reflexivity.
Qed.

Section Any.
Context {K X : Type}.
Notation dist := (pdist K (tensor XR)).
Variables (E : (K -> R) -> R -> Prop) (I : (X -> R) -> R -> Prop) (draw : K -> nat -> X) (n : nat) (bs : shape) (idx : list nat).
Hypothesis HL : linear_average E.
Hypothesis Hn : (0 < n)%nat.
Hypothesis Hidx : inb bs idx.
Notation drawn key := (map (draw key) (seq 0 n)).
Lemma in_drawn key x : In x (drawn key) -> exists i, (i < n)%nat /\ x = draw key i.
Proof. intros H. apply in_map_iff in H as (i & <- & Hi). apply in_seq in Hi. exists i. split; auto; lia. Qed.
Lemma entry_dice (q a b : dist) fq fa fb key :
  (forall i, (i < n)%nat -> 0 < fq (draw key i) /\ 0 < fa (draw key i) /\ 0 < fb (draw key i)) ->
  (exists lq la lb, produces q a b key n bs lq la lb /\ log_masses lq n idx (drawn key) fq /\ log_masses la n idx (drawn key) fa /\ log_masses lb n idx (drawn key) fb) ->
  entry (mc_estimate_kl a b key n (Some q)) idx = Fin (sumf (dice fq fa fb) (drawn key) / INR n).
Proof.
  intros Hpos (lq & la & lb & Hp & Lq & La & Lb). destruct (kl_entry _ _ _ _ _ _ _ _ _ Hp) as (r & -> & (_ & _ & Hr)). cbn [entry]. rewrite Hr by auto.
  assert (Hlen : length (drawn key) = n) by (rewrite map_length, seq_length; auto). rewrite <- Hlen at 1. rewrite (map_seq_nth _ _ (fun x => Fin (dice fq fa fb x))).
  - rewrite sumf_xsum. cbn. pose proof (lt_0_INR n Hn). destruct (Req_EM_T (INR n) 0); [lra|]. reflexivity.
  - intros i x Hx. rewrite (Lq _ _ Hx), (La _ _ Hx), (Lb _ _ Hx). apply nth_error_In, in_drawn in Hx as (j & Hj & ->). destruct (Hpos j Hj) as (P1 & P2 & P3). apply dice_term; auto.
Qed.
Lemma dice_density (fq fa fb : X -> R) x : (fq x = 0 -> fa x = 0) -> dice fq fa fb x * fq x = fa x * ln (fa x / fb x).
Proof. intros H. unfold dice. destruct (Req_dec (fq x) 0) as [Z|Z]; [rewrite Z, (H Z); unfold Rdiv; ring|]. generalize (ln (fa x / fb x)). intros l. field. auto. Qed.

(** mc_estimate_kl with a proposal: the average is the divergence, the integral of a log(a/b). *)
Theorem C66_kl_proposal_any_law : forall (q a b : dist) fq fa fb v,
  draws_with_density E I draw n fq -> (forall x, fq x = 0 -> fa x = 0) ->
  (forall key i, (i < n)%nat -> 0 < fq (draw key i) /\ 0 < fa (draw key i) /\ 0 < fb (draw key i)) ->
  (forall key, exists lq la lb, produces q a b key n bs lq la lb /\
     log_masses lq n idx (drawn key) fq /\ log_masses la n idx (drawn key) fa /\ log_masses lb n idx (drawn key) fb) ->
  I (fun x => fa x * ln (fa x / fb x)) v ->
  (forall key, finite (entry (mc_estimate_kl a b key n (Some q)) idx)) /\ E (fun key => toR (entry (mc_estimate_kl a b key n (Some q)) idx)) v.
Proof.
  intros q a b fq fa fb v Hd Hac Hpos Hprod HI.
  assert (EQ : forall key, entry (mc_estimate_kl a b key n (Some q)) idx = Fin (sumf (dice fq fa fb) (drawn key) / INR n)) by (intros; apply entry_dice; auto).
  split; [intros key; rewrite EQ; eexists; reflexivity|].
  replace (fun key => toR (entry (mc_estimate_kl a b key n (Some q)) idx)) with (fun key => sumf (dice fq fa fb) (drawn key) / INR n) by (extensionality key; rewrite EQ; reflexivity).
  apply (average_mean E I draw n fq); auto. replace (fun x => dice fq fa fb x * fq x) with (fun x => fa x * ln (fa x / fb x)); auto. extensionality x. symmetry. apply dice_density. auto.
Qed.
Theorem C66_kl_unbiased_any_law : forall (a b : dist) fa fb v,
  draws_with_density E I draw n fa ->
  (forall key i, (i < n)%nat -> 0 < fa (draw key i) /\ 0 < fb (draw key i)) ->
  (forall key, exists lq la lb, produces a a b key n bs lq la lb /\
     log_masses lq n idx (drawn key) fa /\ log_masses la n idx (drawn key) fa /\ log_masses lb n idx (drawn key) fb) ->
  I (fun x => fa x * ln (fa x / fb x)) v ->
  E (fun key => toR (entry (mc_estimate_kl a b key n None) idx)) v /\
  E (fun key => toR (entry (mc_estimate_kl_with_reparameterized false a b key n) idx)) v.
Proof.
  intros a b fa fb v Hd Hpos Hprod HI. split.
  - apply (C66_kl_proposal_any_law a a b fa fa fb v Hd); auto. intros key i Hi. destruct (Hpos key i Hi). auto.
  - assert (EQ : forall key, entry (mc_estimate_kl_with_reparameterized false a b key n) idx = Fin (sumf (fun x => ln (fa x / fb x)) (drawn key) / INR n)).
    { intros key. destruct (Hprod key) as (lq & la & lb & Hp & Lq & La & Lb). destruct (reparam_entry _ _ _ _ _ _ _ _ Hp) as (r & -> & (_ & _ & Hr)). cbn [entry]. rewrite Hr by auto.
      assert (Hlen : length (drawn key) = n) by (rewrite map_length, seq_length; auto). rewrite <- Hlen at 1. rewrite (map_seq_nth _ _ (fun x => Fin (ln (fa x / fb x)))).
      - rewrite sumf_xsum. cbn. pose proof (lt_0_INR n Hn). destruct (Req_EM_T (INR n) 0); [lra|]. reflexivity.
      - intros i x Hx. rewrite (Lq _ _ Hx), (Lb _ _ Hx). apply nth_error_In, in_drawn in Hx as (j & Hj & ->). destruct (Hpos key j Hj) as (P1 & P2).
        rewrite !rlog_pos by auto. cbn. f_equal. unfold Rdiv. rewrite ln_mult by (auto; apply Rinv_0_lt_compat; auto). rewrite ln_Rinv by auto. ring. }
    replace (fun key => toR (entry (mc_estimate_kl_with_reparameterized false a b key n) idx)) with (fun key => sumf (fun x => ln (fa x / fb x)) (drawn key) / INR n)
      by (extensionality key; rewrite EQ; reflexivity).
    apply (average_mean E I draw n fa); auto. replace (fun x => ln (fa x / fb x) * fa x) with (fun x => fa x * ln (fa x / fb x)); auto. extensionality x. ring.
Qed.
(** importance_sampling_ratios: the weighted average of g over the draws from [q] estimates the integral of g p. *)
Theorem C66_ratios_any_law : forall (target sampling : dist) event fp fq g v,
  draws_with_density E I draw n fq -> (forall x, fq x = 0 -> fp x = 0) ->
  (forall key i, (i < n)%nat -> 0 < fq (draw key i) /\ 0 <= fp (draw key i)) ->
  (forall key, exists lp lq, p_log_prob target (event key) = Ok lp /\ p_log_prob sampling (event key) = Ok lq /\
     holds lp [n] (fun i => rlog (fp (draw key (hd 0%nat i)))) /\ holds lq [n] (fun i => rlog (fq (draw key (hd 0%nat i))))) ->
  I (fun x => g x * fp x) v ->
  E (fun key => sumf (fun i => toR (entry (importance_sampling_ratios target sampling (event key)) [i]) * g (draw key i)) (seq 0 n) / INR n) v.
Proof.
  intros target sampling event fp fq g v Hd Hac Hpos Hlp HI.
  pose proof (average_mean E I draw n fq (fun x => fp x / fq x * g x) v HL Hd Hn) as A. cbv beta in A.
  replace (fun x => fp x / fq x * g x * fq x) with (fun x => g x * fp x) in A.
  - specialize (A HI). match goal with |- E ?F _ => replace F with (fun key => sumf (fun x => fp x / fq x * g x) (drawn key) / INR n); auto end.
    extensionality key. f_equal. unfold sumf. rewrite map_map. f_equal. apply map_ext_in. intros i Hi. apply in_seq in Hi.
    destruct (Hlp key) as (lp & lq & E1 & E2 & H1 & H2).
    destruct (C66_ratios target sampling (event key) [n] lp lq (fun i => fp (draw key (hd 0%nat i))) (fun i => fq (draw key (hd 0%nat i))) E1 E2 H1 H2) as (r & -> & (_ & _ & Hr)).
    { intros j Hj. destruct j as [|j []]; inversion Hj as [|? ? ? ? Hlt Hnil]; subst; try (inversion Hnil; fail). cbn. destruct (Hpos key j); auto. }
    cbn [entry]. rewrite Hr by (repeat constructor; lia). reflexivity.
  - extensionality x. destruct (Req_dec (fq x) 0) as [Z|Z]; [rewrite Z, (Hac x Z); ring|]. field. auto.
Qed.
(** The gradient: samples and proposal log-probabilities are constants; the average of the derivative of the estimate is the integral of the derivative of a log(a/b). *)
Theorem C66_kl_gradient_any_law : forall (q : dist) (a b : R -> dist) fq (fa fb : R -> X -> R) theta v,
  draws_with_density E I draw n fq -> (forall t x, fq x = 0 -> fa t x = 0) ->
  (forall key i, (i < n)%nat -> 0 < fq (draw key i)) -> (forall t x, fq x <> 0 -> 0 < fa t x /\ 0 < fb t x) ->
  (forall x, ex_derive (fun t => fa t x) theta /\ ex_derive (fun t => fb t x) theta) ->
  (forall t key, exists lq la lb, produces q (a t) (b t) key n bs lq la lb /\
     log_masses lq n idx (drawn key) fq /\ log_masses la n idx (drawn key) (fa t) /\ log_masses lb n idx (drawn key) (fb t)) ->
  I (fun x => Derive (fun t => fa t x * ln (fa t x / fb t x)) theta) v ->
  exists grad : K -> R,
    (forall key, is_derive (fun t => toR (entry (mc_estimate_kl (a t) (b t) key n (Some q)) idx)) theta (grad key)) /\ E grad v.
Proof.
  intros q a b fq fa fb theta v Hd Hac Hq Hpos Hdiff Hprod HI.
  set (d := fun x => Derive (fun t => fa t x * ln (fa t x / fb t x)) theta) in *.
  assert (Dd : forall x, fq x <> 0 -> is_derive (fun t => fa t x * ln (fa t x / fb t x)) theta (d x)).
  { intros x Hx. apply Derive_correct. destruct (Hdiff x) as [D1 D2]. destruct (Hpos theta x Hx) as [P1 P2]. apply (ex_derive_mult (fun t => fa t x) (fun t => ln (fa t x / fb t x))); auto.
    apply (ex_derive_comp ln (fun t => fa t x / fb t x)); [|apply (ex_derive_div (fun t => fa t x)); auto; lra].
    exists (/ (fa theta x / fb theta x)). apply is_derive_Reals, derivable_pt_lim_ln. apply Rdiv_lt_0_compat; auto. }
  exists (fun key => sumf (fun x => d x / fq x) (drawn key) / INR n). split.
  - intros key. apply (is_derive_ext (fun t => sumf (dice fq (fa t) (fb t)) (drawn key) / INR n)).
    + intros t. rewrite (entry_dice q (a t) (b t) fq (fa t) (fb t)); auto. intros i Hi. pose proof (Hq key i Hi) as Q. split; auto. apply Hpos. lra.
    + assert (G : forall l, (forall x, In x l -> fq x <> 0) -> is_derive (fun t => sumf (dice fq (fa t) (fb t)) l) theta (sumf (fun x => d x / fq x) l)).
      { induction l as [|x l IH]; intros Hl; [apply (is_derive_const (V := R_NormedModule) 0)|]. apply (is_derive_plus (V := R_NormedModule) (fun t => dice fq (fa t) (fb t) x) (fun t => sumf (dice fq (fa t) (fb t)) l)); [|apply IH; intros; apply Hl; right; auto].
        assert (Nx : fq x <> 0) by (apply Hl; left; auto). apply (is_derive_ext (fun t => (/ fq x) * (fa t x * ln (fa t x / fb t x)))); [intros t; unfold dice, Rdiv; rewrite (Rmult_comm (fa t x) (/ fq x)), Rmult_assoc; reflexivity|].
        replace (d x / fq x) with (/ fq x * d x) by (unfold Rdiv; ring). apply (is_derive_scal (fun t => fa t x * ln (fa t x / fb t x)) theta (/ fq x)). auto. }
      assert (Nz : forall x, In x (drawn key) -> fq x <> 0) by (intros x Hx; apply in_drawn in Hx as (i & Hi & ->); pose proof (Hq key i Hi); lra).
      apply (is_derive_ext (fun t => / INR n * sumf (dice fq (fa t) (fb t)) (drawn key))); [intros t; unfold Rdiv; apply Rmult_comm|].
      replace (sumf (fun x => d x / fq x) (drawn key) / INR n) with (/ INR n * sumf (fun x => d x / fq x) (drawn key)) by (unfold Rdiv; ring).
      apply (is_derive_scal (fun t => sumf (dice fq (fa t) (fb t)) (drawn key)) theta (/ INR n)). apply G. auto.
  - apply (average_mean E I draw n fq); auto. replace (fun x => d x / fq x * fq x) with d; auto. extensionality x. destruct (Req_dec (fq x) 0) as [Z|Z]; [|field; auto].
    rewrite Z. unfold d. replace (fun t => fa t x * ln (fa t x / fb t x)) with (fun _ : R => 0) by (extensionality t; rewrite (Hac t x Z); ring). rewrite Derive_const. ring.
Qed.
End Any.
Print Assumptions C66_kl_proposal_any_law. Print Assumptions C66_kl_unbiased_any_law. Print Assumptions C66_ratios_any_law. Print Assumptions C66_kl_gradient_any_law.

(** ** Independent real draws.  The iterated integral against the product density is a linear average and every draw has density [q]. *)
Lemma smooth_plus l q1 v1 q2 v2 : iterated_smooth l q1 v1 -> iterated_smooth l q2 v2 -> iterated_smooth l (fun x => q1 x + q2 x) (fun x => v1 x + v2 x).
Proof.
  revert v1 v2. induction l as [|i l IH]; intros v1 v2; cbn [iterated_smooth]; [intros H1 H2 x; rewrite H1, H2; auto|].
  intros (h1 & A1 & B1) (h2 & A2 & B2). exists (fun x => h1 x + h2 x). split; [auto|]. intros x. destruct (B1 x) as [C1 D1]. destruct (B2 x) as [C2 D2].
  split; [intros t; apply (continuous_plus (fun t => h1 (upd x i t)) (fun t => h2 (upd x i t))); auto|]. apply integral_plus; auto.
Qed.
Lemma smooth_scal l c q v : iterated_smooth l q v -> iterated_smooth l (fun x => c * q x) (fun x => c * v x).
Proof.
  revert v. induction l as [|i l IH]; intros v; cbn [iterated_smooth]; [intros H x; rewrite H; auto|].
  intros (h & A & B). exists (fun x => c * h x). split; [auto|]. intros x. destruct (B x) as [C D]. split; [intros t; apply (continuous_scal_r c (fun t => h (upd x i t))); auto|]. apply integral_scal; auto.
Qed.
Lemma product_values (p : coord -> R -> R) (w : coord -> R) l : forall m : list coord, NoDup l -> (forall i, In i l -> (forall t, continuous (p i) t) /\ integral (p i) (w i)) -> (forall i, In i m -> ~ In i l) ->
  iterated_smooth l (product_density (m ++ l) p) (fun x => product_density m p x * prodf w l).
Proof.
  induction l as [|i l IH]; intros m Nd Hp Hm; cbn [iterated_smooth].
  - intros x. rewrite app_nil_r. unfold prodf. cbn. ring.
  - inversion Nd as [|? ? Ni Nd']; subst. exists (fun x => product_density (m ++ [i]) p x * prodf w l). split.
    + replace (m ++ i :: l) with ((m ++ [i]) ++ l) by (rewrite <- app_assoc; reflexivity). apply IH; auto; [intros; apply Hp; right; auto|].
      intros j Hj. apply in_app_or in Hj as [Hj|[<-|[]]]; auto. intros Hl. apply (Hm j Hj). right. auto.
    + intros x. destruct (Hp i (or_introl eq_refl)) as [C1 I1].
      assert (E : forall t, product_density (m ++ [i]) p (upd x i t) * prodf w l = (product_density m p x * prodf w l) * p i t).
      { intros t. unfold product_density at 1. unfold prodf at 1. rewrite map_app, rprod_app. cbn [map rprod fold_right]. rewrite upd_same. rewrite Rmult_1_r.
        replace (map (fun i0 => p i0 (upd x i t i0)) m) with (map (fun i0 => p i0 (x i0)) m); [unfold product_density, prodf; ring|].
        apply map_ext_in. intros j Hj. rewrite upd_other; auto. intros ->. apply (Hm i Hj). left. auto. }
      split.
      * intros t. apply (continuous_ext (fun t => (product_density m p x * prodf w l) * p i t)); [intros; symmetry; apply E|].
        apply (continuous_scal_r (product_density m p x * prodf w l) (p i)). auto.
      * replace (fun t => product_density (m ++ [i]) p (upd x i t) * prodf w l) with (fun t => (product_density m p x * prodf w l) * p i t) by (extensionality t; rewrite E; reflexivity).
        replace (product_density m p x * prodf w (i :: l)) with (product_density m p x * prodf w l * w i) by (unfold prodf; cbn [map]; change (rprod (w i :: map w l)) with (w i * rprod (map w l)); ring).
        apply integral_scal. auto.
Qed.
Lemma draw_coords_NoDup n : NoDup (draw_coords n).
Proof. unfold draw_coords. generalize (seq_NoDup n 0). generalize (seq 0 n). intros l. induction l as [|i l IH]; intros N; cbn; [constructor|]. inversion N; subst. constructor; auto.
  intros A. apply in_map_iff in A as (j & E & Hj). injection E as ->. contradiction. Qed.
Lemma prodf_one_factor (f g : coord -> R) i l : NoDup l -> In i l -> (forall j, In j l -> j <> i -> g j = f j) -> forall c, g i = c * f i -> prodf g l = c * prodf f l.
Proof.
  intros N Hi H c Hc. induction l as [|j l IH]; [destruct Hi|]. inversion N; subst. unfold prodf in *. cbn [map]. change (rprod (?a :: ?b)) with (a * rprod b).
  destruct (coord_dec j i) as [->|D].
  - rewrite Hc. replace (map g l) with (map f l); [change (rprod (f i :: map f l)) with (f i * rprod (map f l)); ring|]. apply map_ext_in. intros k Hk. symmetry. apply H; [right; auto|]. intros ->. contradiction.
  - change (rprod (f j :: map f l)) with (f j * rprod (map f l)). rewrite IH; auto; [rewrite (H j) by (auto; left; auto); ring|destruct Hi; congruence|intros; apply H; auto; right; auto].
Qed.
Theorem C66_iid_draws : forall n q, (forall t, continuous q t) -> integral q 1 ->
  linear_average (iid_average n q) /\ draws_with_density (iid_average n q) line_integral (fun key i => key [i]) n q.
Proof.
  intros n q Cq Iq. split; [split|].
  - intros F G u v H1 H2. unfold iid_average in *. pose proof (smooth_plus _ _ _ _ _ H1 H2) as H. cbv beta in H.
    replace (fun x => (F x + G x) * prodf (fun i => q (x i)) (draw_coords n)) with (fun x => F x * prodf (fun i => q (x i)) (draw_coords n) + G x * prodf (fun i => q (x i)) (draw_coords n)); auto.
    extensionality x. ring.
  - intros c F v H. unfold iid_average in *. apply (smooth_scal _ c) in H.
    replace (fun x => c * F x * prodf (fun i => q (x i)) (draw_coords n)) with (fun x => c * (F x * prodf (fun i => q (x i)) (draw_coords n))); auto. extensionality x. ring.
  - intros i g v Hi [Cg Ig]. unfold iid_average.
    assert (Hin : In [i] (draw_coords n)) by (apply in_map_iff; exists i; split; auto; apply in_seq; lia).
    set (p := fun j : coord => if coord_dec j [i] then (fun t => g t * q t) else q). set (w := fun j : coord => if coord_dec j [i] then v else 1).
    pose proof (product_values p w (draw_coords n) [] (draw_coords_NoDup n)) as H. cbn [app] in H.
    replace (fun x : point => g (x [i]) * prodf (fun j => q (x j)) (draw_coords n)) with (product_density (draw_coords n) p).
    + replace (fun _ : point => v) with (fun x : point => product_density [] p x * prodf w (draw_coords n)).
      * apply H; [|intros j []]. intros j Hj. unfold p, w. destruct coord_dec; auto.
      * extensionality x. rewrite (prodf_one_factor (fun _ => 1) w [i] _ (draw_coords_NoDup n) Hin) with (c := v).
        -- unfold product_density, prodf. cbn. replace (rprod (map (fun _ : coord => 1) (draw_coords n))) with 1; [ring|]. generalize (draw_coords n). intros l.
           induction l as [|j l IH]; [reflexivity|]. change (rprod (map (fun _ : coord => 1) (j :: l))) with (1 * rprod (map (fun _ : coord => 1) l)). rewrite <- IH. ring.
        -- intros j _ N. unfold w. destruct coord_dec; congruence.
        -- unfold w. destruct coord_dec; [ring|congruence].
    + extensionality x. unfold product_density. apply (prodf_one_factor (fun j => q (x j)) (fun j => p j (x j)) [i]); auto using draw_coords_NoDup.
      * intros j _ N. unfold p. destruct coord_dec; congruence.
      * unfold p. destruct coord_dec; [reflexivity|congruence].
Qed.
Print Assumptions C66_iid_draws.

(** Non-vacuity: the divergence of N(0,1) from N(1,1), estimated from two draws; the average over both draws is 1/2. *)
Definition ex_normal (mu : R) : pdist point (tensor XR) :=
  let lp (s : tensor XR) := tmap (fun v => rlog (npdf (toR v - mu))) s in
  let sample (key : point) (n : nat) := tgen [n] (fun i => Fin (key i)) in
  mkPdist [] (Some []) (fun s => Ok (lp s)) (fun _ => Err NotImplementedError) (Err NotImplementedError)
    (fun key n => Ok (sample key n)) (fun key n => Ok (sample key n, lp (sample key n))) (Err NotImplementedError)
    (Err NotImplementedError) (Err NotImplementedError) (Err NotImplementedError) (Err NotImplementedError).
Lemma ex_normal_produces n key : exists lq la lb, produces (ex_normal 0) (ex_normal 0) (ex_normal 1) key n [] lq la lb /\
  log_masses lq n [] (map (fun i => key [i]) (seq 0 n)) (fun x => npdf x) /\ log_masses la n [] (map (fun i => key [i]) (seq 0 n)) (fun x => npdf x) /\
  log_masses lb n [] (map (fun i => key [i]) (seq 0 n)) (fun x => npdf (x - 1)).
Proof.
  assert (W : forall mu, wf (tmap (fun v => rlog (npdf (toR v - mu))) (tgen [n] (fun i => Fin (key i))))) by (intros; apply tmap_wf, tgen_wf).
  do 3 eexists. split.
  - eexists. split; [reflexivity|]. split; [reflexivity|]. split; [reflexivity|]. repeat split; auto.
  - assert (G : forall mu, log_masses (tmap (fun v => rlog (npdf (toR v - mu))) (tgen [n] (fun i => Fin (key i)))) n [] (map (fun i => key [i]) (seq 0 n)) (fun x => npdf (x - mu))).
    { intros mu i z Hz. rewrite nth_error_map in Hz. destruct (nth_error (seq 0 n) i) as [k|] eqn:Ek; [|discriminate]. injection Hz as <-.
      assert (Hk : (i < n)%nat). { assert (i < length (seq 0 n))%nat by (apply nth_error_Some; congruence). rewrite seq_length in *. auto. }
      assert (k = i). { apply (nth_error_nth _ _ 0%nat) in Ek. rewrite seq_nth in Ek by auto. subst. reflexivity. } subst k.
      rewrite (tget_tmap (Fin 0)) by (try apply tgen_wf; cbn; repeat constructor; auto). rewrite tget_tgen by (repeat constructor; auto). reflexivity. }
    split; [|split; [|apply G]]; intros i z Hz; rewrite (G 0 i z Hz), Rminus_0_r; reflexivity.
Qed.
Example C66_normals_nonvacuous : forall n, (0 < n)%nat ->
  iid_average n npdf (fun key => toR (entry (mc_estimate_kl (ex_normal 0) (ex_normal 1) key n None) [])) (1 / 2) /\
  iid_average n npdf (fun key => toR (entry (mc_estimate_kl_with_reparameterized false (ex_normal 0) (ex_normal 1) key n) [])) (1 / 2).
Proof.
  intros n Hn. assert (Cn : forall t, continuous npdf t) by (intros t; apply (ex_derive_continuous npdf); eexists; apply npdf_derive).
  destruct (C66_iid_draws n npdf Cn npdf_mass) as [HL HD].
  apply (C66_kl_unbiased_any_law (iid_average n npdf) line_integral (fun key i => key [i]) n [] [] HL Hn ltac:(constructor) (ex_normal 0) (ex_normal 1) npdf (fun x => npdf (x - 1)) (1 / 2) HD).
  - intros key i _. split; apply npdf_pos.
  - intros key. apply ex_normal_produces.
  - assert (Eq : forall x, npdf x * ln (npdf x / npdf (x - 1)) = - 1 * (x * npdf x) + 1 / 2 * npdf x).
    { intros x. assert (L : ln (npdf x / npdf (x - 1)) = - x + 1 / 2); [|rewrite L; ring]. unfold npdf.
      assert (0 < sqrt (2 * PI)) by (apply sqrt_lt_R0; pose proof PI_RGT_0; lra).
      replace (exp (- (x ^ 2 / 2)) / sqrt (2 * PI) / (exp (- ((x - 1) ^ 2 / 2)) / sqrt (2 * PI))) with (exp (- (x ^ 2 / 2)) * / exp (- ((x - 1) ^ 2 / 2))) by (set (u := sqrt (2 * PI)) in *; pose proof (exp_pos (- ((x - 1) ^ 2 / 2))) as EP; revert EP; generalize (exp (- ((x - 1) ^ 2 / 2))) (exp (- (x ^ 2 / 2))); clearbody u; intros e1 e2 EP; field; split; lra).
      rewrite <- exp_Ropp, <- exp_plus, ln_exp. field. }
    replace (fun x => npdf x * ln (npdf x / npdf (x - 1))) with (fun x => - 1 * (x * npdf x) + 1 / 2 * npdf x) by (extensionality x; symmetry; apply Eq).
    split.
    + intros t. apply (ex_derive_continuous (fun x => - 1 * (x * npdf x) + 1 / 2 * npdf x)). auto_derive. repeat split; eexists; apply npdf_derive.
    + assert (Q : integral (fun x => - 1 * (x * npdf x) + 1 / 2 * npdf x) (- 1 * 0 + 1 / 2 * 1)).
      { apply (integral_plus (fun x => - 1 * (x * npdf x)) (fun x => 1 / 2 * npdf x)); apply integral_scal; [apply npdf_mean|apply npdf_mass]. }
      assert (Er : - 1 * 0 + 1 / 2 * 1 = 1 / 2) by field. rewrite Er in Q. exact Q.
Qed.
