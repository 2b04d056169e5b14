(** Lemmas about finite laws *)
From Coq Require Import Reals List Arith ZArith Lia Lra.
From Verif Require Import Base.Sums Spec.Categorical Spec.FiniteLaw.
Import ListNotations.
Local Open Scope R_scope.

Lemma expect_ext {A} (f g : A -> R) m : (forall a w, In (a, w) m -> f a = g a) -> expect f m = expect g m.
Proof. intros H. apply sumf_ext. intros [a w] Hin. cbn. f_equal. apply (H a w); auto. Qed.
Lemma expect_const {A} c (m : law A) : is_law m -> expect (fun _ => c) m = c.
Proof. intros [_ H]. unfold expect. rewrite sumf_scal_r, H. ring. Qed.
Lemma expect_scal {A} c (f : A -> R) m : expect (fun a => c * f a) m = c * expect f m.
Proof. unfold expect. rewrite <- sumf_scal. apply sumf_ext. intros; ring. Qed.
Lemma expect_scal_r {A} c (f : A -> R) m : expect (fun a => f a * c) m = expect f m * c.
Proof. unfold expect. rewrite <- sumf_scal_r. apply sumf_ext. intros; ring. Qed.
Lemma expect_plus {A} (f g : A -> R) m : expect (fun a => f a + g a) m = expect f m + expect g m.
Proof. unfold expect. rewrite <- sumf_plus. apply sumf_ext. intros; ring. Qed.
Lemma expect_minus {A} (f g : A -> R) m : expect (fun a => f a - g a) m = expect f m - expect g m.
Proof. unfold expect. rewrite <- sumf_minus. apply sumf_ext. intros; ring. Qed.
Lemma expect_le {A} (f g : A -> R) m : (forall aw, In aw m -> 0 <= snd aw) -> (forall a w, In (a, w) m -> f a <= g a) ->
  expect f m <= expect g m.
Proof. intros Hw H. apply sumf_le. intros [a w] Hin. apply Rmult_le_compat_l; [apply (Hw _ Hin)|apply (H a w Hin)]. Qed.
Lemma expect_sum {A B} (f : B -> A -> R) (l : list B) m : expect (fun a => sumf (fun b => f b a) l) m = sumf (fun b => expect (f b) m) l.
Proof.
  unfold expect. rewrite (sumf_swap (fun b aw => snd aw * f b (fst aw))). apply sumf_ext. intros. rewrite sumf_scal. auto.
Qed.
Lemma expect_cons {A} (f : list A -> R) m ms :
  expect f (independent (m :: ms)) = expect (fun a => expect (fun l => f (a :: l)) (independent ms)) m.
Proof.
  unfold expect. cbn [independent]. rewrite sumf_flat_map. apply sumf_ext. intros [a w] _. cbn [fst snd].
  rewrite sumf_map, <- sumf_scal. apply sumf_ext. intros [l u] _. cbn [fst snd]. ring.
Qed.
Lemma expect_nil {A} (f : list A -> R) : expect f (independent []) = f [].
Proof. unfold expect, sumf; cbn. lra. Qed.
Lemma independent_length {A} (ms : list (law A)) : forall l w, In (l, w) (independent ms) -> length l = length ms.
Proof.
  induction ms as [|m ms IH]; intros l w; cbn [independent].
  - intros [H|[]]. injection H as <- <-. reflexivity.
  - rewrite in_flat_map. intros [[a v] [_ H]]. apply in_map_iff in H as [[l' u] [E Hin]]. cbn in E. injection E as <- <-.
    cbn. f_equal. eapply IH; eauto.
Qed.
Lemma independent_in {A} (ms : list (law A)) : forall l w, In (l, w) (independent ms) ->
  forall i a, nth_error l i = Some a -> exists m u, nth_error ms i = Some m /\ In (a, u) m.
Proof.
  induction ms as [|m ms IH]; intros l w; cbn [independent].
  - intros [H|[]] i a E. injection H as <- <-. destruct i; discriminate.
  - rewrite in_flat_map. intros [[a v] [Hm H]] i b E. apply in_map_iff in H as [[l' u] [E' Hin]]. cbn in E'. injection E' as <- <-.
    destruct i as [|i]; cbn in E.
    + injection E as <-. exists m, v. auto.
    + apply (IH _ _ Hin i b E).
Qed.
Lemma independent_is_law {A} (ms : list (law A)) : (forall m, In m ms -> is_law m) -> is_law (independent ms).
Proof.
  induction ms as [|m ms IH]; intros H.
  - split; [intros aw [<-|[]]; cbn; lra|]. unfold sumf; cbn. lra.
  - assert (IH' := IH (fun m Hm => H m (or_intror Hm))). assert (Hm := H m (or_introl eq_refl)). split.
    + intros aw. cbn [independent]. rewrite in_flat_map. intros [[a v] [Ha Hin]]. apply in_map_iff in Hin as [[l u] [<- Hin]].
      cbn. apply Rmult_le_pos; [apply (proj1 Hm _ Ha)|apply (proj1 IH' _ Hin)].
    + rewrite (sumf_ext _ (fun aw => snd aw * 1)) by (intros; ring).
      change (expect (fun _ => 1) (independent (m :: ms)) = 1). rewrite expect_cons.
      rewrite (expect_ext _ (fun _ => 1)); [apply expect_const; auto|]. intros. apply expect_const; auto.
Qed.
Lemma iid_is_law {A} n (m : law A) : is_law m -> is_law (iid n m).
Proof. intros H. apply independent_is_law. intros m' Hm'. apply repeat_spec in Hm'. subst; auto. Qed.
(** the marginal law of one coordinate *)
Lemma expect_coord {A} (ms : list (law A)) : forall i (g : A -> R) d, (forall m, In m ms -> is_law m) -> (i < length ms)%nat ->
  expect (fun l => g (nth i l d)) (independent ms) = expect g (nth i ms []).
Proof.
  induction ms as [|m ms IH]; intros i g d H Hi; [cbn in Hi; lia|]. rewrite expect_cons. destruct i as [|i].
  - apply expect_ext. intros a w _. cbn [nth]. apply expect_const, independent_is_law. intros; apply H; right; auto.
  - cbn [nth]. rewrite (expect_ext _ (fun _ => expect g (nth i ms []))).
    + apply expect_const, H. left; auto.
    + intros a w _. apply IH; [intros; apply H; right; auto|cbn in Hi; lia].
Qed.
(** expectations of products over independent coordinates *)
Lemma categorical_expect (f : Z -> R) p : expect f (categorical_law p) = sumf (fun k => nth k p 0 * f (Z.of_nat k)) (seq 0 (length p)).
Proof. unfold expect, categorical_law. rewrite sumf_map. reflexivity. Qed.
Lemma categorical_is_law p : is_pmf p -> is_law (categorical_law p).
Proof.
  intros [Hp Hs]. split.
  - intros aw Hin. apply in_map_iff in Hin as [k [<- Hk]]. apply in_seq in Hk. cbn. apply Hp, nth_In. lia.
  - unfold categorical_law. rewrite sumf_map. cbn. rewrite sumf_nth. auto.
Qed.
