(** The law of the counts of independent categorical draws. *)
From Coq Require Import Reals List ZArith Arith Bool Lia Lra FinFun.
From Verif Require Import Base.Sums Base.XR Spec.Categorical Spec.FiniteLaw Spec.Multinomial Proofs.FiniteLaw.
Import ListNotations.
Local Open Scope R_scope.

(** ** Products *)
Lemma prodf_cons {A} (f : A -> R) a l : prodf f (a :: l) = f a * prodf f l. Proof. reflexivity. Qed.
Lemma prodf_ext {A} (f g : A -> R) l : (forall a, In a l -> f a = g a) -> prodf f l = prodf g l.
Proof. intros H. unfold prodf. f_equal. apply map_ext_in; auto. Qed.
Lemma prodf_mult {A} (f g : A -> R) l : prodf (fun a => f a * g a) l = prodf f l * prodf g l.
Proof. induction l as [|a l IH]; [unfold prodf; cbn; ring|]. rewrite !prodf_cons, IH. ring. Qed.
Lemma prodf_pos {A} (f : A -> R) l : (forall a, In a l -> 0 < f a) -> 0 < prodf f l.
Proof. intros H. apply rprod_pos. intros x Hx. apply in_map_iff in Hx as (a & <- & Ha). auto. Qed.
Lemma prodf_nonneg {A} (f : A -> R) l : (forall a, In a l -> 0 <= f a) -> 0 <= prodf f l.
Proof.
  induction l as [|a l IH]; intros H; [unfold prodf; cbn; lra|]. rewrite prodf_cons.
  apply Rmult_le_pos; [apply H; left; auto|apply IH; intros; apply H; right; auto].
Qed.
Lemma prodf_neq0 {A} (f : A -> R) l : prodf f l <> 0 -> forall a, In a l -> f a <> 0.
Proof.
  induction l as [|b l IH]; intros H a Ha; [destruct Ha|]. rewrite prodf_cons in H. destruct Ha as [<-|Ha].
  - intros E. apply H. rewrite E. ring.
  - apply IH; [|auto]. intros E. apply H. rewrite E. ring.
Qed.
Lemma prodf_seq_update (f : nat -> R) s K j b : (s <= j < s + K)%nat ->
  prodf (fun i => if Nat.eqb i j then b else f i) (seq s K) * f j = prodf f (seq s K) * b.
Proof.
  revert s. induction K as [|K IH]; intros s H; [lia|]. cbn [seq]. rewrite !prodf_cons. destruct (Nat.eqb_spec s j) as [<-|Hn].
  - rewrite (prodf_ext (fun i => if Nat.eqb i s then b else f i) f).
    + ring.
    + intros a Ha. apply in_seq in Ha. destruct (Nat.eqb_spec a s); [lia|auto].
  - specialize (IH (S s) ltac:(lia)).
    replace (f s * prodf (fun i => if Nat.eqb i j then b else f i) (seq (S s) K) * f j)
      with (f s * (prodf (fun i => if Nat.eqb i j then b else f i) (seq (S s) K) * f j)) by ring.
    rewrite IH. ring.
Qed.

(** ** Counts *)
Definition delta (i j : nat) : R := if Nat.eqb i j then 1 else 0.
Lemma count_cons j i (l : list Z) : count j (Z.of_nat i :: l) = ((if Nat.eqb i j then 1 else 0) + count j l)%nat.
Proof.
  unfold count. cbn [filter]. destruct (Z.eqb_spec (Z.of_nat j) (Z.of_nat i)) as [E|E].
  - apply Nat2Z.inj in E. subst. rewrite Nat.eqb_refl. reflexivity.
  - destruct (Nat.eqb_spec i j); [subst; congruence|reflexivity].
Qed.
Lemma counts_nth K l j : (j < K)%nat -> nth j (counts K l) O = count j l.
Proof. intros H. unfold counts. rewrite (nth_indep _ O (count O l)) by (rewrite map_length, seq_length; auto). rewrite (map_nth (fun j => count j l)), seq_nth; auto. Qed.
Lemma counts_length K l : length (counts K l) = K.
Proof. unfold counts. rewrite map_length, seq_length. reflexivity. Qed.
Definition nsum (l : list nat) : nat := fold_right plus O l.
Lemma nsum_map_ext {A} (f g : A -> nat) l : (forall a, In a l -> f a = g a) -> nsum (map f l) = nsum (map g l).
Proof. intros H. f_equal. apply map_ext_in; auto. Qed.
Lemma nsum_plus {A} (f g : A -> nat) l : nsum (map (fun a => f a + g a)%nat l) = (nsum (map f l) + nsum (map g l))%nat.
Proof. induction l as [|a l IH]; [reflexivity|]. cbn [map nsum fold_right] in *. unfold nsum in *. lia. Qed.
Lemma nsum_one s K i : (s <= i < s + K)%nat -> nsum (map (fun j => if Nat.eqb i j then 1 else 0)%nat (seq s K)) = 1%nat.
Proof.
  revert s. induction K as [|K IH]; intros s H; [lia|]. cbn [seq map]. change (nsum (?a :: ?l)) with (a + nsum l)%nat.
  cbn [nsum fold_right]. destruct (Nat.eqb_spec i s) as [->|Hn].
  - fold (nsum (map (fun j => if s =? j then 1 else 0)%nat (seq (S s) K))).
    rewrite (nsum_map_ext _ (fun _ => O)).
    + assert (nsum (map (fun _ : nat => O) (seq (S s) K)) = O) as ->; [|reflexivity]. induction (seq (S s) K); cbn; auto.
    + intros a Ha. apply in_seq in Ha. destruct (Nat.eqb_spec s a); [lia|auto].
  - fold (nsum (map (fun j => if i =? j then 1 else 0)%nat (seq (S s) K))). rewrite IH by lia. reflexivity.
Qed.
Lemma counts_sum K l : (forall z, In z l -> (0 <= z < Z.of_nat K)%Z) -> nsum (counts K l) = length l.
Proof.
  induction l as [|z l IH]; intros H.
  - unfold counts, count. cbn. induction (seq 0 K); cbn; auto.
  - destruct (H z ltac:(left; auto)) as [H0 H1]. rewrite <- (Z2Nat.id z) by auto. set (i := Z.to_nat z).
    assert (Hi : (i < K)%nat) by (unfold i; lia).
    unfold counts. rewrite (nsum_map_ext _ (fun j => (if Nat.eqb i j then 1 else 0) + count j l)%nat) by (intros; apply count_cons).
    rewrite nsum_plus, nsum_one by lia. change (nsum (map (fun a => count a l) (seq 0 K))) with (nsum (counts K l)).
    rewrite IH by (intros; apply H; right; auto). reflexivity.
Qed.
Lemma nsum_INR l : INR (nsum l) = rsum (map INR l).
Proof. induction l as [|a l IH]; [reflexivity|]. cbn [nsum fold_right map rsum]. rewrite plus_INR. f_equal. exact IH. Qed.
Lemma nsum_nth (k : list nat) : sumf (fun i => INR (nth i k O)) (seq 0 (length k)) = INR (nsum k).
Proof.
  rewrite nsum_INR, <- (sumf_nth (map INR k) (INR 0)), map_length. apply sumf_ext. intros i Hi. symmetry. apply (map_nth INR).
Qed.

(** ** The law *)
Section Law.
Variable p : list R.
Hypothesis Hp : is_pmf p.
Let K := length p.
Notation draws n := (iid n (categorical_law p)).
Lemma draws_law n : is_law (draws n). Proof. apply iid_is_law, categorical_is_law, Hp. Qed.
Lemma expect_S (f : list Z -> R) n :
  expect f (draws (S n)) = sumf (fun i => nth i p 0 * expect (fun l => f (Z.of_nat i :: l)) (draws n)) (seq 0 K).
Proof. unfold iid. cbn [repeat]. rewrite expect_cons. apply categorical_expect. Qed.
Lemma draws_in n l w : In (l, w) (draws n) -> length l = n /\ forall z, In z l -> (0 <= z < Z.of_nat K)%Z.
Proof.
  intros H. split; [unfold iid in H; apply independent_length in H; rewrite repeat_length in H; auto|].
  intros z Hz. apply In_nth_error in Hz as [i Hi]. destruct (independent_in _ _ _ H i z Hi) as (m & u & Hm & Hin).
  apply nth_error_In, repeat_spec in Hm. subst m. unfold categorical_law in Hin. apply in_map_iff in Hin as (k & E & Hk). injection E as <- _.
  apply in_seq in Hk. fold K in Hk. lia.
Qed.
Lemma p_sum : sumf (fun i => nth i p 0) (seq 0 K) = 1.
Proof. unfold K. rewrite sumf_nth. apply Hp. Qed.
Lemma p_delta (c : R) j : (j < K)%nat -> sumf (fun i => nth i p 0 * (c * delta i j)) (seq 0 K) = c * nth j p 0.
Proof.
  intros Hj. rewrite (sumf_seq_single _ K j Hj).
  - unfold delta. rewrite Nat.eqb_refl. ring.
  - intros i _ Hn. unfold delta. destruct (Nat.eqb_spec i j); [congruence|ring].
Qed.
Lemma p_nonneg j : 0 <= nth j p 0.
Proof. destruct (Nat.lt_ge_cases j (length p)) as [H|H]; [apply Hp, nth_In; auto|rewrite nth_overflow by auto; lra]. Qed.
Lemma p_le1 j : nth j p 0 <= 1.
Proof.
  destruct (Nat.lt_ge_cases j (length p)) as [H|H]; [|rewrite nth_overflow by auto; lra].
  rewrite <- (proj2 Hp). apply rsum_nth_le; [apply Hp|auto].
Qed.

(** first and second moments *)
Lemma INR_count_cons j i l : INR (count j (Z.of_nat i :: l)) = delta i j + INR (count j l).
Proof. rewrite count_cons, plus_INR. unfold delta. destruct (Nat.eqb i j); reflexivity. Qed.
Lemma mean_count n j : (j < K)%nat -> expect (fun l => INR (count j l)) (draws n) = INR n * nth j p 0.
Proof.
  intros Hj. induction n as [|n IH].
  - unfold iid. cbn [repeat]. rewrite expect_nil. cbn. ring.
  - rewrite expect_S. rewrite (sumf_ext _ (fun i => nth i p 0 * (1 * delta i j) + nth i p 0 * (INR n * nth j p 0))).
    + rewrite sumf_plus, p_delta, sumf_scal_r, p_sum by auto. rewrite S_INR. ring.
    + intros i _. rewrite (expect_ext _ (fun l => delta i j + INR (count j l))) by (intros; apply INR_count_cons).
      rewrite expect_plus, expect_const by apply draws_law. rewrite IH. ring.
Qed.
Lemma second_moment n j k : (j < K)%nat -> (k < K)%nat ->
  expect (fun l => INR (count j l) * INR (count k l)) (draws n) = INR n * (INR n - 1) * (nth j p 0 * nth k p 0) + INR n * (nth j p 0 * delta j k).
Proof.
  intros Hj Hk. induction n as [|n IH].
  - unfold iid. cbn [repeat]. rewrite expect_nil. cbn. ring.
  - rewrite expect_S.
    rewrite (sumf_ext _ (fun i => nth i p 0 * (delta j k * delta i j) + nth i p 0 * (INR n * nth k p 0 * delta i j)
        + (nth i p 0 * (INR n * nth j p 0 * delta i k)
        + nth i p 0 * (INR n * (INR n - 1) * (nth j p 0 * nth k p 0) + INR n * (nth j p 0 * delta j k))))).
    + rewrite !sumf_plus, !p_delta, sumf_scal_r, p_sum by auto. rewrite S_INR. ring.
    + intros i _. rewrite (expect_ext _ (fun l => delta i j * delta i k + (delta i j * INR (count k l) + (delta i k * INR (count j l) + INR (count j l) * INR (count k l)))))
        by (intros; rewrite !INR_count_cons; ring).
      rewrite !expect_plus, expect_const, !expect_scal, !mean_count, IH by (auto; apply draws_law).
      assert (E : delta i j * delta i k = delta j k * delta i j)
        by (unfold delta; destruct (Nat.eqb_spec i j), (Nat.eqb_spec i k), (Nat.eqb_spec j k); subst; try congruence; ring).
      rewrite E. ring.
Qed.

(** the probability of a count vector *)
Definition eq_counts (k : list nat) (l : list Z) : bool := if list_eq_dec Nat.eq_dec (counts K l) k then true else false.
Lemma eq_counts_spec k l : length k = K -> eq_counts k l = true <-> forall j, (j < K)%nat -> count j l = nth j k O.
Proof.
  intros Hk. unfold eq_counts. destruct (list_eq_dec _ _ _) as [<-|Hn].
  - split; [|auto]. intros _ j Hj. rewrite counts_nth; auto.
  - split; [discriminate|]. intros H. exfalso. apply Hn. apply (nth_ext _ _ O O); rewrite counts_length; [auto|].
    intros j Hj. rewrite counts_nth by auto. auto.
Qed.
Definition decr (j : nat) (k : list nat) : list nat := map (fun i => if Nat.eqb i j then pred (nth i k O) else nth i k O) (seq 0 (length k)).
Lemma decr_length j k : length (decr j k) = length k. Proof. unfold decr. rewrite map_length, seq_length. reflexivity. Qed.
Lemma decr_nth j k i : (i < length k)%nat -> nth i (decr j k) O = if Nat.eqb i j then pred (nth i k O) else nth i k O.
Proof.
  intros H. unfold decr. set (f := fun i => if Nat.eqb i j then pred (nth i k O) else nth i k O).
  rewrite (nth_indep _ O (f O)) by (rewrite map_length, seq_length; auto). rewrite (map_nth f), seq_nth; auto.
Qed.
Lemma decr_sum j k : (j < length k)%nat -> nth j k O <> O -> S (nsum (decr j k)) = nsum k.
Proof.
  intros Hj Hn. apply INR_eq. rewrite S_INR, <- (nsum_nth (decr j k)), <- (nsum_nth k), decr_length.
  rewrite (sumf_ext _ (fun i => INR (nth i k O) - delta i j)).
  - rewrite sumf_minus. rewrite (sumf_seq_single (fun i => delta i j) _ j Hj); [unfold delta; rewrite Nat.eqb_refl; ring|].
    intros i _ H. unfold delta. destruct (Nat.eqb_spec i j); [congruence|auto].
  - intros i Hi. apply in_seq in Hi. rewrite decr_nth by lia. unfold delta. destruct (Nat.eqb_spec i j) as [->|]; [|ring].
    destruct (nth j k O) as [|c]; [congruence|]. cbn [pred]. rewrite S_INR. ring.
Qed.
Lemma fact_pos c : 0 < INR (fact c). Proof. apply lt_0_INR, lt_O_fact. Qed.
Lemma pmf_decr n k j : (j < K)%nat -> length k = K -> nth j k O <> O ->
  nth j p 0 * multinomial_pmf n p (decr j k) =
  INR (fact n) / prodf (fun i => INR (fact (nth i k O))) (seq 0 K) * prodf (fun i => nth i p 0 ^ nth i k O) (seq 0 K) * INR (nth j k O).
Proof.
  intros Hj Hk Hn. unfold multinomial_pmf. fold K.
  destruct (nth j k O) as [|c] eqn:Ec; [congruence|].
  pose proof (prodf_seq_update (fun i => INR (fact (nth i k O))) 0 K j (INR (fact c)) ltac:(lia)) as U1.
  pose proof (prodf_seq_update (fun i => nth i p 0 ^ nth i k O) 0 K j (nth j p 0 ^ c) ltac:(lia)) as U2.
  cbv beta in U1, U2. rewrite Ec in U1, U2.
  rewrite (prodf_ext (fun i => INR (fact (nth i (decr j k) O))) (fun i => if Nat.eqb i j then INR (fact c) else INR (fact (nth i k O)))).
  2: { intros i Hi. apply in_seq in Hi. rewrite decr_nth by lia. destruct (Nat.eqb_spec i j) as [->|]; [rewrite Ec|]; reflexivity. }
  rewrite (prodf_ext (fun i => nth i p 0 ^ nth i (decr j k) O) (fun i => if Nat.eqb i j then nth j p 0 ^ c else nth i p 0 ^ nth i k O)).
  2: { intros i Hi. apply in_seq in Hi. rewrite decr_nth by lia. destruct (Nat.eqb_spec i j) as [->|]; [rewrite Ec|]; reflexivity. }
  set (A' := prodf (fun i => if Nat.eqb i j then INR (fact c) else _) _) in *. set (B' := prodf (fun i => if Nat.eqb i j then nth j p 0 ^ c else _) _) in *.
  assert (HA : 0 < prodf (fun i => INR (fact (nth i k O))) (seq 0 K)) by (apply prodf_pos; intros; apply fact_pos).
  assert (HA' : 0 < A') by (apply prodf_pos; intros a _; destruct (Nat.eqb a j); apply fact_pos).
  set (A := prodf (fun i => INR (fact (nth i k O))) (seq 0 K)) in *. set (B := prodf (fun i => nth i p 0 ^ nth i k O) (seq 0 K)) in *.
  change (fact (S c)) with (S c * fact c)%nat in U1. rewrite mult_INR in U1. cbn [pow] in U2.
  pose proof (fact_pos c). pose proof (lt_0_INR (S c) ltac:(lia)) as HS.
  assert (EA : A = A' * INR (S c)). { apply Rmult_eq_reg_r with (INR (fact c)); [|lra]. rewrite <- U1. ring. }
  assert (EB : nth j p 0 * B' = B \/ nth j p 0 ^ c = 0) .
  { destruct (Req_EM_T (nth j p 0 ^ c) 0) as [E|E]; [auto|left]. apply Rmult_eq_reg_r with (nth j p 0 ^ c); [|auto]. rewrite <- U2. ring. }
  assert (EB' : nth j p 0 * B' = B).
  { destruct EB as [EB|EB]; [auto|]. (* p_j = 0 *)
    assert (Ez : nth j p 0 = 0). { destruct (Req_EM_T (nth j p 0) 0) as [E|E]; [auto|]. exfalso. apply (pow_nonzero _ c E); auto. }
    assert (EB0 : B = 0); [|rewrite EB0, Ez; ring].
    destruct (Req_EM_T B 0) as [E|E]; [auto|exfalso]. apply (prodf_neq0 _ _ E j); [apply in_seq; lia|]. rewrite Ec, Ez. cbn. ring. }
  rewrite <- EB', EA. field. split; lra.
Qed.
Lemma chance_counts n : forall k, length k = K -> nsum k = n -> chance (eq_counts k) (draws n) = multinomial_pmf n p k.
Proof.
  induction n as [|n IH]; intros k Hk Hs.
  - assert (Hz : forall j, nth j k O = O).
    { intros j. clear Hk. revert j. induction k as [|c k IHk]; intros j; [destruct j; auto|]. cbn in Hs. destruct j; cbn; [lia|apply IHk; cbn; unfold nsum; lia]. }
    unfold chance, iid. cbn [repeat]. rewrite expect_nil.
    assert (eq_counts k [] = true) as -> by (apply eq_counts_spec; auto; intros j _; rewrite Hz; reflexivity).
    assert (E : prodf (fun _ : nat => 1) (seq 0 (length p)) = 1). { induction (seq 0 (length p)); [reflexivity|]. rewrite prodf_cons, IHl. ring. }
    unfold multinomial_pmf. rewrite (prodf_ext (fun i => INR (fact (nth i k O))) (fun _ => 1)) by (intros i _; rewrite Hz; reflexivity).
    rewrite (prodf_ext (fun i => nth i p 0 ^ nth i k O) (fun _ => 1)) by (intros i _; rewrite Hz; reflexivity).
    rewrite E. cbn. field.
  - unfold chance. rewrite expect_S.
    set (A := prodf (fun i => INR (fact (nth i k O))) (seq 0 K)). set (B := prodf (fun i => nth i p 0 ^ nth i k O) (seq 0 K)).
    rewrite (sumf_ext _ (fun i => INR (fact n) / A * B * INR (nth i k O))).
    + rewrite sumf_scal. rewrite <- Hk, nsum_nth, Hs. unfold multinomial_pmf. fold K A B. change (fact (S n)) with (S n * fact n)%nat. rewrite mult_INR.
      assert (0 < A) by (apply prodf_pos; intros; apply fact_pos).
      field. lra.
    + intros i Hi. apply in_seq in Hi. destruct (nth i k O) as [|c] eqn:Ec.
      * rewrite (expect_ext _ (fun _ => 0)).
        -- rewrite expect_const by apply draws_law. cbn. ring.
        -- intros l w _. destruct (eq_counts k (Z.of_nat i :: l)) eqn:E; [|auto]. exfalso.
           pose proof (proj1 (eq_counts_spec k _ Hk) E) as E2. clear E. rename E2 into E. specialize (E i ltac:(lia)). rewrite count_cons, Nat.eqb_refl, Ec in E. lia.
      * rewrite <- Ec. pose proof (pmf_decr n k i ltac:(lia) Hk ltac:(lia)) as D. fold A B in D. rewrite <- D. clear D. f_equal.
        rewrite <- IH; [|rewrite decr_length; auto|pose proof (decr_sum i k ltac:(lia) ltac:(lia)); lia].
        apply expect_ext. intros l w _.
        assert (E : eq_counts k (Z.of_nat i :: l) = eq_counts (decr i k) l); [|rewrite E; auto].
        apply eq_true_iff_eq. rewrite !eq_counts_spec by (rewrite ?decr_length; auto).
        split; intros H j Hj; specialize (H j Hj); rewrite count_cons in *; rewrite decr_nth in * by lia; destruct (Nat.eqb_spec i j) as [->|]; subst;
          rewrite ?Nat.eqb_refl in *; try (destruct (Nat.eqb_spec j i); [congruence|]); try lia.
Qed.
(** expectations of functions of the counts *)
Lemma expect_counts n (L : list (list nat)) (F : list nat -> R) : enumerates L n K ->
  expect (fun l => F (counts K l)) (draws n) = sumf (fun k => multinomial_pmf n p k * F k) L.
Proof.
  intros [HN HL]. rewrite (sumf_ext _ (fun k => expect (fun l => (if eq_counts k l then 1 else 0) * F k) (draws n))).
  - rewrite <- expect_sum. apply expect_ext. intros l w Hin. destruct (draws_in _ _ _ Hin) as [Hl Hz].
    assert (Hin' : In (counts K l) L). { apply HL. split; [apply counts_length|]. change (nsum (counts K l) = n). rewrite counts_sum; auto. }
    rewrite (sumf_single (list_eq_dec Nat.eq_dec) _ L (counts K l)); auto.
    + unfold eq_counts. destruct (list_eq_dec _ _ _); [ring|congruence].
    + intros k _ Hne. unfold eq_counts. destruct (list_eq_dec _ _ _); [congruence|ring].
  - intros k Hk. apply HL in Hk as [H1 H2]. rewrite expect_scal_r. f_equal. symmetry. apply chance_counts; auto.
Qed.

(** the binomial law of one count *)
Lemma binomial_count n j (f : nat -> R) : (j < K)%nat ->
  expect (fun l => f (count j l)) (draws n) =
  sumf (fun x => Binomial.C n x * (nth j p 0 ^ x * (1 - nth j p 0) ^ (n - x)) * f x) (seq 0 (S n)).
Proof.
  intros Hj. revert f. induction n as [|n IH]; intros f.
  - unfold iid. cbn [repeat]. rewrite expect_nil. unfold sumf, rsum, Binomial.C. cbn. field.
  - rewrite expect_S. set (q := nth j p 0) in *.
    rewrite (sumf_ext _ (fun i => nth i p 0 * (expect (fun l => f (S (count j l))) (draws n) * delta i j) +
                                 (nth i p 0 * expect (fun l => f (count j l)) (draws n) - nth i p 0 * (expect (fun l => f (count j l)) (draws n) * delta i j)))).
    + rewrite sumf_plus, sumf_minus, !p_delta, sumf_scal_r, p_sum by auto. fold q. rewrite (IH f), (IH (fun x => f (S x))).
      replace (sumf (fun x => Binomial.C n x * (q ^ x * (1 - q) ^ (n - x)) * f (S x)) (seq 0 (S n)) * q +
        (1 * sumf (fun x => Binomial.C n x * (q ^ x * (1 - q) ^ (n - x)) * f x) (seq 0 (S n)) -
         sumf (fun x => Binomial.C n x * (q ^ x * (1 - q) ^ (n - x)) * f x) (seq 0 (S n)) * q))
      with (sumf (fun x => q * (Binomial.C n x * (q ^ x * (1 - q) ^ (n - x)) * f (S x))) (seq 0 (S n)) +
            sumf (fun x => (1 - q) * (Binomial.C n x * (q ^ x * (1 - q) ^ (n - x)) * f x)) (seq 0 (S n))) by (rewrite !sumf_scal; ring).
      assert (SL : forall (h : nat -> R) m, sumf h (seq 0 (S m)) = sumf h (seq 0 m) + h m).
      { intros h m. rewrite seq_S, sumf_app. unfold sumf at 2. cbn. ring. }
      assert (SF : forall (h : nat -> R) m, sumf h (seq 0 (S m)) = h O + sumf (fun x => h (S x)) (seq 0 m)).
      { intros h m. cbn [seq]. rewrite sumf_cons, sumf_seq_shift. reflexivity. }
      rewrite (SL (fun x => q * (Binomial.C n x * (q ^ x * (1 - q) ^ (n - x)) * f (S x))) n).
      rewrite (SF (fun x => (1 - q) * (Binomial.C n x * (q ^ x * (1 - q) ^ (n - x)) * f x)) n).
      rewrite (SF (fun x => Binomial.C (S n) x * (q ^ x * (1 - q) ^ (S n - x)) * f x) (S n)).
      rewrite (SL (fun x => Binomial.C (S n) (S x) * (q ^ S x * (1 - q) ^ (S n - S x)) * f (S x)) n).
      rewrite (sumf_ext (fun a => Binomial.C (S n) (S a) * (q ^ S a * (1 - q) ^ (S n - S a)) * f (S a))
        (fun a => q * (Binomial.C n a * (q ^ a * (1 - q) ^ (n - a)) * f (S a)) + (1 - q) * (Binomial.C n (S a) * (q ^ S a * (1 - q) ^ (n - S a)) * f (S a)))).
      2: { intros a Ha. apply in_seq in Ha. rewrite <- (pascal n a) by lia. cbn [Nat.sub]. replace (n - a)%nat with (S (n - S a)) by lia. cbn [pow]. ring. }
      rewrite sumf_plus. assert (C0 : forall m, Binomial.C m 0 = 1) by (intros m; unfold Binomial.C; rewrite Nat.sub_0_r; cbn [fact INR]; field; apply INR_fact_neq_0).
      assert (CN : forall m, Binomial.C m m = 1) by (intros m; unfold Binomial.C; rewrite Nat.sub_diag; cbn [fact INR]; field; apply INR_fact_neq_0).
      rewrite !C0, !CN, !Nat.sub_0_r, !Nat.sub_diag. cbn [pow]. ring.
    + intros i _. rewrite (expect_ext _ (fun l => f (if Nat.eqb i j then S (count j l) else count j l))).
      2: { intros l w _. f_equal. rewrite count_cons. destruct (Nat.eqb i j); reflexivity. }
      unfold delta. destruct (Nat.eqb i j); ring.
Qed.
End Law.

(** ** All count vectors *)
Lemma nodup_app {A} (l m : list A) : NoDup l -> NoDup m -> (forall a, In a l -> In a m -> False) -> NoDup (l ++ m).
Proof.
  induction 1 as [|a l Ha Hl IH]; intros Hm H; [auto|]. cbn. constructor.
  - intros Hin. apply in_app_or in Hin as [Hin|Hin]; [auto|]. apply (H a); [left|]; auto.
  - apply IH; [auto|]. intros b Hb. apply H. right; auto.
Qed.
Fixpoint compositions (n K : nat) : list (list nat) :=
  match K with
  | O => match n with O => [[]] | _ => [] end
  | S K' => flat_map (fun c => map (cons c) (compositions (n - c) K')) (seq 0 (S n))
  end.
Lemma compositions_enumerate K : forall n, enumerates (compositions n K) n K.
Proof.
  induction K as [|K IH]; intros n; cbn [compositions].
  - destruct n; split.
    + repeat constructor; auto.
    + intros k. split; [intros [<-|[]]; split; auto|]. intros [H _]. destruct k; [left; auto|discriminate].
    + constructor.
    + intros k. split; [intros []|]. intros [H1 H2]. destruct k; cbn in *; discriminate.
  - split.
    + assert (G : forall l, NoDup l -> NoDup (flat_map (fun c => map (cons c) (compositions (n - c) K)) l)).
      { induction 1 as [|c l Hc Hl IHl]; [constructor|]. cbn [flat_map]. apply nodup_app; [|auto|].
        - apply Injective_map_NoDup; [intros x y E; injection E; auto|apply IH].
        - intros k H1 H2. apply in_map_iff in H1 as (k' & <- & _). apply in_flat_map in H2 as (c' & Hc' & H2).
          apply in_map_iff in H2 as (k'' & E & _). injection E as -> _. auto. }
      apply G, seq_NoDup.
    + intros k. rewrite in_flat_map. split.
      * intros (c & Hc & Hk). apply in_map_iff in Hk as (k' & <- & Hk'). apply IH in Hk' as [H1 H2]. apply in_seq in Hc. split; cbn; lia.
      * intros [H1 H2]. destruct k as [|c k']; [discriminate|]. cbn in H1, H2. exists c. split; [apply in_seq; lia|].
        apply in_map. apply IH. split; lia.
Qed.
