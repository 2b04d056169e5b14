(** Proofs about sum_last and Block. *)
From Coq Require Import List Reals ZArith Bool Lia Lra.
From Verif Require Import Base.Result Base.Sums Base.Tensor Model.Bijector Spec.Bijector Proofs.Bijector.
Import ListNotations.
Local Open Scope Z_scope.

Lemma sum_last_ok (x : arr) (pre suf : shape) :
  shp x = pre ++ suf -> suf <> [] ->
  sum_last x (Z.of_nat (length suf)) =
  Ok (tgen pre (fun idx => sumf (fun j => tget 0%R x (idx ++ j)) (indices suf))).
Proof.
  intros Hs Hne. unfold sum_last, rank. rewrite Hs, app_length.
  destruct suf as [|d suf]; [congruence|].
  destruct (Z.leb_spec (Z.of_nat (length (d :: suf))) 0); [cbn in *; lia|].
  destruct (Z.ltb_spec (Z.of_nat (length pre + length (d :: suf))) (Z.of_nat (length (d :: suf)))); [lia|].
  rewrite Nat2Z.id. replace (length pre + length (d :: suf) - length (d :: suf))%nat with (length pre) by lia.
  rewrite firstn_app, Nat.sub_diag, firstn_all, firstn_O, app_nil_r.
  rewrite skipn_app, Nat.sub_diag, skipn_all, skipn_O. reflexivity.
Qed.
Lemma sum_last_nonpos x n : n <= 0 -> sum_last x n = Ok x.
Proof. intros H; unfold sum_last. destruct (Z.leb_spec n 0); [reflexivity|lia]. Qed.
Lemma sum_last_err x n : 0 < n -> Z.of_nat (rank x) < n -> sum_last x n = Err ValueError.
Proof.
  intros H H'; unfold sum_last. destruct (Z.leb_spec n 0); [lia|].
  destruct (Z.ltb_spec (Z.of_nat (rank x)) n); [reflexivity|lia].
Qed.
Lemma split_shape (s : shape) (n : nat) : (n <= length s)%nat ->
  exists pre suf, s = pre ++ suf /\ length suf = n.
Proof.
  intros H. exists (firstn (length s - n) s), (skipn (length s - n) s).
  rewrite firstn_skipn, skipn_length. split; auto; lia.
Qed.
(** every entry of the result is the sum over all completions *)
Lemma sum_last_spec (x : arr) (pre suf : shape) :
  wf x -> shp x = pre ++ suf ->
  exists y, sum_last x (Z.of_nat (length suf)) = Ok y /\ wf y /\ shp y = pre /\
    forall idx, inb pre idx -> tget 0%R y idx = sumf (fun j => tget 0%R x (idx ++ j)) (indices suf).
Proof.
  intros Hw Hs. destruct suf as [|d suf].
  - rewrite app_nil_r in Hs. cbn [length]. rewrite sum_last_nonpos by (cbn; lia).
    exists x; repeat split; auto. intros idx Hi. rewrite indices_nil.
    unfold sumf; cbn. rewrite app_nil_r; lra.
  - rewrite (sum_last_ok x pre (d :: suf)) by (auto; discriminate).
    eexists; repeat split; [apply tgen_wf|]. intros idx Hi. rewrite tget_tgen by auto. reflexivity.
Qed.
Lemma sum_last_compose (x : arr) (m n : Z) :
  wf x -> 0 <= m -> 0 <= n ->
  (do y <- sum_last x m; sum_last y n) = sum_last x (m + n).
Proof.
  intros Hw Hm Hn.
  destruct (Z.eq_dec m 0) as [->|Hm0].
  { rewrite (sum_last_nonpos x 0) by lia. reflexivity. }
  destruct (Z.eq_dec n 0) as [->|Hn0].
  { rewrite Z.add_0_r. rewrite (rbind_ext _ _ Ok); [apply rbind_ok_r|]. intros; apply sum_last_nonpos; lia. }
  destruct (Z_lt_le_dec (Z.of_nat (rank x)) m) as [Hlt|Hle].
  { rewrite sum_last_err by lia. rewrite sum_last_err by lia. reflexivity. }
  destruct (Z_lt_le_dec (Z.of_nat (rank x)) (m + n)) as [Hlt2|Hle2].
  { rewrite (sum_last_err x (m + n)) by lia.
    destruct (split_shape (shp x) (Z.to_nat m)) as (pre & suf & Hs & Hl); [unfold rank in *; lia|].
    replace m with (Z.of_nat (length suf)) at 1 by lia.
    destruct suf as [|d suf]; [cbn in Hl; lia|].
    rewrite (sum_last_ok x pre (d :: suf)) by (auto; discriminate). cbn [rbind].
    apply sum_last_err; [lia|]. unfold rank in *; cbn. rewrite Hs, app_length in Hlt2, Hle. lia. }
  destruct (split_shape (shp x) (Z.to_nat (m + n))) as (pre & suf & Hs & Hl); [unfold rank in *; lia|].
  destruct (split_shape suf (Z.to_nat m)) as (s1 & s2 & Hs2 & Hl2); [lia|]. subst suf.
  rewrite app_length in Hl.
  replace m with (Z.of_nat (length s2)) at 1 by lia.
  assert (s2 <> []) by (destruct s2; [cbn in *; lia|discriminate]).
  assert (s1 <> []) by (destruct s1; [cbn in *; lia|discriminate]).
  rewrite (sum_last_ok x (pre ++ s1) s2) by (auto; rewrite <- app_assoc; auto). cbn [rbind].
  replace n with (Z.of_nat (length s1)) at 1 by lia.
  rewrite (sum_last_ok _ pre s1) by auto.
  replace (m + n) with (Z.of_nat (length (s1 ++ s2))) by (rewrite app_length; lia).
  rewrite (sum_last_ok x pre (s1 ++ s2)) by (auto; destruct s1; congruence || discriminate).
  f_equal. apply tgen_ext. intros idx Hi. rewrite sumf_indices_app. apply sumf_ext. intros j Hj.
  apply in_indices in Hj. rewrite tget_tgen by (apply inb_app; auto).
  apply sumf_ext; intros; rewrite app_assoc; reflexivity.
Qed.
(** summing all axes gives the total of the data *)
Lemma sum_last_total (x : arr) :
  wf x -> shp x <> [] -> sum_last x (Z.of_nat (rank x)) = Ok (tscalar (rsum (dat x))).
Proof.
  intros Hw Hne. unfold rank. rewrite (sum_last_ok x [] (shp x)) by auto. f_equal.
  unfold tgen at 1, tscalar. rewrite indices_nil. cbn [map]. do 2 f_equal.
  transitivity (rsum (dat (tgen (shp x) (tget 0%R x)))); [reflexivity|].
  rewrite (tgen_tget 0%R x Hw). reflexivity.
Qed.

(** ** Block *)
Lemma block_fields b k c : coherent b -> block_init b k = Ok c ->
  0 <= k /\ b_in c = k + b_in b /\ b_out c = k + b_out b /\ b_cj c = b_cj b /\ b_cl c = b_cl b /\
  (forall x, b_fwd c x = do _ <- check_input_shape (k + b_in b) x; b_fwd b x) /\
  (forall x, b_inv c x = do _ <- check_input_shape (k + b_out b) x; b_inv b x) /\
  (forall x, b_fld c x = do _ <- check_input_shape (k + b_in b) x; do ld <- b_fld b x; sum_last ld k) /\
  (forall x, b_ild c x = do _ <- check_input_shape (k + b_out b) x; do ld <- b_ild b x; sum_last ld k) /\
  (forall x, b_fal c x = do _ <- check_input_shape (k + b_in b) x; do (y, ld) <- b_fal b x; do s <- sum_last ld k; Ok (y, s)) /\
  (forall x, b_ial c x = do _ <- check_input_shape (k + b_out b) x; do (y, ld) <- b_ial b x; do s <- sum_last ld k; Ok (y, s)).
Proof.
  intros Hc H. unfold block_init in H. destruct (Z.ltb_spec k 0); [discriminate|].
  apply rbind_ok_inv in H as (m & Hm & H). apply base_init_ok in Hm as (_ & _ & _ & ->).
  injection H as <-. cbn. repeat split; auto.
Qed.
Lemma check_ok n x : n <= Z.of_nat (rank x) -> check_input_shape n x = Ok tt.
Proof. intros H; unfold check_input_shape. destruct (Z.ltb_spec (Z.of_nat (rank x)) n); [lia|reflexivity]. Qed.
Lemma check_err n x : Z.of_nat (rank x) < n -> check_input_shape n x = Err ValueError.
Proof. intros H; unfold check_input_shape. destruct (Z.ltb_spec (Z.of_nat (rank x)) n); [reflexivity|lia]. Qed.

Lemma block_spec b k c x : coherent b -> block_init b k = Ok c ->
  (Z.of_nat (rank x) < k + b_in b -> b_fwd c x = Err ValueError /\ b_fal c x = Err ValueError /\ b_fld c x = Err ValueError) /\
  (k + b_in b <= Z.of_nat (rank x) ->
     b_fwd c x = b_fwd b x /\
     (forall y ld, b_fal b x = Ok (y, ld) -> forall pre suf, wf ld -> shp ld = pre ++ suf -> Z.of_nat (length suf) = k ->
        exists s, b_fal c x = Ok (y, s) /\ wf s /\ shp s = pre /\
          forall idx, inb pre idx -> tget 0%R s idx = sumf (fun j => tget 0%R ld (idx ++ j)) (indices suf))).
Proof.
  intros Hc H. destruct (block_fields _ _ _ Hc H) as (Hk & _ & _ & _ & _ & F1 & F2 & F3 & F4 & F5 & F6).
  rewrite F1, F3, F5. split.
  - intros Hr. rewrite check_err by auto. auto.
  - intros Hr. rewrite check_ok by auto. cbn. split; auto.
    intros y ld E pre suf Hw Hs Hl. rewrite E. cbn. rewrite <- Hl.
    destruct (sum_last_spec ld pre suf Hw Hs) as (s & -> & Hws & Hss & Hg). cbn. eauto 6.
Qed.
Lemma block_methods_agree b k c : coherent b -> methods_agree b -> block_init b k = Ok c -> methods_agree c.
Proof.
  intros Hc [Ha Hb] H. destruct (block_fields _ _ _ Hc H) as (Hk & _ & _ & _ & _ & F1 & F2 & F3 & F4 & F5 & F6).
  split.
  - intros x y l. rewrite F5, F1, F3. intros E. apply rbind_ok_inv in E as (u & -> & E).
    apply rbind_ok_inv in E as ([y' ld] & E1 & E). apply rbind_ok_inv in E as (s & Es & E). injection E as -> ->.
    cbn. destruct (Ha _ _ _ E1) as [-> ->]. cbn. auto.
  - intros x y l. rewrite F6, F2, F4. intros E. apply rbind_ok_inv in E as (u & -> & E).
    apply rbind_ok_inv in E as ([y' ld] & E1 & E). apply rbind_ok_inv in E as (s & Es & E). injection E as -> ->.
    cbn. destruct (Hb _ _ _ E1) as [-> ->]. cbn. auto.
Qed.
(** log-dets produced by a bijector are well-formed arrays *)
Definition wf_log_dets (b : bij) : Prop :=
  (forall x y l, b_fal b x = Ok (y, l) -> wf l) /\ (forall x y l, b_ial b x = Ok (y, l) -> wf l) /\
  (forall x l, b_fld b x = Ok l -> wf l) /\ (forall x l, b_ild b x = Ok l -> wf l).
Lemma block_nested b m n c d e : coherent b -> wf_log_dets b ->
  block_init b m = Ok c -> block_init c n = Ok d -> block_init b (m + n) = Ok e -> same_behaviour d e.
Proof.
  intros Hc (W1 & W2 & W3 & W4) Hbm Hcn Hbmn.
  assert (Hcc : coherent c).
  { destruct (block_fields _ _ _ Hc Hbm) as (Hk & E1 & E2 & E3 & E4 & _). destruct Hc as (H1 & H2 & H3).
    unfold coherent. rewrite E1, E2, E3, E4. repeat split; auto; lia. }
  destruct (block_fields _ _ _ Hc Hbm) as (Hm & A1 & A2 & A3 & A4 & A5 & A6 & A7 & A8 & A9 & A10).
  destruct (block_fields _ _ _ Hcc Hcn) as (Hn & B1 & B2 & B3 & B4 & B5 & B6 & B7 & B8 & B9 & B10).
  destruct (block_fields _ _ _ Hc Hbmn) as (Hmn & C1 & C2 & C3 & C4 & C5 & C6 & C7 & C8 & C9 & C10).
  destruct Hc as (P1 & P2 & P3).
  assert (Chk : forall x, 0 <= x -> forall a, check_input_shape (n + (m + x)) a = Ok tt \/
            (check_input_shape (n + (m + x)) a = Err ValueError)).
  { intros x Hx a. unfold check_input_shape. destruct (_ <? _); auto. }
  assert (Sub : forall x a, check_input_shape (n + (m + x)) a = Ok tt -> check_input_shape (m + x) a = Ok tt).
  { intros x a. unfold check_input_shape.
    destruct (Z.ltb_spec (Z.of_nat (rank a)) (n + (m + x))); [discriminate|].
    destruct (Z.ltb_spec (Z.of_nat (rank a)) (m + x)); [lia|auto]. }
  unfold same_behaviour.
  split; [lia|]. split; [lia|]. split; [congruence|]. split; [congruence|].
  replace (m + n + b_in b) with (n + (m + b_in b)) in * by lia.
  replace (m + n + b_out b) with (n + (m + b_out b)) in * by lia.
  rewrite A1 in *. rewrite A2 in *.
  repeat split; intros x.
  - rewrite B5, C5, A5. destruct (Chk _ P1 x) as [E|E]; rewrite E; cbn; auto. rewrite (Sub _ _ E); reflexivity.
  - rewrite B6, C6, A6. destruct (Chk _ P2 x) as [E|E]; rewrite E; cbn; auto. rewrite (Sub _ _ E); reflexivity.
  - rewrite B7, C7, A7. destruct (Chk _ P1 x) as [E|E]; rewrite E; cbn; auto. rewrite (Sub _ _ E); cbn.
    rewrite rbind_assoc. destruct (b_fld b x) as [l|] eqn:El; cbn; auto. apply sum_last_compose; eauto.
  - rewrite B8, C8, A8. destruct (Chk _ P2 x) as [E|E]; rewrite E; cbn; auto. rewrite (Sub _ _ E); cbn.
    rewrite rbind_assoc. destruct (b_ild b x) as [l|] eqn:El; cbn; auto. apply sum_last_compose; eauto.
  - rewrite B9, C9, A9. destruct (Chk _ P1 x) as [E|E]; rewrite E; cbn; auto. rewrite (Sub _ _ E); cbn.
    rewrite rbind_assoc. destruct (b_fal b x) as [[y l]|] eqn:El; cbn; auto.
    rewrite <- (sum_last_compose l m n) by eauto. destruct (sum_last l m); cbn; auto.
  - rewrite B10, C10, A10. destruct (Chk _ P2 x) as [E|E]; rewrite E; cbn; auto. rewrite (Sub _ _ E); cbn.
    rewrite rbind_assoc. destruct (b_ial b x) as [[y l]|] eqn:El; cbn; auto.
    rewrite <- (sum_last_compose l m n) by eauto. destruct (sum_last l m); cbn; auto.
Qed.

Lemma block_rejects b k : coherent b -> (k < 0 <-> block_init b k = Err ValueError).
Proof.
  intros Hc; split.
  - intros Hk; unfold block_init. destruct (Z.ltb_spec k 0); [reflexivity|lia].
  - intros H. destruct (Z_lt_le_dec k 0) as [|Hk]; auto.
    destruct (block_init_ok b k Hc Hk) as (c & E). congruence.
Qed.
Lemma block_inverse_spec b k c y : coherent b -> block_init b k = Ok c ->
  (Z.of_nat (rank y) < k + b_out b -> b_inv c y = Err ValueError /\ b_ial c y = Err ValueError /\ b_ild c y = Err ValueError) /\
  (k + b_out b <= Z.of_nat (rank y) ->
     b_inv c y = b_inv b y /\
     (forall x ld, b_ial b y = Ok (x, ld) -> forall pre suf, wf ld -> shp ld = pre ++ suf -> Z.of_nat (length suf) = k ->
        exists s, b_ial c y = Ok (x, s) /\ wf s /\ shp s = pre /\
          forall idx, inb pre idx -> tget 0%R s idx = sumf (fun j => tget 0%R ld (idx ++ j)) (indices suf))).
Proof.
  intros Hc H. destruct (block_fields _ _ _ Hc H) as (Hk & _ & _ & _ & _ & F1 & F2 & F3 & F4 & F5 & F6).
  split.
  - intros Hr. rewrite F2, F4, F6, check_err by auto. auto.
  - intros Hr. rewrite F2, check_ok by auto. split; [reflexivity|].
    intros x ld E pre suf Hw Hs Hl. rewrite F6, check_ok, E by auto. cbn [rbind].
    destruct (sum_last_spec ld pre suf Hw Hs) as (s & Es & Hws & Hss & Hv).
    rewrite Hl in Es. rewrite Es. cbn [rbind]. exists s; auto.
Qed.
