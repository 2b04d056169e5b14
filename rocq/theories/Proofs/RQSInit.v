(** Proofs about the spline's constructor and array-level methods. *)
From Coq Require Import List Reals ZArith Bool Arith Lia Lra Psatz.
From Verif Require Import Base.Result Base.Sums Base.Tensor Model.Bijector Model.ScalarBij Model.RQS
  Spec.Scalar Spec.RQS Proofs.RQS.
Import ListNotations.
Local Open Scope R_scope.

(** ** Bin sizes *)
Lemma softmax_length u : length (softmax u) = length u.
Proof. apply map_length. Qed.
Lemma expsum_pos u : u <> [] -> 0 < rsum (map exp u).
Proof. intros H. apply (sumf_pos exp); auto. intros; apply exp_pos. Qed.
Lemma softmax_sum u : u <> [] -> rsum (softmax u) = 1.
Proof.
  intros H. pose proof (expsum_pos u H). unfold softmax.
  change (rsum (map (fun a => exp a * / rsum (map exp u)) u) = 1).
  change (sumf (fun a => exp a * / rsum (map exp u)) u = 1). rewrite sumf_scal_r.
  change (sumf exp u) with (rsum (map exp u)). field. lra.
Qed.
Definition sizes_row (n : nat) (total mb : R) (row : list R) : list R :=
  map (fun b => b * (total - INR n * mb) + mb) (softmax row).
Lemma sizes_length n total mb row : length (sizes_row n total mb row) = length row.
Proof. unfold sizes_row. rewrite map_length. apply softmax_length. Qed.
Lemma sizes_sum total mb row : row <> [] -> rsum (sizes_row (length row) total mb row) = total.
Proof.
  intros H. unfold sizes_row.
  change (sumf (fun b => b * (total - INR (length row) * mb) + mb) (softmax row) = total).
  rewrite sumf_plus, sumf_scal_r, sumf_const, softmax_length.
  rewrite <- rsum_sumf, softmax_sum by auto. ring.
Qed.
Lemma sizes_min total mb row a : INR (length row) * mb <= total ->
  In a (sizes_row (length row) total mb row) -> mb <= a.
Proof.
  intros H Hin. unfold sizes_row, softmax in Hin. rewrite map_map in Hin. apply in_map_iff in Hin.
  destruct Hin as (u & <- & Hu).
  assert (0 < rsum (map exp row)) by (apply expsum_pos; intros ->; inversion Hu).
  assert (0 <= exp u / rsum (map exp row)).
  { left; apply Rdiv_lt_0_compat; auto; apply exp_pos. }
  assert (0 <= exp u / rsum (map exp row) * (total - INR (length row) * mb)) by (apply Rmult_le_pos; lra). lra.
Qed.
Lemma cumsum_from_nth l : forall acc i, (i < length l)%nat ->
  nth i (cumsum_from acc l) 0 = acc + rsum (firstn (S i) l).
Proof.
  induction l as [|a l IH]; intros acc i Hi; [simpl in Hi; lia|]. cbn [cumsum_from].
  destruct i; [simpl; lra|]. cbn [nth]. rewrite IH by (simpl in Hi; lia).
  cbn [firstn]. simpl. lra.
Qed.
Lemma cumsum_from_length l : forall acc, length (cumsum_from acc l) = length l.
Proof. induction l; intros; simpl; auto. Qed.
Lemma firstn_removelast {A} (l : list A) i : (i < length l)%nat -> firstn i (removelast l) = firstn i l.
Proof.
  revert i; induction l as [|a l IH]; intros i Hi; [simpl in Hi; lia|].
  destruct l as [|b l]; [simpl in Hi; destruct i; [reflexivity|lia]|].
  change (removelast (a :: b :: l)) with (a :: removelast (b :: l)).
  destruct i; [reflexivity|]. cbn [firstn]. f_equal. apply IH. simpl in *; lia.
Qed.
Lemma positions_nth lo hi sizes i : sizes <> [] -> lo + rsum sizes = hi -> (i <= length sizes)%nat ->
  nth i (knot_positions lo hi sizes) 0 = lo + rsum (firstn i sizes).
Proof.
  intros Hne Hsum Hi. assert (Hl : (0 < length sizes)%nat) by (destruct sizes; [congruence|simpl; lia]).
  unfold knot_positions. destruct i as [|i]; [simpl; lra|].
  cbn [app nth].
  assert (L : length (map (Rplus lo) (cumsum (removelast sizes))) = (length sizes - 1)%nat).
  { rewrite map_length. unfold cumsum. rewrite cumsum_from_length. apply length_removelast. }
  destruct (Nat.eq_dec (S i) (length sizes)) as [e|e].
  - rewrite app_nth2 by lia. rewrite L. replace (i - (length sizes - 1))%nat with 0%nat by lia. cbn [nth].
    rewrite firstn_all2 by lia. lra.
  - rewrite app_nth1 by lia.
    rewrite (nth_indep _ 0 (lo + 0)) by lia. rewrite (map_nth (Rplus lo)). unfold cumsum.
    rewrite cumsum_from_nth by (rewrite length_removelast; lia).
    rewrite firstn_removelast by lia. lra.
Qed.
Lemma positions_length lo hi sizes : sizes <> [] -> length (knot_positions lo hi sizes) = S (length sizes).
Proof.
  intros H. unfold knot_positions, cumsum. rewrite !app_length, map_length, cumsum_from_length, length_removelast.
  destruct sizes; [congruence|simpl; lia].
Qed.
Lemma rsum_firstn_S (l : list R) i : (i < length l)%nat -> rsum (firstn (S i) l) = rsum (firstn i l) + nth i l 0.
Proof.
  revert i; induction l as [|a l IH]; intros i Hi; [simpl in Hi; lia|].
  destruct i; [simpl; lra|]. cbn [nth]. change (firstn (S (S i)) (a :: l)) with (a :: firstn (S i) l).
  change (firstn (S i) (a :: l)) with (a :: firstn i l). cbn [rsum fold_right]. fold rsum.
  change (fold_right Rplus 0 (firstn (S i) l)) with (rsum (firstn (S i) l)).
  rewrite IH by (simpl in Hi; lia). simpl. unfold rsum. lra.
Qed.
Definition row_knots (n : nat) (lo hi mb : R) (row : list R) := knot_positions lo hi (sizes_row n (hi - lo) mb row).
Lemma row_knots_gap n lo hi mb row i : length row = n -> (0 < n)%nat -> (i < n)%nat ->
  nth (S i) (row_knots n lo hi mb row) 0 - nth i (row_knots n lo hi mb row) 0
  = exp (nth i row 0) / rsum (map exp row) * (hi - lo - INR n * mb) + mb.
Proof.
  intros Hl Hn Hi. subst n. assert (Hne : row <> []) by (destruct row; [simpl in Hn; lia|congruence]).
  assert (Ls := sizes_length (length row) (hi - lo) mb row).
  assert (Sne : sizes_row (length row) (hi - lo) mb row <> []) by (intros E; rewrite E in Ls; destruct row; [congruence|discriminate]).
  unfold row_knots. rewrite !positions_nth by (auto; try (rewrite sizes_sum by auto; ring); lia).
  rewrite rsum_firstn_S by lia. unfold sizes_row, softmax. rewrite map_map.
  set (F := fun x => exp x / rsum (map exp row) * (hi - lo - INR (length row) * mb) + mb).
  rewrite (nth_indep (map F row) 0 (F 0)) by (rewrite map_length; lia). rewrite (map_nth F). unfold F. ring.
Qed.
Lemma row_knots_valid n lo hi mb row : length row = n -> (0 < n)%nat -> 0 < mb -> INR n * mb <= hi - lo ->
  valid_knots n lo hi mb (row_knots n lo hi mb row).
Proof.
  intros Hl Hn Hmb Hle. subst n. assert (Hne : row <> []) by (destruct row; [simpl in Hn; lia|congruence]).
  assert (Ls := sizes_length (length row) (hi - lo) mb row).
  assert (Sne : sizes_row (length row) (hi - lo) mb row <> []) by (intros E; rewrite E in Ls; destruct row; [congruence|discriminate]).
  assert (Ss : lo + rsum (sizes_row (length row) (hi - lo) mb row) = hi) by (rewrite sizes_sum by auto; ring).
  unfold row_knots. split; [rewrite positions_length by auto; lia|]. split; [reflexivity|]. split.
  - rewrite positions_nth by (auto; lia). rewrite firstn_all2 by lia. auto.
  - intros i Hi. rewrite !positions_nth by (auto; lia). rewrite rsum_firstn_S by lia.
    assert (mb <= nth i (sizes_row (length row) (hi - lo) mb row) 0).
    { apply (sizes_min (hi - lo) mb row); auto. apply nth_In. lia. }
    lra.
Qed.
(** ** Slopes *)
Definition slope_of (ms a : R) : R := softplus (a + ln (exp (1 - ms) - 1)) + ms.
Lemma slope_min ms a : ms < 1 -> ms < slope_of ms a.
Proof.
  intros H. unfold slope_of, softplus. pose proof (exp_pos (a + ln (exp (1 - ms) - 1))) as P.
  assert (0 < ln (1 + exp (a + ln (exp (1 - ms) - 1)))).
  { rewrite <- ln_1 at 1. apply ln_increasing; lra. }
  lra.
Qed.
Lemma slope_zero ms : ms < 1 -> slope_of ms 0 = 1.
Proof.
  intros H. unfold slope_of, softplus. rewrite Rplus_0_l.
  assert (1 < exp (1 - ms)). { rewrite <- exp_0 at 1. apply exp_increasing. lra. }
  rewrite exp_ln by lra. replace (1 + (exp (1 - ms) - 1)) with (exp (1 - ms)) by ring. rewrite ln_exp. ring.
Qed.
Definition bd_row (bd : boundary) (k : list R) : list R :=
  match bd with
  | Unconstrained => k
  | LowerIdentity => [1] ++ tl k
  | UpperIdentity => removelast k ++ [1]
  | Identity => [1] ++ removelast (tl k) ++ [1]
  | Circular => removelast k ++ firstn 1 k
  | Other => []
  end.
Lemma nth_snoc (l : list R) a i : nth i (l ++ [a]) 0 = if Nat.eqb i (length l) then a else nth i l 0.
Proof.
  destruct (Nat.eqb_spec i (length l)) as [->|e].
  - rewrite app_nth2 by lia. rewrite Nat.sub_diag. reflexivity.
  - destruct (lt_dec i (length l)); [apply app_nth1; auto|].
    rewrite !nth_overflow; auto; rewrite ?app_length; simpl; lia.
Qed.
Lemma bd_row_spec n bd k : length k = S n -> (0 < n)%nat -> bd <> Other ->
  length (bd_row bd k) = S n /\
  forall i, (i <= n)%nat -> nth i (bd_row bd k) 0 =
    match bd with
    | LowerIdentity => if Nat.eqb i 0 then 1 else nth i k 0
    | UpperIdentity => if Nat.eqb i n then 1 else nth i k 0
    | Identity => if Nat.eqb i 0 || Nat.eqb i n then 1 else nth i k 0
    | Circular => if Nat.eqb i n then nth 0 k 0 else nth i k 0
    | _ => nth i k 0
    end.
Proof.
  intros Hl Hn Hbd. destruct bd; try congruence; cbn [bd_row].
  - auto.
  - split; [rewrite app_length, length_tl; simpl; lia|]. intros i Hi. destruct i; [reflexivity|].
    cbn [app nth Nat.eqb]. apply nth_tl.
  - split; [rewrite app_length, length_removelast; simpl; lia|]. intros i Hi.
    rewrite nth_snoc, length_removelast, Hl. replace (S n - 1)%nat with n by lia.
    destruct (Nat.eqb_spec i n); auto. apply nth_removelast. lia.
  - split; [rewrite !app_length, length_removelast, length_tl; simpl; lia|]. intros i Hi.
    destruct i; [reflexivity|]. cbn [app nth]. rewrite nth_snoc, length_removelast, length_tl, Hl.
    replace (S n - 1 - 1)%nat with (n - 1)%nat by lia.
    change (Nat.eqb (S i) 0) with false. cbn [orb]. destruct (Nat.eqb_spec i (n - 1)) as [e|e].
    + replace (Nat.eqb (S i) n) with true; auto. symmetry; apply Nat.eqb_eq; lia.
    + replace (Nat.eqb (S i) n) with false by (symmetry; apply Nat.eqb_neq; lia).
      rewrite nth_removelast by (rewrite length_tl; lia). apply nth_tl.
  - destruct k as [|k0 k]; [simpl in Hl; lia|]. cbn [firstn].
    split; [rewrite app_length, length_removelast; simpl in *; lia|]. intros i Hi.
    rewrite nth_snoc, length_removelast, Hl. replace (S n - 1)%nat with n by lia.
    destruct (Nat.eqb_spec i n); auto. apply nth_removelast. lia.
Qed.
Definition row_slopes (ms : R) (bd : boundary) (row : list R) := bd_row bd (map (slope_of ms) row).
Lemma row_slopes_valid n ms bd row : length row = S n -> (0 < n)%nat -> ms < 1 -> bd <> Other ->
  valid_slopes n ms bd (row_slopes ms bd row).
Proof.
  intros Hl Hn Hms Hbd. unfold row_slopes.
  assert (Lk : length (map (slope_of ms) row) = S n) by (rewrite map_length; auto).
  destruct (bd_row_spec n bd (map (slope_of ms) row) Lk Hn Hbd) as [L N].
  assert (Kmin : forall i, (i <= n)%nat -> ms <= nth i (map (slope_of ms) row) 0).
  { intros i Hi. rewrite (nth_indep _ 0 (slope_of ms 0)) by lia. rewrite map_nth. left; apply slope_min; auto. }
  split; auto. split.
  - intros i Hi. rewrite (N i Hi). specialize (Kmin i Hi) as K. pose proof (Kmin 0%nat ltac:(lia)).
    destruct bd; auto; try congruence.
    + destruct (Nat.eqb i 0); lra.
    + destruct (Nat.eqb i n); lra.
    + destruct (Nat.eqb i 0 || Nat.eqb i n); lra.
    + destruct (Nat.eqb i n); lra.
  - pose proof (N 0%nat ltac:(lia)) as N0. pose proof (N n (Nat.le_refl _)) as Nn.
    destruct bd; auto.
    + rewrite Nat.eqb_refl in Nn. auto.
    + rewrite Nat.eqb_refl, orb_true_r in Nn. auto.
    + rewrite Nat.eqb_refl in Nn. destruct (Nat.eqb_spec 0 n); [lia|]. congruence.
Qed.

(** ** Constructor *)
Definition ok_args (n : nat) (lo hi : R) (bd : boundary) (mb ms : R) : Prop :=
  exists nb, n = (3 * nb + 1)%nat /\ (1 <= nb)%nat /\ lo < hi /\ 0 < mb /\ INR nb * mb <= hi - lo /\
    0 < ms /\ ms < 1 /\ bd <> Other.
Definition the_spline (nb : nat) (params : tensor (list R)) lo hi bd mb ms : spline :=
  mkSpline (tmap (fun p => row_knots nb lo hi mb (firstn nb p)) params)
           (tmap (fun p => row_knots nb lo hi mb (skipn nb (firstn (2 * nb) p))) params)
           (tmap (fun p => row_slopes ms bd (skipn (2 * nb) p)) params).
Lemma tmap_tmap {A B C} (f : B -> C) (g : A -> B) t : tmap f (tmap g t) = tmap (fun a => f (g a)) t.
Proof. unfold tmap; cbn; rewrite map_map; reflexivity. Qed.
Lemma mod3 n : (n mod 3 = 1 -> 4 <= n -> exists nb, n = 3 * nb + 1 /\ 1 <= nb)%nat.
Proof.
  intros H L. exists (n / 3)%nat. pose proof (Nat.div_mod n 3 ltac:(lia)). lia.
Qed.
Lemma rqs_init_ok n params lo hi bd mb ms nb : n = (3 * nb + 1)%nat -> (1 <= nb)%nat -> lo < hi -> 0 < mb ->
  INR nb * mb <= hi - lo -> 0 < ms -> ms < 1 -> bd <> Other ->
  rqs_init n params lo hi bd mb ms = Ok (the_spline nb params lo hi bd mb ms).
Proof.
  intros -> Hnb Hr Hmb Hle Hms Hms1 Hbd. unfold rqs_init.
  replace ((3 * nb + 1) mod 3)%nat with 1%nat by (rewrite Nat.add_comm, Nat.mul_comm, Nat.mod_add; auto).
  replace (Nat.ltb (3 * nb + 1) 4) with false by (symmetry; apply Nat.ltb_ge; lia).
  cbn [Nat.eqb negb orb]. rewrite !Rleb_f by lra.
  replace (3 * nb + 1 - 1)%nat with (nb * 3)%nat by lia. rewrite Nat.div_mul by lia.
  unfold normalize_bin_sizes. rewrite Rltb_f by lra. unfold normalize_knot_slopes. rewrite Rleb_f by lra.
  cbn [rbind]. cbv zeta. rewrite !tmap_tmap. unfold the_spline.
  destruct bd; try congruence; cbn [apply_boundary rbind]; rewrite ?tmap_tmap; reflexivity.
Qed.
Lemma rqs_init_iff n params lo hi bd mb ms :
  (ok_args n lo hi bd mb ms /\ exists sp, rqs_init n params lo hi bd mb ms = Ok sp) \/
  (~ ok_args n lo hi bd mb ms /\ rqs_init n params lo hi bd mb ms = Err ValueError).
Proof.
  assert (D : forall e : exn + unit, True) by auto.
  unfold rqs_init.
  destruct (negb (Nat.eqb (n mod 3) 1) || Nat.ltb n 4) eqn:E0.
  { right. split; auto. intros (nb & -> & Hnb & _).
    replace ((3 * nb + 1) mod 3)%nat with 1%nat in E0 by (rewrite Nat.add_comm, Nat.mul_comm, Nat.mod_add; auto).
    replace (Nat.ltb (3 * nb + 1) 4) with false in E0 by (symmetry; apply Nat.ltb_ge; lia). discriminate. }
  apply orb_false_elim in E0. destruct E0 as [E1 E2]. apply negb_false_iff, Nat.eqb_eq in E1. apply Nat.ltb_ge in E2.
  destruct (mod3 n E1 E2) as (nb & En & Hnb).
  assert (U : forall nb', n = (3 * nb' + 1)%nat -> nb' = nb) by (intros; lia).
  destruct (Rle_dec hi lo) as [h|h]; [rewrite (Rleb_t hi lo) by lra|rewrite (Rleb_f hi lo) by lra].
  { right. split; [|reflexivity]. intros (nb' & _ & _ & q & _). lra. }
  destruct (Rle_dec mb 0) as [h1|h1]; [rewrite (Rleb_t mb 0) by lra|rewrite (Rleb_f mb 0) by lra].
  { right. split; [|reflexivity]. intros (nb' & _ & _ & _ & q & _). lra. }
  destruct (Rle_dec ms 0) as [h2|h2]; [rewrite (Rleb_t ms 0) by lra|rewrite (Rleb_f ms 0) by lra].
  { right. split; [|reflexivity]. intros (nb' & _ & _ & _ & _ & _ & q & _). lra. }
  destruct (Rle_dec (INR nb * mb) (hi - lo)) as [h3|h3].
  2:{ right. split. { intros (nb' & e & _ & _ & _ & q & _). rewrite (U nb' e) in q. lra. }
      subst n. replace (3 * nb + 1 - 1)%nat with (nb * 3)%nat by lia. rewrite Nat.div_mul by lia.
      unfold normalize_bin_sizes. rewrite Rltb_t by lra. reflexivity. }
  destruct (Rlt_dec ms 1) as [h4|h4].
  2:{ right. split. { intros (nb' & e & _ & _ & _ & q & _ & q' & _). lra. }
      subst n. replace (3 * nb + 1 - 1)%nat with (nb * 3)%nat by lia. rewrite Nat.div_mul by lia.
      unfold normalize_bin_sizes. rewrite Rltb_f by lra. unfold normalize_knot_slopes. rewrite Rleb_t by lra. reflexivity. }
  destruct bd as [ | | | | | ] eqn:Ebd.
  6:{ right. split. { intros (nb' & e & _ & _ & _ & q & _ & q' & q''). congruence. }
      subst n. replace (3 * nb + 1 - 1)%nat with (nb * 3)%nat by lia. rewrite Nat.div_mul by lia.
      unfold normalize_bin_sizes. rewrite Rltb_f by lra. unfold normalize_knot_slopes. rewrite Rleb_f by lra. reflexivity. }
  all: left; split; [exists nb; repeat split; auto; try lra; congruence|].
  all: subst n; replace (3 * nb + 1 - 1)%nat with (nb * 3)%nat by lia; rewrite Nat.div_mul by lia.
  all: unfold normalize_bin_sizes; rewrite Rltb_f by lra; unfold normalize_knot_slopes; rewrite Rleb_f by lra.
  all: eexists; reflexivity.
Qed.
Lemma valid_increasing n lo hi mb pos : 0 < mb -> valid_knots n lo hi mb pos -> increasing_list pos.
Proof. intros H (L & _ & _ & G) i Hi. specialize (G i ltac:(lia)). lra. Qed.
Lemma tget_tmap_list {B} (db : B) (F : list R -> B) t j : wf t -> inb (shp t) j ->
  tget db (tmap F t) j = F (tget [] t j).
Proof. intros; apply tget_tmap; auto. Qed.

Section Built.
Variables (n : nat) (params : tensor (list R)) (lo hi : R) (bd : boundary) (mb ms : R) (sp : spline).
Hypothesis (Hsp : rqs_init n params lo hi bd mb ms = Ok sp) (Hwf : wf params)
  (Hrow : forall row, In row (dat params) -> length row = n).
Lemma built_args : ok_args n lo hi bd mb ms.
Proof. destruct (rqs_init_iff n params lo hi bd mb ms) as [[A _]|[_ A]]; auto. congruence. Qed.
Lemma tget_in j : inb (shp params) j -> In (tget [] params j) (dat params).
Proof. intros Hj. unfold tget. apply nth_In. rewrite Hwf. apply ravel_lt; auto. Qed.
Lemma built_shape : shp (x_pos sp) = shp params /\ shp (y_pos sp) = shp params /\ shp (knot_slopes sp) = shp params.
Proof.
  destruct built_args as (nb & A & B & C & D & E & F & G & H).
  rewrite (rqs_init_ok n params lo hi bd mb ms nb) in Hsp by auto. injection Hsp as <-. auto.
Qed.
Lemma built_rows j : inb (shp params) j -> exists nb, n = (3 * nb + 1)%nat /\ (1 <= nb)%nat /\
  let p := tget [] params j in
  tget [] (x_pos sp) j = row_knots nb lo hi mb (firstn nb p) /\
  tget [] (y_pos sp) j = row_knots nb lo hi mb (skipn nb (firstn (2 * nb) p)) /\
  tget [] (knot_slopes sp) j = row_slopes ms bd (skipn (2 * nb) p) /\ length p = n.
Proof.
  intros Hj. destruct built_args as (nb & A & B & C & D & E & F & G & H). exists nb. split; auto. split; auto.
  rewrite (rqs_init_ok n params lo hi bd mb ms nb) in Hsp by auto. injection Hsp as <-. cbn [x_pos y_pos knot_slopes the_spline].
  rewrite !tget_tmap_list by auto. repeat split; auto. apply Hrow, tget_in; auto.
Qed.
Lemma built_valid j : inb (shp params) j -> exists nb, n = (3 * nb + 1)%nat /\ (1 <= nb)%nat /\
  valid_knots nb lo hi mb (tget [] (x_pos sp) j) /\ valid_knots nb lo hi mb (tget [] (y_pos sp) j) /\
  valid_slopes nb ms bd (tget [] (knot_slopes sp) j).
Proof.
  intros Hj. destruct (built_rows j Hj) as (nb & A & B & -> & -> & -> & L). exists nb. split; auto. split; auto.
  destruct built_args as (nb' & A' & B' & C & D & E & F & G & H). assert (nb' = nb) by lia. subst nb'.
  split; [|split].
  - apply row_knots_valid; auto. rewrite firstn_length. lia.
  - apply row_knots_valid; auto. rewrite skipn_length, firstn_length. lia.
  - apply row_slopes_valid; auto. rewrite skipn_length. lia.
Qed.
End Built.

(** Everything the spline theory needs about one batch position. *)
Lemma valid_spline_premises nb lo hi mb ms bd xs ys ds : (1 <= nb)%nat -> 0 < mb -> 0 < ms ->
  valid_knots nb lo hi mb xs -> valid_knots nb lo hi mb ys -> valid_slopes nb ms bd ds ->
  (2 <= length xs)%nat /\ length ys = length xs /\ length ds = length xs /\
  increasing_list xs /\ increasing_list ys /\ (forall i, (i < length xs)%nat -> 0 < nth i ds 0).
Proof.
  intros Hn Hmb Hms Vx Vy (Ld & Dm & _). pose proof (valid_increasing _ _ _ _ _ Hmb Vx). pose proof (valid_increasing _ _ _ _ _ Hmb Vy).
  destruct Vx as (Lx & _). destruct Vy as (Ly & _). repeat split; auto; try lia.
  intros i Hi. specialize (Dm i ltac:(lia)). lra.
Qed.

Lemma rqs_elementwise tiny n params lo hi bd mb ms sp b :
  rqs_init n params lo hi bd mb ms = Ok sp -> rqs_bij tiny n params lo hi bd mb ms = Ok b ->
  acts_elementwise b (shp params)
    (fun j x => fst (rqs_fwd x (tget [] (x_pos sp) j) (tget [] (y_pos sp) j) (tget [] (knot_slopes sp) j)))
    (fun j x => snd (rqs_fwd x (tget [] (x_pos sp) j) (tget [] (y_pos sp) j) (tget [] (knot_slopes sp) j)))
    (fun j x => fst (rqs_inv tiny x (tget [] (x_pos sp) j) (tget [] (y_pos sp) j) (tget [] (knot_slopes sp) j)))
    (fun j x => snd (rqs_inv tiny x (tget [] (x_pos sp) j) (tget [] (y_pos sp) j) (tget [] (knot_slopes sp) j))).
Proof.
  intros Hsp Hb x s Hs. unfold rqs_bij in Hb. cbn [base_init Z.ltb Z.compare andb negb rbind] in Hb.
  rewrite Hsp in Hb. cbn in Hb. injection Hb as <-.
  destruct (built_shape n params lo hi bd mb ms sp Hsp) as (S1 & S2 & S3).
  cbn [b_fal b_ial b_fwd b_inv b_fld b_ild base_methods].
  unfold vectorize_knots. rewrite S1, S2, S3, Hs. repeat split; reflexivity.
Qed.
Lemma rqs_bij_ok tiny n params lo hi bd mb ms b : rqs_bij tiny n params lo hi bd mb ms = Ok b ->
  exists sp, rqs_init n params lo hi bd mb ms = Ok sp.
Proof.
  intros H. unfold rqs_bij in H. cbn in H. destruct (rqs_init n params lo hi bd mb ms); [eauto|discriminate].
Qed.

(** ** Array round trip *)
Lemma bget_tgen s h i : inb s i -> bget (tgen s h) i = h i.
Proof. intros Hi. rewrite bget_inb by auto. apply tget_tgen; auto. Qed.
Lemma rqs_array_round tiny n params lo hi bd mb ms sp b :
  rqs_init n params lo hi bd mb ms = Ok sp -> rqs_bij tiny n params lo hi bd mb ms = Ok b -> wf params ->
  (forall row, In row (dat params) -> length row = n) ->
  (forall j, inb (shp params) j ->
     nondegenerate tiny (tget [] (x_pos sp) j) (tget [] (y_pos sp) j) (tget [] (knot_slopes sp) j)) ->
  forall x s y l, wf x -> bshape (shp x) (shp params) = Some s -> b_fal b x = Ok (y, l) ->
  b_ial b y = Ok (tgen s (bget x), tneg l).
Proof.
  intros Hsp Hb Hw Hr Hnd x s y l Hx Hs E.
  pose proof (rqs_elementwise _ _ _ _ _ _ _ _ _ _ Hsp Hb) as El.
  destruct (El x s Hs) as (E1 & _). rewrite E1 in E. injection E as <- <-.
  assert (Hs' : bshape s (shp params) = Some s).
  { rewrite bshape_comm. apply (bshape_absorb_r (shp x)). auto. }
  match goal with |- b_ial b ?t = _ => destruct (El t s Hs') as (_ & E2 & _) end.
  rewrite E2. f_equal.
  assert (Main : forall i, inb s i ->
    let j := bindex (shp params) i in let F := fun v => rqs_fwd v (tget [] (x_pos sp) j) (tget [] (y_pos sp) j) (tget [] (knot_slopes sp) j) in
    let G := fun v => rqs_inv tiny v (tget [] (x_pos sp) j) (tget [] (y_pos sp) j) (tget [] (knot_slopes sp) j) in
    forall v, fst (G (fst (F v))) = v /\ snd (G (fst (F v))) = - snd (F v)).
  { intros i Hi j. assert (Hj : inb (shp params) j).
    { unfold j. apply (bindex_inb (shp params) s s); auto. rewrite bshape_comm. auto. }
    cbv zeta. intros v.
    destruct (built_valid _ _ _ _ _ _ _ _ Hsp Hw Hr j Hj) as (nb & A & B & Vx & Vy & Vd).
    destruct (built_args _ _ _ _ _ _ _ _ Hsp) as (k & _ & _ & R1 & R2 & _ & R3 & _ & _).
    destruct (valid_spline_premises nb _ _ _ _ _ _ _ _ B R2 R3 Vx Vy Vd) as (L1 & L2 & L3 & L4 & L5 & L6).
    assert (Ht' : forall k, (k < length (tget [] (x_pos sp) j) - 1)%nat -> tiny_ok
     (bin_s (tget [] (x_pos sp) j) (tget [] (y_pos sp) j) k) (nth k (tget [] (knot_slopes sp) j) 0)
     (nth (S k) (tget [] (knot_slopes sp) j) 0) tiny) by (intros q Hq; apply (Hnd j Hj); lia).
    split; [exact (g_f _ _ _ L1 L2 L3 L4 L5 L6 tiny Ht' v)|exact (lg_f _ _ _ L1 L2 L3 L4 L5 L6 tiny Ht' v)]. }
  f_equal.
  - apply tgen_ext. intros i Hi. rewrite bget_tgen by auto. apply (Main i Hi).
  - apply (tensor_ext 0).
    + apply tgen_wf.
    + apply tmap_wf, tgen_wf.
    + reflexivity.
    + intros i Hi. cbn [shp tgen] in Hi. rewrite tget_tgen by auto. unfold tneg. rewrite (tget_tmap 0) by (auto; apply tgen_wf).
      rewrite tget_tgen by auto. rewrite bget_tgen by auto. apply (Main i Hi).
Qed.

(** ** Sufficient condition for non-degeneracy *)
Lemma rqs_nondegenerate tiny n params lo hi bd mb ms sp :
  rqs_init n params lo hi bd mb ms = Ok sp -> wf params ->
  (forall row, In row (dat params) -> length row = n) ->
  forall j M, inb (shp params) j -> (forall d, In d (tget [] (knot_slopes sp) j) -> d <= M) ->
  tiny <= (mb / (hi - lo) * Rmin (mb / (hi - lo)) ms / Rmax ((hi - lo) / mb) M) ^ 2 ->
  nondegenerate tiny (tget [] (x_pos sp) j) (tget [] (y_pos sp) j) (tget [] (knot_slopes sp) j).
Proof.
  intros Hsp Hw Hr j M Hj HM Ht k Hk. cbv zeta.
  destruct (built_valid _ _ _ _ _ _ _ _ Hsp Hw Hr j Hj) as (nb & A & B & Vx & Vy & Vd).
  destruct (built_args _ _ _ _ _ _ _ _ Hsp) as (q & _ & _ & R1 & R2 & _ & R3 & _ & _).
  pose proof (valid_increasing _ _ _ _ _ R2 Vx) as Ix. pose proof (valid_increasing _ _ _ _ _ R2 Vy) as Iy.
  destruct Vx as (Lx & X0 & Xn & Gx). destruct Vy as (Ly & Y0 & Yn & Gy). destruct Vd as (Ld & Dm & _).
  set (xs := tget [] (x_pos sp) j) in *. set (ys := tget [] (y_pos sp) j) in *. set (ds := tget [] (knot_slopes sp) j) in *.
  assert (Hk' : (k < nb)%nat) by lia.
  pose proof (Gx k Hk') as gx. pose proof (Gy k Hk') as gy.
  assert (bx : nth (S k) xs 0 - nth k xs 0 <= hi - lo).
  { pose proof (incr_le xs 0 k Ix ltac:(lia) ltac:(lia)). pose proof (incr_le xs (S k) nb Ix ltac:(lia) ltac:(lia)). lra. }
  assert (by_ : nth (S k) ys 0 - nth k ys 0 <= hi - lo).
  { pose proof (incr_le ys 0 k Iy ltac:(lia) ltac:(lia)). pose proof (incr_le ys (S k) nb Iy ltac:(lia) ltac:(lia)). lra. }
  set (w := nth (S k) xs 0 - nth k xs 0) in *. set (h := nth (S k) ys 0 - nth k ys 0) in *.
  set (L := hi - lo) in *. assert (0 < L) by (unfold L; lra).
  assert (0 < w) by (unfold w; lra). assert (mb <= w) by (unfold w; lra). assert (mb <= h) by (unfold h; lra).
  assert (S1 : mb / L <= h / w).
  { unfold Rdiv. apply Rmult_le_compat; try lra; [left; apply Rinv_0_lt_compat; lra|]. apply Rinv_le_contravar; lra. }
  assert (S2 : h / w <= L / mb).
  { unfold Rdiv. apply Rmult_le_compat; try lra; [left; apply Rinv_0_lt_compat; lra|]. apply Rinv_le_contravar; lra. }
  set (s := h / w) in *. set (d := nth k ds 0). set (d' := nth (S k) ds 0).
  assert (ms <= d) by (apply Dm; lia). assert (ms <= d') by (apply Dm; lia).
  assert (d <= M) by (apply HM, nth_In; lia). assert (d' <= M) by (apply HM, nth_In; lia).
  assert (0 < mb / L) by (apply Rdiv_lt_0_compat; lra).
  eapply Rle_trans; [exact Ht|]. apply pow_incr. split.
  - left. apply Rdiv_lt_0_compat; [apply Rmult_lt_0_compat; [auto|apply Rmin_pos; auto]|].
    eapply Rlt_le_trans; [|apply Rmax_r]. lra.
  - unfold Rdiv at 1 4. apply Rmult_le_compat.
    + left. apply Rmult_lt_0_compat; [auto|apply Rmin_pos; auto].
    + left. apply Rinv_0_lt_compat. eapply Rlt_le_trans; [|apply Rmax_r]. lra.
    + apply Rmult_le_compat; [lra| left; apply Rmin_pos; auto |auto|].
      pose proof (Rmin_l (mb / L) ms). pose proof (Rmin_r (mb / L) ms).
      apply Rmin_glb; [lra|apply Rmin_glb; lra].
    + apply Rinv_le_contravar.
      * eapply Rlt_le_trans; [|apply Rmax_l]. lra.
      * pose proof (Rmax_l (L / mb) M). pose proof (Rmax_r (L / mb) M).
        apply Rmax_lub; [lra|apply Rmax_lub; lra].
Qed.

(** ** All-zero parameters *)
Lemma rqs_zero_identity n params lo hi bd mb ms sp :
  rqs_init n params lo hi bd mb ms = Ok sp -> wf params ->
  (forall row, In row (dat params) -> row = repeat 0 n) ->
  forall j, inb (shp params) j -> forall x,
  fst (rqs_fwd x (tget [] (x_pos sp) j) (tget [] (y_pos sp) j) (tget [] (knot_slopes sp) j)) = x /\
  snd (rqs_fwd x (tget [] (x_pos sp) j) (tget [] (y_pos sp) j) (tget [] (knot_slopes sp) j)) = 0.
Proof.
  intros Hsp Hw Hz j Hj x.
  assert (Hr : forall row, In row (dat params) -> length row = n) by (intros row Hin; rewrite (Hz row Hin); apply repeat_length).
  destruct (built_valid _ _ _ _ _ _ _ _ Hsp Hw Hr j Hj) as (nb & A & B & Vx & Vy & Vd).
  destruct (built_args _ _ _ _ _ _ _ _ Hsp) as (q & Q1 & Q2 & R1 & R2 & Q3 & R3 & R4 & R5).
  destruct (valid_spline_premises nb _ _ _ _ _ _ _ _ B R2 R3 Vx Vy Vd) as (L1 & L2 & L3 & L4 & L5 & L6).
  destruct (built_rows _ _ _ _ _ _ _ _ Hsp Hw Hr j Hj) as (nb' & A' & B' & Ex & Ey & Ed & Lp).
  assert (nb' = nb) by lia. subst nb'.
  rewrite (Hz _ (tget_in params Hw j Hj)) in Ex, Ey, Ed.
  assert (Exy : tget [] (x_pos sp) j = tget [] (y_pos sp) j).
  { rewrite Ex, Ey. f_equal. subst n. replace (3 * nb + 1)%nat with (nb + (nb + (nb + 1)))%nat by lia.
    rewrite !repeat_app. rewrite firstn_app, repeat_length, Nat.sub_diag, firstn_O, app_nil_r.
    rewrite firstn_all2 by (rewrite repeat_length; lia).
    rewrite firstn_app, repeat_length. rewrite firstn_all2 by (rewrite repeat_length; lia).
    replace (2 * nb - nb)%nat with nb by lia. rewrite firstn_app, repeat_length, Nat.sub_diag, firstn_O, app_nil_r.
    rewrite firstn_all2 by (rewrite repeat_length; lia).
    rewrite skipn_app, repeat_length, Nat.sub_diag. rewrite skipn_all2 by (rewrite repeat_length; lia). reflexivity. }
  assert (Ed1 : forall i, (i <= nb)%nat -> nth i (tget [] (knot_slopes sp) j) 0 = 1).
  { intros i Hi. rewrite Ed. unfold row_slopes. subst n.
    assert (Es : skipn (2 * nb) (repeat 0 (3 * nb + 1)) = repeat 0 (nb + 1)).
    { replace (3 * nb + 1)%nat with (2 * nb + (nb + 1))%nat by lia. rewrite repeat_app, skipn_app, repeat_length, Nat.sub_diag.
      rewrite skipn_all2 by (rewrite repeat_length; lia). reflexivity. }
    rewrite Es.
    assert (Em : map (slope_of ms) (repeat 0 (nb + 1)) = repeat 1 (nb + 1)).
    { clear - R4. induction (nb + 1)%nat as [|m IH]; [reflexivity|]. cbn [repeat map]. rewrite IH, slope_zero by auto. reflexivity. }
    rewrite Em.
    assert (Nr : forall i, (i <= nb)%nat -> nth i (repeat 1 (nb + 1)) 0 = 1).
    { intros i0 Hi0. rewrite (nth_indep _ 0 1) by (rewrite repeat_length; lia). apply nth_repeat. }
    destruct (bd_row_spec nb bd (repeat 1 (nb + 1)) ltac:(rewrite repeat_length; lia) B R5) as [_ N].
    rewrite (N i Hi). pose proof (Nr i Hi) as Ni. pose proof (Nr 0%nat ltac:(lia)) as N0.
    destruct bd; rewrite ?Ni; auto; try rewrite N0.
    - destruct (Nat.eqb i 0); auto.
    - destruct (Nat.eqb i nb); auto.
    - destruct (Nat.eqb i 0 || Nat.eqb i nb); auto.
    - destruct (Nat.eqb i nb); auto. }
  set (xs := tget [] (x_pos sp) j) in *. set (ys := tget [] (y_pos sp) j) in *. set (ds := tget [] (knot_slopes sp) j) in *.
  destruct Vx as (Lx & _).
  destruct (Rle_dec x (nth 0 xs 0)) as [h|h].
  { rewrite (fwd_below xs ys ds L1 L2 L3 L4 x h). cbn [fst snd]. rewrite (Ed1 0%nat ltac:(lia)), <- Exy, ln_1. split; [ring|auto]. }
  destruct (Rle_dec (nth (length xs - 1) xs 0) x) as [h'|h'].
  { rewrite (fwd_above xs ys ds L2 L3 x h'). cbn [fst snd]. rewrite (Ed1 (length xs - 1)%nat ltac:(lia)), <- Exy, ln_1. split; [ring|auto]. }
  destruct (find_bin x xs L4 L1 ltac:(lra)) as (k & Hk & Hr').
  assert (Hk' : (k < length xs - 1)%nat) by lia.
  rewrite (fwd_bin xs ys ds L1 L2 L3 L4 L5 L6 k x Hk' ltac:(lra)). cbn [fst snd].
  assert (Es : bin_s xs ys k = 1). { unfold bin_s. rewrite <- Exy. field. lra. }
  unfold piece, piece'. rewrite Es, <- Exy, !(Ed1 k), !(Ed1 (S k)) by lia.
  unfold bw, bN, bD, bQ. set (z := (x - nth k xs 0) / (nth (S k) xs 0 - nth k xs 0)).
  replace (1 + (1 + 1 - 2 * 1) * (z - z * z)) with 1 by ring.
  replace (1 ^ 2 * (1 * (z * z) + 2 * 1 * (z - z * z) + 1 * (1 - z) ^ 2) / 1 ^ 2) with 1 by field.
  split; [|apply ln_1]. unfold z. field. lra.
Qed.
