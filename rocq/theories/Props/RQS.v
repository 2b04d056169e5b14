(** C17-C20: RationalQuadraticSpline. *)
From Coq Require Import List Reals ZArith Bool Arith Lia Lra.
From Verif Require Import Base.Result Base.Sums Base.Tensor Model.Bijector Model.ScalarBij Model.RQS
  Spec.Bijector Spec.Scalar Spec.RQS Proofs.RQS Proofs.RQSInit.
Import ListNotations.
Local Open Scope R_scope.

(** ** C17 *)
Theorem C17_constructor_accepts_exactly : forall n params lo hi bd mb ms,
  let valid := exists nb, n = (3 * nb + 1)%nat /\ (1 <= nb)%nat /\ lo < hi /\ 0 < mb /\
                 INR nb * mb <= hi - lo /\ 0 < ms /\ ms < 1 /\ bd <> Other in
  (valid <-> exists sp, rqs_init n params lo hi bd mb ms = Ok sp) /\
  (~ valid -> rqs_init n params lo hi bd mb ms = Err ValueError).
Proof.
  intros n params lo hi bd mb ms. cbv zeta. fold (ok_args n lo hi bd mb ms).
  destruct (rqs_init_iff n params lo hi bd mb ms) as [[A [sp B]]|[A B]].
  - split; [split; eauto|tauto].
  - split; [split; [tauto|intros [sp E]; congruence]|auto].
Qed.
Print Assumptions C17_constructor_accepts_exactly.

(** Every batch position gets valid knots and slopes, whatever the unconstrained parameters. *)
Theorem C17_knots_and_slopes_valid : forall n params lo hi bd mb ms sp,
  rqs_init n params lo hi bd mb ms = Ok sp -> wf params ->
  (forall row, In row (dat params) -> length row = n) ->
  shp (x_pos sp) = shp params /\ shp (y_pos sp) = shp params /\ shp (knot_slopes sp) = shp params /\
  forall j, inb (shp params) j -> exists nb, n = (3 * nb + 1)%nat /\ (1 <= nb)%nat /\
    valid_knots nb lo hi mb (tget [] (x_pos sp) j) /\ valid_knots nb lo hi mb (tget [] (y_pos sp) j) /\
    valid_slopes nb ms bd (tget [] (knot_slopes sp) j).
Proof.
  intros n params lo hi bd mb ms sp Hsp Hw Hr. destruct (built_shape _ _ _ _ _ _ _ _ Hsp) as (A & B & C).
  repeat split; auto. intros j Hj. eapply built_valid; eauto.
Qed.
Print Assumptions C17_knots_and_slopes_valid.

(** The bin sizes are exactly min_bin_size plus the softmax share of what is left: widths from
    the first block of parameters, heights from the second. *)
Theorem C17_bin_sizes : forall n params lo hi bd mb ms sp,
  rqs_init n params lo hi bd mb ms = Ok sp -> wf params ->
  (forall row, In row (dat params) -> length row = n) ->
  forall j, inb (shp params) j -> exists nb, n = (3 * nb + 1)%nat /\
    forall i, (i < nb)%nat ->
    let p := tget [] params j in
    nth (S i) (tget [] (x_pos sp) j) 0 - nth i (tget [] (x_pos sp) j) 0 =
      exp (nth i p 0) / sumf (fun k => exp (nth k p 0)) (seq 0 nb) * (hi - lo - INR nb * mb) + mb /\
    nth (S i) (tget [] (y_pos sp) j) 0 - nth i (tget [] (y_pos sp) j) 0 =
      exp (nth (nb + i) p 0) / sumf (fun k => exp (nth (nb + k) p 0)) (seq 0 nb) * (hi - lo - INR nb * mb) + mb.
Proof.
  intros n params lo hi bd mb ms sp Hsp Hw Hr j Hj.
  destruct (built_rows _ _ _ _ _ _ _ _ Hsp Hw Hr j Hj) as (nb & A & B & -> & -> & _ & L).
  exists nb. split; auto. intros i Hi p. fold p in L |- *.
  assert (S1 : forall (l : list R), length l = nb -> rsum (map exp l) = sumf (fun k => exp (nth k l 0)) (seq 0 nb)).
  { intros l Hl. transitivity (sumf (fun k => nth k (map exp l) (exp 0)) (seq 0 (length (map exp l)))).
    - symmetry. apply sumf_nth.
    - rewrite map_length, Hl. apply sumf_ext. intros k _. apply map_nth. }
  assert (Nf : forall k, (k < nb)%nat -> nth k (firstn nb p) 0 = nth k p 0).
  { intros k Hk. rewrite <- (firstn_skipn nb p) at 2. rewrite app_nth1; auto. rewrite firstn_length; lia. }
  assert (Ns : forall k, (k < nb)%nat -> nth k (skipn nb (firstn (2 * nb) p)) 0 = nth (nb + k) p 0).
  { intros k Hk. rewrite <- (firstn_skipn (2 * nb) p) at 2. rewrite app_nth1 by (rewrite firstn_length; lia).
    rewrite <- (firstn_skipn nb (firstn (2 * nb) p)) at 2.
    assert (Lf : length (firstn nb (firstn (2 * nb) p)) = nb) by (rewrite !firstn_length; lia).
    rewrite app_nth2 by lia. rewrite Lf. f_equal; lia. }
  split; rewrite row_knots_gap by (rewrite ?skipn_length, ?firstn_length; lia).
  - rewrite S1 by (rewrite firstn_length; lia). rewrite Nf by auto. do 3 f_equal.
    apply sumf_ext. intros k Hk. apply in_seq in Hk. rewrite Nf by lia. reflexivity.
  - rewrite S1 by (rewrite skipn_length, firstn_length; lia). rewrite Ns by auto. do 3 f_equal.
    apply sumf_ext. intros k Hk. apply in_seq in Hk. rewrite Ns by lia. reflexivity.
Qed.
Print Assumptions C17_bin_sizes.

(** ** C18-C20 share this description: the bijector acts entrywise through the maps F, LF, G, LG
    of the theorems below. *)
Definition F_of (sp : spline) (j : list nat) (x : R) : R :=
  fst (rqs_fwd x (tget [] (x_pos sp) j) (tget [] (y_pos sp) j) (tget [] (knot_slopes sp) j)).
Definition LF_of (sp : spline) (j : list nat) (x : R) : R :=
  snd (rqs_fwd x (tget [] (x_pos sp) j) (tget [] (y_pos sp) j) (tget [] (knot_slopes sp) j)).
Definition G_of (tiny : R) (sp : spline) (j : list nat) (y : R) : R :=
  fst (rqs_inv tiny y (tget [] (x_pos sp) j) (tget [] (y_pos sp) j) (tget [] (knot_slopes sp) j)).
Definition LG_of (tiny : R) (sp : spline) (j : list nat) (y : R) : R :=
  snd (rqs_inv tiny y (tget [] (x_pos sp) j) (tget [] (y_pos sp) j) (tget [] (knot_slopes sp) j)).

Ltac one_position Hsp Hw Hr j Hj :=
  let nb := fresh "nb" in let A := fresh "A" in let B := fresh "B" in
  let Vx := fresh "Vx" in let Vy := fresh "Vy" in let Vd := fresh "Vd" in
  destruct (built_valid _ _ _ _ _ _ _ _ Hsp Hw Hr j Hj) as (nb & A & B & Vx & Vy & Vd);
  let k := fresh in let R1 := fresh in let R2 := fresh in let R3 := fresh in
  destruct (built_args _ _ _ _ _ _ _ _ Hsp) as (k & _ & _ & R1 & R2 & _ & R3 & _ & _);
  destruct (valid_spline_premises nb _ _ _ _ _ _ _ _ B R2 R3 Vx Vy Vd)
    as (L1 & L2 & L3 & L4 & L5 & L6).

Theorem C18_spline_elementwise : forall tiny n params lo hi bd mb ms b,
  rqs_bij tiny n params lo hi bd mb ms = Ok b ->
  exists sp, rqs_init n params lo hi bd mb ms = Ok sp /\
    acts_elementwise b (shp params) (F_of sp) (LF_of sp) (G_of tiny sp) (LG_of tiny sp).
Proof.
  intros tiny n params lo hi bd mb ms b Hb. destruct (rqs_bij_ok _ _ _ _ _ _ _ _ _ Hb) as [sp Hsp].
  exists sp. split; auto. exact (rqs_elementwise _ _ _ _ _ _ _ _ _ _ Hsp Hb).
Qed.
Print Assumptions C18_spline_elementwise.

Theorem C18_strictly_increasing_onto : forall n params lo hi bd mb ms sp,
  rqs_init n params lo hi bd mb ms = Ok sp -> wf params ->
  (forall row, In row (dat params) -> length row = n) ->
  forall j, inb (shp params) j ->
  strictly_increasing (F_of sp j) /\ (forall y, exists x, F_of sp j x = y) /\
  F_of sp j lo = lo /\ F_of sp j hi = hi /\
  (forall y, lo <= y <= hi -> exists x, lo <= x <= hi /\ F_of sp j x = y).
Proof.
  intros n params lo hi bd mb ms sp Hsp Hw Hr j Hj. one_position Hsp Hw Hr j Hj.
  set (xs := tget [] (x_pos sp) j) in *. set (ys := tget [] (y_pos sp) j) in *. set (ds := tget [] (knot_slopes sp) j) in *.
  assert (Inc : strictly_increasing (F_of sp j)).
  { intros a c Hac. exact (f_increasing xs ys ds L1 L2 L3 L4 L5 L6 a c Hac). }
  assert (On : forall y, F_of sp j (fst (rqs_inv 0 y xs ys ds)) = y).
  { intros y. apply (f_g xs ys ds L1 L2 L3 L4 L5 L6 0). intros k Hk. unfold tiny_ok.
    apply pow2_ge_0. }
  destruct Vx as (Lx & X0 & Xn & _). destruct Vy as (Ly & Y0 & Yn & _).
  assert (Elo : F_of sp j lo = lo).
  { rewrite <- X0 at 1. rewrite <- Y0. exact (f_knot xs ys ds L1 L2 L3 L4 L5 L6 0 ltac:(lia)). }
  assert (Ehi : F_of sp j hi = hi).
  { rewrite <- Xn at 1. rewrite <- Yn. apply (f_knot xs ys ds L1 L2 L3 L4 L5 L6 nb). lia. }
  split; auto. split; [eauto|]. split; auto. split; auto.
  intros y Hy. exists (fst (rqs_inv 0 y xs ys ds)). split; auto.
  set (x := fst _) in *. specialize (On y). fold x in On.
  split; [destruct (Rle_dec lo x) as [|h]; auto; assert (F_of sp j x < F_of sp j lo) by (apply Inc; lra); lra|].
  destruct (Rle_dec x hi) as [|h]; auto. assert (F_of sp j hi < F_of sp j x) by (apply Inc; lra). lra.
Qed.
Print Assumptions C18_strictly_increasing_onto.

Theorem C18_interpolates_knots_and_linear_tails : forall n params lo hi bd mb ms sp,
  rqs_init n params lo hi bd mb ms = Ok sp -> wf params ->
  (forall row, In row (dat params) -> length row = n) ->
  forall j, inb (shp params) j ->
  let xs := tget [] (x_pos sp) j in let ys := tget [] (y_pos sp) j in let ds := tget [] (knot_slopes sp) j in
  (forall k, (k < length xs)%nat -> F_of sp j (nth k xs 0) = nth k ys 0 /\ LF_of sp j (nth k xs 0) = ln (nth k ds 0)) /\
  (forall x, x <= lo -> F_of sp j x = lo + nth 0 ds 0 * (x - lo)) /\
  (forall x, hi <= x -> F_of sp j x = hi + nth (length xs - 1) ds 0 * (x - hi)).
Proof.
  intros n params lo hi bd mb ms sp Hsp Hw Hr j Hj. one_position Hsp Hw Hr j Hj. cbv zeta.
  set (xs := tget [] (x_pos sp) j) in *. set (ys := tget [] (y_pos sp) j) in *. set (ds := tget [] (knot_slopes sp) j) in *.
  destruct Vx as (Lx & X0 & Xn & _). destruct Vy as (Ly & Y0 & Yn & _).
  split; [|split].
  - intros k Hk. split; [apply (f_knot xs ys ds L1 L2 L3 L4 L5 L6 k); lia|].
    unfold LF_of. fold xs ys ds. destruct (Nat.eq_dec k (length xs - 1)) as [e|e].
    + rewrite (fwd_above xs ys ds L2 L3) by (subst k; apply Rle_refl). cbn [snd]. subst k. reflexivity.
    + assert (Hk' : (k < length xs - 1)%nat) by lia. pose proof (L4 k ltac:(lia)).
      rewrite (fwd_bin xs ys ds L1 L2 L3 L4 L5 L6 k) by (auto; lra). cbn [snd].
      rewrite (piece'_left xs ys ds L1 L2 L3 L4 L5 k Hk'). reflexivity.
  - intros x Hx. unfold F_of. fold xs ys ds. rewrite (fwd_below xs ys ds L1 L2 L3 L4) by (auto; rewrite X0; auto).
    cbn [fst]. rewrite X0, Y0. ring.
  - intros x Hx. unfold F_of. fold xs ys ds. replace (length xs - 1)%nat with nb in * by lia.
    assert (Hx' : nth (length xs - 1) xs 0 <= x) by (replace (length xs - 1)%nat with nb by lia; lra).
    rewrite (fwd_above xs ys ds L2 L3) by auto.
    cbn [fst]. replace (length xs - 1)%nat with nb by lia. rewrite Xn, Yn. ring.
Qed.
Print Assumptions C18_interpolates_knots_and_linear_tails.

(** Documented: all-zero parameters give the identity on the whole line. *)
Theorem C18_zero_params_identity : forall n params lo hi bd mb ms sp,
  rqs_init n params lo hi bd mb ms = Ok sp -> wf params ->
  (forall row, In row (dat params) -> row = repeat 0 n) ->
  forall j, inb (shp params) j -> forall x, F_of sp j x = x /\ LF_of sp j x = 0.
Proof. exact rqs_zero_identity. Qed.
Print Assumptions C18_zero_params_identity.

(** ** C19 *)
Theorem C19_spline_inverse : forall tiny n params lo hi bd mb ms sp,
  rqs_init n params lo hi bd mb ms = Ok sp -> wf params ->
  (forall row, In row (dat params) -> length row = n) ->
  forall j, inb (shp params) j ->
  nondegenerate tiny (tget [] (x_pos sp) j) (tget [] (y_pos sp) j) (tget [] (knot_slopes sp) j) ->
  (forall x, G_of tiny sp j (F_of sp j x) = x) /\ (forall y, F_of sp j (G_of tiny sp j y) = y).
Proof.
  intros tiny n params lo hi bd mb ms sp Hsp Hw Hr j Hj Ht. one_position Hsp Hw Hr j Hj.
  assert (Ht' : forall k, (k < length (tget [] (x_pos sp) j) - 1)%nat -> tiny_ok
     (bin_s (tget [] (x_pos sp) j) (tget [] (y_pos sp) j) k) (nth k (tget [] (knot_slopes sp) j) 0)
     (nth (S k) (tget [] (knot_slopes sp) j) 0) tiny) by (intros k Hk; apply Ht; lia).
  split; intros.
  - exact (g_f _ _ _ L1 L2 L3 L4 L5 L6 tiny Ht' x).
  - exact (f_g _ _ _ L1 L2 L3 L4 L5 L6 tiny Ht' y).
Qed.
Print Assumptions C19_spline_inverse.

Theorem C19_spline_array_round_trip : forall tiny n params lo hi bd mb ms sp b,
  rqs_init n params lo hi bd mb ms = Ok sp -> rqs_bij tiny n params lo hi bd mb ms = Ok b -> wf params ->
  (forall row, In row (dat params) -> length row = n) ->
  (forall j, inb (shp params) j ->
     nondegenerate tiny (tget [] (x_pos sp) j) (tget [] (y_pos sp) j) (tget [] (knot_slopes sp) j)) ->
  forall x s y l, wf x -> bshape (shp x) (shp params) = Some s -> b_fal b x = Ok (y, l) ->
  b_ial b y = Ok (tgen s (bget x), tneg l).
Proof. exact rqs_array_round. Qed.
Print Assumptions C19_spline_array_round_trip.

(** The non-degeneracy premise holds whenever all slopes are at most [M] and
    tiny <= (t * min(t, ms) / max(1/t, M))^2 with t = min_bin_size / (range_max - range_min). *)
Theorem C19_nondegenerate_sufficient : forall tiny n params lo hi bd mb ms sp,
  rqs_init n params lo hi bd mb ms = Ok sp -> wf params ->
  (forall row, In row (dat params) -> length row = n) ->
  forall j M, inb (shp params) j -> (forall d, In d (tget [] (knot_slopes sp) j) -> d <= M) ->
  tiny <= (mb / (hi - lo) * Rmin (mb / (hi - lo)) ms / Rmax ((hi - lo) / mb) M) ^ 2 ->
  nondegenerate tiny (tget [] (x_pos sp) j) (tget [] (y_pos sp) j) (tget [] (knot_slopes sp) j).
Proof. exact rqs_nondegenerate. Qed.
Print Assumptions C19_nondegenerate_sufficient.

(** ** C20 *)
Theorem C20_spline_log_det : forall n params lo hi bd mb ms sp,
  rqs_init n params lo hi bd mb ms = Ok sp -> wf params ->
  (forall row, In row (dat params) -> length row = n) ->
  forall j, inb (shp params) j -> forall x, log_abs_derivative (F_of sp j) (LF_of sp j) x.
Proof.
  intros n params lo hi bd mb ms sp Hsp Hw Hr j Hj x. one_position Hsp Hw Hr j Hj.
  exact (rqs_log_det _ _ _ L1 L2 L3 L4 L5 L6 x).
Qed.
Print Assumptions C20_spline_log_det.

Theorem C20_spline_inverse_log_det : forall tiny n params lo hi bd mb ms sp,
  rqs_init n params lo hi bd mb ms = Ok sp -> wf params ->
  (forall row, In row (dat params) -> length row = n) ->
  forall j, inb (shp params) j ->
  nondegenerate tiny (tget [] (x_pos sp) j) (tget [] (y_pos sp) j) (tget [] (knot_slopes sp) j) ->
  forall x, LG_of tiny sp j (F_of sp j x) = - LF_of sp j x.
Proof.
  intros tiny n params lo hi bd mb ms sp Hsp Hw Hr j Hj Ht x. one_position Hsp Hw Hr j Hj.
  assert (Ht' : forall k, (k < length (tget [] (x_pos sp) j) - 1)%nat -> tiny_ok
     (bin_s (tget [] (x_pos sp) j) (tget [] (y_pos sp) j) k) (nth k (tget [] (knot_slopes sp) j) 0)
     (nth (S k) (tget [] (knot_slopes sp) j) 0) tiny) by (intros k Hk; apply Ht; lia).
  exact (lg_f _ _ _ L1 L2 L3 L4 L5 L6 tiny Ht' x).
Qed.
Print Assumptions C20_spline_inverse_log_det.

(** The log-det is a continuous function of x, i.e. the spline is C1 across the knots. *)
Theorem C20_spline_C1 : forall n params lo hi bd mb ms sp,
  rqs_init n params lo hi bd mb ms = Ok sp -> wf params ->
  (forall row, In row (dat params) -> length row = n) ->
  forall j, inb (shp params) j -> continuity (LF_of sp j).
Proof.
  intros n params lo hi bd mb ms sp Hsp Hw Hr j Hj. one_position Hsp Hw Hr j Hj.
  exact (rqs_lf_continuous _ _ _ L1 L2 L3 L4 L5 L6).
Qed.
Print Assumptions C20_spline_C1.

(** Non-vacuity: two splines of two bins each on [-1, 1]. *)
Definition ex_params : tensor (list R) := mkT [2]%nat [[1; 2; 0; 3; -1; 0; 2]; [0; 0; 1; 1; 5; -2; 1]].
Example C17_nonvacuous : wf ex_params /\ (forall row, In row (dat ex_params) -> length row = 7%nat) /\
  exists sp, rqs_init 7 ex_params (-1) 1 Circular (1/10) (1/10) = Ok sp /\
  nondegenerate 0 (tget [] (x_pos sp) [1%nat]) (tget [] (y_pos sp) [1%nat]) (tget [] (knot_slopes sp) [1%nat]).
Proof.
  split; [reflexivity|]. split; [intros row [<-|[<-|[]]]; reflexivity|].
  assert (V : exists nb, 7%nat = (3 * nb + 1)%nat /\ (1 <= nb)%nat /\ -1 < 1 /\ 0 < 1/10 /\
                 INR nb * (1/10) <= 1 - -1 /\ 0 < 1/10 /\ 1/10 < 1 /\ Circular <> Other).
  { exists 2%nat. repeat split; try lia; try lra; try discriminate. simpl. lra. }
  destruct (proj1 (proj1 (C17_constructor_accepts_exactly 7 ex_params (-1) 1 Circular (1/10) (1/10))) V) as [sp E].
  exists sp. split; auto. intros k Hk. cbv zeta. apply pow2_ge_0.
Qed.
