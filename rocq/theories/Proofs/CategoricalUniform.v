(** Lemmas behind Props/CategoricalUniform.v *)
From Coq Require Import Reals List Bool Lra Lia.
From Coquelicot Require Import Coquelicot.
From Verif Require Import Base.Result Base.Sums Base.Tensor Base.XR Base.Lift Base.Axes Base.Integral Model.MathUtils
  Model.ScalarDist Model.ArrayDist Model.Categorical Model.Mixture Spec.Categorical Spec.Density Spec.Mixture
  Spec.CategoricalUniform Proofs.MathUtils Proofs.ArrayDist Proofs.Mixture Proofs.Categorical Proofs.Density Props.Uniform Props.Mixture.
Import ListNotations.
Local Open Scope R_scope.

(** *** lists over seq *)
Lemma list_as_seq {A} (l : list A) d n f : length l = n -> (forall k, (k < n)%nat -> nth k l d = f k) -> l = map f (seq 0 n).
Proof.
  intros HL H. apply (nth_ext l _ d (f 0%nat)); [rewrite map_length, seq_length; auto|].
  intros k Hk. rewrite (map_nth f). rewrite seq_nth by lia. apply H. lia.
Qed.
Lemma xdiff_seq f s n : xdiff (map f (seq s (S n))) = map (fun i => xsub (f (S i)) (f i)) (seq s n).
Proof. revert s; induction n as [|n IH]; intros s; [reflexivity|]. cbn [seq map xdiff] in *. f_equal. apply IH. Qed.
Lemma removelast_seq {A} (f : nat -> A) n : removelast (map f (seq 0 (S n))) = map f (seq 0 n).
Proof. rewrite seq_S, map_app. cbn [map]. apply removelast_last. Qed.
Lemma tl_seq {A} (f : nat -> A) s n : tl (map f (seq s (S n))) = map (fun i => f (S i)) (seq s n).
Proof. cbn [seq map tl]. rewrite <- seq_shift, map_map. reflexivity. Qed.
Lemma map2_seq {A B C} (g : A -> B -> C) f h n : map2 g (map f (seq 0 n)) (map h (seq 0 n)) = map (fun k => g (f k) (h k)) (seq 0 n).
Proof. generalize 0%nat. induction n as [|n IH]; intros s; cbn; [auto|f_equal; apply IH]. Qed.

(** *** bins *)
Lemma bin_in u v x : u <= x < v -> bin u v x = 1.
Proof. intros H. unfold bin. destruct Rle_dec; [|lra]. destruct Rlt_dec; lra. Qed.
Lemma bin_out u v x : x < u \/ v <= x -> bin u v x = 0.
Proof. intros H. unfold bin. destruct Rle_dec; [|lra]. destruct Rlt_dec; lra. Qed.
Lemma bin_expectation u v (g G : R -> R) : u < v -> (forall x, is_derive G x (g x)) -> (forall x, continuous g x) ->
  integral (fun x => bin u v x * g x) (G v - G u).
Proof.
  intros H DG Cg. apply (integral_compact _ u v); [lra| |].
  - intros x Hx. rewrite bin_out by lra. ring.
  - apply (is_RInt_ext g).
    + intros x. rewrite Rmin_left, Rmax_right by lra. intros Hx. rewrite bin_in by lra. apply Rminus_diag_uniq; ring.
    + apply is_RInt_of_derive; auto.
Qed.
Lemma is_RInt_one a b : is_RInt (fun _ : R => 1) a b (b - a).
Proof.
  pose proof (is_RInt_const (V := R_NormedModule) a b 1) as C. unfold scal in C; cbn in C; unfold mult in C; cbn in C.
  rewrite Rmult_1_r in C. exact C.
Qed.
(** cumulative integral of a bin from the left of it *)
Definition ramp (u v x : R) : R := Rmax 0 (Rmin (x - u) (v - u)).
Lemma bin_cdf u v c x : u < v -> c <= u -> c <= x -> is_RInt (bin u v) c x (ramp u v x).
Proof.
  intros H Hc Hx. unfold ramp. destruct (Rle_dec x u).
  - rewrite Rmax_left by (apply Rle_trans with (x - u); [apply Rmin_l|lra]). apply is_RInt_zero; [lra|]. intros t Ht. apply bin_out. lra.
  - destruct (Rle_dec x v).
    + rewrite Rmin_left by lra. rewrite Rmax_right by lra. replace (x - u) with (plus 0 (x - u)) by (unfold plus; cbn; ring).
      apply (@is_RInt_Chasles R_NormedModule) with u; [apply is_RInt_zero; [lra|]; intros t Ht; apply bin_out; lra|].
      apply (is_RInt_ext (fun _ => 1)); [|apply is_RInt_one]. intros t. rewrite Rmin_left, Rmax_right by lra. intros Ht. rewrite bin_in by lra. reflexivity.
    + rewrite Rmin_right by lra. rewrite Rmax_right by lra. replace (v - u) with (plus (plus 0 (v - u)) 0) by (unfold plus; cbn; ring).
      apply (@is_RInt_Chasles R_NormedModule) with v; [apply (@is_RInt_Chasles R_NormedModule) with u|].
      * apply is_RInt_zero; [lra|]; intros t Ht; apply bin_out; lra.
      * apply (is_RInt_ext (fun _ => 1)); [|apply is_RInt_one]. intros t. rewrite Rmin_left, Rmax_right by lra. intros Ht. rewrite bin_in by lra. reflexivity.
      * apply is_RInt_zero; [lra|]; intros t Ht; apply bin_out; lra.
Qed.
Lemma is_RInt_sumf (w : nat -> R) (f : nat -> R -> R) (u : nat -> R) a b n :
  (forall k, (k < n)%nat -> is_RInt (f k) a b (u k)) ->
  is_RInt (fun x => sumf (fun k => w k * f k x) (seq 0 n)) a b (sumf (fun k => w k * u k) (seq 0 n)).
Proof.
  induction n as [|n IH]; intros H.
  - unfold sumf. cbn. pose proof (is_RInt_const (V := R_NormedModule) a b 0) as C. unfold scal in C; cbn in C; unfold mult in C; cbn in C.
    rewrite Rmult_0_r in C. exact C.
  - rewrite seq_S, sumf_app, Nat.add_0_l.
    apply (is_RInt_ext (fun x => plus (sumf (fun k => w k * f k x) (seq 0 n)) (scal (w n) (f n x)))).
    + intros x _. rewrite sumf_app. unfold sumf at 3. cbn. unfold plus, scal; cbn. unfold mult; cbn. ring.
    + replace (sumf (fun k => w k * u k) [n]) with (scal (w n) (u n)) by (unfold sumf, scal; cbn; unfold mult; cbn; ring).
      apply (is_RInt_plus (V := R_NormedModule)); [apply IH; auto|]. apply (is_RInt_scal (V := R_NormedModule)), H. lia.
Qed.

Section CU.
Variables (a b : R) (l : list XR).
Hypothesis Hab : a < b.
Hypothesis Hl : legal_logits l.
Let K := length l.
Let p := normalised (map weight l).
Let C := bin_width a b K.
Let c := mkCU (Fin a) (Fin b) l.

Lemma p_pmf : is_pmf p.
Proof. apply normalised_pmf. split; [|apply legal_total; auto]. intros x Hx. apply in_map_iff in Hx as (y & <- & _). apply weight_nonneg. Qed.
Lemma p_length : length p = K.
Proof. unfold p, normalised. rewrite !map_length. reflexivity. Qed.
Lemma K_pos : (0 < K)%nat.
Proof. rewrite <- p_length. apply pmf_length, p_pmf. Qed.
Lemma INR_K : 0 < INR K. Proof. apply lt_0_INR, K_pos. Qed.
Lemma C_pos : 0 < C. Proof. unfold C, bin_width. apply Rdiv_lt_0_compat; [lra|apply INR_K]. Qed.
Lemma edge_C k : edge a b K k = a + INR k * C. Proof. reflexivity. Qed.
Lemma edge_K : edge a b K K = b.
Proof. unfold edge. pose proof INR_K. field. lra. Qed.
Lemma edge_S k : edge a b K (S k) = edge a b K k + C.
Proof. rewrite !edge_C, S_INR. ring. Qed.
Lemma edge_lt k : edge a b K k < edge a b K (S k).
Proof. rewrite edge_S. pose proof C_pos. lra. Qed.
Lemma edge_mono j k : (j <= k)%nat -> edge a b K j <= edge a b K k.
Proof. intros H. rewrite !edge_C. apply le_INR in H. pose proof C_pos. nra. Qed.
Lemma limit_at i : (i <= K)%nat -> cu_limit c i = Fin (edge a b K i).
Proof.
  intros H. unfold cu_limit. change (num_bins c) with K. cbn [cu_high cu_low c]. destruct (Nat.eqb_spec i K) as [-> |Hn].
  - rewrite edge_K. reflexivity.
  - cbn. f_equal. unfold edge. pose proof INR_K. field. lra.
Qed.
Lemma limits_eq : cu_limits c = map (fun i => Fin (edge a b K i)) (seq 0 (S K)).
Proof.
  unfold cu_limits. change (num_bins c) with K. rewrite Nat.add_1_r. apply map_ext_in. intros i Hi. apply in_seq in Hi. apply limit_at. lia.
Qed.
Let lows := map (edge a b K) (seq 0 K).
Let highs := map (fun i => edge a b K (S i)) (seq 0 K).
Lemma lows_at k : (k < K)%nat -> nth k lows 0 = edge a b K k.
Proof.
  intros H. unfold lows. rewrite (nth_indep _ _ (edge a b K 0)) by (rewrite map_length, seq_length; auto).
  rewrite map_nth, seq_nth by auto. reflexivity.
Qed.
Lemma highs_at k : (k < K)%nat -> nth k highs 0 = edge a b K (S k).
Proof.
  intros H. unfold highs. rewrite (nth_indep _ _ (edge a b K 1)) by (rewrite map_length, seq_length; auto).
  rewrite (map_nth (fun i => edge a b K (S i)) (seq 0 K) 0%nat), seq_nth by auto. reflexivity.
Qed.
Lemma lows_eq : removelast (cu_limits c) = map Fin lows.
Proof. rewrite limits_eq, removelast_seq. unfold lows. rewrite map_map. reflexivity. Qed.
Lemma highs_eq : tl (cu_limits c) = map Fin highs.
Proof. rewrite limits_eq, tl_seq. unfold highs. rewrite map_map. reflexivity. Qed.
Lemma lows_length : length lows = K. Proof. unfold lows. rewrite map_length, seq_length. reflexivity. Qed.
Lemma highs_length : length highs = K. Proof. unfold highs. rewrite map_length, seq_length. reflexivity. Qed.

Lemma logits_eq : cat_logits (cu_categorical c) = map rlog p.
Proof.
  unfold cu_categorical, normalize_logits. cbn [cat_logits cu_logits c]. rewrite log_softmax_legal by auto.
  unfold p, normalised. rewrite !map_map. reflexivity.
Qed.
Lemma cu_represents : represents (cu_categorical c) p.
Proof. split; [right|apply p_pmf]. unfold cu_categorical. f_equal. apply logits_eq. Qed.
Let mix : mixing unit := mkMixing [] (tvec (map rlog p)) (fun _ _ => Err NotImplementedError).
Lemma cu_mixture_of : mixture_of mix (cu_components c) [] K [] /\ exists m, cu_mixture c = Ok m /\ msf_init mix (cu_components c) = Ok m.
Proof.
  split.
  - split; [|repeat split; auto]. split; [cbn; rewrite map_length, p_length; reflexivity|].
    intros i Hi. apply inb_nil_inv in Hi. subst i. cbn [m_logits mix].
    assert (E : logits_at (tvec (map rlog p)) K [] = map rlog p).
    { symmetry. apply (list_as_seq _ (Fin 0)); [rewrite map_length; apply p_length|]. intros k Hk. cbn [app].
      rewrite tvec_at by (rewrite map_length, p_length; auto). reflexivity. }
    rewrite E. apply legal_rlog, p_pmf.
  - unfold cu_mixture. rewrite logits_eq. fold mix. eexists. split; reflexivity.
Qed.
Lemma cu_weight k : (k < K)%nat -> mixture_weight (m_logits mix) K [] k = nth k p 0.
Proof.
  intros Hk. unfold mixture_weight. cbn [m_logits mix].
  assert (E : logits_at (tvec (map rlog p)) K [] = map rlog p).
  { symmetry. apply (list_as_seq _ (Fin 0)); [rewrite map_length; apply p_length|]. intros j Hj. cbn [app].
    rewrite tvec_at by (rewrite map_length, p_length; auto). reflexivity. }
  rewrite E, weights_rlog by apply p_pmf. unfold normalised. rewrite (proj2 p_pmf).
  rewrite (nth_indep _ _ (0 / 1)) by (rewrite map_length, p_length; auto). rewrite (map_nth (fun x => x / 1)). field.
Qed.
Lemma cu_densities : has_densities (fun _ => True) (cu_components c) [] K []
    (fun _ k v => if (k <? K)%nat then toR (uniform_prob (tget (Fin 0) v []) (Fin (edge a b K k)) (Fin (edge a b K (S k)))) else 0).
Proof.
  pose proof (uniform_has_densities (cu_components c) lows highs ltac:(rewrite lows_length, highs_length; reflexivity)) as H.
  rewrite lows_length in H. destruct H as [H1 H2].
  - intros x. cbn [x_log_prob cu_components]. rewrite lows_eq, highs_eq. reflexivity.
  - intros k Hk. rewrite lows_at, highs_at by auto. apply edge_lt.
  - split.
    + intros bb k v. specialize (H1 bb k v). destruct (Nat.ltb_spec k K); [|lra]. rewrite lows_at, highs_at in H1 by auto. exact H1.
    + intros s x Wx Dx Hx. destruct (H2 s x Wx Dx Hx) as (lp & E & S & V). exists lp. split; [exact E|]. split; [exact S|].
      intros i bb k Hi Hb Hk. rewrite (V i bb k Hi Hb Hk). rewrite (proj2 (Nat.ltb_lt _ _) Hk). rewrite lows_at, highs_at by auto. reflexivity.
Qed.
(** the density the code computes, with closed bins *)
Definition closed_density (x : R) : R :=
  sumf (fun k => nth k p 0 * uniform_density (edge a b K k) (edge a b K (S k)) x) (seq 0 K).
Lemma cu_log_prob_at x s (f : list nat -> R) : wf x -> shp x = s -> (forall i, inb s i -> tget (Fin 0) x i = Fin (f i)) ->
  exists r, cu_log_prob c x = Ok r /\ shp r = s /\ wf r /\ forall i, inb s i -> tget (Fin 0) r i = rlog (closed_density (f i)).
Proof.
  intros Wx Hx Hf. destruct cu_mixture_of as (M & m & Em & Im).
  destruct (C41_log_prob unit mix (cu_components c) [] K [] m _ _ s x M Im cu_densities Wx ltac:(apply List.Forall_forall; auto) ltac:(cbn; rewrite app_nil_r; exact Hx)) as (r & Er & Sr & Wr & Hr).
  unfold cu_log_prob. rewrite Em. cbn [rbind]. exists r. split; [exact Er|]. rewrite app_nil_r in Sr. split; [exact Sr|]. split; [exact Wr|].
  intros i Hi. specialize (Hr i [] Hi ltac:(constructor)). rewrite app_nil_r in Hr. rewrite Hr. f_equal. unfold closed_density. apply sumf_ext.
  intros k Hk. apply in_seq in Hk. rewrite cu_weight by lia. rewrite (proj2 (Nat.ltb_lt _ _)) by lia. f_equal.
  unfold event_at. rewrite tget_tgen by constructor. rewrite app_nil_r, Hf by exact Hi. rewrite uniform_prob_fin by apply edge_lt. reflexivity.
Qed.
Lemma density_off_edges x : (forall k, (1 <= k <= K)%nat -> x <> edge a b K k) -> closed_density x = piecewise_density p a b x.
Proof.
  intros H. unfold closed_density, piecewise_density. rewrite p_length. apply sumf_ext. intros k Hk. apply in_seq in Hk.
  specialize (H (S k) ltac:(lia)). unfold uniform_density, bin. fold C. replace (edge a b K (S k) - edge a b K k) with C by (rewrite edge_S; ring).
  pose proof C_pos. destruct (Rle_dec (edge a b K k) x); [|field; lra].
  destruct (Rle_dec x (edge a b K (S k))), (Rlt_dec x (edge a b K (S k))); try lra; field; lra.
Qed.
(** at most one bin contains a point *)
Lemma bins_choice x (h : nat -> R) : (exists k, (k < K)%nat /\ edge a b K k <= x < edge a b K (S k) /\
    sumf (fun k => h k * bin (edge a b K k) (edge a b K (S k)) x) (seq 0 K) = h k) \/
  ((forall k, (k < K)%nat -> x < edge a b K k \/ edge a b K (S k) <= x) /\
    sumf (fun k => h k * bin (edge a b K k) (edge a b K (S k)) x) (seq 0 K) = 0).
Proof.
  assert (D : (exists k, (k < K)%nat /\ edge a b K k <= x < edge a b K (S k)) \/
              forall k, (k < K)%nat -> x < edge a b K k \/ edge a b K (S k) <= x).
  { generalize K at 1 4 as n. induction n as [|n IH]; [right; intros; lia|]. destruct IH as [(k & Hk & B)|IH]; [left; exists k; split; [lia|auto]|].
    destruct (Rlt_dec x (edge a b K n)); [|destruct (Rlt_dec x (edge a b K (S n))); [left; exists n; split; [lia|lra]|]];
    right; intros k Hk; destruct (Nat.eq_dec k n) as [->|]; try lra; apply IH; lia. }
  destruct D as [(k & Hk & B)|D].
  - left. exists k. split; [auto|]. split; [auto|]. rewrite (sumf_seq_single _ K k Hk).
    + rewrite bin_in by auto. ring.
    + intros j _ Hj. rewrite bin_out; [ring|]. destruct (Nat.lt_ge_cases j k).
      * right. apply Rle_trans with (edge a b K k); [apply edge_mono; lia|lra].
      * left. apply Rlt_le_trans with (edge a b K (S k)); [lra|apply edge_mono; lia].
  - right. split; [exact D|]. apply sumf_zero. intros k Hk. apply in_seq in Hk. rewrite bin_out by (apply D; lia). ring.
Qed.
Lemma piecewise_bins x : piecewise_density p a b x = sumf (fun k => nth k p 0 / C * bin (edge a b K k) (edge a b K (S k)) x) (seq 0 K).
Proof. unfold piecewise_density. rewrite p_length. reflexivity. Qed.
Lemma piecewise_nonneg x : 0 <= piecewise_density p a b x.
Proof.
  rewrite piecewise_bins. apply sumf_nonneg. intros k Hk. apply Rmult_le_pos; [|unfold bin; destruct Rle_dec; [destruct Rlt_dec|]; lra].
  apply Rdiv_nonneg; [|apply C_pos]. destruct (nth_in_or_default k p 0) as [H| ->]; [apply p_pmf, H|lra].
Qed.
Lemma piecewise_integral (g G F : R -> R) : F 0 = 0 -> (forall x, is_derive G x (g x)) -> (forall x, continuous g x) ->
  integral (fun x => F (piecewise_density p a b x) * g x)
    (sumf (fun k => F (nth k p 0 / C) * (G (edge a b K (S k)) - G (edge a b K k))) (seq 0 K)).
Proof.
  intros F0 DG Cg.
  apply (integral_ext (fun x => sumf (fun k => F (nth k p 0 / C) * (bin (edge a b K k) (edge a b K (S k)) x * g x)) (seq 0 K))).
  - intros x. rewrite piecewise_bins.
    rewrite (sumf_ext _ (fun k => (F (nth k p 0 / C) * bin (edge a b K k) (edge a b K (S k)) x) * g x)) by (intros; ring).
    rewrite sumf_scal_r. f_equal.
    destruct (bins_choice x (fun k => nth k p 0 / C)) as [(k & Hk & B & E)|[D E]]; rewrite E.
    + destruct (bins_choice x (fun k => F (nth k p 0 / C))) as [(j & Hj & B' & E')|[D' _]]; [|destruct (D' k Hk); lra].
      rewrite E'. f_equal. assert (j = k) as ->; [|reflexivity].
      destruct (Nat.lt_total j k) as [L|[L|L]]; [|exact L|].
      * pose proof (edge_mono (S j) k L). lra.
      * pose proof (edge_mono (S k) j L). lra.
    + rewrite F0. apply sumf_zero. intros k Hk. apply in_seq in Hk. rewrite bin_out by (apply D; lia). ring.
  - apply (integral_sumf (fun k => F (nth k p 0 / C)) (fun k x => bin (edge a b K k) (edge a b K (S k)) x * g x)).
    intros k Hk. apply bin_expectation; auto. apply edge_lt.
Qed.
Lemma sum_p : sumf (fun k => nth k p 0) (seq 0 K) = 1.
Proof. rewrite <- p_length, sumf_nth. apply p_pmf. Qed.
Lemma piecewise_expectation (g G : R -> R) v : (forall x, is_derive G x (g x)) -> (forall x, continuous g x) ->
  sumf (fun k => nth k p 0 / C * (G (edge a b K (S k)) - G (edge a b K k))) (seq 0 K) = v ->
  expectation (piecewise_density p a b) g v.
Proof. intros DG Cg <-. apply (piecewise_integral g G (fun y => y)); auto. Qed.

(** *** the inverse cdf *)
Definition cuF (x : R) : R := sumf (fun k => nth k p 0 / C * ramp (edge a b K k) (edge a b K (S k)) x) (seq 0 K).
Lemma cuF_integral u x : u <= a -> u <= x -> is_RInt (piecewise_density p a b) u x (cuF x).
Proof.
  intros Hu Hx. unfold cuF.
  apply (is_RInt_ext (fun x => sumf (fun k => nth k p 0 / C * bin (edge a b K k) (edge a b K (S k)) x) (seq 0 K))).
  { intros t _. rewrite piecewise_bins. reflexivity. }
  apply (is_RInt_sumf (fun k => nth k p 0 / C) (fun k => bin (edge a b K k) (edge a b K (S k)))).
  intros k Hk. apply bin_cdf; [apply edge_lt| |auto]. pose proof (edge_mono 0 k ltac:(lia)) as E. rewrite edge_C in E. cbn in E. lra.
Qed.
Lemma mass_before_sum k : (k <= K)%nat -> mass_before p k = sumf (fun j => nth j p 0) (seq 0 k).
Proof. intros H. unfold mass_before. apply rsum_firstn. rewrite p_length. exact H. Qed.
Lemma mass_before_S k : (k < K)%nat -> mass_before p (S k) = mass_before p k + nth k p 0.
Proof. intros H. rewrite !mass_before_sum, seq_S, sumf_app by lia. unfold sumf at 2. cbn. ring. Qed.
(** sums split at bin k *)
Lemma sum_split k (f : nat -> R) (fin : R) : (k < K)%nat -> f k = fin ->
  (forall j, (k < j < K)%nat -> f j = 0) -> sumf f (seq 0 K) = sumf f (seq 0 k) + fin.
Proof.
  intros Hk Ef Hz. assert (EK : seq 0 K = (seq 0 k ++ k :: seq (S k) (K - S k))%list).
  { replace K with (k + S (K - S k))%nat at 1 by lia. rewrite seq_app. reflexivity. }
  rewrite EK, sumf_app, sumf_cons, Ef. f_equal.
  rewrite sumf_zero; [ring|]. intros j Hj. apply in_seq in Hj. apply Hz. lia.
Qed.
Lemma cuF_in k x : (k < K)%nat -> edge a b K k <= x <= edge a b K (S k) ->
  cuF x = mass_before p k + nth k p 0 * ((x - edge a b K k) / C).
Proof.
  intros Hk Hx. unfold cuF. pose proof C_pos as HC.
  rewrite (sum_split k _ (nth k p 0 * ((x - edge a b K k) / C)) Hk).
  - f_equal. rewrite mass_before_sum by lia. apply sumf_ext. intros j Hj. apply in_seq in Hj.
    assert (E : ramp (edge a b K j) (edge a b K (S j)) x = C); [|rewrite E; field; lra].
    pose proof (edge_mono (S j) k ltac:(lia)). rewrite edge_S in *. unfold ramp. rewrite Rmin_right by lra. rewrite Rmax_right by lra. ring.
  - assert (E : ramp (edge a b K k) (edge a b K (S k)) x = x - edge a b K k); [|rewrite E; field; lra].
    unfold ramp. rewrite Rmin_left by lra. apply Rmax_right. lra.
  - intros j Hj. assert (E : ramp (edge a b K j) (edge a b K (S j)) x = 0); [|rewrite E; ring].
    pose proof (edge_mono (S k) j ltac:(lia)). unfold ramp. apply Rmax_left. apply Rle_trans with (x - edge a b K j); [apply Rmin_l|lra].
Qed.
Lemma quantile_limits : Fin 0 :: cumsum (softmax l) = map (fun k => Fin (mass_before p k)) (seq 0 (S K)).
Proof.
  assert (E : softmax l = map Fin p).
  { rewrite softmax_legal by auto. unfold p, normalised. rewrite !map_map. reflexivity. }
  rewrite E. cbn [seq map]. f_equal. unfold cumsum. rewrite <- seq_shift, map_map.
  apply (list_as_seq _ (Fin 0)); [rewrite cumsum_from_length, map_length; apply p_length|]. intros k Hk.
  rewrite cumsum_from_nth by (rewrite p_length; auto). unfold mass_before. f_equal. ring.
Qed.
Lemma xmin_fin x y : xmin (Fin x) (Fin y) = Fin (Rmin x y).
Proof. unfold xmin. cbn. unfold Rmin. destruct (Rlt_dec y x), (Rle_dec x y); try lra; f_equal; lra. Qed.
Lemma xmax_fin x y : xmax (Fin x) (Fin y) = Fin (Rmax x y).
Proof. unfold xmax. cbn. unfold Rmax. destruct (Rlt_dec x y), (Rle_dec x y); try lra; f_equal; lra. Qed.
Lemma inverse_cdf_eq q : (forall k, (k < K)%nat -> 0 < nth k p 0) ->
  cu_inverse_cdf c (Fin q) = Fin (a + sumf (fun k => C / nth k p 0 * Rmin (nth k p 0) (Rmax (q - mass_before p k) 0)) (seq 0 K)).
Proof.
  intros Hp. unfold cu_inverse_cdf. change (cu_logits c) with l. rewrite quantile_limits, limits_eq.
  rewrite !xdiff_seq, removelast_seq, map_map, !map2_seq. cbn [cu_low c].
  rewrite (xsum_ext _ (fun k => Fin (C / nth k p 0 * Rmin (nth k p 0) (Rmax (q - mass_before p k) 0)))).
  - rewrite xsum_map_fin. reflexivity.
  - intros k Hk. cbn [xsub xadd xopp]. specialize (Hp k Hk).
    replace (mass_before p (S k) + - mass_before p k) with (nth k p 0) by (rewrite mass_before_S by auto; ring).
    replace (edge a b K (S k) + - edge a b K k) with C by (rewrite edge_S; ring).
    rewrite xdiv_fin by lra. unfold relu. rewrite xmax_fin, xmin_fin. reflexivity.
Qed.
Lemma inverse_in q k : (forall k, (k < K)%nat -> 0 < nth k p 0) -> (k < K)%nat -> mass_before p k <= q < mass_before p (S k) ->
  cu_inverse_cdf c (Fin q) = Fin (edge a b K k + C * ((q - mass_before p k) / nth k p 0)).
Proof.
  intros Hp Hk Hq. rewrite inverse_cdf_eq by auto. f_equal.
  assert (MM : forall i j, (i <= j)%nat -> (j <= K)%nat -> mass_before p i <= mass_before p j).
  { intros i j Hij HjK. induction Hij as [|j Hij IH]; [lra|]. rewrite mass_before_S by lia. specialize (Hp j ltac:(lia)). specialize (IH ltac:(lia)). lra. }
  rewrite (sum_split k _ (C * ((q - mass_before p k) / nth k p 0)) Hk).
  - rewrite <- Rplus_assoc. f_equal. rewrite edge_C. f_equal.
    rewrite (sumf_ext _ (fun _ => C)); [rewrite sumf_const, seq_length; reflexivity|].
    intros j Hj. apply in_seq in Hj. specialize (Hp j ltac:(lia)). pose proof (MM (S j) k ltac:(lia) ltac:(lia)) as M. rewrite mass_before_S in M by lia.
    rewrite Rmin_left by (apply Rle_trans with (q - mass_before p j); [lra|apply Rmax_l]). field. lra.
  - pose proof (Hp k Hk). rewrite mass_before_S in Hq by auto. rewrite Rmax_left by lra. rewrite Rmin_right by lra. field. lra.
  - intros j Hj. specialize (Hp j ltac:(lia)). pose proof (MM (S k) j ltac:(lia) ltac:(lia)). rewrite Rmax_right by lra. rewrite Rmin_right by lra. ring.
Qed.
Lemma find_bin q : 0 <= q < 1 -> exists k, (k < K)%nat /\ mass_before p k <= q < mass_before p (S k).
Proof.
  intros Hq. assert (H : forall n, (n <= K)%nat -> q < mass_before p n -> exists k, (k < n)%nat /\ mass_before p k <= q < mass_before p (S k)).
  { induction n as [|n IH]; intros Hn HL; [unfold mass_before in HL; cbn in HL; lra|].
    destruct (Rlt_dec q (mass_before p n)); [destruct IH as (k & Hk & B); [lia|auto|exists k; split; [lia|auto]]|]. exists n. split; [lia|lra]. }
  apply (H K (Nat.le_refl K)). rewrite mass_before_sum, sum_p by lia. lra.
Qed.
End CU.
