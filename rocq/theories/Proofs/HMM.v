(** Lemmas behind Props/HMM.v: path sums, the messages as real recursions *)
From Coq Require Import Reals List Arith Bool ZArith Lia Lra.
From Verif Require Import Base.Result Base.XR Base.Sums Model.MathUtils Model.Categorical Model.HMM
  Spec.Categorical Spec.HMM Proofs.MathUtils.
Import ListNotations.
Local Open Scope R_scope.

(** ** sums over paths *)
Lemma paths_app N m n (f : list nat -> R) :
  sumf f (paths N (m + n)) = sumf (fun p => sumf (fun q => f (p ++ q)) (paths N n)) (paths N m).
Proof.
  revert f; induction m as [|m IH]; intros f.
  - cbn [Nat.add paths]. rewrite sumf_cons, sumf_nil, Rplus_0_r. reflexivity.
  - cbn [Nat.add paths]. rewrite !sumf_flat_map. apply sumf_ext; intros s _.
    rewrite !sumf_map, IH. apply sumf_ext; intros p _. reflexivity.
Qed.
Lemma in_paths N T p : In p (paths N T) <-> length p = T /\ forall s, In s p -> (s < N)%nat.
Proof.
  revert p; induction T as [|T IH]; intros p; cbn [paths].
  - split; [intros [<-|[]]; split; [auto|intros s []]|intros [H _]; destruct p; [left; auto|discriminate]].
  - rewrite in_flat_map. split.
    + intros [s [Hs Hp]]. apply in_map_iff in Hp as [q [<- Hq]]. apply IH in Hq as [Hl Hq]. apply in_seq in Hs.
      split; [cbn; auto|]. intros s' [<-|H]; [lia|auto].
    + intros [Hl H]. destruct p as [|s p]; [discriminate|]. exists s. split; [apply in_seq; split; [lia|apply H; left; auto]|].
      apply in_map_iff. exists p. split; auto. apply IH. split; [cbn in Hl; lia|intros; apply H; right; auto].
Qed.
Lemma paths_1 N (f : list nat -> R) : sumf f (paths N 1) = sumf (fun s => f [s]) (seq 0 N).
Proof. cbn [paths]. rewrite sumf_flat_map. apply sumf_ext; intros s _. cbn [map]. rewrite sumf_cons, sumf_nil. ring. Qed.
Lemma paths_S N T (f : list nat -> R) : sumf f (paths N (S T)) = sumf (fun s => sumf (fun p => f (s :: p)) (paths N T)) (seq 0 N).
Proof. cbn [paths]. rewrite sumf_flat_map. apply sumf_ext; intros s _. apply sumf_map. Qed.
Lemma paths_snoc N T (f : list nat -> R) : sumf f (paths N (S T)) = sumf (fun p => sumf (fun s => f (p ++ [s])) (seq 0 N)) (paths N T).
Proof. replace (S T) with (T + 1)%nat by lia. rewrite paths_app. apply sumf_ext; intros p _. apply paths_1. Qed.
Lemma sumf_if_eq N (g : nat -> R) k : (k < N)%nat -> sumf (fun s => if Nat.eqb s k then g s else 0) (seq 0 N) = g k.
Proof.
  intros H. rewrite (sumf_seq_single _ N k H); [rewrite Nat.eqb_refl; auto|].
  intros i _ Hi. destruct (Nat.eqb_spec i k); [contradiction|auto].
Qed.

Section HMM.
Context {E : Type}.
Variables (pi : list R) (A : list (list R)) (b : E -> list R).
Hypothesis Hst : stochastic pi A b.
Notation N := (length pi).
Notation st := (start pi).
Notation tr := (step A).
Notation em := (emit b).
Notation cont := (continue_prob A b).
Notation pp := (path_prob pi A b).
Notation lik := (likelihood pi A b).
Notation sj := (state_joint pi A b).

Lemma start_nonneg s : 0 <= st s.
Proof.
  unfold start. destruct (lt_dec s N); [apply (proj1 Hst), nth_In; auto|rewrite nth_overflow by lia; lra].
Qed.
Lemma step_nonneg s s' : 0 <= tr s s'.
Proof.
  unfold step. destruct Hst as [_ [HA [Hrow _]]]. destruct (lt_dec s (length A)) as [H|H].
  - destruct (Hrow (nth s A []) (nth_In _ _ H)) as [[Hp _] Hl].
    destruct (lt_dec s' (length (nth s A []))); [apply Hp, nth_In; auto|rewrite nth_overflow by lia; lra].
  - rewrite (nth_overflow A) by lia. destruct s'; cbn; lra.
Qed.
Lemma emit_nonneg s x : 0 <= em s x.
Proof.
  unfold emit. destruct Hst as [_ [_ [_ Hb]]]. destruct (Hb x) as [Hl Hp].
  destruct (lt_dec s (length (b x))); [apply Hp, nth_In; auto|rewrite nth_overflow by lia; lra].
Qed.
Lemma step_sum s : (s < N)%nat -> sumf (tr s) (seq 0 N) = 1.
Proof.
  intros H. destruct Hst as [_ [HA [Hrow _]]]. rewrite <- HA in H.
  destruct (Hrow _ (nth_In A [] H)) as [[_ Hs] Hl]. rewrite <- Hs, <- Hl. apply sumf_nth.
Qed.
Lemma cont_nonneg p : forall s o, 0 <= cont s p o.
Proof.
  induction p as [|s' p IH]; intros s [|x o]; cbn; try lra.
  repeat apply Rmult_le_pos; auto using step_nonneg, emit_nonneg.
Qed.
Lemma pp_nonneg o p : 0 <= pp o p.
Proof.
  destruct p, o; cbn; try lra. repeat apply Rmult_le_pos; auto using start_nonneg, emit_nonneg, cont_nonneg.
Qed.
Lemma sj_nonneg o t j : 0 <= sj o t j.
Proof. apply sumf_nonneg; intros p _. destruct (Nat.eqb _ _); [apply pp_nonneg|lra]. Qed.
Lemma lik_nonneg o : 0 <= lik o.
Proof. apply sumf_nonneg; intros; apply pp_nonneg. Qed.

(** splitting the product along a path *)
Lemma cont_app p : forall q o1 o2 s, length p = length o1 ->
  cont s (p ++ q) (o1 ++ o2) = cont s p o1 * cont (last p s) q o2.
Proof.
  induction p as [|s' p IH]; intros q [|x o1] o2 s H; try discriminate; cbn [app continue_prob].
  - cbn. lra.
  - rewrite IH by (cbn in H; lia). replace (last (s' :: p) s) with (last p s').
    + ring.
    + destruct p; [auto|]. change (last (s' :: n :: p) s) with (last (n :: p) s).
      clear. revert n; induction p as [|m p IH]; intros n; [auto|]. cbn in *. apply IH.
Qed.
Lemma pp_app p q o1 o2 : length p = length o1 -> p <> [] -> pp (o1 ++ o2) (p ++ q) = pp o1 p * cont (last p O) q o2.
Proof.
  destruct p as [|s p], o1 as [|x o1]; try discriminate; intros H Hn; [contradiction|].
  cbn [app path_prob]. rewrite cont_app by (cbn in H; lia). replace (last (s :: p) O) with (last p s); [ring|].
  destruct p; [auto|]. change (last (s :: n :: p) O) with (last (n :: p) O).
  clear. revert n; induction p as [|m p IH]; intros n; [auto|]. cbn in *. apply IH.
Qed.
Lemma last_nth (p : list nat) t d d' : length p = S t -> last p d = nth t p d'.
Proof.
  revert p; induction t as [|t IH]; intros [|a [|c p]] H; try discriminate; auto.
  change (last (a :: c :: p) d) with (last (c :: p) d). rewrite IH by (cbn in *; lia). reflexivity.
Qed.

(** ** the forward recursion of the specification *)
Section Obs.
Variables (x0 : E) (obs : list E).
Notation T := (length obs).
Notation at_ t := (nth t obs x0).
Definition SJ (t j : nat) : R := sj (firstn (S t) obs) t j.
Definition Lt (t : nat) : R := lik (firstn t obs).
Definition Fu := future pi A b obs.

Lemma firstn_snoc t : (t < T)%nat -> firstn (S t) obs = firstn t obs ++ [at_ t].
Proof.
  revert t. induction obs as [|x o IH]; intros [|t] H; cbn in *; try lia; auto.
  rewrite <- IH by lia. reflexivity.
Qed.
Lemma Lt_0 : Lt 0 = 1.
Proof. unfold Lt, likelihood; cbn. unfold sumf; cbn. lra. Qed.
(** P(obs, z_t = j) = P(obs up to t, z_t = j) P(later obs | z_t = j) *)
Lemma sj_split t j : (t < T)%nat -> (j < N)%nat -> sj obs t j = SJ t j * Fu t j.
Proof.
  intros Ht Hj. unfold SJ, Fu, future, state_joint.
  rewrite firstn_length_le by lia.
  replace (paths N T) with (paths N (S t + (T - S t))) by (f_equal; lia).
  rewrite paths_app, <- sumf_scal_r. apply sumf_ext; intros p Hp. apply in_paths in Hp as [Hl Hp].
  destruct (Nat.eqb_spec (nth t p N) j) as [He|He].
  - rewrite <- sumf_scal. apply sumf_ext; intros q _.
    rewrite app_nth1 by lia. rewrite He, Nat.eqb_refl.
    replace (pp obs (p ++ q)) with (pp (firstn (S t) obs ++ skipn (S t) obs) (p ++ q)) by (rewrite firstn_skipn; auto).
    rewrite pp_app; [|rewrite firstn_length_le; lia|destruct p; [discriminate|discriminate]].
    rewrite (last_nth p t O N Hl), He. reflexivity.
  - rewrite Rmult_0_l. apply sumf_zero. intros q _. rewrite app_nth1 by lia.
    destruct (Nat.eqb_spec (nth t p N) j); [contradiction|auto].
Qed.
Lemma sj_total o t : (t < length o)%nat -> sumf (sj o t) (seq 0 N) = lik o.
Proof.
  intros Ht. unfold state_joint, likelihood.
  rewrite (sumf_swap (fun j p => if Nat.eqb (nth t p N) j then pp o p else 0)).
  apply sumf_ext; intros p Hp. apply in_paths in Hp as [Hl Hp].
  rewrite (sumf_ext _ (fun j => if Nat.eqb j (nth t p N) then pp o p else 0)).
  - apply (sumf_if_eq N (fun _ => pp o p)). apply Hp, nth_In; lia.
  - intros j _. rewrite Nat.eqb_sym. reflexivity.
Qed.
Lemma SJ_total t : (t < T)%nat -> sumf (SJ t) (seq 0 N) = Lt (S t).
Proof. intros H. apply sj_total. rewrite firstn_length_le; lia. Qed.
Lemma SJ_0 j : (0 < T)%nat -> (j < N)%nat -> SJ 0 j = st j * em j (at_ 0).
Proof.
  intros H Hj. unfold SJ. destruct obs as [|x o]; [cbn in H; lia|]. cbn [firstn].
  unfold state_joint. cbn [length]. rewrite paths_1. cbn [nth].
  rewrite (sumf_ext _ (fun s => if Nat.eqb s j then st s * em s x else 0)).
  - apply (sumf_if_eq N (fun s => st s * em s x)); auto.
  - intros s _. destruct (Nat.eqb s j); cbn; lra.
Qed.
Lemma SJ_S t j : (S t < T)%nat -> (j < N)%nat ->
  SJ (S t) j = em j (at_ (S t)) * sumf (fun i => SJ t i * tr i j) (seq 0 N).
Proof.
  intros H Hj. unfold SJ. rewrite (firstn_snoc (S t)) by auto.
  set (o := firstn (S t) obs). assert (Hl : length o = S t) by (apply firstn_length_le; lia).
  unfold state_joint. rewrite app_length, Hl. cbn [length]. replace (S t + 1)%nat with (S (S t)) by lia.
  rewrite paths_snoc.
  rewrite (sumf_ext _ (fun p => em j (at_ (S t)) * (pp o p * tr (last p O) j))).
  - rewrite sumf_scal. f_equal.
    rewrite (sumf_ext _ (fun i => sumf (fun p => if Nat.eqb (nth t p N) i then pp o p * tr i j else 0) (paths N (S t)))).
    + rewrite (sumf_swap (fun i p => if Nat.eqb (nth t p N) i then pp o p * tr i j else 0)).
      apply sumf_ext; intros p Hp. apply in_paths in Hp as [Hlp Hp].
      rewrite (sumf_ext _ (fun i => if Nat.eqb i (nth t p N) then pp o p * tr i j else 0)).
      * rewrite (sumf_if_eq N (fun i => pp o p * tr i j)); [|apply Hp, nth_In; lia].
        rewrite (last_nth p t O N Hlp). reflexivity.
      * intros i _. rewrite Nat.eqb_sym. reflexivity.
    + intros i _. rewrite <- sumf_scal_r. apply sumf_ext; intros p _. destruct (Nat.eqb _ _); lra.
  - intros p Hp. apply in_paths in Hp as [Hlp Hp].
    rewrite (sumf_ext _ (fun s => if Nat.eqb s j then pp o p * (tr (last p O) s * em s (at_ (S t))) else 0)).
    + rewrite (sumf_if_eq N (fun s => pp o p * (tr (last p O) s * em s (at_ (S t))))) by auto. ring.
    + intros s _. rewrite app_nth2 by lia. rewrite Hlp, Nat.sub_diag. cbn [nth].
      destruct (Nat.eqb s j); [|auto]. rewrite pp_app; [|congruence|destruct p; discriminate]. cbn. ring.
Qed.
Lemma Lt_zero_next t : (t < T)%nat -> Lt t = 0 -> Lt (S t) = 0.
Proof.
  intros Ht H. destruct t as [|t]; [rewrite Lt_0 in H; lra|].
  assert (Hz : forall i, (i < N)%nat -> SJ t i = 0).
  { intros i Hi. rewrite <- (SJ_total t) in H by lia.
    apply (sumf_nonneg_zero _ (seq 0 N)); [intros; apply sj_nonneg|auto|apply in_seq; lia]. }
  rewrite <- SJ_total by auto. apply sumf_zero. intros j Hj. apply in_seq in Hj.
  rewrite SJ_S by (auto; lia). rewrite sumf_zero; [ring|]. intros i Hi. apply in_seq in Hi. rewrite Hz by lia. ring.
Qed.
Lemma Lt_pos_prefix t m : (m <= T)%nat -> (t <= m)%nat -> 0 < Lt m -> 0 < Lt t.
Proof.
  intros Hm Ht H. induction m as [|m IH].
  - replace t with O by lia. auto.
  - destruct (Nat.eq_dec t (S m)) as [-> |]; [auto|]. apply IH; try lia.
    destruct (Req_dec (Lt m) 0) as [E0|]; [rewrite Lt_zero_next in H by (auto; lia); lra|].
    pose proof (lik_nonneg (firstn m obs)). unfold Lt in *. lra.
Qed.
(** ** the backward recursion *)
Lemma skipn_cons t : (t < T)%nat -> skipn t obs = at_ t :: skipn (S t) obs.
Proof.
  revert t. induction obs as [|x o IH]; intros [|t] H; cbn in *; try lia; auto. apply IH; lia.
Qed.
Lemma Fu_last i : (0 < T)%nat -> Fu (T - 1) i = 1.
Proof.
  intros H. unfold Fu, future. replace (T - S (T - 1))%nat with O by lia. cbn [paths].
  unfold sumf; cbn. lra.
Qed.
Lemma Fu_S t i : (S t < T)%nat -> Fu t i = sumf (fun j => tr i j * em j (at_ (S t)) * Fu (S t) j) (seq 0 N).
Proof.
  intros H. unfold Fu, future. replace (T - S t)%nat with (S (T - S (S t))) by lia.
  rewrite paths_S, (skipn_cons (S t)) by auto. apply sumf_ext; intros j _.
  rewrite <- sumf_scal. apply sumf_ext; intros p _. reflexivity.
Qed.
Lemma Fu_nonneg t i : 0 <= Fu t i.
Proof. apply sumf_nonneg; intros; apply cont_nonneg. Qed.

(** ** the messages computed by the code, as real recursions *)
Definition clip (x : R) : R := if Req_EM_T x 0 then 0 else if Rlt_dec x hmm_eps then hmm_eps else x.
Definition tot (u : nat -> R) : R :=
  if Req_EM_T (sumf (fun j => clip (u j)) (seq 0 N)) 0 then 1 else sumf (fun j => clip (u j)) (seq 0 N).
Definition norm (u : nat -> R) (j : nat) : R := clip (u j) / tot u.
Definition xvec (f : nat -> R) : list XR := map (fun j => Fin (f j)) (seq 0 N).

Lemma eps_pos : 0 < hmm_eps.
Proof. apply Rinv_0_lt_compat, pow_lt. lra. Qed.
Lemma clip_0 : clip 0 = 0.
Proof. unfold clip. destruct (Req_EM_T 0 0); lra. Qed.
Lemma clip_res x : resolvable hmm_eps x -> clip x = x.
Proof.
  unfold clip. intros H. destruct (Req_EM_T x 0); [lra|]. destruct (Rlt_dec x hmm_eps); [|auto]. destruct H; lra.
Qed.
Lemma clip_ge x : 0 <= x -> x <= clip x.
Proof. intros H. unfold clip. destruct (Req_EM_T x 0); [lra|]. destruct (Rlt_dec x hmm_eps); lra. Qed.
Lemma clip_le x : 0 <= x -> clip x <= x + hmm_eps.
Proof. pose proof eps_pos. intros H0. unfold clip. destruct (Req_EM_T x 0); [lra|]. destruct (Rlt_dec x hmm_eps); lra. Qed.
Lemma clip_nonneg x : 0 <= x -> 0 <= clip x.
Proof. intros H. pose proof (clip_ge x H). lra. Qed.
Lemma clip_zero x : 0 <= x -> clip x = 0 -> x = 0.
Proof. intros H H0. pose proof (clip_ge x H). lra. Qed.
Lemma tot_pos u : (forall j, (j < N)%nat -> 0 <= u j) -> 0 < tot u.
Proof.
  intros H. unfold tot. destruct (Req_EM_T _ 0); [lra|].
  assert (0 <= sumf (fun j => clip (u j)) (seq 0 N)); [|lra].
  apply sumf_nonneg. intros j Hj. apply in_seq in Hj. apply clip_nonneg, H; lia.
Qed.
Lemma tot_ext u v : (forall j, (j < N)%nat -> u j = v j) -> tot u = tot v.
Proof.
  intros H. unfold tot. rewrite (sumf_ext _ (fun j => clip (v j))); [auto|].
  intros j Hj. apply in_seq in Hj. rewrite H by lia. auto.
Qed.
Lemma xvec_ext f g : (forall j, (j < N)%nat -> f j = g j) -> xvec f = xvec g.
Proof. intros H. apply map_ext_in. intros j Hj. apply in_seq in Hj. rewrite H by lia; auto. Qed.
Lemma xvec_len f : length (xvec f) = N.
Proof. unfold xvec. rewrite map_length, seq_length. auto. Qed.
Lemma normalize_xvec u : hmm_normalize (xvec u) = (xvec (norm u), Fin (tot u)).
Proof.
  unfold hmm_normalize, xvec.
  assert (E1 : map (fun x => if xeqb x (Fin 0) then Fin 0
       else if xltb x (Fin hmm_eps) then Fin hmm_eps else x) (map (fun j => Fin (u j)) (seq 0 N)) =
       map (fun j => Fin (clip (u j))) (seq 0 N)).
  { rewrite map_map. apply map_ext. intros j. cbn. unfold clip. destruct (Req_EM_T (u j) 0); [auto|]. destruct (Rlt_dec (u j) hmm_eps); auto. }
  cbv zeta. rewrite E1, xsum_map_fin. cbn [xeqb].
  assert (E2 : (if (if Req_EM_T (sumf (fun j => clip (u j)) (seq 0 N)) 0 then true else false) then Fin 1
     else Fin (sumf (fun j => clip (u j)) (seq 0 N))) = Fin (tot u)).
  { unfold tot. destruct (Req_EM_T _ 0); auto. }
  rewrite E2. f_equal.
  - rewrite map_map. apply map_ext. intros j. unfold norm. cbn [xdiv].
    assert (tot u <> 0). { unfold tot. destruct (Req_EM_T _ 0); auto; lra. }
    destruct (Req_EM_T (tot u) 0); [contradiction|auto].
Qed.
Lemma norm_nonneg u j : (forall j, (j < N)%nat -> 0 <= u j) -> (j < N)%nat -> 0 <= norm u j.
Proof.
  intros H Hj. unfold norm. apply Rdiv_nonneg; [apply clip_nonneg; auto|apply tot_pos; auto].
Qed.
Lemma map2_seq {B} (f : XR -> XR -> B) (g k : nat -> XR) l : map2 f (map g l) (map k l) = map (fun j => f (g j) (k j)) l.
Proof. induction l; cbn; congruence. Qed.
Lemma list_tab (l : list R) n : length l = n -> l = map (fun j => nth j l 0) (seq 0 n).
Proof.
  intros <-. symmetry. apply (nth_ext _ _ 0 0); [rewrite map_length, seq_length; auto|].
  intros i Hi. rewrite map_length, seq_length in Hi.
  rewrite (nth_indep _ _ (nth O l 0)) by (rewrite map_length, seq_length; auto).
  rewrite (map_nth (fun j => nth j l 0)), seq_nth by auto. reflexivity.
Qed.
Lemma xvec_pi : map Fin pi = xvec st.
Proof. rewrite (list_tab pi N eq_refl) at 1. rewrite map_map. reflexivity. Qed.
Lemma xvec_b x : map Fin (b x) = xvec (fun j => em j x).
Proof. rewrite (list_tab (b x) N) at 1; [rewrite map_map; reflexivity|]. apply Hst. Qed.
Lemma rows_A : map (map Fin) A = map (fun i => xvec (tr i)) (seq 0 N).
Proof.
  destruct Hst as [_ [HA [Hrow _]]]. rewrite <- HA.
  apply (nth_ext _ _ [] []); [rewrite !map_length, seq_length; auto|].
  intros i Hi. rewrite map_length in Hi.
  change (@nil XR) with (map Fin []) at 1. rewrite map_nth.
  rewrite (nth_indep _ [] (xvec (tr O))) by (rewrite map_length, seq_length; auto).
  rewrite (map_nth (fun i => xvec (tr i))), seq_nth by auto. cbn [Nat.add].
  destruct (Hrow _ (nth_In A [] Hi)) as [_ Hl]. rewrite (list_tab (nth i A []) N Hl) at 1.
  rewrite map_map. reflexivity.
Qed.

Variable L : Z.
Fixpoint alpha (t : nat) : nat -> R :=
  match t with
  | O => norm (fun j => st j * em j (at_ 0))
  | S t' => norm (fun j => if (Z.of_nat (S t') <? L)%Z
                           then em j (at_ (S t')) * sumf (fun i => alpha t' i * tr i j) (seq 0 N) else 0)
  end.
Definition msg (t j : nat) : R :=
  match t with
  | O => st j * em j (at_ 0)
  | S t' => if (Z.of_nat (S t') <? L)%Z
            then em j (at_ (S t')) * sumf (fun i => alpha t' i * tr i j) (seq 0 N) else 0
  end.
Lemma alpha_norm t : alpha t = norm (msg t).
Proof. destruct t; reflexivity. Qed.
Lemma msg_alpha_nonneg t : forall j, (j < N)%nat -> 0 <= msg t j /\ 0 <= alpha t j.
Proof.
  induction t as [|t IH]; intros j Hj.
  - assert (H : forall k, (k < N)%nat -> 0 <= msg 0 k).
    { intros k _. apply Rmult_le_pos; auto using start_nonneg, emit_nonneg. }
    split; [auto|]. rewrite alpha_norm. apply norm_nonneg; auto.
  - assert (H : forall k, (k < N)%nat -> 0 <= msg (S t) k).
    { intros k _. unfold msg. destruct (_ <? _)%Z; [|lra]. apply Rmult_le_pos; [apply emit_nonneg|].
      apply sumf_nonneg. intros i Hi. apply in_seq in Hi. apply Rmult_le_pos; [apply IH; lia|apply step_nonneg]. }
    split; [auto|]. rewrite alpha_norm. apply norm_nonneg; auto.
Qed.
Lemma tot_msg_pos t : 0 < tot (msg t).
Proof. apply tot_pos. intros. apply msg_alpha_nonneg; auto. Qed.

Lemma scan_seq {C Y} (f : C -> nat -> C * Y) (g : nat -> C) (y : nat -> Y) n : forall s,
  (forall t, (s <= t < s + n)%nat -> f (g t) (S t) = (g (S t), y (S t))) ->
  scan f (g s) (seq (S s) n) = (g (s + n)%nat, map y (seq (S s) n)).
Proof.
  induction n as [|n IH]; intros s H; cbn [seq scan map].
  - rewrite Nat.add_0_r. auto.
  - rewrite H by lia. rewrite IH by (intros; apply H; lia). f_equal. f_equal. lia.
Qed.
Lemma sum_axis0_rows (a : nat -> R) : sum_axis0 N (map2 (fun a row => map (xmul a) row) (xvec a) (map (map Fin) A)) =
  xvec (fun j => sumf (fun i => a i * tr i j) (seq 0 N)).
Proof.
  rewrite rows_A. unfold xvec at 1. unfold sum_axis0.
  assert (E0 : forall l, map2 (fun a row => map (xmul a) row) (map (fun j => Fin (a j)) l) (map (fun i => xvec (tr i)) l) =
    map (fun i => xvec (fun j => a i * tr i j)) l).
  { induction l as [|i l IH]; cbn; [auto|]. f_equal; [|auto]. unfold xvec. rewrite map_map. reflexivity. }
  rewrite E0. unfold xvec at 2. apply map_ext_in. intros j Hj. apply in_seq in Hj. rewrite map_map, <- xsum_map_fin.
  f_equal. apply map_ext. intros i. unfold xvec.
  rewrite (nth_indep _ NaN (Fin (a i * tr i O))) by (rewrite map_length, seq_length; lia).
  rewrite (map_nth (fun j => Fin (a i * tr i j))), seq_nth by lia. reflexivity.
Qed.
Lemma sum_axis1_rows (v : nat -> R) : sum_axis1 (map (map2 xmul (xvec v)) (map (map Fin) A)) =
  xvec (fun i => sumf (fun j => v j * tr i j) (seq 0 N)).
Proof.
  rewrite rows_A. unfold sum_axis1, xvec at 2. rewrite !map_map. apply map_ext. intros i.
  unfold xvec. rewrite map2_seq. cbn [xmul]. apply xsum_map_fin.
Qed.
Lemma ln_tot_sum n : xadd (xlog (Fin (tot (msg n)))) (Fin (sumf (fun t => ln (tot (msg t))) (seq 0 n))) =
  Fin (sumf (fun t => ln (tot (msg t))) (seq 0 (S n))).
Proof.
  cbn [xlog]. rewrite rlog_pos by apply tot_msg_pos. cbn [xadd]. f_equal.
  rewrite seq_S, sumf_app, sumf_cons, sumf_nil. cbn. lra.
Qed.

Lemma forward_real (h : hmm E) : describes h pi A b -> obs <> [] ->
  forward h obs (Some L) =
  Ok (Fin (sumf (fun t => ln (tot (msg t))) (seq 0 T)), map (fun t => xvec (alpha t)) (seq 0 T)).
Proof.
  intros (Hn & Hip & Hil & Htp & Htl & Hop & Hol & _) Hne. unfold forward.
  destruct obs as [|x o] eqn:Eo; [contradiction|]. rewrite <- Eo in *.
  rewrite Hip, Hop, Hn, Htp, xvec_pi, xvec_b. unfold xvec at 1 2. rewrite map2_seq. cbn [xmul].
  assert (Ex : x = at_ 0) by (rewrite Eo; reflexivity).
  change (map (fun j => Fin (st j * em j x)) (seq 0 N)) with (xvec (fun j => st j * em j x)).
  rewrite normalize_xvec. rewrite (xvec_ext (norm (fun j => st j * em j x)) (alpha 0)); [|rewrite Ex; reflexivity].
  replace (xlog (Fin (tot (fun j => st j * em j x)))) with (Fin (sumf (fun t => ln (tot (msg t))) (seq 0 1))).
  2:{ cbn [xlog]. replace (tot (fun j => st j * em j x)) with (tot (msg 0)) by (rewrite Ex; reflexivity).
      rewrite rlog_pos by apply tot_msg_pos. f_equal. cbn. unfold sumf; cbn. lra. }
  match goal with |- context [scan ?f _ _] =>
    pose proof (scan_seq f (fun t => (xvec (alpha t), Fin (sumf (fun t => ln (tot (msg t))) (seq 0 (S t)))))
      (fun t => xvec (alpha t)) (T - 1) 0) as Hs end.
  cbv beta in Hs. rewrite Hs.
  - assert (T = S (T - 1)) as HT by (rewrite Eo; cbn; lia). cbn [Nat.add]. rewrite <- HT.
    f_equal. f_equal. rewrite HT at 2. reflexivity.
  - intros t Ht.
    assert (Em : (if (Z.of_nat (S t) <? L)%Z
      then map2 xmul (ob_prob (h_obs h) (nth (S t) obs x))
        (sum_axis0 N (map2 (fun a row => map (xmul a) row) (xvec (alpha t)) (map (map Fin) A)))
      else map (fun _ => Fin 0) (xvec (alpha t))) = xvec (msg (S t))).
    { rewrite sum_axis0_rows, Hop, xvec_b. unfold msg.
      destruct (_ <? _)%Z eqn:El.
      - unfold xvec. rewrite map2_seq. cbn [xmul]. apply map_ext. intros j.
        replace (nth (S t) obs x) with (at_ (S t)); [auto|]. apply nth_indep. lia.
      - unfold xvec. rewrite map_map. auto. }
    rewrite Em, normalize_xvec, ln_tot_sum. rewrite alpha_norm. reflexivity.
Qed.

(** exactness when nothing is clipped *)
Lemma alpha_exact m : (Z.of_nat m <= L)%Z -> (m <= T)%nat -> 0 < Lt m ->
  (forall t j, (t < m)%nat -> (j < N)%nat -> resolvable hmm_eps (SJ t j / Lt t)) ->
  forall t, (t < m)%nat -> (forall j, (j < N)%nat -> alpha t j = SJ t j / Lt (S t)) /\ tot (msg t) = Lt (S t) / Lt t.
Proof.
  intros HL Hm Hpos Hres. induction t as [|t IH]; intros Ht.
  - assert (Hmsg : forall j, (j < N)%nat -> msg 0 j = SJ 0 j / Lt 0).
    { intros j Hj. rewrite Lt_0, SJ_0 by (auto; lia). cbn. field. }
    assert (Hp1 : 0 < Lt 1) by (apply (Lt_pos_prefix 1 m); auto; lia).
    assert (Hsum : sumf (fun j => clip (msg 0 j)) (seq 0 N) = Lt 1 / Lt 0).
    { rewrite (sumf_ext _ (fun j => SJ 0 j * / Lt 0)).
      - rewrite sumf_scal_r, SJ_total by lia. reflexivity.
      - intros j Hj. apply in_seq in Hj. rewrite Hmsg by lia. apply clip_res, Hres; lia. }
    assert (Htot : tot (msg 0) = Lt 1 / Lt 0).
    { unfold tot. rewrite Hsum. rewrite Lt_0. destruct (Req_EM_T _ 0); [exfalso; lra|auto]. }
    split; [|auto]. intros j Hj. rewrite alpha_norm. unfold norm. rewrite Htot, Hmsg by auto.
    rewrite clip_res by (apply Hres; auto). rewrite Lt_0. field. lra.
  - destruct IH as [IHa IHt]; [lia|].
    assert (HpS : 0 < Lt (S t)) by (apply (Lt_pos_prefix (S t) m); auto; lia).
    assert (HpSS : 0 < Lt (S (S t))) by (apply (Lt_pos_prefix (S (S t)) m); auto; lia).
    assert (Hmsg : forall j, (j < N)%nat -> msg (S t) j = SJ (S t) j / Lt (S t)).
    { intros j Hj. unfold msg. replace (Z.of_nat (S t) <? L)%Z with true by (symmetry; apply Z.ltb_lt; lia).
      rewrite SJ_S by (auto; lia). unfold Rdiv. rewrite Rmult_assoc. f_equal.
      rewrite <- sumf_scal_r. apply sumf_ext. intros i Hi. apply in_seq in Hi. rewrite IHa by lia. field. lra. }
    assert (Hsum : sumf (fun j => clip (msg (S t) j)) (seq 0 N) = Lt (S (S t)) / Lt (S t)).
    { rewrite (sumf_ext _ (fun j => SJ (S t) j * / Lt (S t))).
      - rewrite sumf_scal_r, SJ_total by lia. reflexivity.
      - intros j Hj. apply in_seq in Hj. rewrite Hmsg by lia. apply clip_res, Hres; lia. }
    assert (Hpd : 0 < Lt (S (S t)) / Lt (S t)) by (apply Rdiv_lt_0_compat; auto).
    assert (Htot : tot (msg (S t)) = Lt (S (S t)) / Lt (S t)).
    { unfold tot. rewrite Hsum. destruct (Req_EM_T _ 0); [exfalso; lra|auto]. }
    split; [|auto]. intros j Hj. rewrite alpha_norm. unfold norm. rewrite Htot, Hmsg by auto.
    rewrite clip_res by (apply Hres; auto). field. lra.
Qed.
Lemma msg_beyond t : (L <= Z.of_nat t)%Z -> (0 < t)%nat -> tot (msg t) = 1 /\ forall j, alpha t j = 0.
Proof.
  intros H Ht. destruct t as [|t]; [lia|].
  assert (Hm : forall j, msg (S t) j = 0).
  { intros j. unfold msg. destruct (Z.ltb_spec (Z.of_nat (S t)) L); [lia|auto]. }
  assert (Ht1 : tot (msg (S t)) = 1).
  { unfold tot. rewrite sumf_zero by (intros; rewrite Hm; apply clip_0). destruct (Req_EM_T 0 0); lra. }
  split; [auto|]. intros j. rewrite alpha_norm. unfold norm. rewrite Hm, clip_0, Ht1. lra.
Qed.
Lemma ln_tot_telescope m : (forall t, (t < m)%nat -> tot (msg t) = Lt (S t) / Lt t) -> (forall t, (t <= m)%nat -> 0 < Lt t) ->
  sumf (fun t => ln (tot (msg t))) (seq 0 m) = ln (Lt m).
Proof.
  induction m as [|m IH]; intros H Hp.
  - cbn [seq]. rewrite sumf_nil, Lt_0, ln_1. reflexivity.
  - rewrite seq_S, sumf_app, IH by (intros; auto). rewrite sumf_cons, sumf_nil. cbn [Nat.add].
    rewrite H by lia. unfold Rdiv. rewrite ln_mult, ln_Rinv; try lra; auto. apply Rinv_0_lt_compat; auto.
Qed.

(** ** bounds that hold whatever is clipped *)
Definition prodc (t : nat) : R := exp (sumf (fun s => ln (tot (msg s))) (seq 0 t)).
Lemma prodc_0 : prodc 0 = 1.
Proof. unfold prodc. cbn [seq]. rewrite sumf_nil. apply exp_0. Qed.
Lemma prodc_S t : prodc (S t) = prodc t * tot (msg t).
Proof.
  unfold prodc. rewrite seq_S, sumf_app, exp_plus, sumf_cons, sumf_nil. cbn [Nat.add].
  rewrite Rplus_0_r, exp_ln by apply tot_msg_pos. reflexivity.
Qed.
Lemma prodc_pos t : 0 < prodc t.
Proof. apply exp_pos. Qed.
Lemma alpha_tot t j : alpha t j * tot (msg t) = clip (msg t j).
Proof. rewrite alpha_norm. unfold norm. field. pose proof (tot_msg_pos t). lra. Qed.
Lemma alpha_lower t : (t < T)%nat -> (Z.of_nat t < L)%Z -> forall j, (j < N)%nat -> SJ t j <= alpha t j * prodc (S t).
Proof.
  induction t as [|t IH]; intros Ht HL j Hj; rewrite prodc_S, (Rmult_comm (prodc _)), <- Rmult_assoc, alpha_tot.
  - rewrite prodc_0, Rmult_1_r, SJ_0 by auto. apply clip_ge. apply (msg_alpha_nonneg 0); auto.
  - pose proof (clip_ge _ (proj1 (msg_alpha_nonneg (S t) j Hj))) as Hc.
    apply Rle_trans with (msg (S t) j * prodc (S t)); [|apply Rmult_le_compat_r; auto using Rlt_le, prodc_pos].
    unfold msg. replace (Z.of_nat (S t) <? L)%Z with true by (symmetry; apply Z.ltb_lt; lia).
    rewrite SJ_S by auto. rewrite Rmult_assoc, <- sumf_scal_r. apply Rmult_le_compat_l; [apply emit_nonneg|].
    apply sumf_le. intros i Hi. apply in_seq in Hi.
    replace (alpha t i * tr i j * prodc (S t)) with (alpha t i * prodc (S t) * tr i j) by ring.
    apply Rmult_le_compat_r; [apply step_nonneg|]. apply IH; lia.
Qed.
Lemma alpha_sum_le t : sumf (alpha t) (seq 0 N) <= 1.
Proof.
  rewrite alpha_norm. unfold norm, Rdiv. rewrite sumf_scal_r.
  pose proof (tot_msg_pos t). unfold tot. destruct (Req_EM_T _ 0) as [E0|E0].
  - rewrite E0. lra.
  - right. field. auto.
Qed.
Lemma likelihood_lower m : (m <= T)%nat -> (Z.of_nat m <= L)%Z -> Lt m <= prodc m.
Proof.
  intros Hm HL. destruct m as [|m]; [rewrite Lt_0, prodc_0; lra|].
  rewrite <- SJ_total by lia. apply Rle_trans with (sumf (fun j => alpha m j * prodc (S m)) (seq 0 N)).
  - apply sumf_le. intros j Hj. apply in_seq in Hj. apply alpha_lower; lia.
  - rewrite sumf_scal_r. pose proof (alpha_sum_le m). pose proof (prodc_pos (S m)). nra.
Qed.
Section Discrete.
Hypothesis Hb1 : forall s x, em s x <= 1.
Lemma Lt_le_1 t : (t <= T)%nat -> Lt t <= 1.
Proof.
  induction t as [|t IH]; intros Ht; [rewrite Lt_0; lra|].
  apply Rle_trans with (Lt t); [|apply IH; lia].
  rewrite <- SJ_total by lia. destruct t as [|t].
  - rewrite Lt_0. assert (Hpi : rsum pi = 1) by (destruct Hst as [[_ HH] _]; exact HH). rewrite <- Hpi, <- (sumf_nth pi 0). apply sumf_le. intros j Hj. apply in_seq in Hj.
    rewrite SJ_0 by lia. unfold start. pose proof (start_nonneg j). unfold start in *. pose proof (Hb1 j (at_ 0)). nra.
  - rewrite <- SJ_total by lia.
    apply Rle_trans with (sumf (fun j => sumf (fun i => SJ t i * tr i j) (seq 0 N)) (seq 0 N)).
    + apply sumf_le. intros j Hj. apply in_seq in Hj. rewrite SJ_S by lia.
      assert (0 <= sumf (fun i => SJ t i * tr i j) (seq 0 N)).
      { apply sumf_nonneg. intros; apply Rmult_le_pos; [apply sj_nonneg|apply step_nonneg]. }
      pose proof (Hb1 j (at_ (S t))). nra.
    + rewrite (sumf_swap (fun j i => SJ t i * tr i j)). apply sumf_le. intros i Hi. apply in_seq in Hi.
      rewrite sumf_scal, step_sum by lia. lra.
Qed.
(** the total overestimate after [t + 1] observations *)
Definition excess (t : nat) : R := sumf (fun j => alpha t j * prodc (S t) - SJ t j) (seq 0 N).
Lemma clip_excess t j : (j < N)%nat -> alpha t j * prodc (S t) <= (msg t j + hmm_eps) * prodc t.
Proof.
  intros Hj. rewrite prodc_S, (Rmult_comm (prodc _)), <- Rmult_assoc, alpha_tot.
  apply Rmult_le_compat_r; [apply Rlt_le, prodc_pos|]. apply clip_le, msg_alpha_nonneg; auto.
Qed.
Lemma alpha_sum_1 t : (t < T)%nat -> (Z.of_nat t < L)%Z -> 0 < Lt (S t) -> sumf (alpha t) (seq 0 N) = 1.
Proof.
  intros Ht HL Hp. assert (Hs : 0 < sumf (alpha t) (seq 0 N)).
  { pose proof (prodc_pos (S t)). apply Rmult_lt_reg_r with (prodc (S t)); auto. rewrite Rmult_0_l, <- sumf_scal_r.
    apply Rlt_le_trans with (1 := Hp). rewrite <- SJ_total by auto. apply sumf_le. intros j Hj. apply in_seq in Hj.
    apply alpha_lower; lia. }
  revert Hs. rewrite alpha_norm. unfold norm, Rdiv. rewrite sumf_scal_r. unfold tot.
  destruct (Req_EM_T _ 0) as [E0|E0]; [rewrite E0; lra|]. intros _. field. auto.
Qed.
Lemma prodc_excess t : (t < T)%nat -> (Z.of_nat t < L)%Z -> 0 < Lt (S t) -> prodc (S t) = excess t + Lt (S t).
Proof.
  intros Ht HL Hp. unfold excess. rewrite (sumf_minus (fun j => alpha t j * prodc (S t)) (SJ t)), sumf_scal_r,
    alpha_sum_1, SJ_total by auto. ring.
Qed.
Lemma excess_bound m : (m <= T)%nat -> (Z.of_nat m <= L)%Z -> 0 < Lt m -> forall t, (t < m)%nat ->
  excess t + 1 <= (1 + INR N * hmm_eps) ^ (S t).
Proof.
  intros Hm HL Hp. pose proof eps_pos as He. pose proof (pos_INR N) as HN.
  assert (H0 : 0 <= INR N * hmm_eps) by (apply Rmult_le_pos; lra).
  induction t as [|t IH]; intros Ht.
  - unfold excess. rewrite (sumf_minus (fun j => alpha 0 j * prodc 1) (SJ 0)).
    assert (sumf (fun j => alpha 0 j * prodc 1) (seq 0 N) <= sumf (fun j => SJ 0 j + hmm_eps) (seq 0 N)).
    { apply sumf_le. intros j Hj. apply in_seq in Hj. eapply Rle_trans; [apply clip_excess; lia|].
      rewrite prodc_0, SJ_0 by lia. cbn [msg]. lra. }
    rewrite (sumf_plus (SJ 0) (fun _ => hmm_eps)), sumf_const, seq_length in H. rewrite pow_1. lra.
  - assert (Hprev : prodc (S t) <= excess t + 1).
    { rewrite prodc_excess; try lia; [|apply (Lt_pos_prefix (S t) m); auto; lia]. pose proof (Lt_le_1 (S t)). assert (S t <= T)%nat by lia. specialize (H H1). lra. }
    assert (Hstep : excess (S t) <= excess t + INR N * hmm_eps * prodc (S t)).
    { unfold excess at 1.
      apply Rle_trans with (sumf (fun j => sumf (fun i => (alpha t i * prodc (S t) - SJ t i) * tr i j) (seq 0 N)
                                   + hmm_eps * prodc (S t)) (seq 0 N)).
      - apply sumf_le. intros j Hj. apply in_seq in Hj.
        pose proof (clip_excess (S t) j ltac:(lia)) as Hc.
        assert (Hm2 : msg (S t) j * prodc (S t) - SJ (S t) j =
                 em j (at_ (S t)) * sumf (fun i => (alpha t i * prodc (S t) - SJ t i) * tr i j) (seq 0 N)).
        { unfold msg. replace (Z.of_nat (S t) <? L)%Z with true by (symmetry; apply Z.ltb_lt; lia).
          rewrite SJ_S by lia. rewrite Rmult_assoc, <- sumf_scal_r, <- Rmult_minus_distr_l. f_equal.
          rewrite <- sumf_minus. apply sumf_ext. intros; ring. }
        assert (Hnn : 0 <= sumf (fun i => (alpha t i * prodc (S t) - SJ t i) * tr i j) (seq 0 N)).
        { apply sumf_nonneg. intros i Hi. apply in_seq in Hi. apply Rmult_le_pos; [|apply step_nonneg].
          assert (SJ t i <= alpha t i * prodc (S t)) by (apply alpha_lower; lia). lra. }
        pose proof (Hb1 j (at_ (S t))). nra.
      - rewrite sumf_plus, sumf_const, seq_length.
        rewrite (sumf_swap (fun j i => (alpha t i * prodc (S t) - SJ t i) * tr i j)).
        rewrite (sumf_ext (fun b0 => sumf (fun a => (alpha t b0 * prodc (S t) - SJ t b0) * tr b0 a) (seq 0 N))
                   (fun i => alpha t i * prodc (S t) - SJ t i)).
        + unfold excess. lra.
        + intros i Hi. apply in_seq in Hi. rewrite sumf_scal, step_sum by lia. ring. }
    assert (IH' := IH ltac:(lia)).
    apply Rle_trans with ((1 + INR N * hmm_eps) * (excess t + 1)); [nra|].
    rewrite <- tech_pow_Rmult. apply Rmult_le_compat_l; lra.
Qed.
End Discrete.

(** ** the backward messages; [bmsg k] belongs to time T-1-k *)
Fixpoint beta (k : nat) : nat -> R :=
  match k with
  | O => fun _ => 1
  | S k' => if (L <? Z.of_nat (T - k'))%Z then fun _ => 0
            else norm (fun i => sumf (fun j => beta k' j * em j (at_ (T - 1 - k')) * tr i j) (seq 0 N))
  end.
Definition bmsg (k i : nat) : R := sumf (fun j => beta k j * em j (at_ (T - 1 - k)) * tr i j) (seq 0 N).
Lemma scan_list {C X Y} (f : C -> X -> C * Y) (d : X) (xs : list X) : forall (g : nat -> C) (y : nat -> Y),
  (forall k, (k < length xs)%nat -> f (g k) (nth k xs d) = (g (S k), y k)) ->
  scan f (g O) xs = (g (length xs), map y (seq 0 (length xs))).
Proof.
  induction xs as [|x xs IH]; intros g y H; cbn [scan length seq map]; [auto|].
  pose proof (H O ltac:(cbn; lia)) as H0. cbn [nth] in H0. rewrite H0.
  rewrite (IH (fun k => g (S k)) (fun k => y (S k))).
  - rewrite <- seq_shift, map_map. auto.
  - intros k Hk. apply (H (S k)). cbn; lia.
Qed.
Lemma rev_map_seq {Y} (f : nat -> Y) n : rev (map f (seq 0 n)) = map (fun t => f (n - 1 - t)%nat) (seq 0 n).
Proof.
  rewrite <- map_rev. induction n as [|n IH]; [reflexivity|].
  rewrite (seq_S n 0), rev_app_distr. cbn [rev app map Nat.add]. rewrite IH.
  change (seq 0 n ++ [n]) with (seq 0 n ++ [(0 + n)%nat]). rewrite <- seq_S. cbn [seq map].
  rewrite Nat.sub_0_r. replace (S n - 1)%nat with n by lia. f_equal.
  rewrite <- seq_shift, map_map. apply map_ext. intros t. f_equal. lia.
Qed.
Lemma backward_real (h : hmm E) : describes h pi A b -> obs <> [] ->
  backward h obs (Some L) = map (fun t => xvec (beta (T - 1 - t))) (seq 0 T).
Proof.
  intros (Hn & Hip & Hil & Htp & Htl & Hop & Hol & _) Hne. unfold backward.
  assert (HT : (0 < T)%nat) by (destruct obs; [contradiction|cbn; lia]).
  rewrite Hn, Htp. assert (Hlen : length (rev (seq 2 (T - 1))) = (T - 1)%nat) by (rewrite rev_length, seq_length; auto).
  match goal with |- context [scan ?f _ _] =>
    pose proof (scan_list f O (rev (seq 2 (T - 1))) (fun k => xvec (beta k)) (fun k => xvec (beta (S k)))) as Hs end.
  cbv beta in Hs. rewrite Hlen in Hs.
  replace (repeat (Fin 1) N) with (xvec (beta 0)).
  2:{ unfold xvec. cbn [beta]. clear. generalize (length pi) 0%nat. intros n. induction n as [|n IHn]; intros k; [reflexivity|]. cbn [seq map repeat]. f_equal. apply IHn. }
  rewrite Hs.
  - replace (xvec (beta 0) :: map (fun k => xvec (beta (S k))) (seq 0 (T - 1))) with (map (fun k => xvec (beta k)) (seq 0 T)).
    + apply (rev_map_seq (fun k => xvec (beta k)) T).
    + replace T with (S (T - 1)) at 1 by lia. cbn [seq map]. f_equal. rewrite <- seq_shift, map_map. auto.
  - intros k Hk.
    assert (Et : nth k (rev (seq 2 (T - 1))) 0%nat = (T - k)%nat).
    { rewrite rev_nth by (rewrite seq_length; auto). rewrite seq_length, seq_nth by lia. lia. }
    rewrite Et. f_equal; cbn [beta]; destruct (_ <? _)%Z.
    1,3: unfold xvec; rewrite map_map; reflexivity.
    all: rewrite (nth_error_nth' obs x0) by lia; rewrite Hop, xvec_b; unfold xvec at 1 2; rewrite map2_seq; cbn [xmul];
      replace (T - k - 1)%nat with (T - 1 - k)%nat by lia;
      change (map (fun j => Fin (beta k j * em j (at_ (T - 1 - k)))) (seq 0 N))
        with (xvec (fun j => beta k j * em j (at_ (T - 1 - k))));
      rewrite sum_axis1_rows, normalize_xvec; reflexivity.
Qed.
Lemma beta_short k : (L < Z.of_nat T)%Z -> (0 < k)%nat -> forall i, beta k i = 0.
Proof.
  intros HL Hk. induction k as [|k IH]; [lia|]. intros i. cbn [beta].
  destruct (Z.ltb_spec L (Z.of_nat (T - k))) as [H|H]; [auto|].
  destruct k as [|k]; [rewrite Nat.sub_0_r in H; lia|].
  unfold norm. rewrite sumf_zero; [rewrite clip_0; unfold Rdiv; ring|].
  intros j _. rewrite IH by lia. ring.
Qed.
Lemma beta_exact : (Z.of_nat T <= L)%Z -> 0 < Lt T -> backward_resolvable pi A b hmm_eps obs ->
  forall k, (k < T)%nat -> 0 < future_total pi A b obs (T - 1 - k) /\ forall i, (i < N)%nat -> beta k i = Fu (T - 1 - k) i / future_total pi A b obs (T - 1 - k).
Proof.
  intros HL Hpos Hres.
  assert (Hft : forall t, (t < T)%nat -> 0 < future_total pi A b obs t).
  { intros t Ht. unfold future_total. destruct (Nat.eqb_spec (S t) T) as [_|Hn]; [lra|].
    assert (Hl : lik obs = Lt T) by (unfold Lt; rewrite firstn_all; auto).
    rewrite <- Hl, <- (sj_total obs t Ht) in Hpos.
    destruct (Rle_lt_or_eq_dec 0 (sumf (future pi A b obs t) (seq 0 N))) as [H|H]; auto.
    { apply sumf_nonneg; intros; apply Fu_nonneg. }
    exfalso. rewrite sumf_zero in Hpos; [lra|]. intros j Hj. assert (Hj' := Hj). apply in_seq in Hj.
    rewrite sj_split by (auto; lia).
    assert (Fu t j = 0); [|rewrite H0; ring].
    apply (sumf_nonneg_zero (Fu t) (seq 0 N)); auto. intros; apply Fu_nonneg. }
  induction k as [|k IH]; intros Hk; (split; [apply Hft; lia|]); intros i Hi.
  - rewrite Nat.sub_0_r. unfold future_total. replace (S (T - 1)) with T by lia. rewrite Nat.eqb_refl, Fu_last by lia.
    cbn. field.
  - destruct IH as [_ IH]; [lia|]. cbn [beta]. destruct (Z.ltb_spec L (Z.of_nat (T - k))); [lia|].
    set (t := (T - 1 - S k)%nat) in *. assert (Et : (T - 1 - k = S t)%nat) by (unfold t; lia). rewrite Et in *.
    assert (Hb : forall i, (i < N)%nat -> sumf (fun j => beta k j * em j (at_ (S t)) * tr i j) (seq 0 N) =
                     Fu t i / future_total pi A b obs (S t)).
    { intros i' Hi'. rewrite Fu_S by lia. unfold Rdiv. rewrite <- sumf_scal_r. apply sumf_ext. intros j Hj.
      apply in_seq in Hj. rewrite IH by lia. unfold Rdiv. ring. }
    assert (Hp1 : 0 < future_total pi A b obs (S t)) by (apply Hft; lia).
    assert (Hs : sumf (fun j => clip (sumf (fun j0 => beta k j0 * em j0 (at_ (S t)) * tr j j0) (seq 0 N))) (seq 0 N) =
                 future_total pi A b obs t / future_total pi A b obs (S t)).
    { unfold future_total at 1. destruct (Nat.eqb_spec (S t) T); [lia|]. unfold Rdiv. rewrite <- sumf_scal_r.
      apply sumf_ext. intros j Hj. apply in_seq in Hj. rewrite Hb by lia. apply clip_res, Hres; lia. }
    assert (Hp0 : 0 < future_total pi A b obs t) by (apply Hft; lia).
    assert (Hq : 0 < future_total pi A b obs t / future_total pi A b obs (S t)) by (apply Rdiv_lt_0_compat; auto).
    unfold norm, tot. rewrite Hs. destruct (Req_EM_T _ 0); [lra|]. rewrite Hb by auto.
    rewrite clip_res by (apply Hres; lia). unfold Fu. field. lra.
Qed.
End Obs.
End HMM.
