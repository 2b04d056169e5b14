(** Lemmas behind Props/Mixture.v *)
From Coq Require Import List Reals Lia Lra.
From Verif Require Import Base.Result Base.Sums Base.Tensor Base.XR Base.Lift Base.Axes Model.MathUtils Model.ScalarDist Model.ArrayDist
  Model.Categorical Model.Mixture Spec.Categorical Spec.Mixture Proofs.MathUtils Proofs.ArrayDist.
Import ListNotations.
Local Open Scope R_scope.

Lemma logits_at_row t bs K b : shp t = (bs ++ [K])%list -> logits_at t K b = last_row t b.
Proof. intros H. unfold logits_at, last_row. rewrite H, last_app1. reflexivity. Qed.
Lemma logits_at_length t K b : length (logits_at t K b) = K.
Proof. unfold logits_at. rewrite map_length, seq_length. reflexivity. Qed.

Section W.
Variables (t : tensor XR) (bs : shape) (K : nat).
Hypothesis L : legal_mixture t bs K.
Lemma log_w_at b k : inb bs b -> (k < K)%nat ->
  tget (Fin 0) (map_last log_softmax t) (b ++ [k]) = rlog (mixture_weight t K b k).
Proof.
  intros Hb Hk. destruct L as [Hs HL]. rewrite (tget_map_last _ t bs K) by auto. rewrite <- (logits_at_row t bs K b Hs).
  rewrite log_softmax_legal by auto. unfold mixture_weight, normalised.
  set (l := logits_at t K b). assert (Ll : length l = K) by apply logits_at_length.
  rewrite (nth_indep _ _ (rlog (weight NaN / rsum (map weight l)))) by (rewrite map_length; lia).
  rewrite (map_nth (fun a => rlog (weight a / rsum (map weight l)))). f_equal.
  rewrite map_map, (nth_indep _ _ (weight NaN / rsum (map weight l))) by (rewrite map_length; lia).
  rewrite (map_nth (fun a => weight a / rsum (map weight l))). reflexivity.
Qed.
Lemma legal_w b : inb bs b -> legal_probs (map weight (logits_at t K b)).
Proof.
  intros Hb. destruct L as [_ HL]. split.
  - intros x Hx. apply in_map_iff in Hx as (a & <- & _). apply weight_nonneg.
  - apply legal_total, HL, Hb.
Qed.
Lemma weight_ge0 b k : inb bs b -> 0 <= mixture_weight t K b k.
Proof.
  intros Hb. destruct (normalised_pmf _ (legal_w b Hb)) as [P _]. unfold mixture_weight.
  destruct (nth_in_or_default k (normalised (map weight (logits_at t K b))) 0) as [H| ->]; [auto|lra].
Qed.
Lemma weights_sum b : inb bs b -> sumf (mixture_weight t K b) (seq 0 K) = 1.
Proof.
  intros Hb. destruct (normalised_pmf _ (legal_w b Hb)) as [_ S]. rewrite <- S. unfold mixture_weight.
  rewrite <- (sumf_nth _ 0). f_equal. unfold normalised. rewrite !map_length, logits_at_length. reflexivity.
Qed.
End W.

Lemma xexp_rlog_add a b : 0 <= a -> 0 <= b -> xexp (xadd (rlog a) (rlog b)) = Fin (a * b).
Proof.
  intros [Ha|Ha] [Hb|Hb]; try subst a; try subst b; rewrite ?rlog_0, ?rlog_pos by auto; cbn; f_equal; try ring.
  rewrite exp_plus, !exp_ln by auto. reflexivity.
Qed.
Lemma xsum_ext (f g : nat -> XR) n : (forall k, (k < n)%nat -> f k = g k) -> xsum (map f (seq 0 n)) = xsum (map g (seq 0 n)).
Proof. intros H. f_equal. apply map_ext_in. intros k Hk. apply in_seq in Hk. apply H. lia. Qed.
Lemma logsumexp_rlog (f : nat -> XR) (a b : nat -> R) n :
  (forall k, (k < n)%nat -> f k = xadd (rlog (a k)) (rlog (b k)) /\ 0 <= a k /\ 0 <= b k) ->
  xlogsumexp (map f (seq 0 n)) = rlog (sumf (fun k => b k * a k) (seq 0 n)).
Proof.
  intros H. unfold xlogsumexp. rewrite map_map.
  rewrite (xsum_ext _ (fun k => Fin (b k * a k))).
  - rewrite xsum_map_fin. reflexivity.
  - intros k Hk. destruct (H k Hk) as (-> & Ha & Hb). rewrite xexp_rlog_add by auto. f_equal; ring.
Qed.

(** pointwise operation of a [bs ++ K :: es] array with another one of the same shape or that broadcasts to it *)
Lemma lift2_at f x y S r i : lift2 f x y = Ok r -> bshape (shp x) S = Some S -> bshape (shp y) S = Some S ->
  shp x = S \/ shp y = S -> inb S i -> tget (Fin 0) r i = f (xget x i) (xget y i).
Proof.
  intros H Hx Hy E Hi. rewrite (lift2_top f x y S Hx Hy E) in H. injection H as <-. rewrite tget_tgen by exact Hi. reflexivity.
Qed.

Section Reduce.
Context {key : Type}.
Variables (c : msf key) (bs : shape) (K : nat) (es : shape).
Hypothesis Hev : x_event (cp c) = es.
Hypothesis Hlw : shp (log_w c) = (bs ++ [K])%list.
Variable w : list nat -> nat -> R.
Hypothesis Hw : forall b k, inb bs b -> (k < K)%nat -> tget (Fin 0) (log_w c) (b ++ [k]) = rlog (w b k) /\ 0 <= w b k.
Hypothesis Wlw : wf (log_w c).

Lemma weights_shape : shp (msf_weights c) = ((bs ++ [K]) ++ repeat 1%nat (length es))%list.
Proof. unfold msf_weights, ev_rank, msf_event_shape. rewrite Hev. cbn. rewrite Hlw. reflexivity. Qed.
Lemma weights_at b k e : inb bs b -> (k < K)%nat -> inb es e -> xget (msf_weights c) (b ++ k :: e) = Fin (w b k).
Proof.
  intros Hb Hk He. unfold msf_weights, ev_rank, msf_event_shape. rewrite Hev.
  rewrite (xget_add_ones _ bs K es) by auto.
  rewrite (tget_tmap (Fin 0)) by (auto; rewrite Hlw; apply inb_app; auto; repeat constructor; auto).
  destruct (Hw b k Hb Hk) as [-> P]. apply xexp_rlog, P.
Qed.
Lemma weights_bshape : bshape (shp (msf_weights c)) (bs ++ K :: es) = Some (bs ++ K :: es)%list.
Proof. rewrite weights_shape. apply add_ones_bshape. Qed.
Lemma inb_mid b k e : inb bs b -> (k < K)%nat -> inb es e -> inb (bs ++ K :: es) (b ++ k :: e).
Proof. intros. apply inb_app; auto. apply inb_cons. auto. Qed.
Lemma ev_rank_eq : ev_rank c = length es.
Proof. unfold ev_rank, msf_event_shape. rewrite Hev. reflexivity. Qed.

(** weighted sum over components of an array of reals *)
Lemma weighted_sum t m : holds_reals t (bs ++ K :: es) m ->
  exists p r, lift2 xmul t (msf_weights c) = Ok p /\ reduce_axis xsum (ev_rank c) p = Ok r /\ wf r /\
    holds_reals r (bs ++ es) (fun i => sumf (fun k => w (firstn (length bs) i) k *
       m (firstn (length bs) i ++ k :: skipn (length bs) i)%list) (seq 0 K)).
Proof.
  intros [Hs Hm]. rewrite (lift2_top xmul t _ (bs ++ K :: es)) by (rewrite ?Hs; auto using bshape_refl, weights_bshape).
  eexists. match goal with |- context [Ok ?P = _] => destruct (reduce_axis_ok xsum (ev_rank c) P bs K es eq_refl (eq_sym ev_rank_eq)) as (r & E & Sr & Wr & Hr) end.
  exists r. split; [reflexivity|]. split; [exact E|]. split; [exact Wr|]. split; [exact Sr|].
  intros i Hi. destruct (inb_app_len _ _ _ Hi) as (b & e & -> & Hb & He).
  pose proof (inb_length _ _ Hb) as Lb. rewrite <- Lb, firstn_app, skipn_app, Nat.sub_diag, firstn_all, skipn_all. cbn [firstn skipn]. rewrite app_nil_r. cbn [app].
  rewrite (Hr b e Hb He). rewrite (xsum_ext _ (fun k => Fin (w b k * m (b ++ k :: e)%list))); [apply xsum_map_fin|].
  intros k Hk. rewrite tget_tgen by (apply inb_mid; auto). rewrite weights_at by auto.
  rewrite xget_self by (rewrite Hs; apply inb_mid; auto). rewrite Hm by (apply inb_mid; auto). cbn. f_equal; ring.
Qed.
Lemma weighted_sum' t m : holds_reals t (bs ++ K :: es) m ->
  exists p r, lift2 xmul (msf_weights c) t = Ok p /\ reduce_axis xsum (ev_rank c) p = Ok r /\ wf r /\
    holds_reals r (bs ++ es) (fun i => sumf (fun k => w (firstn (length bs) i) k *
       m (firstn (length bs) i ++ k :: skipn (length bs) i)%list) (seq 0 K)).
Proof.
  intros H. destruct (weighted_sum t m H) as (p & r & Hp & Hr). exists p, r. split; [|exact Hr].
  destruct H as [Hs _]. rewrite (lift2_top xmul t (msf_weights c) (bs ++ K :: es)) in Hp by (rewrite ?Hs; auto using bshape_refl, weights_bshape).
  rewrite (lift2_top xmul (msf_weights c) t (bs ++ K :: es)) by (rewrite ?Hs; auto using bshape_refl, weights_bshape).
  injection Hp as <-. f_equal. apply tgen_ext. intros i _. apply xmul_comm.
Qed.
End Reduce.
