(** C01-C07: the combinators Chain, Inverse, Block and sum_last. *)
From Coq Require Import List Reals ZArith Bool Lia Lra.
From Verif Require Import Base.Result Base.Sums Base.Tensor Model.Bijector Model.ScalarBij
  Spec.Bijector Proofs.Bijector Proofs.Block Proofs.ScalarBij.
Import ListNotations.
Local Open Scope Z_scope.

(** ** C01 *)
Theorem C01_chain_forward_composes : forall bs c x,
  chain_init bs = Ok c -> b_fwd c x = compose_forward bs x.
Proof. exact chain_forward_spec. Qed.
Print Assumptions C01_chain_forward_composes.

Theorem C01_chain_inverse_composes : forall bs c y,
  chain_init bs = Ok c -> b_inv c y = compose_inverse bs y.
Proof. exact chain_inverse_spec. Qed.
Print Assumptions C01_chain_inverse_composes.

Theorem C01_chain_round_trip : forall bs c x y,
  chain_init bs = Ok c -> links_invert_from bs x -> b_fwd c x = Ok y -> b_inv c y = Ok x.
Proof. exact chain_round_trip. Qed.
Print Assumptions C01_chain_round_trip.

Theorem C01_chain_round_trip_inverse : forall bs c x y,
  chain_init bs = Ok c -> links_invert_to bs y -> b_inv c y = Ok x -> b_fwd c x = Ok y.
Proof. exact chain_round_trip_inv. Qed.
Print Assumptions C01_chain_round_trip_inverse.

Theorem C01_chain_methods_agree : forall bs c,
  chain_init bs = Ok c -> (forall b, In b bs -> methods_agree b) -> methods_agree c.
Proof. exact chain_methods_agree. Qed.
Print Assumptions C01_chain_methods_agree.

(** a two-link chain [Tanh; GumbelCDF] meets the hypotheses at every array *)
Definition ex_tanh := elementwise (mkMeta 0 0 false false) tanh_forward tanh_fldj tanh_inverse tanh_ildj.
Definition ex_gumbel := elementwise (mkMeta 0 0 false false) gumbel_forward gumbel_fldj gumbel_inverse gumbel_ildj.
Example ex_tanh_constructed : tanh_bij = Ok ex_tanh. Proof. reflexivity. Qed.
Example ex_gumbel_constructed : gumbel_bij = Ok ex_gumbel. Proof. reflexivity. Qed.
Lemma elementwise_agrees m f lf g lg : methods_agree (elementwise m f lf g lg).
Proof. split; intros a b l H; cbn in *; injection H as <- <-; auto. Qed.
Example C01_nonvacuous : exists c, chain_init [ex_tanh; ex_gumbel] = Ok c /\
  (forall b, In b [ex_tanh; ex_gumbel] -> methods_agree b) /\
  (forall x, links_invert_from [ex_tanh; ex_gumbel] x) /\ (forall x, exists y, b_fwd c x = Ok y).
Proof.
  eexists. split; [reflexivity|]. split.
  - intros b [<-|[<-|[]]]; apply elementwise_agrees.
  - split; [|intros x; eexists; reflexivity]. intros x. cbn. repeat split; auto.
    + intros z y H E. injection H as <-. injection E as <-. cbn. f_equal. rewrite tmap_tmap.
      apply tmap_id. apply gumbel_round.
    + intros z y H E. injection H as <-. injection E as <-. cbn. f_equal. rewrite (tmap_tmap tanh_forward).
      apply tmap_id. apply arctanh_tanh.
Qed.

(** ** C02 (first and third part; the true-Jacobian part is in Props/LogDet.v) *)
Theorem C02_chain_log_det_is_sum : forall bs c x y l,
  chain_init bs = Ok c ->
  (b_fal c x = Ok (y, l) <-> exists lds, forward_trace bs x lds y /\ tsum lds = Ok l).
Proof. exact chain_fal_spec. Qed.
Print Assumptions C02_chain_log_det_is_sum.

Theorem C02_chain_inverse_log_det_opposite : forall bs c x y l,
  chain_init bs = Ok c -> links_opposite_from bs x ->
  b_fal c x = Ok (y, l) -> b_ial c y = Ok (x, tneg l).
Proof. intros bs c x y l Hc Hb H. apply (chain_opposite bs c x Hc Hb y l H). Qed.
Print Assumptions C02_chain_inverse_log_det_opposite.

Ltac opp_tac := repeat match goal with
  | |- Ok _ = Ok _ => apply f_equal | |- (_, _) = (_, _) => apply f_equal2
  | |- mkT _ _ = mkT _ _ => apply f_equal | |- (_ :: _) = (_ :: _) => apply f_equal2 | |- [] = [] => reflexivity
  | |- @eq R _ _ => lra end.
Example C02_nonvacuous : exists b c, shift_init (tvec [1; 2]%R) = Ok b /\ chain_init [b; b] = Ok c /\
  links_opposite_from [b; b] (tvec [0; 5]%R) /\
  exists y l, b_fal c (tvec [0; 5]%R) = Ok (y, l) /\ dat y = [2 + 0; 4 + 5]%R.
Proof.
  do 2 eexists. split; [reflexivity|]. split; [reflexivity|]. split.
  - split; [split; [exact I|]|].
    + intros lds z T. inversion T; subst. intros y l E. cbn in E. injection E as <- <-.
      split; [reflexivity|split; [reflexivity|]]. cbn. unfold tneg, tmap, tvec, tgen. cbn. opp_tac.
    + intros lds z T. inversion T as [|? ? ? ? z0 ? ? T0 E0]; subst. inversion T0; subst. cbn in E0. injection E0 as <- <-.
      intros y l E. cbn in E. injection E as <- <-.
      split; [reflexivity|split; [reflexivity|]]. cbn. unfold tneg, tmap, tvec, tgen. cbn. opp_tac.
  - do 2 eexists. split; [reflexivity|]. cbn. f_equal; [lra|f_equal; lra].
Qed.

(** ** C03 *)
Theorem C03_chain_construction : forall bs,
  (forall b, In b bs -> coherent b) ->
  (chain_init bs = Err ValueError <-> bs = [] \/ mismatched_neighbours bs) /\
  (forall e, chain_init bs = Err e -> e = ValueError) /\
  (forall c, chain_init bs = Ok c ->
     (exists pre b, bs = pre ++ [b] /\ b_in c = b_in b) /\
     (exists b post, bs = b :: post /\ b_out c = b_out b) /\
     (b_cj c = true <-> (forall b, In b bs -> b_cj b = true)) /\
     (b_cl c = true <-> (forall b, In b bs -> b_cl b = true))).
Proof. exact chain_init_spec. Qed.
Print Assumptions C03_chain_construction.
Example C03_nonvacuous : (forall b, In b [ex_tanh; ex_gumbel] -> coherent b) /\
  exists d, block_init ex_tanh 2 = Ok d /\ mismatched_neighbours [ex_gumbel; d].
Proof.
  split.
  - intros b [<-|[<-|[]]]; (split; [cbn; lia|split; [cbn; lia|cbn; congruence]]).
  - eexists; split; [reflexivity|]. exists [], ex_gumbel. eexists. exists []. split; [reflexivity|]. cbn. lia.
Qed.

(** ** C04 *)
Theorem C04_base_constructor : forall nin nout cj cl,
  let out := match nout with None => nin | Some k => k end in
  let l := match cl with None => cj | Some c => c end in
  (0 <= nin /\ 0 <= out /\ (cj = true -> l = true) /\
   base_init nin nout cj cl = Ok (mkMeta nin out cj l)) \/
  ((nin < 0 \/ out < 0 \/ (cj = true /\ l = false)) /\ base_init nin nout cj cl = Err ValueError).
Proof. exact base_init_spec. Qed.
Print Assumptions C04_base_constructor.

Theorem C04_nesting_stays_coherent : forall b, built b -> coherent b.
Proof. exact built_coherent. Qed.
Print Assumptions C04_nesting_stays_coherent.

Theorem C04_wrappers_never_rejected : forall b, built b ->
  (exists c, inverse_init b = Ok c) /\ (forall k, 0 <= k -> exists c, block_init b k = Ok c).
Proof. intros b H. exact (wrappers_accepted b (built_coherent b H)). Qed.
Print Assumptions C04_wrappers_never_rejected.
Definition ok_or {A} (d : A) (r : result A) : A := match r with Ok a => a | Err _ => d end.
Definition ex_inv := ok_or ex_tanh (inverse_init ex_tanh).
Definition ex_chain := ok_or ex_tanh (chain_init [ex_inv; ex_gumbel]).
Definition ex_block := ok_or ex_tanh (block_init ex_chain 3).
Example C04_nonvacuous : inverse_init ex_tanh = Ok ex_inv /\ chain_init [ex_inv; ex_gumbel] = Ok ex_chain /\
  block_init ex_chain 3 = Ok ex_block /\ built ex_block /\ b_in ex_block = 3.
Proof.
  split; [reflexivity|]. split; [reflexivity|]. split; [reflexivity|]. split; [|reflexivity].
  assert (T : built ex_tanh) by (apply (built_base 0 None false None); reflexivity).
  assert (G : built ex_gumbel) by (apply (built_base 0 None false None); reflexivity).
  apply (built_block ex_chain 3); [|reflexivity]. apply (built_chain [ex_inv; ex_gumbel]); [|reflexivity].
  intros b [<-|[<-|[]]]; [|exact G]. apply (built_inverse ex_tanh); [exact T|reflexivity].
Qed.

(** ** C05 *)
Theorem C05_inverse_swaps : forall b c, coherent b -> inverse_init b = Ok c ->
  b_in c = b_out b /\ b_out c = b_in b /\ b_cj c = b_cj b /\ b_cl c = b_cl b /\
  (forall x, b_fwd c x = b_inv b x) /\ (forall x, b_inv c x = b_fwd b x) /\
  (forall x, b_fld c x = b_ild b x) /\ (forall x, b_ild c x = b_fld b x) /\
  (forall x, b_fal c x = b_ial b x) /\ (forall x, b_ial c x = b_fal b x).
Proof. exact inverse_swaps. Qed.
Print Assumptions C05_inverse_swaps.

Theorem C05_inverse_involution : forall b c d,
  inverse_init b = Ok c -> inverse_init c = Ok d -> same_behaviour d b.
Proof. exact inverse_involution. Qed.
Print Assumptions C05_inverse_involution.

Theorem C05_inverse_of_chain : forall bs is c ic ci,
  Forall2 (fun b i => inverse_init b = Ok i) bs is ->
  chain_init bs = Ok c -> inverse_init c = Ok ic -> chain_init (rev is) = Ok ci ->
  same_behaviour ic ci.
Proof. exact inverse_of_chain. Qed.
Print Assumptions C05_inverse_of_chain.
Example C05_nonvacuous : exists is c ic ci,
  Forall2 (fun b i => inverse_init b = Ok i) [ex_tanh; ex_gumbel] is /\
  chain_init [ex_tanh; ex_gumbel] = Ok c /\ inverse_init c = Ok ic /\ chain_init (rev is) = Ok ci.
Proof.
  do 4 eexists. split; [repeat constructor|]. split; [reflexivity|]. split; reflexivity.
Qed.

(** ** C06 *)
Theorem C06_block_forward : forall b k c x, coherent b -> block_init b k = Ok c ->
  (Z.of_nat (rank x) < k + b_in b -> b_fwd c x = Err ValueError /\ b_fal c x = Err ValueError /\ b_fld c x = Err ValueError) /\
  (k + b_in b <= Z.of_nat (rank x) ->
     b_fwd c x = b_fwd b x /\
     (forall y ld, b_fal b x = Ok (y, ld) -> forall pre suf, wf ld -> shp ld = pre ++ suf -> Z.of_nat (length suf) = k ->
        exists s, b_fal c x = Ok (y, s) /\ wf s /\ shp s = pre /\
          forall idx, inb pre idx -> tget 0%R s idx = sumf (fun j => tget 0%R ld (idx ++ j)) (indices suf))).
Proof. exact block_spec. Qed.
Print Assumptions C06_block_forward.

Theorem C06_block_inverse : forall b k c y, coherent b -> block_init b k = Ok c ->
  (Z.of_nat (rank y) < k + b_out b -> b_inv c y = Err ValueError /\ b_ial c y = Err ValueError /\ b_ild c y = Err ValueError) /\
  (k + b_out b <= Z.of_nat (rank y) ->
     b_inv c y = b_inv b y /\
     (forall x ld, b_ial b y = Ok (x, ld) -> forall pre suf, wf ld -> shp ld = pre ++ suf -> Z.of_nat (length suf) = k ->
        exists s, b_ial c y = Ok (x, s) /\ wf s /\ shp s = pre /\
          forall idx, inb pre idx -> tget 0%R s idx = sumf (fun j => tget 0%R ld (idx ++ j)) (indices suf))).
Proof. exact block_inverse_spec. Qed.
Print Assumptions C06_block_inverse.

Theorem C06_block_methods_agree : forall b k c,
  coherent b -> methods_agree b -> block_init b k = Ok c -> methods_agree c.
Proof. exact block_methods_agree. Qed.
Print Assumptions C06_block_methods_agree.

Theorem C06_block_rejects_exactly_negative : forall b k,
  coherent b -> (k < 0 <-> block_init b k = Err ValueError).
Proof. exact block_rejects. Qed.
Print Assumptions C06_block_rejects_exactly_negative.

Theorem C06_block_metadata : forall b k c, coherent b -> block_init b k = Ok c ->
  b_in c = k + b_in b /\ b_out c = k + b_out b /\ b_cj c = b_cj b /\ b_cl c = b_cl b.
Proof.
  intros b k c Hc H. destruct (block_fields _ _ _ Hc H) as (_ & H1 & H2 & H3 & H4 & _). auto.
Qed.
Print Assumptions C06_block_metadata.

Theorem C06_block_nested : forall b m n c d e, coherent b -> wf_log_dets b ->
  block_init b m = Ok c -> block_init c n = Ok d -> block_init b (m + n) = Ok e -> same_behaviour d e.
Proof. exact block_nested. Qed.
Print Assumptions C06_block_nested.
Example C06_nonvacuous : exists c, coherent ex_tanh /\ block_init ex_tanh 2 = Ok c /\
  let x := mkT [1; 2; 1]%nat [0; 1]%R in
  wf x /\ exists s, b_fal c x = Ok (tmap tanh_forward x, s) /\ shp s = [1]%nat.
Proof.
  eexists. split; [split; [cbn; lia|split; [cbn; lia|cbn; congruence]]|].
  split; [reflexivity|]. cbn zeta. split; [reflexivity|]. eexists. split; reflexivity.
Qed.

(** ** C07 *)
Theorem C07_sum_last_entries : forall (x : arr) (pre suf : shape),
  wf x -> shp x = pre ++ suf ->
  exists y, sum_last x (Z.of_nat (length suf)) = Ok y /\ wf y /\ shp y = pre /\
    forall idx, inb pre idx -> tget 0%R y idx = sumf (fun j => tget 0%R x (idx ++ j)) (indices suf).
Proof. exact sum_last_spec. Qed.
Print Assumptions C07_sum_last_entries.

Theorem C07_sum_last_nonpositive : forall x n, n <= 0 -> sum_last x n = Ok x.
Proof. exact sum_last_nonpos. Qed.
Print Assumptions C07_sum_last_nonpositive.

Theorem C07_sum_last_too_many_axes : forall x n,
  0 < n -> Z.of_nat (rank x) < n -> sum_last x n = Err ValueError.
Proof. exact sum_last_err. Qed.
Print Assumptions C07_sum_last_too_many_axes.

Theorem C07_sum_last_compose : forall (x : arr) (m n : Z),
  wf x -> 0 <= m -> 0 <= n -> (do y <- sum_last x m; sum_last y n) = sum_last x (m + n).
Proof. exact sum_last_compose. Qed.
Print Assumptions C07_sum_last_compose.

Theorem C07_sum_last_total : forall (x : arr),
  wf x -> shp x <> [] -> sum_last x (Z.of_nat (rank x)) = Ok (tscalar (rsum (dat x))).
Proof. exact sum_last_total. Qed.
Print Assumptions C07_sum_last_total.
Example C07_nonvacuous : let x := mkT [2; 2]%nat [1; 2; 3; 4]%R in
  wf x /\ exists y, sum_last x 1 = Ok y /\ shp y = [2]%nat /\ tget 0%R y [1%nat] = 7%R.
Proof.
  split; [reflexivity|]. eexists; split; [reflexivity|]. split; [reflexivity|].
  vm_compute tget. lra.
Qed.
