(** C72: HMM.sample. *)
From Coq Require Import Reals List Arith Bool ZArith Lia Lra.
From Verif Require Import Base.Result Base.XR Base.Sums Base.Tensor Model.MathUtils Model.Categorical Model.HMM
  Spec.Categorical Spec.HMM Spec.FiniteLaw Proofs.MathUtils Proofs.Categorical Proofs.HMM Proofs.FiniteLaw Props.HMM.
Import ListNotations.
Local Open Scope R_scope.

Lemma jnp_get_nat {A} (d : A) l s : (s < length l)%nat -> jnp_get d l (Z.of_nat s) = nth s l d.
Proof.
  intros H. unfold jnp_get. destruct (Z.ltb_spec (Z.of_nat s) 0); [lia|]. f_equal. lia.
Qed.
(** the state sequence reached from state [s] *)
Fixpoint walk (s : Z) (draws : list (list Z)) : list Z :=
  match draws with [] => [] | d :: ds => jnp_get (-1)%Z d s :: walk (jnp_get (-1)%Z d s) ds end.
Lemma scan_walk draws : forall s,
  snd (scan (fun (prev_state : Z) (draws : list Z) => let state := jnp_get (-1)%Z draws prev_state in (state, state)) s draws) = walk s draws.
Proof.
  induction draws as [|d ds IH]; intros s; [reflexivity|]. cbn [scan walk]. cbn zeta.
  specialize (IH (jnp_get (-1)%Z d s)).
  destruct (scan _ (jnp_get (-1)%Z d s) ds) as [c ys]. cbn [snd] in *. rewrite IH. reflexivity.
Qed.
Lemma walk_length draws : forall s, length (walk s draws) = length draws.
Proof. induction draws; intros; cbn; auto. Qed.

(** Lengths: one state and one observation per step, whatever is drawn. *)
Theorem C72_lengths {E} (e0 : E) s0 trans_draws obs_draws :
  length obs_draws = S (length trans_draws) ->
  length (fst (sample_from e0 s0 trans_draws obs_draws)) = S (length trans_draws) /\
  length (snd (sample_from e0 s0 trans_draws obs_draws)) = S (length trans_draws).
Proof.
  intros H. unfold sample_from, sample_states. rewrite scan_walk. cbn [fst snd length].
  rewrite map2_length by (cbn; rewrite walk_length; auto). cbn [length]. rewrite walk_length. auto.
Qed.
Section Law.
Context {E : Type} (eqE : forall x y : E, {x = y} + {x <> y}) (e0 : E).
Variables (pi : list R) (A : list (list R)) (b : E -> list R) (obs_laws : list (law E)).
Hypothesis Hst : stochastic pi A b.
Hypothesis Hol : length obs_laws = length pi.
Hypothesis Hlaws : forall m, In m obs_laws -> is_law m.
Hypothesis Hemit : forall s x, (s < length pi)%nat ->
  emit b s x = chance (fun y => if eqE y x then true else false) (nth s obs_laws []).
Notation N := (length pi).
Definition eq_states (l m : list Z) : bool := if list_eq_dec Z.eq_dec l m then true else false.
Definition eq_obs (l m : list E) : bool := if list_eq_dec eqE l m then true else false.
Definition ind (c : bool) : R := if c then 1 else 0.
Lemma ind_and c d : ind (c && d) = ind c * ind d.
Proof. destruct c, d; cbn; lra. Qed.
Lemma eq_states_cons a l c m : eq_states (a :: l) (c :: m) = (if Z.eq_dec a c then true else false) && eq_states l m.
Proof.
  unfold eq_states. destruct (list_eq_dec Z.eq_dec (a :: l) (c :: m)), (Z.eq_dec a c), (list_eq_dec Z.eq_dec l m); cbn; auto; congruence.
Qed.
Lemma eq_obs_cons a l c m : eq_obs (a :: l) (c :: m) = (if eqE a c then true else false) && eq_obs l m.
Proof.
  unfold eq_obs. destruct (list_eq_dec eqE (a :: l) (c :: m)), (eqE a c), (list_eq_dec eqE l m); cbn; auto; congruence.
Qed.
Notation trans_law := (independent (map categorical_law A)).
Lemma trans_laws : forall m, In m (map categorical_law A) -> is_law m.
Proof.
  intros m Hm. apply in_map_iff in Hm as [row [<- Hr]]. apply categorical_is_law.
  destruct Hst as [_ [_ [Hrow _]]]. apply Hrow; auto.
Qed.
Lemma trans_marginal s s' : (s < N)%nat -> (s' < N)%nat ->
  expect (fun d => ind (if Z.eq_dec (jnp_get (-1)%Z d (Z.of_nat s)) (Z.of_nat s') then true else false)) trans_law = step A s s'.
Proof.
  intros Hs Hs'. destruct Hst as [_ [HA [Hrow _]]].
  rewrite (expect_ext _ (fun d => ind (if Z.eq_dec (nth s d (-1)%Z) (Z.of_nat s') then true else false))).
  - rewrite (expect_coord _ s (fun z => ind (if Z.eq_dec z (Z.of_nat s') then true else false)));
      [|apply trans_laws|rewrite map_length; lia].
    assert (Hn : nth s (map categorical_law A) [] = categorical_law (nth s A [])).
    { rewrite (nth_indep _ [] (categorical_law [])) by (rewrite map_length; lia). apply map_nth. }
    rewrite Hn, categorical_expect.
    destruct (Hrow (nth s A [])) as [_ Hl]; [apply nth_In; lia|]. rewrite Hl.
    rewrite (sumf_ext _ (fun k => if Nat.eqb k s' then nth k (nth s A []) 0 else 0)).
    + rewrite (sumf_if_eq N (fun k => nth k (nth s A []) 0)) by auto. reflexivity.
    + intros k _. destruct (Z.eq_dec (Z.of_nat k) (Z.of_nat s')), (Nat.eqb_spec k s'); cbn; try lia; lra.
  - intros d w Hin. rewrite jnp_get_nat; [auto|]. rewrite (independent_length _ _ _ Hin), map_length. lia.
Qed.
Lemma walk_chance p : forall s, (s < N)%nat -> (forall q, In q p -> (q < N)%nat) ->
  expect (fun ds => ind (eq_states (walk (Z.of_nat s) ds) (map Z.of_nat p))) (iid (length p) trans_law) =
  prodf (fun ab => step A (fst ab) (snd ab)) (combine (s :: p) p).
Proof.
  induction p as [|s' p IH]; intros s Hs Hp.
  - unfold iid. cbn [length repeat]. rewrite expect_nil. cbn [walk map]. unfold prodf. cbn [combine map rprod fold_right]. unfold eq_states. destruct (list_eq_dec _ _ _); cbn; congruence.
  - unfold iid. cbn [length repeat]. rewrite expect_cons.
    rewrite (expect_ext _ (fun d => ind (if Z.eq_dec (jnp_get (-1)%Z d (Z.of_nat s)) (Z.of_nat s') then true else false) *
               prodf (fun ab => step A (fst ab) (snd ab)) (combine (s' :: p) p))).
    + rewrite expect_scal_r, trans_marginal by (auto; apply Hp; left; auto). reflexivity.
    + intros d w _. rewrite <- (IH s') by (auto; try (apply Hp; left; auto); intros; apply Hp; right; auto).
      fold (iid (length p) trans_law). rewrite <- expect_scal. apply expect_ext. intros ds u _.
      cbn [walk map]. rewrite eq_states_cons, ind_and.
      destruct (Z.eq_dec (jnp_get (-1)%Z d (Z.of_nat s)) (Z.of_nat s')) as [-> |]; [reflexivity|]. cbn [ind]. ring.
Qed.
Notation obs_law := (independent obs_laws).
Lemma obs_chance p : forall o, length o = length p -> (forall q, In q p -> (q < N)%nat) ->
  expect (fun ods => ind (eq_obs (map2 (fun state draws => jnp_get e0 draws state) (map Z.of_nat p) ods) o)) (iid (length p) obs_law) =
  prodf (fun sx => emit b (fst sx) (snd sx)) (combine p o).
Proof.
  induction p as [|s p IH]; intros [|x o] Ho Hp; try discriminate.
  - unfold iid. cbn [length repeat]. rewrite expect_nil. cbn [map map2]. unfold prodf. cbn [combine map rprod fold_right]. unfold eq_obs. destruct (list_eq_dec _ _ _); cbn; congruence.
  - unfold iid. cbn [length repeat]. rewrite expect_cons.
    assert (Hs : (s < N)%nat) by (apply Hp; left; auto).
    rewrite (expect_ext _ (fun d => ind (if eqE (nth s d e0) x then true else false) * prodf (fun sx => emit b (fst sx) (snd sx)) (combine p o))).
    + rewrite expect_scal_r. rewrite (expect_coord _ s (fun y => ind (if eqE y x then true else false))) by (auto; lia).
      change (combine (s :: p) (x :: o)) with ((s, x) :: combine p o). unfold prodf at 2. cbn [map rprod fold_right fst snd].
      rewrite Hemit by auto. reflexivity.
    + intros d w Hin. rewrite <- (IH o) by (try (cbn in Ho; lia); intros; apply Hp; right; auto).
      fold (iid (length p) obs_law). rewrite <- expect_scal. apply expect_ext. intros ds u _.
      cbn [map map2]. rewrite eq_obs_cons, ind_and, jnp_get_nat; [auto|].
      rewrite (independent_length _ _ _ Hin). lia.
Qed.
Lemma path_prob_factors p o : length o = length p -> p <> [] ->
  path_prob pi A b o p = start pi (hd O p) * prodf (fun ab => step A (fst ab) (snd ab)) (combine p (tl p)) *
                         prodf (fun sx => emit b (fst sx) (snd sx)) (combine p o).
Proof.
  destruct p as [|s p], o as [|x o]; intros Hl Hne; try discriminate; [contradiction|]. cbn in Hl. injection Hl as Hl.
  cbn [path_prob hd tl]. change (combine (s :: p) (x :: o)) with ((s, x) :: combine p o).
  unfold prodf at 2. cbn [map rprod fold_right fst snd]. change (fold_right Rmult 1 (map (fun sx => emit b (fst sx) (snd sx)) (combine p o)))
    with (prodf (fun sx => emit b (fst sx) (snd sx)) (combine p o)).
  replace (continue_prob A b s p o) with (prodf (fun ab => step A (fst ab) (snd ab)) (combine (s :: p) p) *
      prodf (fun sx => emit b (fst sx) (snd sx)) (combine p o)); [ring|].
  clear Hne. revert s o Hl. induction p as [|s' p IH]; intros s [|x' o] Hl; try discriminate; [unfold prodf; cbn; lra|].
  cbn [continue_prob]. rewrite <- (IH s' o) by (cbn in Hl; lia).
  change (combine (s :: s' :: p) (s' :: p)) with ((s, s') :: combine (s' :: p) p).
  change (combine (s' :: p) (x' :: o)) with ((s', x') :: combine p o).
  unfold prodf at 1 2. cbn [map rprod fold_right fst snd]. fold (rprod (map (fun ab => step A (fst ab) (snd ab)) (combine (s' :: p) p))).
  fold (rprod (map (fun sx => emit b (fst sx) (snd sx)) (combine p o))). unfold prodf. ring.
Qed.
(** The law of the sample: with independent draws from the component distributions, the probability of
    returning the states [path] together with the observations [obs] is the joint probability of that path
    and those observations. *)
Theorem C72_law path obs : In path (paths N (length obs)) -> obs <> [] ->
  expect (fun s0 => expect (fun trans_draws => expect (fun obs_draws =>
      let r := sample_from e0 s0 trans_draws obs_draws in
      if eq_states (fst r) (map Z.of_nat path) && eq_obs (snd r) obs then 1 else 0)
    (iid (length obs) (independent obs_laws)))
    (iid (length obs - 1) (independent (map categorical_law A))))
    (categorical_law pi) = path_prob pi A b obs path.
Proof.
  intros Hp Hne. apply in_paths in Hp as [Hl Hp].
  rewrite path_prob_factors by (destruct path; [destruct obs; [contradiction|discriminate]|congruence]).
  destruct path as [|s p]; [destruct obs; [contradiction|discriminate]|]. cbn [hd tl].
  replace (length obs - 1)%nat with (length p) by (cbn in Hl; lia). rewrite <- Hl.
  set (Po := prodf (fun sx => emit b (fst sx) (snd sx)) (combine (s :: p) obs)).
  rewrite (expect_ext _ (fun s0 => (if Z.eq_dec s0 (Z.of_nat s) then 1 else 0) *
              (prodf (fun ab => step A (fst ab) (snd ab)) (combine (s :: p) p) * Po))).
  - rewrite expect_scal_r, categorical_expect.
    rewrite (sumf_ext _ (fun k => if Nat.eqb k s then nth k pi 0 else 0)).
    + rewrite (sumf_if_eq N (fun k => nth k pi 0)) by (apply Hp; left; auto). unfold start. ring.
    + intros k _. destruct (Z.eq_dec (Z.of_nat k) (Z.of_nat s)), (Nat.eqb_spec k s); try lia; lra.
  - intros s0 w Hin.
    assert (Hobs : expect (fun ods => ind (eq_obs (map2 (fun state draws => jnp_get e0 draws state) (map Z.of_nat (s :: p)) ods) obs))
                     (iid (length (s :: p)) obs_law) = Po) by (apply obs_chance; auto).
    rewrite (expect_ext _ (fun ds => (if Z.eq_dec s0 (Z.of_nat s) then 1 else 0) * ind (eq_states (walk (Z.of_nat s) ds) (map Z.of_nat p)) * Po)).
    + rewrite expect_scal_r, expect_scal, walk_chance by (try (apply Hp; left; auto); intros; apply Hp; right; auto). ring.
    + intros ds u _.
      rewrite (expect_ext _ (fun ods => (if Z.eq_dec s0 (Z.of_nat s) then 1 else 0) * ind (eq_states (walk (Z.of_nat s) ds) (map Z.of_nat p)) *
         ind (eq_obs (map2 (fun state draws => jnp_get e0 draws state) (map Z.of_nat (s :: p)) ods) obs))).
      * rewrite expect_scal, Hobs. reflexivity.
      * intros ods v _. cbn zeta. unfold sample_from, sample_states. rewrite scan_walk. cbn [fst snd].
        change (ind (eq_states (s0 :: walk s0 ds) (map Z.of_nat (s :: p)) &&
                     eq_obs (map2 (fun state draws => jnp_get e0 draws state) (s0 :: walk s0 ds) ods) obs) =
                (if Z.eq_dec s0 (Z.of_nat s) then 1 else 0) * ind (eq_states (walk (Z.of_nat s) ds) (map Z.of_nat p)) *
                ind (eq_obs (map2 (fun state draws => jnp_get e0 draws state) (map Z.of_nat (s :: p)) ods) obs)).
        rewrite ind_and. cbn [map]. rewrite eq_states_cons, ind_and.
        destruct (Z.eq_dec s0 (Z.of_nat s)) as [-> |]; [|cbn; ring]. cbn [ind].
        unfold eq_states at 1 2. destruct (list_eq_dec Z.eq_dec (walk (Z.of_nat s) ds) (map Z.of_nat p)) as [-> |]; [|cbn; ring].
        reflexivity.
Qed.
End Law.
(** The states come from the categorical samplers: whatever the noise, only transitions of positive
    probability are taken, and observation t is the draw of the component of state t. *)
Theorem C72_support {E} (e0 : E) l0 p0 w0 dt d0 (rows : list (option (list XR) * option (list XR) * list R * categorical)) obs n g0 gs obs_draws :
  parametrises l0 p0 w0 -> cat_init l0 p0 dt = Ok d0 -> length w0 = length rows ->
  (forall r, In r rows -> let '(l, p, w, d) := r in parametrises l p w /\ cat_init l p dt = Ok d /\ length w = length rows) ->
  length g0 = length rows ->
  (forall g, In g gs -> length g = length rows /\ forall v, In v g -> length v = length rows) ->
  let h := mkHMM d0 (map snd rows) obs n in
  let A := map (fun r => normalised (snd (fst r))) rows in
  let r := hmm_sample e0 h (map Fin g0) (map (map (map Fin)) gs) obs_draws in
  exists path, fst r = map Z.of_nat path /\ length path = S (length gs) /\
    0 < start (normalised w0) (hd O path) /\
    (forall t, (t < length gs)%nat -> (nth t path O < length rows)%nat /\ (nth (S t) path O < length rows)%nat /\
       0 < step A (nth t path O) (nth (S t) path O)) /\
    (forall t, (t < S (length gs))%nat -> length obs_draws = S (length gs) -> 
       (length (nth t obs_draws []) = length rows) -> nth t (snd r) e0 = nth (nth t path O) (nth t obs_draws []) e0).
Proof.
  intros Hp0 Hc0 Hw0 Hrows Hg0 Hgs h A r.
  assert (HL0 : length (normalised w0) = length w0) by apply map_length.
  assert (Hdraw : forall l p w d g, parametrises l p w -> cat_init l p dt = Ok d -> length g = length w ->
    exists k, cat_sample_int (map Fin g) d = Z.of_nat k /\ (k < length w)%nat /\ 0 < nth k (normalised w) 0).
  { intros l p w d g Hpar Hci Hlg. pose proof (init_represents _ _ _ _ _ Hpar Hci) as Rp.
    assert (HLn : length (normalised w) = length w) by apply map_length.
    destruct (rep_draw d (normalised w) Rp g) as [k [H1 [H2 [H3 _]]]]; [congruence|].
    exists k. unfold cat_sample_int. rewrite (rep_valid _ _ Rp), H1. rewrite HLn in H2. auto. }
  destruct (Hdraw l0 p0 w0 d0 g0 Hp0 Hc0 ltac:(congruence)) as [s0 [Es0 [Hs0 Hpos0]]].
  assert (Hwalk : forall gs, (forall g, In g gs -> length g = length rows /\ forall v, In v g -> length v = length rows) ->
    forall s, (s < length rows)%nat ->
    exists path, walk (Z.of_nat s) (map (fun g => map2 cat_sample_int g (map snd rows)) (map (map (map Fin)) gs)) = map Z.of_nat path /\
      length path = length gs /\ (forall q, In q path -> (q < length rows)%nat) /\
      forall t, (t < length gs)%nat -> 0 < step A (nth t (s :: path) O) (nth (S t) (s :: path) O)).
  { clear gs Hgs r. induction gs as [|g gs IH]; intros Hgs s Hs.
    - exists []. repeat split; auto; [intros q []|intros; cbn in *; lia].
    - destruct (Hgs g (or_introl eq_refl)) as [Hlg Hv].
      destruct (nth_error rows s) as [[[[l p] w] d]|] eqn:Er; [|apply nth_error_None in Er; lia].
      pose proof (nth_error_In _ _ Er) as Hin. destruct (Hrows _ Hin) as [Hpar [Hci Hlw]].
      destruct (Hdraw l p w d (nth s g []) Hpar Hci) as [k [Ek [Hk Hkp]]].
      { rewrite Hv; [congruence|]. apply nth_In. lia. }
      assert (Eg : jnp_get (-1)%Z (map2 cat_sample_int (map (map Fin) g) (map snd rows)) (Z.of_nat s) = Z.of_nat k).
      { assert (Hll : length (map (map Fin) g) = length (map snd rows)) by (rewrite !map_length; auto).
        rewrite jnp_get_nat by (rewrite map2_length by auto; rewrite map_length; lia).
        rewrite (map2_nth _ _ _ _ (map Fin []) d _ Hll) by (rewrite map_length; lia).
        rewrite (map_nth (map Fin) g []). rewrite (nth_error_nth _ _ d (map_nth_error snd s rows Er)). cbn [snd]. exact Ek. }
      destruct (IH (fun g Hg => Hgs g (or_intror Hg)) k ltac:(lia)) as [path [Ew [Hlp [Hq Hstep]]]].
      exists (k :: path). cbn [map walk]. rewrite Eg, Ew. repeat split; [cbn; auto| |].
      + intros q [<-|Hq']; [lia|auto].
      + intros [|t] Ht.
        * cbn [nth]. unfold step, A.
          rewrite (nth_error_nth _ _ [] (map_nth_error (fun r => normalised (snd (fst r))) s rows Er)). exact Hkp.
        * cbn in Ht. specialize (Hstep t ltac:(lia)). exact Hstep. }
  destruct (Hwalk gs Hgs s0 ltac:(lia)) as [path [Ew [Hlp [Hq Hstep]]]].
  assert (Hin : forall t, (t < S (length gs))%nat -> (nth t (s0 :: path) O < length rows)%nat).
  { intros [|t] Ht; cbn [nth]; [lia|]. apply Hq, nth_In. lia. }
  assert (Ef : sample_states (cat_sample_int (map Fin g0) d0) (map (fun g => map2 cat_sample_int g (map snd rows)) (map (map (map Fin)) gs)) =
     map Z.of_nat (s0 :: path)).
  { unfold sample_states. rewrite scan_walk, Es0, Ew. reflexivity. }
  exists (s0 :: path). unfold r, hmm_sample, sample_from. cbn [h_init h_trans h fst snd]. rewrite Ef.
  split; [reflexivity|]. split; [cbn; lia|]. split; [exact Hpos0|]. split.
  - intros t Ht. split; [apply Hin; lia|]. split; [apply Hin; lia|]. apply Hstep; auto.
  - intros t Ht Hlo Hlr.
    assert (Hll : length (map Z.of_nat (s0 :: path)) = length obs_draws) by (rewrite map_length; cbn; lia).
    rewrite (map2_nth _ _ _ _ 0%Z [] _ Hll) by (rewrite Hll; lia).
    change 0%Z with (Z.of_nat 0). rewrite map_nth. apply jnp_get_nat. rewrite Hlr. apply Hin. lia.
Qed.
Example C72_nonvacuous : stochastic ex_pi ex_A (fun x : bool => if x then [1 / 3; 1] else [2 / 3; 0]) /\
  (forall m, In m [[(true, 1 / 3); (false, 2 / 3)]; [(true, 1)]] -> is_law m) /\
  (forall s x, (s < length ex_pi)%nat ->
     emit (fun x : bool => if x then [1 / 3; 1] else [2 / 3; 0]) s x =
     chance (fun y => if Bool.bool_dec y x then true else false) (nth s [[(true, 1 / 3); (false, 2 / 3)]; [(true, 1)]] [])).
Proof.
  split; [|split].
  - apply ex_stochastic. intros [|]; (split; [auto|]); intros y [<-|[<-|[]]]; lra.
  - intros m [<-|[<-|[]]]; (split; [intros aw Hin; cbn in Hin; repeat destruct Hin as [<-|Hin]; cbn; try lra; contradiction|unfold sumf; cbn; lra]).
  - intros [|[|s]] [|] Hs; cbn in Hs; try lia; unfold emit, chance, expect, sumf; cbn; lra.
Qed.
Print Assumptions C72_law.
Print Assumptions C72_support.
