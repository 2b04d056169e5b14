(** C25, when the automatic inverse exists: every chain of registered steps is inverted; several results or an
    unused argument are refused. *)
From Coq Require Import List Reals ZArith Bool Lia Lra.
From Verif Require Import Base.Result Model.Jaxpr Spec.Jaxpr Spec.JaxprChain Proofs.JaxprPrims Proofs.Jaxpr Props.Auto.
Import ListNotations.
Local Open Scope R_scope.

Scheme step_mut := Minimality for step Sort Prop
with chain_mut := Minimality for chain Sort Prop.

Section Chain.
Variables (other1 : nat -> R -> val) (other2 : nat -> R -> R -> val) (sq : bool).
Notation inv_eqn := (inv_eqn other1 other2 sq).
Notation inv_eqns := (inv_eqns other1 other2 sq).

Lemma write_all_defined vs : forall xs e v y, length vs = length xs -> e v = Some y ->
  exists e' y', write_all e vs xs = Ok e' /\ e' v = Some y'.
Proof.
  induction vs as [|w vs IH]; intros [|x xs] e v y L E; try discriminate; cbn [write_all]; [eauto|].
  destruct (Nat.eq_dec v w) as [-> |N].
  - apply (IH xs (upd e w x) w x); [cbn in L; lia|]. unfold upd. rewrite Nat.eqb_refl. reflexivity.
  - apply (IH xs (upd e w x) v y); [cbn in L; lia|]. unfold upd. apply Nat.eqb_neq in N. rewrite N. exact E.
Qed.
Lemma upd_same e v x : upd e v x v = Some x.
Proof. unfold upd. rewrite Nat.eqb_refl. reflexivity. Qed.

(** a chain of registered steps never raises: from a value of the last variable it computes one of the first *)
Lemma chain_returns : forall v l o, chain sq v l o ->
  forall e y, e o = Some y -> exists e' x, inv_eqns l e = Ok e' /\ e' v = Some x.
Proof.
  apply (chain_mut sq
    (fun v q o => forall e y, e o = Some y -> exists e' x, inv_eqn q e = Ok e' /\ e' v = Some x)
    (fun v l o => forall e y, e o = Some y -> exists e' x, inv_eqns l e = Ok e' /\ e' v = Some x)).
  - intros p v o R e y E. assert (exists f, inv_un other1 sq p = Some f) as [f F].
    { destruct p; cbn in *; try contradiction; try rewrite R; eauto. }
    cbn [Model.Jaxpr.inv_eqn]. rewrite F. cbn [lookup rbind read]. rewrite E. cbn [rbind write_atoms].
    eexists. eexists. split; [reflexivity|]. apply upd_same.
  - intros n v o N e y E. cbn [Model.Jaxpr.inv_eqn read]. rewrite E. cbn [rbind]. apply Z.eqb_neq in N. rewrite N. cbn [write_atoms].
    eexists. eexists. split; [reflexivity|]. apply upd_same.
  - intros p v c o R e y E. assert (exists f, inv_bin_left other2 p = Some f) as [f F].
    { destruct p; cbn in *; try contradiction; eauto. }
    cbn [Model.Jaxpr.inv_eqn]. rewrite F. cbn [lookup rbind read]. rewrite E. cbn [rbind].
    eexists. eexists. split; [reflexivity|]. apply upd_same.
  - intros p v c o R e y E. assert (exists f, inv_bin_right other2 p = Some f) as [f F].
    { destruct p; cbn in *; try contradiction; eauto. }
    cbn [Model.Jaxpr.inv_eqn]. rewrite F. cbn [lookup rbind read]. rewrite E. cbn [rbind].
    eexists. eexists. split; [reflexivity|]. apply upd_same.
  - intros i cvs body w consts v o L C IH e y E.
    change (exists e' x, (do ys <- rmapM (fun o => read e (AVar o)) [o];
        do e0 <- write_atoms empty_env [AVar w] ys;
        do e1 <- write_all e0 cvs (map Some consts);
        do e2 <- inv_eqns body e1;
        do xs <- (if forallb (fun v => match e2 v with Some _ => true | None => false end) [i]
                  then rmapM (fun v => read e2 (AVar v)) [i] else Err ValueError);
        write_atoms e [AVar v] xs) = Ok e' /\ e' v = Some x).
    cbn [rmapM read]. rewrite E. cbn [rbind write_atoms].
    destruct (write_all_defined cvs (map Some consts) (upd empty_env w y) w y ltac:(rewrite map_length; auto) (upd_same _ _ _)) as (e1 & y1 & W & D).
    rewrite W. cbn [rbind]. destruct (IH e1 y1 D) as (e2 & x2 & I2 & D2). rewrite I2. cbn [rbind forallb]. rewrite D2.
    cbn [andb rmapM read]. rewrite ?D2. cbn [rbind write_atoms].
    eexists. eexists. split; [reflexivity|]. apply upd_same.
  - intros v e y E. exists e, y. split; [reflexivity|exact E].
  - intros v q w l o _ IH1 _ IH2 e y E. cbn [Model.Jaxpr.inv_eqns]. destruct (IH2 e y E) as (e1 & y1 & I1 & D1). rewrite I1. cbn [rbind].
    apply (IH1 e1 y1 D1).
Qed.

(** equations only write to their operands *)
Lemma write_atoms_frame vs : forall xs e e' v, write_atoms e vs xs = Ok e' -> ~ In (AVar v) vs -> e' v = e v.
Proof.
  induction vs as [|[w|c] vs IH]; intros [|x xs] e e' v H N; try discriminate; cbn in H.
  - injection H as <-. reflexivity.
  - rewrite (IH _ _ _ _ H) by (intros A; apply N; right; exact A). unfold upd.
    destruct (Nat.eqb_spec v w) as [-> |]; [exfalso; apply N; left; reflexivity|reflexivity].
  - apply (IH _ _ _ _ H). intros A; apply N; right; exact A.
Qed.
Lemma write_all_frame vs : forall xs e e' v, write_all e vs xs = Ok e' -> ~ In v vs -> e' v = e v.
Proof.
  induction vs as [|w vs IH]; intros [|x xs] e e' v H N; try discriminate; cbn in H.
  - injection H as <-. reflexivity.
  - rewrite (IH _ _ _ _ H) by (intros A; apply N; right; exact A). unfold upd.
    destruct (Nat.eqb_spec v w) as [-> |]; [exfalso; apply N; left; reflexivity|reflexivity].
Qed.
Lemma upd_other e w v x : v <> w -> upd e w x v = e v.
Proof. intros N. unfold upd. apply Nat.eqb_neq in N. rewrite N. reflexivity. Qed.
Lemma inv_eqn_frame q e e' v : inv_eqn q e = Ok e' -> ~ In (AVar v) (operands q) -> e' v = e v.
Proof.
  destruct q as [p a o|n a o|p [a|a] [b|b] o|n args o|ins cvs body outs consts arg res]; cbn [Model.Jaxpr.inv_eqn operands]; intros H N; try discriminate.
  - apply rbind_ok_inv in H as (f & _ & H). apply rbind_ok_inv in H as (y & _ & H). exact (write_atoms_frame _ _ _ _ _ H N).
  - apply rbind_ok_inv in H as (y & _ & H). destruct (n =? 0)%Z; [discriminate|]. exact (write_atoms_frame _ _ _ _ _ H N).
  - apply rbind_ok_inv in H as (f & _ & H). apply rbind_ok_inv in H as (y & _ & H). injection H as <-. apply upd_other.
    intros ->. apply N. left. reflexivity.
  - apply rbind_ok_inv in H as (f & _ & H). apply rbind_ok_inv in H as (y & _ & H). injection H as <-. apply upd_other.
    intros ->. apply N. right. left. reflexivity.
  - apply rbind_ok_inv in H as (ys & _ & H). apply rbind_ok_inv in H as (e0 & _ & H). apply rbind_ok_inv in H as (e1 & _ & H).
    apply rbind_ok_inv in H as (e2 & _ & H). apply rbind_ok_inv in H as (xs & _ & H). exact (write_atoms_frame _ _ _ _ _ H N).
Qed.
Lemma inv_eqns_frame l : forall e e' v, inv_eqns l e = Ok e' -> (forall q, In q l -> ~ In (AVar v) (operands q)) -> e' v = e v.
Proof.
  induction l as [|q l IH]; intros e e' v H N; cbn [Model.Jaxpr.inv_eqns] in H; [injection H as <-; reflexivity|].
  apply rbind_ok_inv in H as (e1 & H1 & H2). rewrite (inv_eqn_frame _ _ _ v H2) by (apply N; left; reflexivity).
  apply (IH _ _ _ H1). intros q' Hq. apply N. right. exact Hq.
Qed.
End Chain.

(** Every chain of registered steps, of any length and nesting, is inverted: at an input where each step is invertible,
    the automatic inverse returns, and returns the input. *)
Theorem C25_chain_inverted : forall other1 other2 other_many has_square j consts v o x y,
  j_in j = [v] -> j_out j = [AVar o] -> chain has_square v (j_eqns j) o ->
  single_assignment j ->
  eval_jaxpr other1 other2 other_many j consts [Some x] = Ok [y] ->
  runs_invertibly other1 other2 other_many j consts [Some x] ->
  inv other1 other2 has_square j consts y = Ok (Some x).
Proof.
  intros o1 o2 om sq j consts v o x y Ei Eo HC S Ev K.
  assert (exists r, inv o1 o2 sq j consts y = Ok r) as [r Hr].
  { unfold inv, interpret_inverse. rewrite Eo. cbn [write_atoms rbind].
    assert (L : length (j_const j) = length (map (@Some R) consts)).
    { unfold eval_jaxpr in Ev. apply rbind_ok_inv in Ev as (e0 & W & _). revert W. generalize (@empty_env), (map (@Some R) consts).
      induction (j_const j) as [|w l IH]; intros e [|z zs] W; cbn in W; try discriminate; [reflexivity|]. cbn. f_equal. exact (IH _ _ W). }
    destruct (write_all_defined _ _ (upd empty_env o y) o y L (upd_same _ _ _)) as (e1 & y1 & W & D).
    rewrite W. cbn [rbind]. destruct (chain_returns o1 o2 sq v _ o HC e1 y1 D) as (e2 & x2 & I2 & D2). rewrite I2. cbn [rbind].
    rewrite Ei. cbn [forallb]. rewrite ?D2. cbn [andb rmapM read]. rewrite ?D2. cbn [rbind]. eauto. }
  rewrite Hr. f_equal. exact (C25_inv_inverts o1 o2 om sq j consts x y r S Ev K Hr).
Qed.
Print Assumptions C25_chain_inverted.

(** A function with no result or with several is refused. *)
Theorem C25_one_result : forall other1 other2 has_square j consts y,
  length (j_out j) <> 1%nat -> exists e, inv other1 other2 has_square j consts y = Err e.
Proof.
  intros o1 o2 sq j consts y N. unfold inv, interpret_inverse.
  destruct (j_out j) as [|a [|b l]]; [|cbn in N; lia|]; [cbn; eauto|]. destruct a, b; cbn; eauto.
Qed.
Print Assumptions C25_one_result.

(** A function that does not use its argument is refused (ValueError when nothing else fails first). *)
Theorem C25_unused_argument : forall other1 other2 has_square j consts y v,
  In v (j_in j) -> unused v j ->
  (exists e, inv other1 other2 has_square j consts y = Err e) /\
  (j_eqns j = [] -> length (j_out j) = 1%nat -> length consts = length (j_const j) ->
   inv other1 other2 has_square j consts y = Err ValueError).
Proof.
  intros o1 o2 sq j consts y v Hv (U1 & U2 & U3).
  assert (G : forall e0 e1 e2, write_atoms empty_env (j_out j) [y] = Ok e0 -> write_all e0 (j_const j) (map Some consts) = Ok e1 ->
     inv_eqns o1 o2 sq (j_eqns j) e1 = Ok e2 ->
     forallb (fun v => match e2 v with Some _ => true | None => false end) (j_in j) = false).
  { intros e0 e1 e2 W0 W1 I. apply Bool.not_true_iff_false. intros F. rewrite forallb_forall in F. specialize (F v Hv).
    rewrite (inv_eqns_frame _ _ _ _ _ _ v I U1), (write_all_frame _ _ _ _ v W1 U3), (write_atoms_frame _ _ _ _ v W0 U2) in F. discriminate. }
  unfold inv, interpret_inverse. split.
  - destruct (write_atoms empty_env (j_out j) [y]) as [e0|e0] eqn:W0; cbn [rbind]; [|eauto].
    destruct (write_all e0 (j_const j) (map Some consts)) as [e1|e1] eqn:W1; cbn [rbind]; [|eauto].
    destruct (inv_eqns o1 o2 sq (j_eqns j) e1) as [e2|e2] eqn:I; cbn [rbind]; [|eauto].
    rewrite (G e0 e1 e2 eq_refl W1 I). cbn. eauto.
  - intros E L Lc. destruct (j_out j) as [|a [|b l]] eqn:Eo; try discriminate.
    assert (exists e0, write_atoms empty_env [a] [y] = Ok e0) as [e0 W0] by (destruct a; cbn; eauto).
    assert (W : forall vs xs e, length vs = length xs -> exists e', write_all e vs xs = Ok e').
    { induction vs as [|w vs IH]; intros [|z xs] e Q; try discriminate; cbn; eauto. }
    destruct (W (j_const j) (map Some consts) e0 ltac:(rewrite map_length; auto)) as [e1 W1].
    rewrite W0. cbn [rbind]. rewrite W1. cbn [rbind]. rewrite E. cbn [Model.Jaxpr.inv_eqns rbind].
    rewrite (G e0 e1 e1 W0 W1) by (rewrite E; reflexivity). reflexivity.
Qed.
Print Assumptions C25_unused_argument.

(** exp(2 * x + 1) with the exponential in a nested call is a chain, so it is inverted at every x; x |-> 3 does not use x. *)
Example C25_chain_nonvacuous : chain true 0%nat (j_eqns ex_prog) 3%nat /\
  (forall o1 o2 x, inv o1 o2 true ex_prog [] (Some (exp (2 * x + 1))) = Ok (Some x)) /\
  unused 0%nat (mkJaxpr [0%nat] [] [] [ALit 3]).
Proof.
  assert (C : chain true 0%nat (j_eqns ex_prog) 3%nat).
  { eapply chain_cons; [apply step_right; exact Logic.I|]. eapply chain_cons; [apply step_left; exact Logic.I|].
    eapply chain_cons; [apply step_call; [reflexivity|]|apply chain_nil].
    eapply chain_cons; [apply step_un; exact Logic.I|apply chain_nil]. }
  split; [exact C|]. split.
  - intros o1 o2 x. set (om := fun (_ : nat) (_ : list R) => @None R). destruct (C25_nonvacuous o1 o2 om x) as (S & E & K & _).
    exact (C25_chain_inverted o1 o2 om true ex_prog [] 0%nat 3%nat x _ eq_refl eq_refl C S E K).
  - split; [intros q []|]. split; [intros [H|[]]; discriminate|intros []].
Qed.
