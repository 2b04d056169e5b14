(** Infrastructure: elementwise functions of several arrays, broadcast together (NumPy). *)
From Coq Require Import List Reals Lia.
From Verif Require Import Base.Result Base.Sums Base.Tensor Base.XR.
Import ListNotations.

Definition bshapes (l : list shape) : option shape :=
  fold_right (fun s acc => obind acc (bshape s)) (Some []) l.
(** element of an operand at an index of the broadcast result *)
Definition xget (t : tensor XR) (idx : list nat) : XR := tget (Fin 0) t (bindex (shp t) idx).
Definition lift (f : list XR -> XR) (ts : list (tensor XR)) : result (tensor XR) :=
  match bshapes (map shp ts) with
  | None => Err ValueError
  | Some s => Ok (tgen s (fun idx => f (map (fun t => xget t idx) ts)))
  end.

Lemma bshapes_cons a l : bshapes (a :: l) = obind (bshapes l) (bshape a). Proof. reflexivity. Qed.
Lemma bshapes_absorb l s : bshapes l = Some s -> forall s', In s' l -> bshape s' s = Some s.
Proof.
  revert s; induction l as [|a l IH]; intros s H s' Hin; [destruct Hin|].
  rewrite bshapes_cons in H. destruct (bshapes l) as [r|] eqn:E; cbn [obind] in H; [|discriminate].
  destruct Hin as [<-|Hin]; [apply bshape_absorb_l in H; auto|].
  eapply bshape_trans; [apply IH; eauto|]. apply bshape_absorb_r in H; auto.
Qed.
Lemma lift_inv f ts t : lift f ts = Ok t ->
  exists s, bshapes (map shp ts) = Some s /\ t = tgen s (fun idx => f (map (fun u => xget u idx) ts)).
Proof. unfold lift. destruct (bshapes _) as [s|]; intros H; [injection H as <-; eauto|discriminate]. Qed.
Lemma bshapes_le l s S : bshapes l = Some s -> bshape s S = Some S -> Forall (fun s' => bshape s' S = Some S) l.
Proof.
  intros H HS. apply Forall_forall. intros s' Hin. eapply bshape_trans; [eapply bshapes_absorb; eauto|auto].
Qed.
(** reading a broadcast result through a further broadcast *)
Lemma xget_lift f ts t S idx :
  lift f ts = Ok t -> bshape (shp t) S = Some S -> inb S idx ->
  xget t idx = f (map (fun u => xget u idx) ts).
Proof.
  intros H HS Hi. apply lift_inv in H as (s & Hs & ->). unfold xget at 1. cbn [shp tgen] in *.
  rewrite tget_tgen by (eapply bindex_inb; eauto). f_equal. apply map_ext_in. intros u Hu.
  unfold xget. f_equal. eapply bindex_bindex.
  eapply (bshapes_absorb _ _ Hs), in_map, Hu.
Qed.
Lemma bshape_nil_r s : bshape s [] = Some s.
Proof. rewrite bshape_comm; apply bshape_nil_l. Qed.
Lemma bshapes_top l S : Forall (fun s => bshape s S = Some S) l -> bshapes (S :: l) = Some S.
Proof.
  intros H. rewrite bshapes_cons. assert (exists r, bshapes l = Some r /\ bshape r S = Some S) as (r & E & Er).
  { induction H as [|a l Ha Hl (r & Er & HrS)]; [exists []; split; [auto|apply bshape_nil_l]|].
    rewrite bshapes_cons, Er. cbn [obind]. pose proof (bshape_assoc a r S) as HA. rewrite HrS in HA. cbn in HA. rewrite Ha in HA.
    destruct (bshape a r) as [ar|]; [|discriminate]. cbn in HA. eauto. }
  rewrite E. cbn. rewrite bshape_comm; auto.
Qed.
Lemma bshapes_perm2 a b : bshapes [a; b] = bshape a b.
Proof. cbn. rewrite bshape_nil_r. reflexivity. Qed.
Lemma lift_top f ts S :
  Forall (fun t => bshape (shp t) S = Some S) ts -> Exists (fun t => shp t = S) ts ->
  lift f ts = Ok (tgen S (fun idx => f (map (fun t => xget t idx) ts))).
Proof.
  intros HF HE. unfold lift.
  assert (bshapes (map shp ts) = Some S) as ->; [|auto].
  assert (HF' : Forall (fun s => bshape s S = Some S) (map shp ts)) by (apply Forall_map; auto).
  assert (HE' : In S (map shp ts)). { apply Exists_exists in HE as (t & Hin & <-). apply in_map; auto. }
  revert HF' HE'. generalize (map shp ts) as l. clear. induction l as [|a l IH]; intros HF HE; [destruct HE|].
  inversion HF as [|? ? Ha Hl]; subst. destruct (in_dec (list_eq_dec Nat.eq_dec) S l) as [Hin|Hin].
  - rewrite bshapes_cons, IH by auto. cbn. auto.
  - destruct HE as [->|HE]; [|contradiction]. apply bshapes_top; auto.
Qed.
Lemma xget_same t idx : inb (shp t) idx -> xget t idx = tget (Fin 0) t idx.
Proof. intros H; unfold xget; rewrite bindex_refl; auto. Qed.
