(** C09, C11, C12: the coupling bijectors (values, inverses, constructors). *)
From Coq Require Import List Reals ZArith Bool Lia Lra.
From Verif Require Import Base.Result Base.Sums Base.Tensor Model.Bijector Model.ScalarBij Model.Coupling
  Spec.Bijector Spec.Coupling Proofs.Bijector Proofs.Block Proofs.ScalarBij Proofs.Coupling.
Import ListNotations.
Local Open Scope nat_scope.

(** ** C09.  Arrays have shape [pre ++ suf] with [suf] the inner event; [op] is the forward or
    the inverse method.  Masked entries pass through, the others come from the inner bijector
    built from the conditioner evaluated on the masked input only; the log-det is the sum
    over the unmasked inner events. *)
Theorem C09_masked_coupling_values :
  forall P (cond : arr -> result P) (bijector : P -> bij) m ev pre suf c,
  masked_coupling_init cond bijector (BoolMask m) ev (Z.of_nat (length suf)) = Ok c ->
  bshape (shp m) pre = Some pre -> (b_in c <= Z.of_nat (length (pre ++ suf)))%Z ->
  forall op x p y0 l0, (op = b_fal \/ op = b_ial) ->
  shp x = pre ++ suf -> cond (masked_input m (length pre) x) = Ok p ->
  b_in (bijector p) = Z.of_nat (length suf) -> b_out (bijector p) = Z.of_nat (length suf) ->
  op (bijector p) x = Ok (y0, l0) -> shp y0 = pre ++ suf -> shp l0 = pre ->
  exists y s, op c x = Ok (y, s) /\ wf y /\ shp y = pre ++ suf /\ wf s /\
    (forall idx j, inb pre idx -> inb suf j ->
       tget 0%R y (idx ++ j) = if mask_at m idx then tget 0%R x (idx ++ j) else tget 0%R y0 (idx ++ j)) /\
    (forall p1 p2, pre = p1 ++ p2 -> Z.of_nat (length p2) = (b_in c - Z.of_nat (length suf))%Z ->
       shp s = p1 /\ forall idx, inb p1 idx ->
         tget 0%R s idx = sumf (fun j => if mask_at m (idx ++ j) then 0%R else tget 0%R l0 (idx ++ j)) (indices p2)).
Proof. exact @masked_coupling_values. Qed.
Print Assumptions C09_masked_coupling_values.

(** Both round trips (op = forward / op' = inverse and the converse), with opposite log-dets. *)
Theorem C09_masked_coupling_round_trip :
  forall P (cond : arr -> result P) (bijector : P -> bij) m ev pre suf c,
  masked_coupling_init cond bijector (BoolMask m) ev (Z.of_nat (length suf)) = Ok c ->
  bshape (shp m) pre = Some pre -> (b_in c <= Z.of_nat (length (pre ++ suf)))%Z ->
  forall op op' x p y ld, (op = b_fal /\ op' = b_ial) \/ (op = b_ial /\ op' = b_fal) ->
  wf x -> shp x = pre ++ suf -> cond (masked_input m (length pre) x) = Ok p ->
  b_in (bijector p) = Z.of_nat (length suf) -> b_out (bijector p) = Z.of_nat (length suf) ->
  acts_eventwise pre suf (op (bijector p)) -> acts_eventwise pre suf (op' (bijector p)) ->
  undoes pre suf (op (bijector p)) (op' (bijector p)) ->
  op c x = Ok (y, ld) -> op' c y = Ok (x, tneg ld).
Proof. exact @masked_coupling_round. Qed.
Print Assumptions C09_masked_coupling_round_trip.

(** forward and inverse are the first components of the combined methods *)
Theorem C09_masked_coupling_methods_agree :
  forall P (cond : arr -> result P) (bijector : P -> bij) mask ev inner c,
  masked_coupling_init cond bijector mask ev inner = Ok c -> methods_agree c.
Proof. intros P cond bijector mask ev inner c H. destruct (mc_init_ok _ _ _ _ _ _ H) as (m & _ & _ & _ & _ & _ & _ & _ & _ & _ & Ha). exact Ha. Qed.
Print Assumptions C09_masked_coupling_methods_agree.

(** non-vacuity: mask [True; False], conditioner = first entry, inner bijector x -> x + p *)
Definition ex_add (p : R) : bij :=
  elementwise (mkMeta 0 0 true true) (fun x => x + p)%R (fun _ => 0%R) (fun x => x - p)%R (fun _ => 0%R).
Lemma elementwise_eventwise m f lf g lg pre : acts_eventwise pre [] (b_fal (elementwise m f lf g lg)) /\
  acts_eventwise pre [] (b_ial (elementwise m f lf g lg)).
Proof.
  assert (G : forall h lh : R -> R, acts_eventwise pre [] (fun x => Ok (tmap h x, tmap lh x))).
  { intros h lh. split.
    - intros x Hw Hs. do 2 eexists. split; [reflexivity|]. rewrite app_nil_r in *.
      repeat split; auto using (tmap_wf h), (tmap_wf lh).
    - intros x x' y y' l l' idx Hw Hw' Hs Hs' E E' Hi Hsame. injection E as <- <-. injection E' as <- <-.
      rewrite app_nil_r in Hs, Hs'.
      pose proof (Hsame [] (Forall2_nil _)) as H0. rewrite app_nil_r in H0.
      split.
      + intros j Hj. apply inb_nil_inv in Hj as ->. rewrite app_nil_r.
        rewrite !(tget_tmap 0%R 0%R h) by (auto; congruence). congruence.
      + rewrite !(tget_tmap 0%R 0%R lh) by (auto; congruence). congruence. }
  split; apply G.
Qed.
Example C09_nonvacuous : exists c,
  let m := tvec [true; false] in
  let cond := fun x : arr => Ok (tget 0%R x [0%nat]) in
  masked_coupling_init cond ex_add (BoolMask m) None (Z.of_nat (length (@nil nat))) = Ok c /\
  bshape (shp m) [3; 2] = Some [3; 2] /\ (b_in c <= Z.of_nat (length ([3; 2] ++ [])))%Z /\
  forall p, b_in (ex_add p) = 0%Z /\ acts_eventwise [3; 2] [] (b_fal (ex_add p)) /\
    acts_eventwise [3; 2] [] (b_ial (ex_add p)) /\ undoes [3; 2] [] (b_fal (ex_add p)) (b_ial (ex_add p)).
Proof.
  eexists. cbn zeta. split; [reflexivity|]. split; [reflexivity|]. split; [cbn; lia|].
  intros p. split; [reflexivity|]. destruct (elementwise_eventwise (mkMeta 0 0 true true) (fun x => x + p)%R (fun _ => 0%R) (fun x => x - p)%R (fun _ => 0%R) [3; 2]) as [A B].
  split; [exact A|]. split; [exact B|]. intros x y l Hw Hs E. apply (elementwise_opposite _ _ _ _ _ _ _ _) in E; auto; intros; cbn; lra.
Qed.

(** ** C11 *)
Theorem C11_masked_coupling_constructor :
  forall P cond (bijector : P -> bij) mask ev inner,
  (masked_coupling_init cond bijector mask ev inner = Err ValueError <->
     (exists a, mask = NonBoolMask a) \/ (exists e, ev = Some e /\ (e < inner \/ e < 0)%Z) \/
     (exists m, mask = BoolMask m /\ ev = None /\ (Z.of_nat (rank m) + inner < 0)%Z)) /\
  (forall e, masked_coupling_init cond bijector mask ev inner = Err e -> e = ValueError).
Proof. exact @mc_init_spec. Qed.
Print Assumptions C11_masked_coupling_constructor.

Theorem C11_masked_coupling_inner_mismatch :
  forall P (cond : arr -> result P) (bijector : P -> bij) m ev pre suf c,
  masked_coupling_init cond bijector (BoolMask m) ev (Z.of_nat (length suf)) = Ok c ->
  bshape (shp m) pre = Some pre -> (b_in c <= Z.of_nat (length (pre ++ suf)))%Z ->
  forall op x p, (op = b_fal \/ op = b_ial) ->
  shp x = pre ++ suf -> cond (masked_input m (length pre) x) = Ok p ->
  b_in (bijector p) <> Z.of_nat (length suf) \/ b_out (bijector p) <> Z.of_nat (length suf) ->
  op c x = Err ValueError.
Proof. exact @masked_coupling_inner_mismatch. Qed.
Print Assumptions C11_masked_coupling_inner_mismatch.

Theorem C11_split_coupling_constructor :
  forall P cond (bijector : P -> bij) si ev swap ax,
  (split_coupling_init cond bijector si ev swap ax = Err ValueError <->
     (si < 0 \/ 0 <= ax \/ ev < 0 \/ ax < - ev)%Z) /\
  (forall e, split_coupling_init cond bijector si ev swap ax = Err e -> e = ValueError) /\
  (forall c, split_coupling_init cond bijector si ev swap ax = Ok c ->
     b_in c = ev /\ b_out c = ev /\ b_cj c = false /\ b_cl c = false).
Proof.
  intros P cond bijector si ev swap ax. destruct (sc_init_spec cond bijector si ev swap ax) as (A & B & C).
  split; [exact A|]. split; [exact B|]. intros c H. destruct (C c H) as (C1 & C2 & C3 & C4 & _). auto.
Qed.
Print Assumptions C11_split_coupling_constructor.

(** The inner bijector is refused exactly when its event ndims differ or exceed the coupling's. *)
Theorem C11_split_coupling_inner :
  forall P (bijector : P -> bij) ev p, coherent (bijector p) ->
  (sc_inner bijector ev p = Err ValueError <->
     (b_in (bijector p) <> b_out (bijector p) \/ ev < b_in (bijector p))%Z) /\
  (forall b', promoted ev (bijector p) b' -> sc_inner bijector ev p = Ok b').
Proof.
  intros P bijector ev p Hc. split; [exact (sc_inner_rejects bijector ev p Hc)|].
  intros b'. exact (sc_inner_promoted bijector ev p b' Hc).
Qed.
Print Assumptions C11_split_coupling_inner.
Example C11_nonvacuous : (exists c, split_coupling_init (fun x : arr => Ok x) (fun _ => ex_add 1%R) 2 3 true (-2) = Ok c) /\
  coherent (ex_add 1%R) /\ exists b', promoted 3 (ex_add 1%R) b'.
Proof.
  split; [eexists; reflexivity|]. split; [split; [cbn; lia|split; [cbn; lia|cbn; auto]]|].
  eexists. split; [reflexivity|]. right. split; [cbn; lia|]. reflexivity.
Qed.

(** ** C12.  [x] has length [d] on the split axis, [k] = min(split_index, d). *)
Theorem C12_split_coupling_values :
  forall P (cond : arr -> result P) (bijector : P -> bij) si ev swap ax pre post d c,
  split_coupling_init cond bijector si ev swap ax = Ok c ->
  ax = (- Z.of_nat (S (length post)))%Z -> let k := Nat.min (Z.to_nat si) d in
  forall op x x1 x2 p b' y2 l, (op = b_fal \/ op = b_ial) ->
  shp x = pre ++ d :: post -> (ev <= Z.of_nat (rank x))%Z ->
  slice_of pre post (kept_lo swap k d) (kept_hi swap k d) x x1 ->
  slice_of pre post (kept_lo (negb swap) k d) (kept_hi (negb swap) k d) x x2 ->
  cond x1 = Ok p -> coherent (bijector p) -> promoted ev (bijector p) b' ->
  op b' x2 = Ok (y2, l) -> wf y2 -> shp y2 = shp x2 ->
  exists y, op c x = Ok (y, l) /\ wf y /\ shp y = shp x /\
    slice_of pre post (kept_lo swap k d) (kept_hi swap k d) y x1 /\
    slice_of pre post (kept_lo (negb swap) k d) (kept_hi (negb swap) k d) y y2.
Proof. exact @split_coupling_values. Qed.
Print Assumptions C12_split_coupling_values.

Theorem C12_split_coupling_round_trip :
  forall P (cond : arr -> result P) (bijector : P -> bij) si ev swap ax pre post d c,
  split_coupling_init cond bijector si ev swap ax = Ok c ->
  ax = (- Z.of_nat (S (length post)))%Z -> let k := Nat.min (Z.to_nat si) d in
  forall op op' x x1 x2 p b' y2 l y, (op = b_fal /\ op' = b_ial) \/ (op = b_ial /\ op' = b_fal) ->
  wf x -> shp x = pre ++ d :: post -> (ev <= Z.of_nat (rank x))%Z ->
  slice_of pre post (kept_lo swap k d) (kept_hi swap k d) x x1 ->
  slice_of pre post (kept_lo (negb swap) k d) (kept_hi (negb swap) k d) x x2 ->
  cond x1 = Ok p -> coherent (bijector p) -> promoted ev (bijector p) b' ->
  op b' x2 = Ok (y2, l) -> wf y2 -> shp y2 = shp x2 -> op' b' y2 = Ok (x2, tneg l) ->
  op c x = Ok (y, l) -> op' c y = Ok (x, tneg l).
Proof. exact @split_coupling_round. Qed.
Print Assumptions C12_split_coupling_round_trip.

(** every array has such slices, so the theorems above apply to every input *)
Theorem C12_split_parts_exist : forall pre post d k (x : arr), (k <= d)%nat -> shp x = pre ++ d :: post ->
  exists x1 x2, slice_of pre post 0 k x x1 /\ slice_of pre post k d x x2.
Proof. exact slices_exist. Qed.
Print Assumptions C12_split_parts_exist.
Example C12_nonvacuous : exists c, split_coupling_init (fun x : arr => Ok (tget 0%R x [0; 0]%nat)) ex_add 1 1 true (-1) = Ok c /\
  let x := mkT [1; 3]%nat [5; 6; 7]%R in exists y l, b_fal c x = Ok (y, l) /\ dat y = [5 + 6; 6; 7]%R.
Proof. eexists. split; [reflexivity|]. do 2 eexists. split; reflexivity. Qed.
