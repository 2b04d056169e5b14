(** C10 and the log-det part of C12: coupling log-dets against the true Jacobian. *)
From mathcomp Require Import all_ssreflect all_algebra.
From Coq Require Import Reals Lra List ZArith.
From Verif Require Import Base.Result Base.Sums Base.Tensor Model.Bijector Model.ScalarBij Model.Coupling Base.Rmx
  Spec.Bijector Spec.Scalar Spec.Jacobian Spec.Coupling Proofs.Bijector Proofs.Block Proofs.Jacobian Proofs.ScalarBij
  Proofs.LogDet Proofs.Coupling Proofs.CouplingJac Proofs.SplitJac.
Delimit Scope ring_scope with Ri.
Delimit Scope R_scope with R.
Local Open Scope R_scope.

(** ** C10 (scalar inner bijectors, one event of any shape [s]).  Whatever the conditioner is,
    wherever the whole coupling map [F] (acting on the flattened event) is differentiable, the
    reported log-det is log|det| of its Jacobian. *)
Theorem C10_masked_coupling_log_det_true_jacobian :
  forall (P : Type) (cond : arr -> result P) (bijector : P -> bij) (m : tensor bool) (s : shape) (c : bij),
  masked_coupling_init cond bijector (BoolMask m) (Some (Z.of_nat (length s))) 0 = Ok c ->
  bshape (shp m) s = Some s ->
  forall (par : arr -> P), (forall x, wf x -> shp x = s -> cond x = Ok (par x)) ->
  forall (f lf : P -> list nat -> R -> R),
  (forall p, b_in (bijector p) = 0%Z /\ b_out (bijector p) = 0%Z) ->
  (forall p x, wf x -> shp x = s ->
     b_fal (bijector p) x = Ok (tgen s (fun i => f p i (tget 0 x i)), tgen s (fun i => lf p i (tget 0 x i)))) ->
  (forall p i r, inb s i -> log_abs_derivative (f p i) (lf p i) r) ->
  forall (F : 'cV[R]_(prodl s) -> 'cV[R]_(prodl s)) (v : 'cV[R]_(prodl s)) (J : 'M[R]_(prodl s)),
  (forall w, b_fwd c (unflat w) = Ok (unflat (F w))) -> is_jacobian F v J ->
  (\det J)%Ri <> 0 /\
  exists y ld, b_fal c (unflat v) = Ok (y, ld) /\ ld = tscalar (ln (Rabs (\det J)%Ri)).
Proof. exact masked_coupling_log_det. Qed.
Print Assumptions C10_masked_coupling_log_det_true_jacobian.

(** ** C12: SplitCoupling on vectors, any inner bijector with a correct log-det. *)
Theorem C12_split_coupling_log_det_true_jacobian :
  forall (P : Type) (cond : arr -> result P) (bijector bb : P -> bij) (par : arr -> P) (k r : nat) (c : bij),
  (forall x, cond x = Ok (par x)) ->
  (forall p, coherent (bijector p) /\ promoted 1 (bijector p) (bb p)) ->
  forall (G : P -> 'cV[R]_r -> 'cV[R]_r) (l : P -> 'cV[R]_r -> R) v J,
  split_coupling_init cond bijector (Z.of_nat k) 1 false (-1) = Ok c ->
  (forall p w, b_fal (bb p) (vec w) = Ok (vec (G p w), tscalar (l p w)) /\ is_log_det (G p) w (l p w)) ->
  is_jacobian (coupling_lower (fun a : 'cV[R]_k => G (par (vec a)))) v J ->
  (\det J)%Ri <> 0 /\
  b_fal c (vec v) =
    Ok (vec (coupling_lower (fun a : 'cV[R]_k => G (par (vec a))) v), tscalar (ln (Rabs (\det J)%Ri))).
Proof. exact split_vec_lower. Qed.
Print Assumptions C12_split_coupling_log_det_true_jacobian.

Theorem C12_split_coupling_swapped_log_det_true_jacobian :
  forall (P : Type) (cond : arr -> result P) (bijector bb : P -> bij) (par : arr -> P) (k r : nat) (c : bij),
  (forall x, cond x = Ok (par x)) ->
  (forall p, coherent (bijector p) /\ promoted 1 (bijector p) (bb p)) ->
  forall (G : P -> 'cV[R]_k -> 'cV[R]_k) (l : P -> 'cV[R]_k -> R) v J,
  split_coupling_init cond bijector (Z.of_nat k) 1 true (-1) = Ok c ->
  (forall p w, b_fal (bb p) (vec w) = Ok (vec (G p w), tscalar (l p w)) /\ is_log_det (G p) w (l p w)) ->
  is_jacobian (coupling_upper (fun a : 'cV[R]_r => G (par (vec a)))) v J ->
  (\det J)%Ri <> 0 /\
  b_fal c (vec v) =
    Ok (vec (coupling_upper (fun a : 'cV[R]_r => G (par (vec a))) v), tscalar (ln (Rabs (\det J)%Ri))).
Proof. exact split_vec_upper. Qed.
Print Assumptions C12_split_coupling_swapped_log_det_true_jacobian.

(** Non-vacuity of C10: mask [True; False], y = (x0, 2 x1 + x0): the coupling map is affine, so
    its Jacobian (not diagonal) exists everywhere. *)
Definition ex_mul2 (p : R) : bij :=
  elementwise (mkMeta 0 0 true true) (fun x => 2 * x + p) (fun _ => ln (Rabs 2)) (fun x => (x - p) / 2) (fun _ => - ln (Rabs 2)).
Definition ex_cond (x : arr) : result R := Ok (tget 0 x (0%nat :: nil)).
Definition ex_mask : tensor bool := tvec (true :: false :: nil).
Definition exA : 'M[R]_2 := (\matrix_(i, j) (if i == ord0 then (if j == ord0 then 1%R else 0%R) else if j == ord0 then 1%R else 2%R))%Ri.
Example C10_nonvacuous : exists c, masked_coupling_init ex_cond ex_mul2 (BoolMask ex_mask) (Some 1%Z) 0 = Ok c /\
  exists F : 'cV[R]_(prodl (2%nat :: nil)) -> 'cV[R]_(prodl (2%nat :: nil)),
  (forall w, b_fwd c (unflat (s := 2%nat :: nil) w) = Ok (unflat (s := 2%nat :: nil) (F w))) /\
  forall v, is_jacobian F v exA.
Proof.
eexists. split; first reflexivity.
exists (fun w => (exA *m w + 0)%Ri). split; last by move=> v; apply: jacobian_affine.
move=> w. set s := (2%nat :: nil)%list.
have [y [ld [_ [E [Wy [Sy [_ [V _]]]]]]]] := @masked_vec_spec R ex_cond ex_mul2 ex_mask s _ erefl erefl
  (fun x => tget 0 x (0%nat :: nil)) (fun _ _ _ => erefl) (fun p _ x => 2 * x + p) (fun _ _ _ => ln (Rabs 2))
  (fun _ => conj erefl erefl)
  ltac:(move=> p x Hw Hs; congr Ok; congr pair; apply: (tensor_ext 0) => //; first [exact: tmap_wf | exact: tgen_wf |
    (move=> idx Hi; cbn [shp tmap] in Hi; rewrite (tget_tmap 0 0) // tget_tgen //; by rewrite -Hs)]) w.
rewrite E. congr Ok. rewrite -(unflat_event Wy Sy). congr unflat.
apply/colP => i. rewrite V. rewrite mxE [(0 : 'cV_2)%Ri _ _]mxE GRing.addr0 mxE.
have H0 : tget 0 (masked_input ex_mask (length s) (unflat w)) (0%nat :: nil)%list = w ord0 ord0.
{ rewrite /masked_input tget_tgen; last by repeat constructor.
  have := unflat_get (s := s) w ord0. by rewrite /=. }
rewrite H0 !big_ord_recl big_ord0 !mxE GRing.addr0.
case: i => [[|[|i]] Hi] //=.
- rewrite !GRing.mul1r !GRing.mul0r GRing.addr0. congr (w _ _). exact: val_inj.
- rewrite GRing.mul1r !mulRE addRE.
  have -> : lift ord0 ord0 = Ordinal Hi :> 'I_2 by exact: val_inj.
  by rewrite Rplus_comm.
Qed.

(** Non-vacuity of C12's Jacobian theorem: y = (x0, x1 + x0). *)
Definition ex_add1 (p : R) : bij :=
  elementwise (mkMeta 0 0 true true) (fun x => x + p) (fun _ => ln (Rabs 1)) (fun x => x - p) (fun _ => 0).
Definition ex_block1 (p : R) : bij := match block_init (ex_add1 p) 1 with Ok b => b | Err _ => ex_add1 p end.
Lemma vec_tmap n (h : R -> R) (w : 'cV[R]_n) : tmap h (vec w) = vec (\col_i h (w i ord0))%Ri.
Proof.
rewrite /tmap /vec /=. congr mkT. rewrite List.map_map. apply: List.map_ext_in => a /in_seq [_ Ha].
move/ltP: Ha => Ha. rewrite /= in Ha. by rewrite !insubT mxE.
Qed.
Example C12_jacobian_nonvacuous : exists c, split_coupling_init ex_cond ex_add1 1 1 false (-1) = Ok c /\
  (forall p, coherent (ex_add1 p) /\ promoted 1 (ex_add1 p) (ex_block1 p)) /\
  (forall p (w : 'cV[R]_1), b_fal (ex_block1 p) (vec w) = Ok (vec (w + const_mx p)%Ri, tscalar 0) /\
     is_log_det (fun w : 'cV[R]_1 => (w + const_mx p)%Ri) w 0) /\
  exists J, forall v, is_jacobian (coupling_lower (k := 1) (r := 1)
     (fun a : 'cV[R]_1 => (fun w => w + const_mx (tget 0 (vec a) (0%nat :: nil)))%Ri)) v J.
Proof.
eexists. split; first reflexivity. split; last split.
- move=> p. split; first by split => //; split.
  split; first reflexivity. right. split; first reflexivity. reflexivity.
- move=> p w. split.
  + rewrite /ex_block1 /=. rewrite vec_tmap.
    congr Ok. congr pair.
    * congr vec. by apply/colP => i; rewrite !mxE.
    * apply: (tensor_ext 0) => // idx Hi. rewrite (inb_nil_inv _ Hi) /tget /= /tget /=. rewrite Rabs_R1 ln_1. cbn. by rewrite !Rplus_0_r.
  + exists (1%:M)%Ri. split; last by rewrite det1; split; [exact: R1_neq_R0 | rewrite Rabs_R1 ln_1].
    have := jacobian_affine (1%:M : 'M[R]_1)%Ri (const_mx p) w. apply: jacobian_ext => u. by rewrite mul1mx.
- exists (block_mx 1%:M 0 1%:M 1%:M : 'M[R]_(1 + 1))%Ri => v.
  have := jacobian_affine (block_mx 1%:M 0 1%:M 1%:M : 'M[R]_(1 + 1))%Ri 0%Ri v.
  apply: jacobian_ext => u. rewrite /coupling_lower -{1}[u]vsubmxK mul_block_col !mul1mx mul0mx !GRing.addr0.
  congr col_mx. apply/colP => i. rewrite !mxE (vec_get (usubmx u) (i := 0) isT). rewrite GRing.addrC mxE.
  rewrite (ord1 i). congr (_ + u _ _)%Ri; exact: val_inj.
Qed.
