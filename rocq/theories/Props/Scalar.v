(** C13-C16: the elementwise bijectors. *)
From Coq Require Import List Reals ZArith Bool Lia Lra.
From Verif Require Import Base.Result Base.Sums Base.Tensor Model.Bijector Model.ScalarBij
  Spec.Bijector Spec.Scalar Proofs.Bijector Proofs.ScalarBij.
Import ListNotations.
Local Open Scope R_scope.

(** ** C13 *)
Theorem C13_scalar_affine_values : forall shift scale log_scale b x s,
  wf shift -> (forall a, scale = Some a -> wf a) -> (forall a, log_scale = Some a -> wf a) ->
  scalar_affine_init shift scale log_scale = Ok b -> wf x ->
  (exists bs, bshape (shp shift) (match scale, log_scale with Some a, _ => shp a | _, Some l => shp l | _, _ => [] end) = Some bs
              /\ bshape bs (shp x) = Some s) ->
  (forall idx, inb s idx -> eff_scale scale log_scale idx <> 0) ->
  b_fal b x = Ok (tgen s (fun i => eff_scale scale log_scale i * bget x i + bget shift i),
                  tgen s (fun i => ln (Rabs (eff_scale scale log_scale i)))) /\
  b_fwd b x = rmap fst (b_fal b x) /\ b_fld b x = rmap snd (b_fal b x) /\
  b_ial b x = Ok (tgen s (fun i => (bget x i - bget shift i) / eff_scale scale log_scale i),
                  tgen s (fun i => - ln (Rabs (eff_scale scale log_scale i)))) /\
  b_inv b x = rmap fst (b_ial b x) /\ b_ild b x = rmap snd (b_ial b x).
Proof. exact scalar_affine_spec. Qed.
Print Assumptions C13_scalar_affine_values.

Theorem C13_scalar_affine_round_trip : forall shift scale log_scale b x y l s,
  wf shift -> (forall a, scale = Some a -> wf a) -> (forall a, log_scale = Some a -> wf a) ->
  scalar_affine_init shift scale log_scale = Ok b -> wf x ->
  (exists bs, bshape (shp shift) (match scale, log_scale with Some a, _ => shp a | _, Some l => shp l | _, _ => [] end) = Some bs
              /\ bshape bs (shp x) = Some s) ->
  (forall idx, inb s idx -> eff_scale scale log_scale idx <> 0) ->
  b_fal b x = Ok (y, l) -> b_ial b y = Ok (tgen s (bget x), tneg l).
Proof. exact scalar_affine_round. Qed.
Print Assumptions C13_scalar_affine_round_trip.

Theorem C13_scalar_affine_both_rejected : forall shift s l,
  scalar_affine_init shift (Some s) (Some l) = Err ValueError.
Proof. exact scalar_affine_both_err. Qed.
Print Assumptions C13_scalar_affine_both_rejected.

Theorem C13_affine_log_derivative : forall (a c x : R), a <> 0 ->
  log_abs_derivative (fun x => a * x + c) (fun _ => ln (Rabs a)) x.
Proof. exact scalar_affine_logdet. Qed.
Print Assumptions C13_affine_log_derivative.

Theorem C13_shift_values : forall shift b x s,
  wf shift -> wf x -> shift_init shift = Ok b -> bshape (shp x) (shp shift) = Some s ->
  b_fal b x = Ok (tgen s (fun i => bget x i + bget shift i), tgen s (fun _ => 0)) /\
  b_ial b x = Ok (tgen s (fun i => bget x i - bget shift i), tgen s (fun _ => 0)) /\
  b_fwd b x = rmap fst (b_fal b x) /\ b_fld b x = rmap snd (b_fal b x) /\
  b_inv b x = rmap fst (b_ial b x) /\ b_ild b x = rmap snd (b_ial b x).
Proof. exact shift_spec. Qed.
Print Assumptions C13_shift_values.

Theorem C13_shift_round_trip : forall shift b x y l s,
  wf shift -> wf x -> shift_init shift = Ok b -> bshape (shp x) (shp shift) = Some s ->
  b_fal b x = Ok (y, l) -> b_ial b y = Ok (tgen s (bget x), tneg l).
Proof. exact shift_round. Qed.
Print Assumptions C13_shift_round_trip.
Example C13_nonvacuous : exists b, scalar_affine_init (tvec [1; 2]) (Some (tscalar (-3))) None = Ok b /\
  let x := mkT [2; 1]%nat [5; 6] in wf x /\
  bshape [2]%nat [] = Some [2]%nat /\ bshape [2]%nat (shp x) = Some [2; 2]%nat /\
  (forall idx, inb [2; 2]%nat idx -> eff_scale (Some (tscalar (-3))) None idx <> 0).
Proof.
  eexists; split; [reflexivity|]. cbn zeta. split; [reflexivity|]. split; [reflexivity|]. split; [reflexivity|].
  intros idx Hi. unfold eff_scale, bget, tget, bindex; cbn. lra.
Qed.

(** ** C14 *)
Theorem C14_tanh_bijection : bijection_onto tanh_forward tanh_inverse (fun y => -1 < y < 1).
Proof. exact tanh_bijection. Qed.
Print Assumptions C14_tanh_bijection.
Theorem C14_tanh_log_det : forall x, log_abs_derivative tanh_forward tanh_fldj x.
Proof. exact tanh_log_det. Qed.
Print Assumptions C14_tanh_log_det.
Theorem C14_tanh_inverse_log_det : forall x, tanh_ildj (tanh_forward x) = - tanh_fldj x.
Proof. intros x. unfold tanh_ildj. rewrite (proj2 (proj1 tanh_bijection x)). reflexivity. Qed.
Print Assumptions C14_tanh_inverse_log_det.
Theorem C14_tanh_array_round_trip : forall b x y l,
  tanh_bij = Ok b -> b_fal b x = Ok (y, l) -> b_ial b y = Ok (x, tneg l).
Proof. exact tanh_array_round. Qed.
Print Assumptions C14_tanh_array_round_trip.
Example C14_nonvacuous : exists b, tanh_bij = Ok b /\ b_in b = 0%Z /\ b_cj b = false.
Proof. eexists; repeat split. Qed.

(** ** C15 : the full claim (bijection, exact round trip and log-derivative on all of R) is
    false of the code because of the [x < -9] approximation; both halves are exact on x >= -9
    (x > -9 for the derivative). *)
Theorem C15_sigmoid_round_trip_partial : forall x, -9 <= x -> sigmoid_inverse (sigmoid_forward x) = x.
Proof. exact sigmoid_roundtrip_ge. Qed.
Print Assumptions C15_sigmoid_round_trip_partial.
Theorem C15_sigmoid_log_det_partial : forall x, -9 < x -> log_abs_derivative sigmoid_forward sigmoid_fldj x.
Proof. exact sigmoid_log_det_gt. Qed.
Print Assumptions C15_sigmoid_log_det_partial.
Theorem C15_sigmoid_error_bound : forall x, x < -9 ->
  0 < sigmoid_inverse (sigmoid_forward x) - x <= exp x / (1 - exp x).
Proof. exact sigmoid_error_lt. Qed.
Print Assumptions C15_sigmoid_error_bound.
Theorem C15_sigmoid_range : forall x, 0 < sigmoid_forward x < 1.
Proof. exact sigmoid_forward_range. Qed.
Print Assumptions C15_sigmoid_range.
Theorem C15_sigmoid_round_trip_refuted : exists x, sigmoid_inverse (sigmoid_forward x) <> x.
Proof. exact sigmoid_roundtrip_fails. Qed.
Print Assumptions C15_sigmoid_round_trip_refuted.
Theorem C15_sigmoid_not_injective_refuted : exists x1 x2, x1 < x2 /\ sigmoid_forward x1 = sigmoid_forward x2.
Proof. exact sigmoid_not_injective. Qed.
Print Assumptions C15_sigmoid_not_injective_refuted.
Theorem C15_sigmoid_log_det_refuted : forall x, x < -9 -> ~ log_abs_derivative sigmoid_forward sigmoid_fldj x.
Proof. exact sigmoid_log_det_wrong. Qed.
Print Assumptions C15_sigmoid_log_det_refuted.

(** ** C16 *)
Theorem C16_gumbel_bijection : bijection_onto gumbel_forward gumbel_inverse (fun y => 0 < y < 1).
Proof. exact gumbel_bijection. Qed.
Print Assumptions C16_gumbel_bijection.
Theorem C16_gumbel_log_det : forall x, log_abs_derivative gumbel_forward gumbel_fldj x.
Proof. exact gumbel_log_det. Qed.
Print Assumptions C16_gumbel_log_det.
Theorem C16_gumbel_inverse_log_det : forall y, 0 < y < 1 -> gumbel_ildj y = - gumbel_fldj (gumbel_inverse y).
Proof. exact gumbel_ildj_neg. Qed.
Print Assumptions C16_gumbel_inverse_log_det.
Theorem C16_gumbel_array_round_trip : forall b x y l,
  gumbel_bij = Ok b -> b_fal b x = Ok (y, l) -> b_ial b y = Ok (x, tneg l).
Proof. exact gumbel_array_round. Qed.
Print Assumptions C16_gumbel_array_round_trip.
Example C16_nonvacuous : 0 < gumbel_forward 1 < 1 /\ exists b, gumbel_bij = Ok b.
Proof. split; [apply gumbel_range|eexists; reflexivity]. Qed.
