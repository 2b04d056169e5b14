(** C24-C26: the Lambda bijector, automatic inversion, the constant-Jacobian analysis. *)
From Coq Require Import List Reals ZArith Bool Lia Lra.
From Coquelicot Require Import Coquelicot.
From Verif Require Import Base.Result Base.Sums Base.Tensor Model.Bijector Model.Lambda Spec.Lambda Proofs.Lambda
  Model.Jaxpr Spec.Jaxpr Proofs.JaxprPrims Proofs.Jaxpr.
Import ListNotations.
Local Open Scope R_scope.

(** ** C24 *)
(** The constructor raises exactly on the documented combinations, always ValueError. *)
Theorem C24_lambda_rejects : forall icj a,
  (rejected a <-> lambda_init icj a = Err ValueError) /\
  (forall e, lambda_init icj a = Err e -> e = ValueError).
Proof. exact lambda_init_rejects. Qed.
Print Assumptions C24_lambda_rejects.

(** Whatever was called before, every method answers as the arguments prescribe: given functions
    are used unchanged, a missing direction is the automatic inverse of the other, missing
    log-dets come from differentiation.  [inv], [lds] and [icj] are arbitrary. *)
Theorem C24_lambda_methods : forall inv lds icj a s calls,
  lambda_init icj a = Ok s ->
  lambda_calls inv lds s calls = map (doc_answer inv lds a) calls.
Proof. intros inv lds icj a s cs H. apply calls_ok, (init_consistent inv icj), H. Qed.
Print Assumptions C24_lambda_methods.

Theorem C24_lambda_metadata : forall icj a s, lambda_init icj a = Ok s ->
  m_in (l_meta s) = doc_in a /\ m_out (l_meta s) = doc_out a /\
  m_cl (l_meta s) = m_cj (l_meta s) /\
  m_cj (l_meta s) = match a_cj a, a_fwd a, a_inv a with
                    | Some c, _, _ => c                  (* as given *)
                    | None, Some f, _ => icj f           (* analysis of forward *)
                    | None, None, Some g => icj g        (* else of inverse *)
                    | None, None, None => false end.
Proof. exact init_meta. Qed.
Print Assumptions C24_lambda_metadata.
Example C24_nonvacuous : exists s, lambda_init (fun _ => true) (mkArgs (Some (fun x => Ok (tmap exp x))) None None None None None None) = Ok s /\
  lambda_calls (fun _ y => Ok (tmap ln y)) (fun _ x => Ok x) s [CInverse (tscalar 1); CForward (tscalar 0)]
  = [One (Ok (tscalar (ln 1))); One (Ok (tscalar (exp 0)))].
Proof. eexists; split; reflexivity. Qed.

(** ** C25 *)
(** Inverting a program of any length and nesting, run at an input where each step is
    invertible, gives back the input - whenever it returns at all. *)
Theorem C25_inv_inverts : forall other1 other2 other_many has_square j consts x y r,
  single_assignment j ->
  eval_jaxpr other1 other2 other_many j consts [Some x] = Ok [y] ->
  runs_invertibly other1 other2 other_many j consts [Some x] ->
  inv other1 other2 has_square j consts y = Ok r -> r = Some x.
Proof.
  intros o1 o2 om hs j consts x y r S E K I. unfold inv in I.
  apply rbind_ok_inv in I as (out & I & H).
  rewrite (interpret_inverse_correct o1 o2 om hs j consts _ _ out S E K I) in H. injection H as <-. reflexivity.
Qed.
Print Assumptions C25_inv_inverts.

(** A program with an equation that has no registered inverse, that uses two variables, or that
    has three or more operands is never inverted: an exception is raised. *)
Theorem C25_inv_refuses_unsupported : forall other1 other2 has_square j consts y pre q post,
  j_eqns j = pre ++ q :: post -> unsupported has_square q ->
  (exists e, inv other1 other2 has_square j consts y = Err e) /\
  (post = [] -> length (j_out j) = 1%nat -> length consts = length (j_const j) ->
   inv other1 other2 has_square j consts y = Err NotImplementedError).
Proof.
  intros o1 o2 hs j consts y pre q post E U.
  destruct (unsupported_raises o1 o2 hs j consts [y] pre q post E U) as (e & H & K).
  unfold inv. rewrite H; cbn. split; [eauto|]. intros A B C. rewrite K; auto.
Qed.
Print Assumptions C25_inv_refuses_unsupported.

(** x |-> exp(2 * x + 1), the exponential inside a nested call: the hypotheses hold everywhere,
    and the inversion does return. *)
Definition ex_prog : jaxpr :=
  mkJaxpr [0%nat] [] [EBin p_mul (ALit 2) (AVar 0%nat) 1%nat; EBin p_add (AVar 1%nat) (ALit 1) 2%nat;
                      ECall [0%nat] [] [EUn p_exp (AVar 0%nat) 1%nat] [AVar 1%nat] [] (AVar 2%nat) [3%nat]] [AVar 3%nat].
Example C25_nonvacuous : forall o1 o2 om x,
  single_assignment ex_prog /\
  eval_jaxpr o1 o2 om ex_prog [] [Some x] = Ok [Some (exp (2 * x + 1))] /\
  runs_invertibly o1 o2 om ex_prog [] [Some x] /\
  exists r, inv o1 o2 true ex_prog [] (Some (exp (2 * x + 1))) = Ok r.
Proof.
  intros o1 o2 om x. split; [|split; [reflexivity|split]].
  - unfold single_assignment; cbn. unfold fresh_results; cbn.
    repeat split; repeat constructor; cbn; intuition (try congruence).
  - intros e0 e1 H0 H1. cbn in H0; injection H0 as <-. cbn in H1; injection H1 as <-. cbn.
    split; [exists x, (2 * x); split; [reflexivity|split; [reflexivity|lra]]|].
    intros e2 H2; injection H2 as <-.
    split; [exists (2 * x), (2 * x + 1); split; [reflexivity|split; [reflexivity|exact Logic.I]]|].
    intros e3 H3; injection H3 as <-. split; [|auto].
    eexists _, _, _. split; [reflexivity|]. split; [reflexivity|]. split; [reflexivity|]. split; [|auto].
    eexists _, _. split; [reflexivity|]. split; [reflexivity|exact Logic.I].
  - eexists. reflexivity.
Qed.

(** The property fails for a constant base: [c ** x] is injective, yet its inverse is computed as
    [c ** (1/y)] (transformations.py:93 is not a left/right pair). *)
Theorem C25_constant_base_power_refuted :
  exists j x y r, single_assignment j /\ (forall a b, Rpower 2 a = Rpower 2 b -> a = b) /\
    eval_jaxpr (fun _ _ => None) (fun _ _ _ => None) (fun _ _ => None) j [] [Some x] = Ok [Some y] /\
    y = Rpower 2 x /\
    inv (fun _ _ => None) (fun _ _ _ => None) true j [] (Some y) = Ok (Some r) /\ r <> x.
Proof.
  exists (mkJaxpr [0%nat] [] [EBin p_pow (ALit 2) (AVar 0%nat) 1%nat] [AVar 1%nat]), 2, (Rpower 2 2), (Rpower 2 (1 / Rpower 2 2)).
  assert (E : Rpower 2 2 = 4).
  { change (Rpower 2 2) with (Rpower 2 (INR 2)). rewrite Rpower_pow by lra. lra. }
  split; [|split; [|split; [|split; [reflexivity|split]]]].
  - unfold single_assignment; cbn. unfold fresh_results; cbn.
    repeat split; repeat constructor; cbn; intuition (try congruence).
  - intros a b H. unfold Rpower in H. apply exp_inv in H. assert (0 < ln 2) by (rewrite <- ln_1; apply ln_increasing; lra). nra.
  - unfold eval_jaxpr; cbn. unfold r_pow. destruct (Rlt_dec 0 2); [reflexivity|lra].
  - unfold inv, interpret_inverse; cbn. rewrite E. unfold r_div. destruct (Req_EM_T 4 0); [lra|]. cbn.
    unfold r_pow. destruct (Rlt_dec 0 2); [reflexivity|lra].
  - rewrite E. intros H. assert (K : Rpower 2 (1 / 4) < Rpower 2 1) by (apply Rpower_lt; lra).
    rewrite Rpower_1 in K by lra. lra.
Qed.
Print Assumptions C25_constant_base_power_refuted.

(** Even functions come back with the wrong sign, and odd integer powers of negative numbers
    (injective on all of R) come back as "not a number". *)
Theorem C25_even_and_odd_powers_refuted :
  let run j x := eval_jaxpr (fun _ _ => None) (fun _ _ _ => None) (fun _ _ => None) j [] [Some x] in
  let back j y := inv (fun _ _ => None) (fun _ _ _ => None) true j [] y in
  let sq := mkJaxpr [0%nat] [] [EUn p_square (AVar 0%nat) 1%nat] [AVar 1%nat] in
  let cube := mkJaxpr [0%nat] [] [EIntPow 3 (AVar 0%nat) 1%nat] [AVar 1%nat] in
  (exists y, run sq (-2) = Ok [y] /\ back sq y = Ok (Some 2)) /\
  (exists y, run cube (-2) = Ok [Some y] /\ back cube (Some y) = Ok None).
Proof.
  cbv zeta. split.
  - exists (Some (-2 * -2)). split; [reflexivity|]. unfold inv, interpret_inverse; cbn.
    destruct (Rle_dec 0 (-2 * -2)); [|lra]. do 2 f_equal. replace (-2 * -2) with (2 * 2) by lra. rewrite sqrt_square; lra.
  - exists (-8). split.
    + unfold eval_jaxpr; cbn. do 3 f_equal. unfold r_int_pow. simpl. f_equal. lra.
    + unfold inv, interpret_inverse; cbn. unfold r_pow. destruct (Rlt_dec 0 (-8)); [lra|].
      destruct (Req_EM_T (-8) 0); [lra|]. destruct (Req_EM_T (frac_part (1 / 3)) 0) as [F|_]; [|reflexivity].
      exfalso. unfold frac_part in F. assert (I0 : Int_part (1 / 3) = 0%Z).
      { unfold Int_part. assert (up (1 / 3) = 1%Z) by (symmetry; apply tech_up; lra). lia. }
      rewrite I0 in F. lra.
Qed.
Print Assumptions C25_even_and_odd_powers_refuted.

(** ** C26 *)
(** If the analysis of the traced Jacobian answers True then, whatever the primitives mean, the
    Jacobian takes the same value at all inputs.  Nested calls must not pass the same variable
    twice or return the same inner variable twice; see the refutation below. *)
Theorem C26_constant_jacobian_sound : forall interp j consts xs xs' ys ys',
  all_tidy (g_eqns j) -> is_constant_jacobian j = true ->
  geval interp j consts xs = Some ys -> geval interp j consts xs' = Some ys' -> ys = ys'.
Proof. exact analysis_sound. Qed.
Print Assumptions C26_constant_jacobian_sound.

(** Consequently the analysed function is affine. *)
Theorem C26_constant_jacobian_affine : forall interp j consts (f df : R -> R),
  (forall x, is_derive f x (df x)) ->
  (forall x, geval interp j consts [x] = Some [df x]) ->
  all_tidy (g_eqns j) -> is_constant_jacobian j = true ->
  exists a b, forall x, f x = a * x + b.
Proof.
  intros interp j consts f df D E T C. exists (df 0), (f 0). intros x.
  assert (K : forall z, df z = df 0).
  { intros z. pose proof (analysis_sound interp j consts _ _ _ _ T C (E z) (E 0)) as H. congruence. }
  destruct (MVT_gen f 0 x df) as (c & _ & Hc).
  - intros z _; apply D.
  - intros z _. apply continuity_pt_filterlim. apply (@ex_derive_continuous R_AbsRing R_NormedModule).
    eexists; apply D.
  - rewrite K in Hc. lra.
Qed.
Print Assumptions C26_constant_jacobian_affine.

(** A nested call that receives the input twice can be misjudged: [dict(zip(...))]
    (transformations.py:198) keeps only the last parameter for a repeated argument. *)
Definition dup_call : gjaxpr :=
  mkG [0%nat] [] [GCall [1%nat; 2%nat] [] [AVar 1%nat] [AVar 0%nat; AVar 0%nat] [3%nat]] [AVar 3%nat].
Theorem C26_repeated_argument_refuted :
  is_constant_jacobian dup_call = true /\ (forall interp x, geval interp dup_call [] [x] = Some [x]) /\
  (forall x, is_derive (fun z => z * z / 2) x x).
Proof.
  split; [reflexivity|]. split; [reflexivity|]. intros x. auto_derive; [auto|field].
Qed.
Print Assumptions C26_repeated_argument_refuted.
Example C26_nonvacuous :
  let j := mkG [0%nat] [] [GPrim 7 [AVar 0%nat] [1%nat]; GPrim 8 [ALit 3] [2%nat];
               GCall [0%nat] [GPrim 9 [AVar 0%nat] [1%nat]] [AVar 1%nat] [AVar 2%nat] [3%nat]] [AVar 3%nat] in
  all_tidy (g_eqns j) /\ is_constant_jacobian j = true /\
  forall x, geval (fun n l => l) j [] [x] = Some [3].
Proof.
  cbn. repeat split; auto.
  - intros [|[|i]] [|[|k]] v; cbn; congruence || (destruct i; discriminate) || (destruct k; discriminate) || auto.
  - intros [|[|i]] [|[|k]] v; cbn; congruence || (destruct i; discriminate) || (destruct k; discriminate) || auto.
Qed.
