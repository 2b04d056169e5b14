(** Equality case of Gibbs' inequality on the whole line. *)
From Coq Require Import Reals Lra.
From Coquelicot Require Import Coquelicot.
From Verif Require Import Base.Integral Base.Improper Base.Mellin Spec.Density Proofs.Density Proofs.GammaFamily.
Local Open Scope R_scope.

Lemma integral_zero_line (h : R -> R) : (forall x, continuous h x) -> (forall x, 0 <= h x) -> integral h 0 -> forall x, h x = 0.
Proof.
  intros C P H. assert (ex : forall a b, ex_RInt h a b) by (intros; apply (@ex_RInt_continuous R_CompleteNormedModule); intros; apply C).
  assert (Z : forall a b, a <= b -> RInt h a b = 0).
  { intros a b Hab. apply Rle_antisym; [|apply RInt_ge_0; auto]. apply Rnot_lt_le. intros Hp.
    assert (B : locally 0 (fun y => ball 0 (mkposreal _ Hp) y)) by (exists (mkposreal _ Hp); auto).
    destruct (H _ B) as [P1 P2 [M1 HP1] [M2 HP2] HR]. cbn [pos] in *. set (a' := Rmin M1 a - 1). set (b' := Rmax M2 b + 1).
    pose proof (Rmin_l M1 a). pose proof (Rmin_r M1 a). pose proof (Rmax_l M2 b). pose proof (Rmax_r M2 b).
    destruct (HR a' b') as (y & Iy & By); [apply HP1; unfold a'; lra|apply HP2; unfold b'; lra|]. cbn [fst snd] in Iy.
    assert (Ey : y = RInt h a' b') by (symmetry; apply is_RInt_unique; exact Iy).
    rewrite <- (RInt_Chasles h a' a b'), <- (RInt_Chasles h a b b') in Ey by auto. change plus with Rplus in Ey.
    assert (0 <= RInt h a' a) by (apply RInt_ge_0; [unfold a'; lra|apply ex|intros; apply P]). assert (0 <= RInt h b b') by (apply RInt_ge_0; [unfold b'; lra|apply ex|intros; apply P]).
    apply ball_abs in By. apply Rabs_def2 in By.
    destruct By as [By _]. cbn [pos] in By. change (y - 0 < RInt h a b) in By. lra. }
  assert (Z' : forall x, RInt h 0 x = 0).
  { intros x. destruct (Rle_dec 0 x); [apply Z; auto|]. rewrite <- (opp_RInt_swap h x 0) by auto. rewrite Z by lra. unfold opp; cbn. ring. }
  intros x. assert (D : is_derive (fun x => RInt h 0 x) x (h x)).
  { apply (is_derive_RInt h _ 0 x); [|apply C]. exists (mkposreal 1 Rlt_0_1). intros y _. apply (@RInt_correct R_CompleteNormedModule); auto. }
  assert (D0 : is_derive (fun x => RInt h 0 x) x 0).
  { apply (is_derive_ext (fun _ : R => 0)); [intros; symmetry; apply Z'|]. exact (is_derive_const (K := R_AbsRing) (V := R_NormedModule) 0 x). }
  rewrite <- (is_derive_unique _ _ _ D). apply is_derive_unique. exact D0.
Qed.
Lemma gibbs_equality f F g G : density_with_cdf f F -> density_with_cdf g G -> (forall x, 0 < f x) -> (forall x, 0 < g x) ->
  is_kl f g 0 -> forall x, f x = g x.
Proof.
  intros HF HG Pf Pg HK. pose proof (density_integral _ _ HF) as If. pose proof (density_integral _ _ HG) as Ig.
  destruct HF as (_ & Cf & _). destruct HG as (_ & Cg & _).
  intros x. apply gibbs_point_eq; auto.
  apply (integral_zero_line (fun x => f x * (ln (f x) - ln (g x)) - (f x - g x))).
  - intros y. apply (continuous_minus (fun x => f x * (ln (f x) - ln (g x))) (fun x => f x - g x)).
    + apply (continuous_mult f (fun x => ln (f x) - ln (g x))); [auto|].
      apply (continuous_minus (fun x => ln (f x)) (fun x => ln (g x))); apply ln_comp_cont; auto.
    + apply (continuous_minus f g); auto.
  - intros y. apply gibbs_point; auto.
  - replace 0 with (0 + (-1 * 1 + 1)) by ring. eapply integral_ext; [|apply integral_plus; [exact HK|apply integral_plus; [apply integral_scal; exact If|exact Ig]]].
    intros y. cbn beta. ring.
Qed.
