(** Integrals over the simplex and the Dirichlet density. *)
From Coq Require Import Reals Lra Lia List.
From Coquelicot Require Import Coquelicot.
From Verif Require Import Base.XR Base.Sums Base.Improper Base.Mellin Base.GammaFn Spec.GammaFamily Proofs.GammaFamily.
Import ListNotations.
Local Open Scope R_scope.

Definition simplex (n : nat) (s : R) (x : list R) : Prop := length x = S n /\ List.Forall (fun y => 0 < y) x /\ rsum x = s.
Lemma simplex_cons n s x xs : 0 < x -> simplex n (s - x) xs -> simplex (S n) s (x :: xs).
Proof. intros Hx (L & F & E). repeat split; cbn; [lia|constructor; auto|unfold rsum in *; cbn; lra]. Qed.
Lemma simplex_one s : 0 < s -> simplex 0 s [s].
Proof. intros Hs. repeat split; auto. cbn. lra. Qed.
Lemma lt0s s : 0 < s -> Rbar_lt 0 s. Proof. auto. Qed.
Lemma si_scal n c g s v : 0 < s -> simplex_int n g s v -> simplex_int n (fun x => c * g x) s (c * v).
Proof.
  revert g s v; induction n as [|n IH]; cbn; intros g s v Hs H; [subst; auto|].
  destruct H as (h & Hh & Hi). exists (fun x => c * h x). split.
  - intros x Hx. apply (IH (fun xs => g (x :: xs))); auto. lra.
  - apply integral_on_scal; auto.
Qed.
Lemma si_plus n f g s u v : 0 < s -> simplex_int n f s u -> simplex_int n g s v -> simplex_int n (fun x => f x + g x) s (u + v).
Proof.
  revert f g s u v; induction n as [|n IH]; cbn; intros f g s u v Hs Hf Hg; [subst; auto|].
  destruct Hf as (h1 & Hh1 & Hi1). destruct Hg as (h2 & Hh2 & Hi2). exists (fun x => h1 x + h2 x). split.
  - intros x Hx. apply (IH (fun xs => f (x :: xs)) (fun xs => g (x :: xs))); auto. lra.
  - apply integral_on_plus; auto.
Qed.
Lemma si_minus n f g s u v : 0 < s -> simplex_int n f s u -> simplex_int n g s v -> simplex_int n (fun x => f x + -1 * g x) s (u + -1 * v).
Proof. intros Hs Hf Hg. apply si_plus; auto. apply si_scal; auto. Qed.
Lemma si_ext n f g s v : 0 < s -> (forall x, simplex n s x -> f x = g x) -> simplex_int n f s v -> simplex_int n g s v.
Proof.
  revert f g s v; induction n as [|n IH]; cbn; intros f g s v Hs E H; [subst; apply E, simplex_one; auto|].
  destruct H as (h & Hh & Hi). exists h. split; auto. intros x Hx.
  apply (IH (fun xs => f (x :: xs))); auto; [lra|]. intros xs Hxs. apply E, simplex_cons; auto. lra.
Qed.
Lemma si_unique n g s u v : 0 < s -> simplex_int n g s u -> simplex_int n g s v -> u = v.
Proof.
  revert g s u v; induction n as [|n IH]; cbn; intros g s u v Hs Hu Hv; [congruence|].
  destruct Hu as (h1 & Hh1 & Hi1). destruct Hv as (h2 & Hh2 & Hi2).
  apply (integral_on_unique 0 s (lt0s s Hs) h1); auto. apply (integral_on_ext 0 s (lt0s s Hs) h2); auto.
  intros x [H1 H2]. cbn in H2. symmetry. apply (IH (fun xs => g (x :: xs)) (s - x)); auto. lra.
Qed.
Lemma si_le n f g s u v : 0 < s -> (forall x, simplex n s x -> f x <= g x) -> simplex_int n f s u -> simplex_int n g s v -> u <= v.
Proof.
  revert f g s u v; induction n as [|n IH]; cbn; intros f g s u v Hs E Hu Hv; [subst; apply E, simplex_one; auto|].
  destruct Hu as (h1 & Hh1 & Hi1). destruct Hv as (h2 & Hh2 & Hi2).
  apply (integral_on_le' 0 s h1 h2 u v (lt0s s Hs)); auto. intros x [H1 H2]. cbn in H2.
  apply (IH (fun xs => f (x :: xs)) (fun xs => g (x :: xs)) (s - x)); auto; [lra|].
  intros xs Hxs. apply E, simplex_cons; auto.
Qed.

(** the multivariate beta function *)
Definition MB (al : list R) : R := rprod (map Gam al) / Gam (rsum al).
Definition allpos (al : list R) : Prop := List.Forall (fun a => 0 < a) al.
Lemma rsum_pos al : allpos al -> al <> [] -> 0 < rsum al.
Proof.
  intros H Hn. destruct al as [|a al]; [congruence|]. inversion H as [|? ? Ha Hl]; subst. cbn.
  assert (0 <= rsum al). { clear Hn H. induction Hl; cbn; [lra|]. unfold rsum in *. lra. } unfold rsum in *. lra.
Qed.
Lemma rprod_Gam_pos al : allpos al -> 0 < rprod (map Gam al).
Proof. intros H. induction H; cbn; [lra|]. apply Rmult_lt_0_compat; auto. apply Gam_pos; auto. Qed.
Lemma MB_pos al : allpos al -> al <> [] -> 0 < MB al.
Proof. intros H Hn. apply Rdiv_lt_0_compat; [apply rprod_Gam_pos; auto|apply Gam_pos, rsum_pos; auto]. Qed.
Lemma MB_cons a al : 0 < a -> allpos al -> al <> [] -> MB (a :: al) = Beta_fn a (rsum al) * MB al.
Proof.
  intros Ha H Hn. pose proof (rsum_pos al H Hn). pose proof (Gam_pos (rsum al) ltac:(auto)). pose proof (Gam_pos (a + rsum al) ltac:(lra)).
  unfold MB, Beta_fn. change (rsum (a :: al)) with (a + rsum al). change (rprod (map Gam (a :: al))) with (Gam a * rprod (map Gam al)). field. lra.
Qed.
Lemma powers_cons x xs a al : powers (x :: xs) (a :: al) = Rpower x (a - 1) * powers xs al.
Proof. reflexivity. Qed.
(** sums of logarithms *)
Definition lin (c x : list R) : R := sumf (fun p => fst p * ln (snd p)) (combine c x).
Definition linpsi (c al : list R) : R := sumf (fun p => fst p * psi (snd p)) (combine c al).

Lemma si_powers n al s : length al = S n -> allpos al -> 0 < s ->
  simplex_int n (fun x => powers x al) s (Rpower s (rsum al - 1) * MB al).
Proof.
  revert al s; induction n as [|n IH]; intros al s L H Hs.
  - destruct al as [|a [|? ?]]; try discriminate. inversion H; subst. cbn. unfold powers, MB. cbn.
    rewrite !Rplus_0_r, !Rmult_1_r. pose proof (Gam_pos a ltac:(auto)). field. lra.
  - destruct al as [|a al]; [discriminate|]. inversion H as [|? ? Ha Hal]; subst.
    assert (Hn : al <> []) by (destruct al; [discriminate|congruence]).
    pose proof (rsum_pos al Hal Hn) as HB. cbn [simplex_int].
    exists (fun x => MB al * (Rpower x (a - 1) * Rpower (s - x) (rsum al - 1))). split.
    + intros x Hx.
      replace (MB al * (Rpower x (a - 1) * Rpower (s - x) (rsum al - 1))) with (Rpower x (a - 1) * (Rpower (s - x) (rsum al - 1) * MB al)) by ring.
      apply (si_scal n (Rpower x (a - 1)) (fun xs => powers xs al)); [lra|]. apply IH; auto; lra.
    + rewrite MB_cons by auto. cbn [rsum fold_right]. fold (rsum al).
      replace (Rpower s (a + rsum al - 1) * (Beta_fn a (rsum al) * MB al)) with (MB al * (Rpower s (a + rsum al - 1) * Beta_fn a (rsum al))) by ring.
      apply integral_on_scal; auto. apply beta_scaled; auto.
Qed.
Lemma lin_cons c cs x xs : lin (c :: cs) (x :: xs) = c * ln x + lin cs xs. Proof. reflexivity. Qed.
Lemma linpsi_cons c cs x xs : linpsi (c :: cs) (x :: xs) = c * psi x + linpsi cs xs. Proof. reflexivity. Qed.
Lemma si_lin n al c s : length al = S n -> length c = S n -> allpos al -> 0 < s ->
  simplex_int n (fun x => lin c x * powers x al) s
    (Rpower s (rsum al - 1) * MB al * (rsum c * ln s + linpsi c al - rsum c * psi (rsum al))).
Proof.
  revert al c s; induction n as [|n IH]; intros al c s L Lc H Hs.
  - destruct al as [|a [|? ?]]; try discriminate. destruct c as [|c [|? ?]]; try discriminate. inversion H; subst.
    cbn. unfold powers, MB, lin, linpsi, sumf. cbn.
    rewrite !Rplus_0_r, !Rmult_1_r. pose proof (Gam_pos a ltac:(auto)). field. lra.
  - destruct al as [|a al]; [discriminate|]. destruct c as [|c cs]; [discriminate|]. inversion H as [|? ? Ha Hal]; subst.
    assert (Hn : al <> []) by (destruct al; [discriminate|congruence]).
    pose proof (rsum_pos al Hal Hn) as HB. cbn [simplex_int]. set (B := rsum al) in *.
    exists (fun x => MB al * c * (ln x * (Rpower x (a - 1) * Rpower (s - x) (B - 1)))
                   + MB al * rsum cs * (ln (s - x) * (Rpower x (a - 1) * Rpower (s - x) (B - 1)))
                   + MB al * (linpsi cs al - rsum cs * psi B) * (Rpower x (a - 1) * Rpower (s - x) (B - 1))). split.
    + intros x Hx.
      apply (si_ext n (fun xs => Rpower x (a - 1) * (c * ln x) * powers xs al + Rpower x (a - 1) * (lin cs xs * powers xs al))); [lra| |].
      { intros xs _. rewrite lin_cons, powers_cons. ring. }
      replace (MB al * c * (ln x * (Rpower x (a - 1) * Rpower (s - x) (B - 1)))
                   + MB al * rsum cs * (ln (s - x) * (Rpower x (a - 1) * Rpower (s - x) (B - 1)))
                   + MB al * (linpsi cs al - rsum cs * psi B) * (Rpower x (a - 1) * Rpower (s - x) (B - 1))) with
       (Rpower x (a - 1) * (c * ln x) * (Rpower (s - x) (B - 1) * MB al) +
        Rpower x (a - 1) * (Rpower (s - x) (B - 1) * MB al * (rsum cs * ln (s - x) + linpsi cs al - rsum cs * psi B))) by ring.
      apply si_plus; [lra| |].
      * apply (si_scal n _ (fun xs => powers xs al)); [lra|]. apply si_powers; auto; lra.
      * apply (si_scal n _ (fun xs => lin cs xs * powers xs al)); [lra|]. apply IH; auto; lra.
    + rewrite MB_cons by auto. rewrite linpsi_cons. cbn [rsum fold_right]. fold (rsum al). fold (rsum cs). fold B.
      replace (Rpower s (a + B - 1) * (Beta_fn a B * MB al) * ((c + rsum cs) * ln s + (c * psi a + linpsi cs al) - (c + rsum cs) * psi (a + B))) with
       (MB al * c * (Rpower s (a + B - 1) * Beta_fn a B * (ln s + psi a - psi (a + B)))
        + MB al * rsum cs * (Rpower s (a + B - 1) * Beta_fn a B * (ln s + psi B - psi (a + B)))
        + MB al * (linpsi cs al - rsum cs * psi B) * (Rpower s (a + B - 1) * Beta_fn a B)) by ring.
      apply integral_on_plus; [auto|apply integral_on_plus; auto|]; (apply integral_on_scal; [auto|]).
      * apply beta_scaled_log; auto.
      * apply beta_scaled_log'; auto.
      * apply beta_scaled; auto.
Qed.

(** ** The Dirichlet density *)
Lemma dd_alt al x : dirichlet_density al x = / MB al * powers x al.
Proof.
  unfold dirichlet_density, MB. change Gamma_fn with Gam. unfold Rdiv. rewrite !Rinv_mult, Rinv_inv. ring.
Qed.
Lemma powers_pos x al : 0 < powers x al.
Proof. unfold powers. apply rprod_pos. intros a Ha. apply in_map_iff in Ha. destruct Ha as (p & <- & _). apply Rpower_pos. Qed.
Lemma dd_pos al x : allpos al -> al <> [] -> 0 < dirichlet_density al x.
Proof. intros H Hn. rewrite dd_alt. apply Rmult_lt_0_compat; [apply Rinv_0_lt_compat, MB_pos; auto|apply powers_pos]. Qed.
Lemma powers_ln x al : ln (powers x al) = lin (map (fun a => a - 1) al) x.
Proof.
  unfold powers. rewrite ln_rprod. 2:{ intros a Ha. apply in_map_iff in Ha. destruct Ha as (p & <- & _). apply Rpower_pos. }
  unfold lin, sumf. revert al. induction x as [|y x IH]; intros [|a al]; cbn; auto.
  unfold rsum in *. rewrite IH. unfold Rpower at 1. rewrite ln_exp. reflexivity.
Qed.
Lemma MB_ln al : allpos al -> al <> [] -> ln (MB al) = rsum (map (fun a => ln (Gam a)) al) - ln (Gam (rsum al)).
Proof.
  intros H Hn. unfold MB. rewrite ln_div; [|apply rprod_Gam_pos; auto|apply Gam_pos, rsum_pos; auto].
  rewrite ln_rprod, map_map; auto. intros a Ha. apply in_map_iff in Ha. destruct Ha as (y & <- & Hy).
  apply Gam_pos. unfold allpos in H. rewrite List.Forall_forall in H. auto.
Qed.
Lemma dd_ln al x : allpos al -> al <> [] -> ln (dirichlet_density al x) = lin (map (fun a => a - 1) al) x - ln (MB al).
Proof.
  intros H Hn. rewrite dd_alt. pose proof (MB_pos al H Hn). rewrite ln_mult; [|apply Rinv_0_lt_compat; auto|apply powers_pos].
  rewrite ln_Rinv, powers_ln by auto. ring.
Qed.
Lemma dd_normal n al : length al = S n -> allpos al -> simplex_int n (dirichlet_density al) 1 1.
Proof.
  intros L H. assert (Hn : al <> []) by (destruct al; [discriminate|congruence]). pose proof (MB_pos al H Hn).
  apply (si_ext n (fun x => / MB al * powers x al)); [lra|intros; symmetry; apply dd_alt|].
  pose proof (si_scal n (/ MB al) _ 1 _ ltac:(lra) (si_powers n al 1 L H ltac:(lra))) as K.
  rewrite Rpower_1_l in K. replace (/ MB al * (1 * MB al)) with 1 in K by (field; lra). exact K.
Qed.
Lemma dd_linear n al c0 c : length al = S n -> length c = S n -> allpos al ->
  simplex_int n (fun x => dirichlet_density al x * (c0 + lin c x)) 1 (c0 + (linpsi c al - rsum c * psi (rsum al))).
Proof.
  intros L Lc H. assert (Hn : al <> []) by (destruct al; [discriminate|congruence]). pose proof (MB_pos al H Hn).
  apply (si_ext n (fun x => c0 * dirichlet_density al x + / MB al * (lin c x * powers x al))); [lra|intros; rewrite dd_alt; ring|].
  replace (c0 + (linpsi c al - rsum c * psi (rsum al))) with
    (c0 * 1 + / MB al * (Rpower 1 (rsum al - 1) * MB al * (rsum c * ln 1 + linpsi c al - rsum c * psi (rsum al)))).
  2:{ rewrite Rpower_1_l, ln_1. field. lra. }
  apply si_plus; [lra|apply si_scal; [lra|apply dd_normal; auto]|]. apply (si_scal n _ (fun x => lin c x * powers x al)); [lra|]. apply si_lin; auto; lra.
Qed.

(** moments: multiplying the density by x_k raises the k-th parameter by one *)
Fixpoint bump (k : nat) (al : list R) : list R :=
  match al, k with [], _ => [] | a :: al, O => (a + 1) :: al | a :: al, S k => a :: bump k al end.
Lemma bump_length k al : length (bump k al) = length al.
Proof. revert k; induction al as [|a al IH]; intros [|k]; cbn; auto. Qed.
Lemma bump_pos k al : allpos al -> allpos (bump k al).
Proof. intros H. revert k. induction H as [|a al Ha Hl IH]; intros [|k]; cbn; constructor; auto; try lra. apply IH. Qed.
Lemma bump_sum k al : (k < length al)%nat -> rsum (bump k al) = rsum al + 1.
Proof.
  revert k; induction al as [|a al IH]; intros k Hk; cbn in Hk; [lia|]. destruct k; cbn; [unfold rsum; lra|].
  specialize (IH k ltac:(lia)). unfold rsum in *. rewrite IH. ring.
Qed.
Lemma bump_prod k al : allpos al -> (k < length al)%nat -> rprod (map Gam (bump k al)) = nth k al 0 * rprod (map Gam al).
Proof.
  intros H. revert k; induction H as [|a al Ha Hl IH]; intros k Hk; cbn in Hk; [lia|]. destruct k; cbn.
  - rewrite Gam_S by auto. ring.
  - specialize (IH k ltac:(lia)). unfold rprod in *. rewrite IH. ring.
Qed.
Lemma bump_powers k x al : length x = length al -> (k < length al)%nat -> List.Forall (fun y => 0 < y) x ->
  powers x (bump k al) = nth k x 0 * powers x al.
Proof.
  intros L Hk F. revert k al L Hk; induction F as [|y x Hy Hx IH]; intros k [|a al] L Hk; cbn [length] in L, Hk; try lia.
  destruct k; cbn [bump nth]; rewrite !powers_cons.
  - rewrite pow_up by auto. ring.
  - rewrite IH by lia. ring.
Qed.
Lemma bump_nth k j al : (k < length al)%nat -> nth j (bump k al) 0 = nth j al 0 + (if Nat.eqb j k then 1 else 0).
Proof.
  revert k j; induction al as [|a al IH]; intros k j Hk; cbn in Hk; [lia|]. destruct k, j; cbn; try ring. apply IH. lia.
Qed.
Lemma MB_bump k al : allpos al -> (k < length al)%nat -> MB (bump k al) = nth k al 0 / rsum al * MB al.
Proof.
  intros H Hk. assert (Hn : al <> []) by (destruct al; cbn in Hk; [lia|congruence]). pose proof (rsum_pos al H Hn).
  unfold MB. rewrite bump_sum, bump_prod, Gam_S by auto. pose proof (Gam_pos (rsum al) ltac:(auto)). field. lra.
Qed.
Lemma dd_mean n al k : length al = S n -> allpos al -> (k <= n)%nat ->
  simplex_int n (fun x => dirichlet_density al x * nth k x 0) 1 (nth k al 0 / rsum al).
Proof.
  intros L H Hk. assert (Hn : al <> []) by (destruct al; [discriminate|congruence]). pose proof (MB_pos al H Hn). pose proof (rsum_pos al H Hn).
  apply (si_ext n (fun x => / MB al * powers x (bump k al))); [lra| |].
  { intros x (Lx & Fx & _). rewrite dd_alt, bump_powers by (auto; lia). ring. }
  pose proof (si_scal n (/ MB al) _ 1 _ ltac:(lra) (si_powers n (bump k al) 1 ltac:(rewrite bump_length; auto) (bump_pos k al H) ltac:(lra))) as K.
  rewrite Rpower_1_l, MB_bump in K by (auto; lia). replace (/ MB al * (1 * (nth k al 0 / rsum al * MB al))) with (nth k al 0 / rsum al) in K by (field; lra). exact K.
Qed.
Lemma dd_second n al j k : length al = S n -> allpos al -> (j <= n)%nat -> (k <= n)%nat ->
  simplex_int n (fun x => dirichlet_density al x * (nth j x 0 * nth k x 0)) 1
    ((nth j al 0 + (if Nat.eqb j k then 1 else 0)) * nth k al 0 / (rsum al * (rsum al + 1))).
Proof.
  intros L H Hj Hk. assert (Hn : al <> []) by (destruct al; [discriminate|congruence]). pose proof (MB_pos al H Hn). pose proof (rsum_pos al H Hn).
  apply (si_ext n (fun x => / MB al * powers x (bump j (bump k al)))); [lra| |].
  { intros x (Lx & Fx & _). rewrite dd_alt, !bump_powers by (rewrite ?bump_length; auto; lia). ring. }
  pose proof (si_scal n (/ MB al) _ 1 _ ltac:(lra) (si_powers n (bump j (bump k al)) 1 ltac:(rewrite !bump_length; auto) (bump_pos j _ (bump_pos k al H)) ltac:(lra))) as K.
  rewrite Rpower_1_l in K. rewrite (MB_bump j) in K by (try apply bump_pos; rewrite ?bump_length; auto; lia).
  rewrite MB_bump, bump_sum, bump_nth in K by (auto; lia).
  replace (/ MB al * (1 * ((nth j al 0 + (if Nat.eqb j k then 1 else 0)) / (rsum al + 1) * (nth k al 0 / rsum al * MB al)))) with
    ((nth j al 0 + (if Nat.eqb j k then 1 else 0)) * nth k al 0 / (rsum al * (rsum al + 1))) in K by (field; lra). exact K.
Qed.
