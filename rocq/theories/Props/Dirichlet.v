(** C57: the Dirichlet distribution. *)
From Coq Require Import Reals Lra Lia List Bool Arith.
From Coquelicot Require Import Coquelicot.
From Verif Require Import Base.Result Base.Tensor Base.XR Base.Sums Base.Improper Base.Mellin Base.GammaFn
  Model.MathUtils Model.ScalarDist Model.GammaFamily Spec.GammaFamily Proofs.MathUtils Proofs.Density Proofs.GammaFamily Proofs.Dirichlet Props.GammaBeta.
Import ListNotations.
Local Open Scope R_scope.

(** ** Construction: at least one axis, at least two components on the last one *)
Theorem C57_dirichlet_constructor (s : shape) :
  (forall b K, s = b ++ [K] -> (2 <= K)%nat -> dirichlet_shapes s = Ok (b, [K])) /\
  (s = [] \/ (exists b K, s = b ++ [K] /\ (K < 2)%nat) -> dirichlet_shapes s = Err ValueError).
Proof.
  unfold dirichlet_shapes. split.
  - intros b K -> HK. rewrite rev_unit. destruct (Nat.ltb_spec K 2); [lia|]. rewrite rev_involutive. reflexivity.
  - intros [-> |(b & K & -> & HK)]; [reflexivity|]. rewrite rev_unit. destruct (Nat.ltb_spec K 2); [reflexivity|lia].
Qed.

Definition fins (l : list R) : list XR := map Fin l.
Lemma xsum_fins l : xsum (fins l) = Fin (rsum l). Proof. apply xsum_fin. Qed.
Section Oracles.
Variables (lg dg : XR -> XR).
Hypothesis (L : is_lgamma lg) (D : is_digamma dg).
Lemma lg_map al : allpos al -> map lg (fins al) = map (fun a => Fin (ln (Gam a))) al.
Proof. intros H. unfold fins. induction H as [|a al Ha Hl IH]; [reflexivity|]. cbn [map]. rewrite IH, L by auto. reflexivity. Qed.
Lemma lbm al : allpos al -> al <> [] -> xlog_beta_multivariate lg (fins al) = Fin (ln (MB al)).
Proof.
  intros H Hn. unfold xlog_beta_multivariate. rewrite lg_map, xsum_fins, L by (auto; apply rsum_pos; auto).
  rewrite (xsum_map_fin (fun a => ln (Gam a))). rewrite MB_ln by auto. reflexivity.
Qed.
Lemma log_terms al x : length x = length al -> List.Forall (fun y => 0 < y) x ->
  xsum (map2 (fun a x => xmul (xsub a (Fin 1)) (xlog x)) (fins al) (fins x)) = Fin (lin (map (fun a => a - 1) al) x).
Proof.
  intros Hl F. revert al Hl. induction F as [|y x Hy Hx IH]; intros [|a al] Hl; try discriminate; [reflexivity|].
  cbn [fins map map2]. rewrite xsum_cons. change (map Fin al) with (fins al). change (map Fin x) with (fins x).
  rewrite IH by (cbn in Hl; lia). rewrite xlog_pos by auto. rewrite lin_cons. cbn. reflexivity.
Qed.
Lemma psi_terms al : allpos al ->
  xsum (map (fun a => xmul (xsub a (Fin 1)) (dg a)) (fins al)) = Fin (linpsi (map (fun a => a - 1) al) al).
Proof.
  intros H. induction H as [|a al Ha Hl IH]; [reflexivity|]. cbn [fins map]. rewrite xsum_cons. change (map Fin al) with (fins al).
  rewrite IH, (digamma_psi dg) by auto. rewrite linpsi_cons. cbn. reflexivity.
Qed.
Lemma kl_terms a1 a2 s : allpos a1 -> length a1 = length a2 ->
  xsum (map2 (fun x y => xmul (xsub x y) (xsub (dg x) (Fin s))) (fins a1) (fins a2)) =
  Fin (linpsi (map (fun p => fst p - snd p) (combine a1 a2)) a1 - (rsum a1 - rsum a2) * s).
Proof.
  intros H. revert a2. induction H as [|a al Ha Hl IH]; intros [|b a2] E; try discriminate; [cbn; unfold linpsi; cbn; f_equal; ring|].
  cbn [fins map map2 combine]. rewrite xsum_cons. change (map Fin al) with (fins al). change (map Fin a2) with (fins a2).
  rewrite IH by (cbn in E; lia). rewrite (digamma_psi dg) by auto. rewrite linpsi_cons. cbn [xsub xopp xadd xmul fst snd rsum fold_right].
  fold (rsum al). fold (rsum a2). f_equal. ring.
Qed.
End Oracles.
Lemma nonnil al n : length al = S n -> al <> @nil R.
Proof. destruct al; [discriminate|congruence]. Qed.

(** ** log_prob and the density *)
Theorem C57_dirichlet_log_prob lg n al x : is_lgamma lg -> length al = S n -> allpos al -> on_simplex n x ->
  dir_log_prob lg (fins x) (fins al) = Fin (ln (dirichlet_density al x)).
Proof.
  intros L Hl Ha (Hx & F & _). pose proof (nonnil al n Hl) as Hn. unfold dir_log_prob. rewrite log_terms, lbm by (auto; lia). rewrite dd_ln by auto. reflexivity.
Qed.
Theorem C57_dirichlet_is_density n al : length al = S n -> allpos al ->
  (forall x, on_simplex n x -> 0 < dirichlet_density al x) /\ simplex_int n (dirichlet_density al) 1 1.
Proof. intros Hl Ha. split; [intros; apply dd_pos; auto; eapply nonnil; eauto|apply dd_normal; auto]. Qed.

(** ** Mean, variance, covariance *)
Lemma nth_fins {A} (f : A -> R) l k (d : A) : (k < length l)%nat -> nth k (map (fun a => Fin (f a)) l) NaN = Fin (f (nth k l d)).
Proof. intros H. rewrite (nth_indep _ NaN (Fin (f d))) by (rewrite map_length; auto). apply (map_nth (fun a => Fin (f a))). Qed.
Lemma dir_mean_eq al : allpos al -> al <> [] -> dir_mean (fins al) = map (fun a => Fin (a / rsum al)) al.
Proof.
  intros H Hn. pose proof (rsum_pos al H Hn). unfold dir_mean. rewrite xsum_fins. unfold fins at 1. rewrite map_map. apply map_ext. intros a. apply xdiv_fin. lra.
Qed.
Lemma dir_variance_eq al : allpos al -> al <> [] ->
  dir_variance (fins al) = map (fun a => Fin (a / rsum al * (1 - a / rsum al) / (rsum al + 1))) al.
Proof.
  intros H Hn. pose proof (rsum_pos al H Hn) as P. unfold dir_variance. rewrite xsum_fins. unfold fins at 1. rewrite !map_map. apply map_ext. intros a.
  rewrite xdiv_fin by lra. cbn [xsub xadd xopp xmul]. rewrite xdiv_fin by lra. reflexivity.
Qed.
Lemma dir_cov_eq al i j : allpos al -> al <> [] -> (i < length al)%nat -> (j < length al)%nat ->
  nth j (nth i (dir_covariance (fins al)) []) NaN =
  Fin (- (nth i al 0 / rsum al / (rsum al + 1)) * (nth j al 0 / rsum al) + if Nat.eqb i j then nth i al 0 / rsum al / (rsum al + 1) else 0).
Proof.
  intros H Hn Hi Hj. pose proof (rsum_pos al H Hn) as P. unfold dir_covariance. rewrite xsum_fins.
  assert (LF : length (fins al) = length al) by apply map_length. rewrite LF.
  assert (E1 : map (fun a => xdiv a (Fin (rsum al))) (fins al) = map (fun a => Fin (a / rsum al)) al).
  { unfold fins. rewrite map_map. apply map_ext. intros a. apply xdiv_fin. lra. }
  rewrite E1, map_map.
  assert (E2 : map (fun a => xdiv (Fin (a / rsum al)) (xadd (Fin (rsum al)) (Fin 1))) al = map (fun a => Fin (a / rsum al / (rsum al + 1))) al).
  { apply map_ext. intros a. cbn [xadd]. apply xdiv_fin. lra. }
  rewrite E2. set (f := fun i0 : nat => _). rewrite (nth_indep _ [] (f O)) by (rewrite map_length, seq_length; auto).
  rewrite (map_nth f), seq_nth by auto. unfold f. rewrite Nat.add_0_l. clear f. set (g := fun j0 : nat => _).
  rewrite (nth_indep _ NaN (g O)) by (rewrite map_length, seq_length; auto).
  rewrite (map_nth g), seq_nth by auto. unfold g. rewrite Nat.add_0_l. clear g.
  rewrite (nth_fins (fun a => a / rsum al / (rsum al + 1)) al i 0), (nth_fins (fun a => a / rsum al) al j 0) by auto.
  cbn [xopp xmul]. destruct (Nat.eqb i j); reflexivity.
Qed.
(** mean[k] = E[x_k], variance[k] = E[(x_k - mean_k)^2], covariance[j][k] = E[(x_j - mean_j)(x_k - mean_k)] *)
Theorem C57_dirichlet_moments n al : length al = S n -> allpos al -> exists m : list R, exists c : nat -> nat -> R,
  dir_mean (fins al) = fins m /\ length m = S n /\ rsum m = 1 /\
  (forall k, (k <= n)%nat -> nth k (dir_variance (fins al)) NaN = Fin (c k k)) /\
  (forall j k, (j <= n)%nat -> (k <= n)%nat -> nth k (nth j (dir_covariance (fins al)) []) NaN = Fin (c j k)) /\
  (forall k, (k <= n)%nat -> simplex_int n (fun x => dirichlet_density al x * nth k x 0) 1 (nth k m 0)) /\
  (forall j k, (j <= n)%nat -> (k <= n)%nat ->
     simplex_int n (fun x => dirichlet_density al x * ((nth j x 0 - nth j m 0) * (nth k x 0 - nth k m 0))) 1 (c j k)) /\
  (forall j k, (j <= n)%nat -> (k <= n)%nat -> c j k = c k j) /\
  (forall j, (j <= n)%nat -> sumf (c j) (seq 0 (S n)) = 0).
Proof.
  intros Hl Ha. pose proof (nonnil al n Hl) as Hn. pose proof (rsum_pos al Ha Hn) as P. set (s := rsum al) in *.
  set (m := map (fun a => a / s) al).
  assert (Em : forall k, nth k m 0 = nth k al 0 / s). { intros k. unfold m. replace 0 with (0 / s) at 1 by (field; lra). apply (map_nth (fun a => a / s)). }
  exists m. exists (fun j k => - (nth j al 0 / s / (s + 1)) * (nth k al 0 / s) + if Nat.eqb j k then nth j al 0 / s / (s + 1) else 0).
  split; [rewrite dir_mean_eq by auto; unfold m, fins; rewrite map_map; reflexivity|]. split; [unfold m; rewrite map_length; auto|].
  split. { unfold m. change (rsum (map (fun a => a / s) al)) with (sumf (fun a => a / s) al). unfold Rdiv. rewrite (sumf_scal_r (/ s) (fun a => a)), <- rsum_sumf. apply Rinv_r. lra. }
  split. { intros k Hk. rewrite dir_variance_eq by auto. rewrite (nth_fins (fun a => a / rsum al * (1 - a / rsum al) / (rsum al + 1)) al k 0) by lia.
    fold s. rewrite Nat.eqb_refl. f_equal. field. lra. }
  split. { intros j k Hj Hk. apply dir_cov_eq; auto; lia. }
  split. { intros k Hk. rewrite Em. apply dd_mean; auto. }
  split; [|split].
  - intros j k Hj Hk. rewrite !Em. set (mj := nth j al 0 / s). set (mk := nth k al 0 / s).
    apply (si_ext n (fun x => dirichlet_density al x * (nth j x 0 * nth k x 0) + (- mk * (dirichlet_density al x * nth j x 0) +
       (- mj * (dirichlet_density al x * nth k x 0) + mj * mk * dirichlet_density al x)))); [lra|intros; ring|].
    replace (- (mj / (s + 1)) * mk + (if Nat.eqb j k then mj / (s + 1) else 0)) with
      ((nth j al 0 + (if Nat.eqb j k then 1 else 0)) * nth k al 0 / (s * (s + 1)) + (- mk * mj + (- mj * mk + mj * mk * 1))).
    2:{ unfold mj, mk. destruct (Nat.eqb_spec j k) as [-> |]; field; lra. }
    apply si_plus; [lra|apply dd_second; auto|]. apply si_plus; [lra| |].
    { apply (si_scal n (- mk) (fun x => dirichlet_density al x * nth j x 0)); [lra|apply dd_mean; auto]. }
    apply si_plus; [lra| |].
    { apply (si_scal n (- mj) (fun x => dirichlet_density al x * nth k x 0)); [lra|apply dd_mean; auto]. }
    apply (si_scal n (mj * mk) (dirichlet_density al)); [lra|apply dd_normal; auto].
  - intros j k Hj Hk. rewrite (Nat.eqb_sym k j). destruct (Nat.eqb_spec j k) as [-> |]; field; lra.
  - intros j Hj. rewrite sumf_plus. rewrite (sumf_seq_single (fun k => if Nat.eqb j k then nth j al 0 / s / (s + 1) else 0) (S n) j).
    2:{ lia. } 2:{ intros i Hi Hij. destruct (Nat.eqb_spec j i); [congruence|auto]. }
    rewrite Nat.eqb_refl. rewrite sumf_scal. unfold Rdiv at 3. rewrite sumf_scal_r. rewrite <- Hl, sumf_nth. fold s. field. lra.
Qed.

(** ** Entropy and KL *)
Lemma minus1_len al n : length al = S n -> length (map (fun a => a - 1) al) = S n. Proof. rewrite map_length. auto. Qed.
Lemma minus1_sum al : rsum (map (fun a => a - 1) al) = rsum al - INR (length al).
Proof. change (sumf (fun a => a - 1) al = rsum al - INR (length al)). rewrite sumf_minus, <- rsum_sumf, sumf_const. ring. Qed.
Theorem C57_dirichlet_entropy lg dg n al : is_lgamma lg -> is_digamma dg -> length al = S n -> allpos al ->
  exists h, dir_entropy lg dg (fins al) = Fin h /\
    simplex_int n (fun x => dirichlet_density al x * - ln (dirichlet_density al x)) 1 h.
Proof.
  intros L D Hl Ha. pose proof (nonnil al n Hl) as Hn. pose proof (rsum_pos al Ha Hn) as P.
  set (c := map (fun a => a - 1) al). exists (- (- ln (MB al) + (linpsi c al - rsum c * psi (rsum al)))). split.
  - unfold dir_entropy. rewrite lbm, xsum_fins, (digamma_psi dg), psi_terms by auto. unfold fins. rewrite map_length. cbn.
    f_equal. fold c. unfold c at 3. rewrite minus1_sum. ring.
  - apply (si_ext n (fun x => -1 * (dirichlet_density al x * (- ln (MB al) + lin c x)))); [lra|intros x Hx; rewrite dd_ln by auto; fold c; ring|].
    replace (- (- ln (MB al) + (linpsi c al - rsum c * psi (rsum al)))) with (-1 * (- ln (MB al) + (linpsi c al - rsum c * psi (rsum al)))) by ring.
    apply (si_scal n (-1) (fun x => dirichlet_density al x * (- ln (MB al) + lin c x))); [lra|]. apply dd_linear; auto. apply minus1_len; auto.
Qed.
Lemma lin_minus a1 a2 x : length a1 = length a2 ->
  lin (map (fun p => fst p - snd p) (combine a1 a2)) x = lin (map (fun a => a - 1) a1) x - lin (map (fun a => a - 1) a2) x.
Proof.
  revert a2 x. induction a1 as [|a a1 IH]; intros [|b a2] [|y x] H; try discriminate; try (cbn; unfold lin; cbn; ring).
  cbn [combine map]. rewrite !lin_cons, IH by (cbn in H; lia). cbn [fst snd]. ring.
Qed.
Lemma diff_len (a1 a2 : list R) : length a1 = length a2 -> length (map (fun p => fst p - snd p) (combine a1 a2)) = length a1.
Proof. intros H. rewrite map_length, combine_length, <- H. lia. Qed.
Lemma diff_sum a1 a2 : length a1 = length a2 -> rsum (map (fun p => fst p - snd p) (combine a1 a2)) = rsum a1 - rsum a2.
Proof.
  revert a2. induction a1 as [|a a1 IH]; intros [|b a2] H; try discriminate; [cbn; ring|].
  cbn [combine map rsum fold_right fst snd]. fold (rsum (map (fun p => fst p - snd p) (combine a1 a2))). fold (rsum a1). fold (rsum a2).
  rewrite IH by (cbn in H; lia). ring.
Qed.
(** the value of kl_divergence, once the concentrations have been read off *)
Lemma dir_kl_core lg dg n a1 a2 : is_lgamma lg -> is_digamma dg -> length a1 = S n -> length a2 = S n -> allpos a1 -> allpos a2 ->
  exists k, dir_kl lg dg (DDirichlet (fins a1)) (DDirichlet (fins a2)) = Ok (Fin k) /\
    simplex_int n (fun x => dirichlet_density a1 x * (ln (dirichlet_density a1 x) - ln (dirichlet_density a2 x))) 1 k.
Proof.
  intros L D L1 L2 P1 P2. pose proof (nonnil a1 n L1) as N1. pose proof (nonnil a2 n L2) as N2. pose proof (rsum_pos a1 P1 N1) as S1.
  assert (LL : length a1 = length a2) by congruence.
  set (c := map (fun p => fst p - snd p) (combine a1 a2)). exists ((ln (MB a2) - ln (MB a1)) + (linpsi c a1 - rsum c * psi (rsum a1))). split.
  - unfold dir_kl. cbn [obtain_concentration rbind]. unfold fins at 1 2. rewrite !map_length, LL, Nat.eqb_refl. f_equal.
    rewrite !lbm, xsum_fins, (digamma_psi dg), kl_terms by auto. cbn. f_equal. fold c. replace (rsum c) with (rsum a1 - rsum a2) by (symmetry; apply diff_sum; auto). ring.
  - apply (si_ext n (fun x => dirichlet_density a1 x * ((ln (MB a2) - ln (MB a1)) + lin c x))); [lra| |].
    + intros x Hx. rewrite !dd_ln by auto. unfold c. rewrite lin_minus by auto. f_equal. ring.
    + apply dd_linear; auto. unfold c. rewrite diff_len; auto.
Qed.
Lemma si_zero n s : 0 < s -> simplex_int n (fun _ => 0) s 0.
Proof.
  revert s; induction n as [|n IH]; intros s Hs; cbn; [reflexivity|]. exists (fun _ => 0). split; [intros x Hx; apply IH; lra|]. apply (integral_on_zero 0 s Hs).
Qed.
(** kl_divergence is the integral of p (ln p - ln q) over the simplex and is never negative *)
Theorem C57_dirichlet_kl lg dg n a1 a2 : is_lgamma lg -> is_digamma dg -> length a1 = S n -> length a2 = S n -> allpos a1 -> allpos a2 ->
  exists k, dir_kl lg dg (DDirichlet (fins a1)) (DDirichlet (fins a2)) = Ok (Fin k) /\
    simplex_int n (fun x => dirichlet_density a1 x * (ln (dirichlet_density a1 x) - ln (dirichlet_density a2 x))) 1 k /\ 0 <= k /\ (a1 = a2 -> k = 0).
Proof.
  intros L D L1 L2 P1 P2. destruct (dir_kl_core lg dg n a1 a2) as (k & E & K); auto. exists k. split; auto. split; auto.
  pose proof (nonnil a1 n L1) as N1. pose proof (nonnil a2 n L2) as N2. split.
  - assert (Z : simplex_int n (fun x => dirichlet_density a1 x + -1 * dirichlet_density a2 x) 1 (1 + -1 * 1)) by (apply si_minus; [lra|apply dd_normal; auto|apply dd_normal; auto]).
    replace 0 with (1 + -1 * 1) by ring.
    apply (si_le n (fun x => dirichlet_density a1 x + -1 * dirichlet_density a2 x) (fun x => dirichlet_density a1 x * (ln (dirichlet_density a1 x) - ln (dirichlet_density a2 x))) 1); auto; [lra|].
    intros x _. pose proof (gibbs_point (dirichlet_density a1 x) (dirichlet_density a2 x) (dd_pos a1 x P1 N1) (dd_pos a2 x P2 N2)). lra.
  - intros <-. apply (si_unique n (fun x => dirichlet_density a1 x * (ln (dirichlet_density a1 x) - ln (dirichlet_density a1 x))) 1); [lra|auto|].
    apply (si_ext n (fun _ => 0)); [lra|intros; ring|apply si_zero; lra].
Qed.
(** it vanishes only for equal concentrations: peel off the first component, whose contribution is the KL of two Betas *)
Definition klR (a1 a2 : list R) : R :=
  let c := map (fun p => fst p - snd p) (combine a1 a2) in (ln (MB a2) - ln (MB a1)) + (linpsi c a1 - rsum c * psi (rsum a1)).
Definition bklR (a1 b1 a2 b2 : R) : R :=
  (ln (Beta_fn a2 b2) - ln (Beta_fn a1 b1)) + (a1 - a2) * (psi a1 - psi (a1 + b1)) + (b1 - b2) * (psi b1 - psi (a1 + b1)).
Lemma bklR_props a1 b1 a2 b2 : 0 < a1 -> 0 < b1 -> 0 < a2 -> 0 < b2 -> 0 <= bklR a1 b1 a2 b2 /\ (bklR a1 b1 a2 b2 = 0 -> a1 = a2 /\ b1 = b2).
Proof.
  intros Ha1 Hb1 Ha2 Hb2. destruct C57_oracles_exist as [L D].
  destruct (C57_beta_kl the_lgamma the_digamma a1 b1 a2 b2 L D Ha1 Hb1 Ha2 Hb2) as (k & E & _ & P & Z).
  assert (Ek : k = bklR a1 b1 a2 b2).
  { unfold beta_kl in E. rewrite !lg_beta in E by auto. cbn [xadd] in E. rewrite !(digamma_psi the_digamma) in E by (auto; lra). cbn in E. injection E as <-. unfold bklR. ring. }
  rewrite <- Ek. split; auto. apply Z.
Qed.
Lemma klR_cons a al b bl : 0 < a -> allpos al -> 0 < b -> allpos bl -> al <> [] -> bl <> [] -> length al = length bl ->
  klR (a :: al) (b :: bl) = bklR a (rsum al) b (rsum bl) + klR al bl.
Proof.
  intros Ha Pa Hb Pb Na Nb LL. pose proof (rsum_pos al Pa Na). pose proof (rsum_pos bl Pb Nb).
  unfold klR, bklR. rewrite !diff_sum by (cbn; auto). cbn [combine map]. rewrite linpsi_cons. cbn [fst snd].
  rewrite !MB_cons by auto. rewrite !ln_mult by (auto using Beta_fn_pos, MB_pos). cbn [rsum fold_right]. fold (rsum al). fold (rsum bl). ring.
Qed.
Lemma klR_props n a1 a2 : length a1 = S n -> length a2 = S n -> allpos a1 -> allpos a2 ->
  0 <= klR a1 a2 /\ (klR a1 a2 = 0 -> rsum a1 = rsum a2 -> a1 = a2) /\ (klR a1 a2 = 0 -> (1 <= n)%nat -> a1 = a2).
Proof.
  revert a1 a2. induction n as [|n IH]; intros a1 a2 L1 L2 P1 P2.
  - destruct a1 as [|a [|? ?]]; try discriminate. destruct a2 as [|b [|? ?]]; try discriminate.
    assert (E : klR [a] [b] = 0).
    { unfold klR, MB, linpsi, sumf. cbn. rewrite !Rplus_0_r, !Rmult_1_r. inversion P1; subst. inversion P2; subst.
      pose proof (Gam_pos a ltac:(auto)). pose proof (Gam_pos b ltac:(auto)).
      replace (Gam b / Gam b) with 1 by (field; lra). replace (Gam a / Gam a) with 1 by (field; lra). rewrite ln_1. ring. }
    rewrite E. split; [lra|]. split; [|lia]. intros _ H. cbn in H. f_equal. lra.
  - destruct a1 as [|a a1]; [discriminate|]. destruct a2 as [|b a2]; [discriminate|]. inversion P1 as [|? ? Ha Pa]; subst. inversion P2 as [|? ? Hb Pb]; subst.
    injection L1 as L1. injection L2 as L2. pose proof (nonnil a1 n L1) as N1. pose proof (nonnil a2 n L2) as N2.
    rewrite klR_cons by (auto; congruence). destruct (IH a1 a2 L1 L2 Pa Pb) as (Q1 & Q2 & _).
    destruct (bklR_props a (rsum a1) b (rsum a2)) as [B1 B2]; auto; [apply rsum_pos; auto|apply rsum_pos; auto|].
    split; [lra|]. assert (G : bklR a (rsum a1) b (rsum a2) + klR a1 a2 = 0 -> a :: a1 = b :: a2).
    { intros H. assert (Z1 : bklR a (rsum a1) b (rsum a2) = 0) by lra. assert (Z2 : klR a1 a2 = 0) by lra.
      destruct (B2 Z1) as [-> Es]. f_equal. auto. }
    split; auto.
Qed.
Theorem C57_dirichlet_kl_zero lg dg n a1 a2 : is_lgamma lg -> is_digamma dg -> (1 <= n)%nat -> length a1 = S n -> length a2 = S n -> allpos a1 -> allpos a2 ->
  (dir_kl lg dg (DDirichlet (fins a1)) (DDirichlet (fins a2)) = Ok (Fin 0) <-> a1 = a2).
Proof.
  intros L D Hn L1 L2 P1 P2. pose proof (nonnil a1 n L1) as N1. pose proof (nonnil a2 n L2) as N2. pose proof (rsum_pos a1 P1 N1) as S1.
  split.
  - intros E. assert (LL : length a1 = length a2) by congruence. destruct (klR_props n a1 a2) as (_ & _ & Z); auto. apply Z; auto.
    unfold dir_kl in E. cbn [obtain_concentration rbind] in E. unfold fins in E at 1 2. rewrite !map_length, LL, Nat.eqb_refl in E.
    rewrite !lbm, xsum_fins, (digamma_psi dg), kl_terms in E by auto. cbn in E. injection E as E. unfold klR. rewrite diff_sum by auto. lra.
  - intros <-. destruct (C57_dirichlet_kl lg dg n a1 a1) as (k & E & _ & _ & Z); auto. rewrite E, Z; auto.
Qed.
Theorem C57_dirichlet_kl_errors lg dg d1 d2 :
  (d1 = DOther \/ d2 = DOther -> dir_kl lg dg d1 d2 = Err ValueError) /\
  (forall c1 c2, d1 = DDirichlet c1 -> d2 = DDirichlet c2 -> length c1 <> length c2 -> dir_kl lg dg d1 d2 = Err ValueError) /\
  (forall c1 a b, d1 = DDirichlet c1 -> d2 = DBeta a b -> length c1 <> 2%nat -> dir_kl lg dg d1 d2 = Err ValueError /\ dir_kl lg dg d2 d1 = Err ValueError).
Proof.
  unfold dir_kl. split; [|split].
  - intros [-> | ->]; cbn; auto. destruct (obtain_concentration d1) as [?|e] eqn:E; cbn; auto. destruct d1; cbn in E; congruence.
  - intros c1 c2 -> -> H. cbn. destruct (Nat.eqb_spec (length c1) (length c2)); congruence.
  - intros c1 a b -> -> H. cbn [obtain_concentration rbind]. change (length [a; b]) with 2%nat.
    destruct (Nat.eqb_spec (length c1) 2), (Nat.eqb_spec 2 (length c1)); try congruence; auto.
Qed.

(** ** Mode *)
Lemma lin_le (c x m : list R) T : length x = length c -> length m = length c -> List.Forall (fun y => 0 < y) x -> List.Forall (fun y => 0 < y) c -> 0 < T ->
  m = map (fun a => a / T) c ->
  lin c x <= lin c m + T * (rsum x - rsum m) /\ (lin c x = lin c m + T * (rsum x - rsum m) -> x = m).
Proof.
  intros Lx Lm Fx Fc HT ->. clear Lm. revert c Lx Fc. induction Fx as [|y x Hy Hx IH]; intros [|a c] Lx Fc; try discriminate.
  - cbn. unfold lin; cbn. split; [lra|auto].
  - inversion Fc as [|? ? Ha Hc]; subst. cbn [map]. rewrite !lin_cons. cbn [rsum fold_right]. fold (rsum x). fold (rsum (map (fun a => a / T) c)).
    destruct (IH c ltac:(cbn in Lx; lia) Hc) as [I1 I2].
    assert (Hm : 0 < a / T) by (apply Rdiv_lt_0_compat; auto). assert (Hz : 0 < y / (a / T)) by (apply Rdiv_lt_0_compat; auto).
    pose proof (ln_le_sub1 _ Hz) as G. rewrite ln_div in G by auto.
    assert (G2 : a * (ln y - ln (a / T)) <= a * (y / (a / T) - 1)) by (apply Rmult_le_compat_l; lra).
    assert (E : a * (y / (a / T) - 1) = T * (y - a / T)) by (field; lra). split; [lra|].
    intros H. assert (E1 : a * (ln y - ln (a / T)) = a * (y / (a / T) - 1)) by lra. assert (E2 : lin c x = lin c (map (fun a => a / T) c) + T * (rsum x - rsum (map (fun a => a / T) c))) by lra.
    f_equal; [|auto]. apply Rmult_eq_reg_l in E1; [|lra]. rewrite <- ln_div in E1 by auto. apply (ln_eq_sub1 _ Hz) in E1.
    apply (Rmult_eq_reg_r (/ (a / T))); [|apply Rinv_neq_0_compat; lra]. rewrite Rinv_r by lra. exact E1.
Qed.
(** all concentrations above 1: the unique maximiser of the density on the simplex; otherwise NaN in every component *)
Theorem C57_dirichlet_mode n al : length al = S n -> allpos al ->
  (List.Forall (fun a => 1 < a) al -> exists m, dir_mode (fins al) = fins m /\ on_simplex n m /\
     forall x, on_simplex n x -> x <> m -> dirichlet_density al x < dirichlet_density al m) /\
  (List.Exists (fun a => a <= 1) al -> dir_mode (fins al) = repeat NaN (S n)).
Proof.
  intros Hl Ha. pose proof (nonnil al n Hl) as Hn. unfold dir_mode.
  assert (E1 : map (fun a => xsub a (Fin 1)) (fins al) = fins (map (fun a => a - 1) al)) by (unfold fins; rewrite !map_map; reflexivity).
  rewrite E1, xsum_fins. set (c := map (fun a => a - 1) al). set (T := rsum c). split.
  - intros H1. assert (Fc : allpos c). { unfold c, allpos. rewrite Forall_map. eapply Forall_impl; [|exact H1]. intros a H. cbn in H. lra. }
    assert (Hc : c <> []) by (unfold c; destruct al; cbn; congruence). pose proof (rsum_pos c Fc Hc) as HT. fold T in HT.
    replace (forallb (fun a => xltb (Fin 1) a) (fins al)) with true.
    2:{ symmetry. apply forallb_forall. intros z Hz. apply in_map_iff in Hz. destruct Hz as (a & <- & Hin). apply xltb_t. rewrite List.Forall_forall in H1. auto. }
    cbn [xwhere]. exists (map (fun a => a / T) c). split. { rewrite map_id. unfold fins. rewrite !map_map. apply map_ext. intros a. apply xdiv_fin. lra. }
    assert (Os : on_simplex n (map (fun a => a / T) c)).
    { split; [unfold c; rewrite !map_length; auto|]. split.
      - rewrite Forall_map. eapply Forall_impl; [|exact Fc]. intros a H. apply Rdiv_lt_0_compat; auto.
      - change (sumf (fun a => a / T) c = 1). unfold Rdiv. rewrite (sumf_scal_r (/ T) (fun a => a)), <- rsum_sumf. apply Rinv_r. unfold T in *; lra. }
    split; auto. intros x Ox Hx. destruct Ox as (Lx & Fx & Sx). destruct Os as (Lm & Fm & Sm).
    assert (Lc : length c = S n) by (unfold c; rewrite map_length; auto).
    destruct (lin_le c x (map (fun a => a / T) c) T) as [G1 G2]; auto; try congruence.
    assert (H : ln (dirichlet_density al x) < ln (dirichlet_density al (map (fun a => a / T) c))).
    { rewrite !dd_ln by auto. fold c. rewrite Sx, Sm in G1, G2. destruct (Req_dec (lin c x) (lin c (map (fun a => a / T) c))) as [E|E]; [|lra].
      exfalso. apply Hx, G2. lra. }
    apply exp_increasing in H. rewrite !exp_ln in H by (apply dd_pos; auto). auto.
  - intros H1. replace (forallb (fun a => xltb (Fin 1) a) (fins al)) with false.
    2:{ symmetry. apply not_true_iff_false. intros F. rewrite forallb_forall in F. apply List.Exists_exists in H1. destruct H1 as (a & Hin & Hle).
        specialize (F (Fin a) (in_map Fin _ _ Hin)). apply xltb_fin in F. lra. }
    cbn [xwhere]. rewrite <- Hl. unfold c, fins. rewrite !map_map. clear. induction al as [|a al IH]; cbn; [auto|]. f_equal. auto.
Qed.

(** ** The Beta distribution is the two-component Dirichlet *)
Theorem C57_beta_is_dirichlet lg dg a b x : is_lgamma lg -> is_digamma dg -> 0 < a -> 0 < b -> 0 < x < 1 ->
  dir_log_prob lg [Fin x; Fin (1 - x)] [Fin a; Fin b] = beta_log_prob lg (Fin x) (Fin a) (Fin b) /\
  dir_mean [Fin a; Fin b] = [beta_mean (Fin a) (Fin b); beta_mean (Fin b) (Fin a)] /\
  dir_variance [Fin a; Fin b] = [beta_variance (Fin a) (Fin b); beta_variance (Fin a) (Fin b)] /\
  dir_entropy lg dg [Fin a; Fin b] = beta_entropy lg dg (Fin a) (Fin b).
Proof.
  intros L D Ha Hb Hx. assert (P : allpos [a; b]) by (repeat constructor; auto). change [Fin a; Fin b] with (fins [a; b]).
  assert (EB : MB [a; b] = Beta_fn a b). { unfold MB, Beta_fn. cbn. rewrite Rmult_1_r, Rplus_0_r. reflexivity. }
  split; [|split; [|split]].
  - change [Fin x; Fin (1 - x)] with (fins [x; 1 - x]).
    assert (Os : on_simplex 1 [x; 1 - x]) by (split; [reflexivity|split; [repeat constructor; lra|cbn; lra]]).
    rewrite (C57_dirichlet_log_prob lg 1 [a; b] [x; 1 - x] L eq_refl P Os).
    rewrite C57_beta_log_prob by auto. rewrite dd_ln, bd_ln by (auto; discriminate). rewrite EB. cbn. unfold lin; cbn. f_equal. ring.
  - rewrite dir_mean_eq by (auto; discriminate). unfold beta_mean. cbn [map xadd]. rewrite !xdiv_fin by lra. cbn [rsum fold_right].
    rewrite !Rplus_0_r, (Rplus_comm b a). reflexivity.
  - rewrite dir_variance_eq by (auto; discriminate). unfold beta_variance, xsquare. cbn [map xadd xmul]. rewrite !xdiv_fin by nra. cbn [rsum fold_right].
    rewrite !Rplus_0_r. f_equal; [f_equal; field; lra|]. f_equal. f_equal. field. lra.
  - unfold dir_entropy. rewrite lbm, xsum_fins, psi_terms by (auto; discriminate). rewrite EB. unfold beta_entropy. rewrite lg_beta by auto.
    cbn [xadd rsum fold_right]. rewrite Rplus_0_r. rewrite !(digamma_psi dg) by (auto; lra). cbn. unfold linpsi; cbn. f_equal. ring.
Qed.
(** kl_divergence between a Beta and a Dirichlet, either way round, is that of the two Betas *)
Theorem C57_beta_dirichlet_kl lg dg a1 b1 a2 b2 : is_lgamma lg -> is_digamma dg -> 0 < a1 -> 0 < b1 -> 0 < a2 -> 0 < b2 ->
  let k := beta_kl lg dg (Fin a1) (Fin b1) (Fin a2) (Fin b2) in
  dir_kl lg dg (DDirichlet [Fin a1; Fin b1]) (DDirichlet [Fin a2; Fin b2]) = Ok k /\
  dir_kl lg dg (DBeta (Fin a1) (Fin b1)) (DDirichlet [Fin a2; Fin b2]) = Ok k /\
  dir_kl lg dg (DDirichlet [Fin a1; Fin b1]) (DBeta (Fin a2) (Fin b2)) = Ok k.
Proof.
  intros L D Ha1 Hb1 Ha2 Hb2 k.
  assert (E : dir_kl lg dg (DDirichlet [Fin a1; Fin b1]) (DDirichlet [Fin a2; Fin b2]) = Ok k); [|split; [exact E|split; exact E]].
  assert (EB : forall a b, MB [a; b] = Beta_fn a b). { intros a b. unfold MB, Beta_fn. cbn. rewrite Rmult_1_r, Rplus_0_r. reflexivity. }
  unfold dir_kl. cbn [obtain_concentration rbind length Nat.eqb]. f_equal. unfold k, beta_kl.
  change [Fin a1; Fin b1] with (fins [a1; b1]). change [Fin a2; Fin b2] with (fins [a2; b2]).
  rewrite !lbm, xsum_fins, !EB, !lg_beta by (auto; try discriminate; repeat constructor; auto).
  rewrite (digamma_psi dg (rsum [a1; b1])) by (auto; cbn; lra). rewrite kl_terms by (auto; repeat constructor; auto).
  cbn [xadd]. rewrite !(digamma_psi dg) by (auto; lra). cbn. unfold linpsi; cbn. rewrite !Rplus_0_r. f_equal. ring.
Qed.
(** Outside its documented (open) support the two differ: at x = 0 with alpha = 1 the Beta returns the limit of its log-density,
    the Dirichlet NaN. *)
Theorem C57_dirichlet_boundary lg : is_lgamma lg ->
  dir_log_prob lg [Fin 0; Fin 1] [Fin 1; Fin 2] = NaN /\ beta_log_prob lg (Fin 0) (Fin 1) (Fin 2) = Fin (ln 2).
Proof.
  intros L. split.
  - unfold dir_log_prob. change [Fin 1; Fin 2] with (fins [1; 2]) at 2. rewrite lbm by (try discriminate; auto; repeat constructor; lra). cbn [map2].
    rewrite xsum_cons. replace (xlog (Fin 0)) with NInf by (symmetry; apply rlog_0). cbn [xsub xadd xopp]. replace (1 + - 1) with 0 by ring.
    cbn [xmul]. unfold inf_times. repeat (destruct (Rlt_dec _ _); [exfalso; lra|]). reflexivity.
  - unfold beta_log_prob. rewrite !xeqb_t. cbn [andb orb xwhere]. rewrite lg_beta by (auto; lra). cbn [xopp]. f_equal.
    rewrite <- ln_Rinv by (apply Beta_fn_pos; lra). f_equal. unfold Beta_fn.
    assert (G2 : Gam 2 = 1) by (replace 2 with (1 + 1) by ring; rewrite Gam_S, Gam_1; lra).
    assert (G3 : Gam (1 + 2) = 2) by (replace (1 + 2) with (2 + 1) by ring; rewrite Gam_S, G2; lra).
    rewrite G2, G3, Gam_1. field.
Qed.

(** a concrete distribution meeting the hypotheses *)
Example C57_dirichlet_instance : dir_mean (fins [1; 2; 3]) = fins [1 / 6; 2 / 6; 3 / 6] /\ dir_mode (fins [2; 2; 2]) = fins [1 / 3; 1 / 3; 1 / 3] /\
  allpos [1; 2; 3] /\ on_simplex 2 [1 / 6; 2 / 6; 3 / 6].
Proof.
  assert (P : allpos [1; 2; 3]) by (repeat constructor; lra). split; [|split; [|split; auto]].
  - rewrite dir_mean_eq by (auto; discriminate). cbn. replace (1 + (2 + (3 + 0))) with 6 by ring. reflexivity.
  - unfold dir_mode. cbn [fins map forallb]. rewrite !xltb_t by lra. cbn [andb xwhere xsub xadd xopp xsum fold_right]. rewrite !xdiv_fin by lra.
    unfold fins; cbn [map]. repeat f_equal; field.
  - split; [reflexivity|]. split; [repeat constructor; lra|cbn; field].
Qed.
