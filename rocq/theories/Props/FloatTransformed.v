(** C108: log_prob and sample_and_log_prob of a distribution transformed by a chain, in floating point. *)
From Coq Require Import Reals Lra Lia List Bool Arith ZArith.
From Flocq Require Import Core.
From Verif Require Import Base.XR Base.Float Spec.Rounding Spec.Accuracy Spec.Layers Proofs.FloatOrder Proofs.FloatLib
  Model.FloatDist Model.FloatBij Model.FloatTransformed Props.FloatBij Props.FloatAccuracy.
Import ListNotations.
Local Open Scope R_scope.

Section Pass.
Variable dt : dtype.
Notation e := (eps dt).

Lemma layer_step l f x xf a : faithful dt l f -> (forall t, Rabs (t - x) <= a -> dom l t) -> repr dt xf -> Rabs (xf - x) <= a ->
  exists y t, f (Fin xf) = (Fin y, Fin t) /\ repr dt y /\ Rabs (y - map_of l x) <= err l + lip l * a /\ Rabs (t - log_der l x) <= err_ld l + lip_ld l * a.
Proof.
  intros (K0 & M0 & HK & HM & HF) HD Rx Hx. assert (Dx : dom l x). { apply HD. rewrite Rminus_diag_eq, Rabs_R0 by auto. pose proof (Rabs_pos (xf - x)). lra. }
  pose proof (HD xf Hx) as Dxf. destruct (HF xf Rx Dxf) as (y & t & E & Ry & Hy & Ht). exists y, t. split; [auto|]. split; [auto|].
  pose proof (HK xf x Dxf Dx) as A. pose proof (HM xf x Dxf Dx) as B. assert (lip l * Rabs (xf - x) <= lip l * a) by (apply Rmult_le_compat_l; auto). assert (lip_ld l * Rabs (xf - x) <= lip_ld l * a) by (apply Rmult_le_compat_l; auto).
  split; [replace (y - map_of l x) with ((y - map_of l xf) + (map_of l xf - map_of l x)) by ring|replace (t - log_der l x) with ((t - log_der l xf) + (log_der l xf - log_der l x)) by ring]; (eapply Rle_trans; [apply Rabs_triang|]); lra.
Qed.
Lemma err_nonneg l f x a : faithful dt l f -> (forall t, Rabs (t - x) <= a -> dom l t) -> forall xf, repr dt xf -> Rabs (xf - x) <= a -> 0 <= err l + lip l * a /\ 0 <= err_ld l + lip_ld l * a.
Proof. intros F D xf R H. destruct (layer_step l f x xf a F D R H) as (y & t & _ & _ & A & B). pose proof (Rabs_pos (y - map_of l x)). pose proof (Rabs_pos (t - log_der l x)). lra. Qed.

Lemma size_nonneg ls : forall x, 0 <= size_log_der ls x.
Proof. induction ls as [|l r IH]; intros x; cbn [size_log_der]; [lra|]. pose proof (Rabs_pos (log_der l x)). specialize (IH (map_of l x)). lra. Qed.
Lemma total_le_size ls : forall x, Rabs (total_log_der ls x) <= size_log_der ls x.
Proof. induction ls as [|l r IH]; intros x; cbn [size_log_der total_log_der]; [rewrite Rabs_R0; lra|]. specialize (IH (map_of l x)). eapply Rle_trans; [apply Rabs_triang|]. lra. Qed.
Lemma ld_err_nonneg ls fs : Forall2 (faithful dt) ls fs -> forall x a xf, inside ls x a -> repr dt xf -> Rabs (xf - x) <= a -> 0 <= log_der_err ls a.
Proof.
  induction 1 as [|l f ls fs HF _ IH]; intros x a xf HI R H; cbn [log_der_err inside] in *; [lra|]. destruct HI as (HD & HI). destruct (layer_step l f x xf a HF HD R H) as (y & t & _ & Ry & A & B).
  pose proof (Rabs_pos (t - log_der l x)). specialize (IH _ _ y HI Ry A). lra.
Qed.

(** the loop: [T] bounds every partial sum *)
Lemma loop ls fs : Forall2 (faithful dt) ls fs -> forall x xf a s sf b T, repr dt xf -> Rabs (xf - x) <= a -> inside ls x a ->
  Rabs (sf - s) <= b -> Rabs s + size_log_der ls x + b + log_der_err ls a + INR (length ls) * (e * (T + 1)) <= T -> 0 <= T <= maxpow dt / 2 ->
  exists y t, fold_left (fl_chain_loop dt) fs (Fin xf, Fin sf) = (Fin y, Fin t) /\ repr dt y /\ Rabs (y - image ls x) <= image_err ls a /\
    Rabs (t - (s + total_log_der ls x)) <= b + log_der_err ls a + INR (length ls) * (e * (T + 1)).
Proof.
  induction 1 as [|l f ls fs HF HFs IH]; intros x xf a s sf b T Rx Hx HI Hs HT Hm.
  - exists xf, sf. cbn [fold_left image image_err total_log_der log_der_err size_log_der length INR] in *. split; [auto|]. split; [auto|]. split; [auto|]. replace (sf - (s + 0)) with (sf - s) by ring. lra.
  - cbn [inside size_log_der log_der_err image image_err total_log_der fold_left] in *. destruct HI as (HD & HI). destruct (layer_step l f x xf a HF HD Rx Hx) as (y & t & Ef & Ry & Hy & Ht).
    unfold fl_chain_loop at 2. rewrite Ef. unfold fadd. rewrite xadd_fin. change (length (l :: ls)) with (S (length ls)) in *. rewrite S_INR in *.
    pose proof (eps_pos dt) as E0. pose proof (Rabs_pos s). pose proof (pos_INR (length ls)) as N0. pose proof (size_nonneg ls (map_of l x)). pose proof (Rabs_pos (log_der l x)).
    pose proof (ld_err_nonneg _ _ HFs _ _ y HI Ry Hy) as LE. assert (Q1 : 0 <= e * (T + 1)) by (apply Rmult_le_pos; lra). assert (Q2 : 0 <= INR (length ls) * (e * (T + 1))) by (apply Rmult_le_pos; auto).
    assert (B1 : Rabs ((sf + t) - (s + log_der l x)) <= b + (err_ld l + lip_ld l * a)).
    { replace ((sf + t) - (s + log_der l x)) with ((sf - s) + (t - log_der l x)) by ring. eapply Rle_trans; [apply Rabs_triang|]. lra. }
    assert (B2 : Rabs (s + log_der l x) <= Rabs s + Rabs (log_der l x)) by apply Rabs_triang.
    assert (B3 : Rabs (sf + t) <= T). { replace (sf + t) with (((sf + t) - (s + log_der l x)) + (s + log_der l x)) by ring. eapply Rle_trans; [apply Rabs_triang|]. lra. }
    destruct (round_close dt (sf + t)) as (q & Eq' & Bq); [lra|]. rewrite Eq'. assert (e * (Rabs (sf + t) + 1) <= e * (T + 1)) by (apply Rmult_le_compat_l; lra).
    destruct (IH (map_of l x) y (err l + lip l * a) (s + log_der l x) q (b + (err_ld l + lip_ld l * a) + e * (T + 1)) T Ry Hy HI) as (y' & t' & E' & Ry' & A & B); [|lra|auto|].
    + replace (q - (s + log_der l x)) with ((q - (sf + t)) + ((sf + t) - (s + log_der l x))) by ring. eapply Rle_trans; [apply Rabs_triang|]. lra.
    + exists y', t'. split; [auto|]. split; [auto|]. split; [auto|]. replace (t' - (s + (log_der l x + total_log_der ls (map_of l x)))) with (t' - (s + log_der l x + total_log_der ls (map_of l x))) by ring. lra.
Qed.

(** A pass through any number of layers: the image is off by the accumulated error of the layers, and the log determinant by the sum of
    their errors plus one rounding per layer, in units of the size [S] of the sum. *)
Theorem C108_pass ls fs x a xf : Forall2 (faithful dt) ls fs -> fs <> [] -> repr dt xf -> Rabs (xf - x) <= a -> inside ls x a ->
  let S := size_log_der ls x + log_der_err ls a in let n := INR (length ls) in n * e <= / 2 -> S + 1 <= maxpow dt / 8 ->
  exists y t, fl_chain_steps dt fs (Fin xf) = (Fin y, Fin t) /\ repr dt y /\ Rabs (y - image ls x) <= image_err ls a /\
    Rabs (t - total_log_der ls x) <= log_der_err ls a + n * e * (2 * S + 2).
Proof.
  intros HF Ne Rx Hx HI S n Hn Hm. destruct HF as [|l f ls fs HF HFs]; [congruence|]. cbn [inside] in HI. destruct HI as (HD & HI).
  destruct (layer_step l f x xf a HF HD Rx Hx) as (y & t & Ef & Ry & Hy & Ht). cbn [fl_chain_steps]. rewrite Ef. cbn [image image_err total_log_der].
  subst S n. cbn [size_log_der log_der_err] in *. change (length (l :: ls)) with (S (length ls)) in *. rewrite S_INR in *. set (b := err_ld l + lip_ld l * a) in *.
  set (S := Rabs (log_der l x) + size_log_der ls (map_of l x) + (b + log_der_err ls (err l + lip l * a))) in *.
  pose proof (eps_pos dt) as E0. pose proof (pos_INR (length ls)) as N0. pose proof (Rabs_pos (log_der l x)). pose proof (size_nonneg ls (map_of l x)). pose proof (ld_err_nonneg _ _ HFs _ _ y HI Ry Hy) as LE.
  assert (B0 : 0 <= b) by (pose proof (Rabs_pos (t - log_der l x)); lra). assert (S0 : 0 <= S) by (unfold S; lra).
  assert (Ln : INR (length ls) * (e * (2 * S + 2)) <= (/ 2) * (2 * S + 2)). { rewrite <- Rmult_assoc. apply Rmult_le_compat_r; [lra|]. assert (0 <= e) by lra. lra. }
  destruct (loop ls fs HFs (map_of l x) y (err l + lip l * a) (log_der l x) t b (2 * S + 1) Ry Hy HI Ht) as (y' & t' & E' & Ry' & A & B).
  - replace (2 * S + 1 + 1) with (2 * S + 2) by ring. unfold S in *. lra.
  - lra.
  - exists y', t'. split; [auto|]. split; [auto|]. split; [auto|]. replace (2 * S + 1 + 1) with (2 * S + 2) in B by ring. assert (0 <= e * (2 * S + 2)) by (apply Rmult_le_pos; lra). lra.
Qed.

(** Transformed.log_prob of a value of the dtype, for a base whose float log_prob is within [phi] of the Lipschitz function [lp]. *)
Theorem C108_log_prob bs ls v F lp P Lam phi : Forall2 (faithful dt) ls (map fl_inv bs) -> bs <> [] -> repr dt v -> inside ls v 0 ->
  (forall u, Rabs (u - image ls v) <= image_err ls 0 -> P u) -> (forall x y, P x -> P y -> Rabs (lp x - lp y) <= Lam * Rabs (x - y)) -> 0 <= Lam ->
  (forall x, repr dt x -> P x -> close (F (Fin x)) (lp x) phi) ->
  let S := size_log_der ls v + log_der_err ls 0 in let n := INR (length ls) in n * e <= / 2 -> S + 1 <= maxpow dt / 8 ->
  let d := phi + Lam * image_err ls 0 + log_der_err ls 0 + n * e * (2 * S + 2) in Rabs (lp (image ls v)) + S + d + 1 <= maxpow dt / 2 ->
  close (fl_transformed_log_prob dt F (fl_inv (fl_chain dt bs)) (Fin v)) (lp (image ls v) + total_log_der ls v) (d + e * (Rabs (lp (image ls v)) + S + d + 1)).
Proof.
  intros HF Ne Rv HI HP HL L0 HB S n Hn Hm d Hd. assert (Hz : Rabs (v - v) <= 0) by (rewrite Rminus_diag_eq, Rabs_R0 by auto; lra).
  destruct (C108_pass ls (map fl_inv bs) v 0 v HF ltac:(destruct bs; cbn; congruence) Rv Hz HI Hn Hm) as (x & t & E & Rx & Hx & Ht). fold S n in Ht.
  unfold fl_transformed_log_prob. cbn [fl_chain fl_inv]. unfold fl_chain_inverse. rewrite E.
  destruct (HB x Rx (HP x Hx)) as (r & Er & Hr). assert (Px : P (image ls v)) by (apply HP; rewrite Rminus_diag_eq, Rabs_R0 by auto; pose proof (Rabs_pos (x - image ls v)); lra).
  pose proof (HL x (image ls v) (HP x Hx) Px) as Hl. assert (Lam * Rabs (x - image ls v) <= Lam * image_err ls 0) by (apply Rmult_le_compat_l; auto).
  assert (C1 : close (F (Fin x)) (lp (image ls v)) (phi + Lam * image_err ls 0)).
  { exists r. split; [auto|]. replace (r - lp (image ls v)) with ((r - lp x) + (lp x - lp (image ls v))) by ring. eapply Rle_trans; [apply Rabs_triang|]. lra. }
  assert (C2 : close (Fin t) (total_log_der ls v) (log_der_err ls 0 + n * e * (2 * S + 2))) by (exists t; auto).
  pose proof (total_le_size ls v) as TS. pose proof (ld_err_nonneg _ _ HF v 0 v HI Rv Hz).
  eapply close_weaken; [apply (close_add dt _ _ _ _ _ _ (Rabs (lp (image ls v)) + S + d) C1 C2)|]; unfold d, S in *; lra.
Qed.
(** sample_and_log_prob from a base sample [x] of the dtype: the sample is off by the accumulated error, and the log_prob as above. *)
Theorem C108_sample_and_log_prob bs ls x lpx t phi : Forall2 (faithful dt) ls (map fl_fwd (rev bs)) -> bs <> [] -> repr dt x -> inside ls x 0 -> close lpx t phi -> 0 <= phi ->
  let S := size_log_der ls x + log_der_err ls 0 in let n := INR (length ls) in n * e <= / 2 -> S + 1 <= maxpow dt / 8 ->
  let d := phi + log_der_err ls 0 + n * e * (2 * S + 2) in Rabs t + S + d + 1 <= maxpow dt / 2 ->
  let r := fl_transformed_sample_and_log_prob dt (fl_fwd (fl_chain dt bs)) (Fin x) lpx in
  close (fst r) (image ls x) (image_err ls 0) /\ close (snd r) (t - total_log_der ls x) (d + e * (Rabs t + S + d + 1)).
Proof.
  intros HF Ne Rx HI HC Hp S n Hn Hm d Hd r. assert (Hz : Rabs (x - x) <= 0) by (rewrite Rminus_diag_eq, Rabs_R0 by auto; lra).
  assert (Ne' : map fl_fwd (rev bs) <> []). { destruct bs as [|b bs]; [congruence|]. cbn [rev]. rewrite map_app. destruct (map fl_fwd (rev bs)); cbn; congruence. }
  destruct (C108_pass ls _ x 0 x HF Ne' Rx Hz HI Hn Hm) as (y & u & E & Ry & Hy & Hu). fold S n in Hu.
  unfold r, fl_transformed_sample_and_log_prob. cbn [fl_chain fl_fwd]. unfold fl_chain_forward. rewrite E. cbn [fst snd]. split; [exists y; auto|].
  assert (C2 : close (Fin u) (total_log_der ls x) (log_der_err ls 0 + n * e * (2 * S + 2))) by (exists u; auto).
  pose proof (total_le_size ls x) as TS. pose proof (ld_err_nonneg _ _ HF x 0 x HI Rx Hz).
  eapply close_weaken; [apply (close_sub dt _ _ _ _ _ _ (Rabs t + S + d) HC C2)|]; unfold d, S in *; lra.
Qed.
End Pass.

(** ScalarAffine as a layer.  The inverse, on the values at most [Z] scales from the shift. *)
Definition affine_inverse_layer (dt : dtype) (k shift scale Z : R) : layer := {|
  map_of y := (y - shift) / scale; log_der _ := - ln scale; dom y := Rabs (y - shift) <= Z * scale;
  lip := / scale; lip_ld := 0; err := 4 * eps dt * (Z + 1); err_ld := k * eps dt * Rabs (ln scale) + tiny dt |}.
(** The forward map, on the inputs of size at most [X]. *)
Definition affine_layer (dt : dtype) (k shift scale X : R) : layer := {|
  map_of x := scale * x + shift; log_der _ := ln scale; dom x := Rabs x <= X;
  lip := scale; lip_ld := 0; err := 4 * eps dt * (scale * X + Rabs shift + 1); err_ld := k * eps dt * Rabs (ln scale) + tiny dt |}.

Section Affine.
Variables (dt : dtype) (k : R) (L : XR -> XR) (sh s : R).
Notation e := (eps dt).
Hypothesis HL : accurate dt k L ln (fun s => 0 < s).
Hypothesis Rsh : repr dt sh.
Hypothesis Rs : repr dt s.
Hypothesis Hs : 0 < s.

Lemma log_s : exists r, L (xabs (Fin s)) = Fin r /\ Rabs (r - ln s) <= k * e * Rabs (ln s) + tiny dt.
Proof. cbn [xabs]. rewrite Rabs_pos_eq by lra. destruct (HL s Rs Hs) as (r & E & _ & H). exists r. auto. Qed.

Theorem C108_affine_inverse Z : 0 <= Z <= maxpow dt / 16 -> Z * s <= maxpow dt / 2 -> tiny dt <= / s <= maxpow dt / 2 ->
  faithful dt (affine_inverse_layer dt k sh s Z) (fl_inv (fl_affine_bijector dt L (Fin sh) (Fin s))).
Proof.
  intros HZ HZs Hi. unfold faithful, affine_inverse_layer; cbn [map_of log_der dom lip lip_ld err err_ld]. pose proof (Rinv_0_lt_compat s Hs) as Is.
  split; [lra|]. split; [lra|]. split.
  { intros x y _ _. replace ((x - sh) / s - (y - sh) / s) with (/ s * (x - y)) by (field; lra). rewrite Rabs_mult, (Rabs_pos_eq (/ s)) by lra. lra. }
  split. { intros x y _ _. rewrite Rminus_diag_eq, Rabs_R0 by auto. lra. }
  intros y Ry Hy. destruct log_s as (r & Er & Hr). cbn [fl_affine_bijector fl_inv]. unfold fl_affine_log_scale. rewrite Er. unfold fl_affine_inverse, fl_inv_scale, fsub, fdiv, fmul. rewrite xsub_fin, xdiv_fin' by lra.
  pose proof (eps_pos dt) as E0. pose proof (eps_le dt) as E4. pose proof (maxpow_ge_32 dt) as M32.
  destruct (round_fin dt (y - sh)) as (d & Ed & Rd & _ & Qd); [lra|]. rewrite Ed. pose proof (sub_rel dt y sh Ry Rsh) as Hd. rewrite <- Qd in Hd.
  replace (1 / s) with (/ s) by (unfold Rdiv; ring). destruct (round_fin dt (/ s)) as (i & Ei & Ri & _ & Qi); [rewrite Rabs_pos_eq by lra; lra|]. rewrite Ei, xmul_fin.
  assert (Hi' : Rabs (i - / s) <= e * / s). { subst i. pose proof (rnd_err dt (/ s)) as Q. rewrite (Rabs_pos_eq (/ s)) in Q by lra. apply Q. lra. }
  assert (Hzz : Rabs ((y - sh) / s) <= Z). { unfold Rdiv. rewrite Rabs_mult, (Rabs_pos_eq (/ s)) by lra. apply Rmult_le_reg_r with s; [auto|]. rewrite Rmult_assoc, Rinv_l by lra. lra. }
  assert (Hp : Rabs (i * d - (y - sh) / s) <= (2 * e + e * e) * Z).
  { replace (i * d - (y - sh) / s) with ((i - / s) * (d - (y - sh)) + (i - / s) * (y - sh) + / s * (d - (y - sh))) by (unfold Rdiv; ring).
    set (A := i - / s) in *. set (B := d - (y - sh)) in *. assert (HzE : / s * Rabs (y - sh) <= Z). { unfold Rdiv in Hzz. rewrite Rabs_mult, (Rabs_pos_eq (/ s)) in Hzz by lra. lra. }
    set (w := Rabs (y - sh)) in *. assert (W0 : 0 <= w) by apply Rabs_pos. 
    assert (P1 : Rabs (A * B) <= e * e * Z). { rewrite Rabs_mult. eapply Rle_trans; [apply Rmult_le_compat; try apply Rabs_pos; eassumption|]. replace (e * / s * (e * w)) with (e * e * (/ s * w)) by ring. apply Rmult_le_compat_l; [nra|auto]. }
    assert (P2 : Rabs (A * (y - sh)) <= e * Z). { rewrite Rabs_mult. fold w. eapply Rle_trans; [apply Rmult_le_compat_r; eassumption|]. rewrite Rmult_assoc. apply Rmult_le_compat_l; lra. }
    assert (P3 : Rabs (/ s * B) <= e * Z). { rewrite Rabs_mult, (Rabs_pos_eq (/ s)) by lra. eapply Rle_trans; [apply Rmult_le_compat_l; [lra|eassumption]|]. replace (/ s * (e * w)) with (e * (/ s * w)) by ring. apply Rmult_le_compat_l; lra. }
    eapply Rle_trans; [apply Rabs_triang|]. eapply Rle_trans; [apply Rplus_le_compat_r, Rabs_triang|]. lra. }
  assert (Hq : (2 * e + e * e) * Z <= 9 / 4 * e * Z) by (apply Rmult_le_compat_r; [lra|nra]).
  assert (Be : Rabs (i * d) <= 25 / 16 * Z). { replace (i * d) with ((i * d - (y - sh) / s) + (y - sh) / s) by ring. eapply Rle_trans; [apply Rabs_triang|]. assert (9 / 4 * e * Z <= 9 / 16 * Z) by (apply Rmult_le_compat_r; lra). lra. }
  destruct (round_fin dt (i * d)) as (x & Ex & Rx & Hx & _); [lra|]. rewrite Ex. exists x, (- r). split; [reflexivity|]. split; [auto|]. split.
  - replace (x - (y - sh) / s) with ((x - i * d) + (i * d - (y - sh) / s)) by ring. eapply Rle_trans; [apply Rabs_triang|]. assert (e * (Rabs (i * d) + 1) <= e * (25 / 16 * Z + 1)) by (apply Rmult_le_compat_l; lra). nra.
  - replace (- r - - ln s) with (- (r - ln s)) by ring. now rewrite Rabs_Ropp.
Qed.

Theorem C108_affine_forward X : 0 <= X -> s * X + Rabs sh + 1 <= maxpow dt / 8 ->
  faithful dt (affine_layer dt k sh s X) (fl_fwd (fl_affine_bijector dt L (Fin sh) (Fin s))).
Proof.
  intros HX HM. unfold faithful, affine_layer; cbn [map_of log_der dom lip lip_ld err err_ld]. split; [lra|]. split; [lra|]. split.
  { intros x y _ _. replace (s * x + sh - (s * y + sh)) with (s * (x - y)) by ring. rewrite Rabs_mult, (Rabs_pos_eq s) by lra. lra. }
  split. { intros x y _ _. rewrite Rminus_diag_eq, Rabs_R0 by auto. lra. }
  intros x Rx Hx. destruct log_s as (r & Er & Hr). cbn [fl_affine_bijector fl_fwd]. unfold fl_affine_log_scale. rewrite Er. unfold fl_affine_forward, fadd, fmul. rewrite xmul_fin.
  pose proof (eps_pos dt) as E0. pose proof (eps_le dt) as E4. pose proof (Rabs_pos sh) as S0. assert (Bx : Rabs (s * x) <= s * X) by (rewrite Rabs_mult, (Rabs_pos_eq s) by lra; apply Rmult_le_compat_l; lra).
  pose proof (Rabs_pos (s * x)). destruct (round_fin dt (s * x)) as (p & Ep & _ & Hp & _); [lra|]. rewrite Ep, xadd_fin.
  assert (Q1 : e * (Rabs (s * x) + 1) <= e * (s * X + 1)) by (apply Rmult_le_compat_l; lra). assert (Q2 : e * (s * X + 1) <= / 4 * (s * X + 1)) by (apply Rmult_le_compat_r; lra).
  assert (Bp : Rabs (p + sh) <= 5 / 4 * (s * X + Rabs sh + 1)). { replace (p + sh) with ((p - s * x) + s * x + sh) by ring. eapply Rle_trans; [apply Rabs_triang|]. eapply Rle_trans; [apply Rplus_le_compat_r, Rabs_triang|]. lra. }
  destruct (round_fin dt (p + sh)) as (y & Ey & Ry & Hy & _); [lra|]. rewrite Ey. exists y, r. split; [reflexivity|]. split; [auto|]. split; [|auto].
  replace (y - (s * x + sh)) with ((y - (p + sh)) + (p - s * x)) by ring. eapply Rle_trans; [apply Rabs_triang|]. assert (e * (Rabs (p + sh) + 1) <= e * (5 / 4 * (s * X + Rabs sh + 1) + 1)) by (apply Rmult_le_compat_l; lra). set (M := s * X + Rabs sh + 1) in *. assert (e * (s * X + 1) <= e * M) by (apply Rmult_le_compat_l; unfold M; lra). assert (e * (5 / 4 * M + 1) <= e * (9 / 4 * M)) by (apply Rmult_le_compat_l; [lra|]; unfold M in *; pose proof (Rmult_le_pos s X); lra). assert (0 <= e * M) by (apply Rmult_le_pos; unfold M; pose proof (Rmult_le_pos s X); lra). lra.
Qed.
End Affine.

(** A concrete case in float32: a standard Normal through any number of layers [x -> 2 x + 1], up to a thousand, at the value 1. *)
Definition log32 (a : XR) : XR := fround float32 (xlog a).
Definition twice_plus_one : fl_bijector := fl_affine_bijector float32 log32 (Fin 1) (Fin 2).
Notation e32 := (eps float32).
Notation halver := (affine_inverse_layer float32 1 1 2 2).
Lemma image_halver n : forall x, image (repeat halver n) x = (x + 1) / 2 ^ n - 1.
Proof. induction n as [|n IH]; intros x; cbn [repeat image pow]; [field|]. rewrite IH. cbn [map_of affine_inverse_layer]. field. apply pow_nonzero. lra. Qed.
Lemma total_halver n : forall x, total_log_der (repeat halver n) x = - (INR n * ln 2).
Proof. induction n as [|n IH]; intros x; [cbn; ring|]. cbn [repeat total_log_der]. rewrite IH, S_INR. cbn [log_der affine_inverse_layer]. ring. Qed.
Lemma size_halver n : forall x, size_log_der (repeat halver n) x = INR n * ln 2.
Proof. pose proof ln2_bounds. induction n as [|n IH]; intros x; [cbn; ring|]. cbn [repeat size_log_der]. rewrite IH, S_INR. cbn [log_der affine_inverse_layer]. rewrite Rabs_Ropp, Rabs_pos_eq by lra. ring. Qed.
Lemma ld_err_halver n : forall a, log_der_err (repeat halver n) a = INR n * (1 * e32 * Rabs (ln 2) + tiny float32).
Proof. induction n as [|n IH]; intros a; [cbn; ring|]. cbn [repeat log_der_err]. rewrite IH, S_INR. cbn [err_ld lip_ld affine_inverse_layer]. ring. Qed.
Lemma image_err_halver n : forall a, a <= 24 * e32 -> image_err (repeat halver n) a <= 24 * e32.
Proof. induction n as [|n IH]; intros a H; cbn [repeat image_err]; [auto|]. apply IH. cbn [err lip affine_inverse_layer]. lra. Qed.
Lemma inside_halver n : forall x a, - 1 <= x <= 1 -> a <= 24 * e32 -> inside (repeat halver n) x a.
Proof.
  induction n as [|n IH]; intros x a Hx H; cbn [repeat inside]; [exact I|]. assert (E : 32 * e32 <= 1) by (unfold eps; change 32 with (bpow radix2 5); rewrite <- bpow_plus; change 1 with (bpow radix2 0); apply bpow_le; cbn; lia). split.
  - intros t Ht. cbn [dom affine_inverse_layer]. apply Rabs_le. apply Rabs_le_inv in Ht. lra.
  - apply IH; cbn [map_of err lip affine_inverse_layer]; lra.
Qed.
Example C108_float32 n : (1 <= n <= 1000)%nat ->
  close (fl_transformed_log_prob float32 (fun x => fl_normal_log_prob float32 log32 (Fin (rnd float32 half_log_2pi)) x (Fin 0) (Fin 1))
      (fl_inv (fl_chain float32 (repeat twice_plus_one n))) (Fin 1))
    (normal_log_density (2 / 2 ^ n - 1) 0 1 - INR n * ln 2) ((4 * INR n ^ 2 + 10 * INR n + 200) * e32).
Proof.
  intros Hn. assert (N : 1 <= INR n <= 1000). { split; [change 1 with (INR 1)|replace 1000 with (INR 1000) by (rewrite INR_IZR_INZ; reflexivity)]; apply le_INR; lia. }
  pose proof ln2_bounds as L2. pose proof (eps_pos float32) as E0. pose proof (tiny_le_eps float32) as TE. pose proof (tiny_pos float32) as T0. pose proof half_log_2pi_bounds as HP.
  assert (Es : 16777216 * e32 = 1). { unfold eps. change 16777216 with (bpow radix2 24). rewrite <- bpow_plus. reflexivity. }
  assert (M : 1048576 <= maxpow float32) by (change 1048576 with (bpow radix2 20); apply bpow_le; cbn; lia).
  assert (R0 : repr float32 0) by apply repr_0. assert (R1 : repr float32 1) by (change 1 with (bpow radix2 0); apply repr_pow; cbn; unfold emin; cbn; lia). assert (R2 : repr float32 2) by (change 2 with (bpow radix2 1); apply repr_pow; cbn; unfold emin; cbn; lia).
  assert (Td : tiny float32 <= / 2) by lra.
  assert (HF : Forall2 (faithful float32) (repeat halver n) (map fl_inv (repeat twice_plus_one n))).
  { clear Hn N. induction n as [|n IH]; cbn [repeat map]; constructor; auto. apply C108_affine_inverse; auto using (log_accurate float32); lra. }
  pose proof (inside_halver n 1 0 ltac:(lra) ltac:(lra)) as HI. pose proof (image_err_halver n 0 ltac:(lra)) as IE.
  assert (P2 : 0 < / 2 ^ n <= / 2). { assert (2 ^ 1 <= 2 ^ n) by (apply Rle_pow; [lra|lia]). split; [apply Rinv_0_lt_compat; lra|apply Rinv_le_contravar; lra]. }
  set (x0 := 2 / 2 ^ n - 1). assert (Ex : image (repeat halver n) 1 = x0) by (rewrite image_halver; unfold x0; f_equal; f_equal; ring). assert (Hx0 : - 1 <= x0 <= 0) by (unfold x0, Rdiv; lra).
  assert (ND : forall x, normal_log_density x 0 1 = - (x ^ 2 / 2) - half_log_2pi). { intros x. rewrite normal_log_density_eq by lra. rewrite ln_1. field. }
  pose proof (C108_log_prob float32 (repeat twice_plus_one n) (repeat halver n) 1 (fun x => fl_normal_log_prob float32 log32 (Fin (rnd float32 half_log_2pi)) x (Fin 0) (Fin 1)) (fun x => normal_log_density x 0 1) (fun x => Rabs x <= 2) 2 (130 * e32)) as K.
  cbv zeta in K. rewrite Ex, total_halver, size_halver, ld_err_halver, repeat_length, (Rabs_pos_eq (ln 2)) in K by lra.
  assert (Q0 : 0 <= INR n * (1 * e32 * ln 2 + tiny float32) <= 2 * INR n * e32). { assert (0 <= e32 * ln 2 <= e32) by nra. split; [apply Rmult_le_pos; lra|]. replace (2 * INR n * e32) with (INR n * (2 * e32)) by ring. apply Rmult_le_compat_l; lra. }
  set (q := INR n * (1 * e32 * ln 2 + tiny float32)) in *. assert (Q1 : INR n * ln 2 + q <= 2 * INR n) by nra. assert (Q2 : 0 <= INR n * ln 2) by nra.
  assert (Hl : Rabs (normal_log_density x0 0 1) <= 2). { rewrite ND, <- Rabs_Ropp, Rabs_pos_eq; nra. }
  set (S := INR n * ln 2 + q) in *. clearbody S q. set (l := Rabs (normal_log_density x0 0 1)) in *. assert (l0 : 0 <= l) by apply Rabs_pos. clearbody l.
  assert (W : INR n * e32 * (2 * S + 2) <= INR n * e32 * (4 * INR n + 2)) by (apply Rmult_le_compat_l; nra).
  assert (W' : INR n * e32 * (4 * INR n + 2) = (4 * INR n ^ 2 + 2 * INR n) * e32) by ring. assert (n2 : INR n ^ 2 <= 1000000) by nra.
  assert (n3 : INR n * e32 <= 1000 * e32) by nra. assert (W2 : (4 * INR n ^ 2 + 2 * INR n) * e32 <= (4002000) * e32) by nra.
  eapply close_weaken; [apply K; auto|].
  - destruct n; [lia|]. discriminate.
  - intros u Hu. apply Rabs_le. apply Rabs_le_inv in Hu. lra.
  - intros x y Hx Hy. rewrite !ND. apply Rabs_le_inv in Hx, Hy. replace (- (x ^ 2 / 2) - half_log_2pi - (- (y ^ 2 / 2) - half_log_2pi)) with (- ((x + y) / 2) * (x - y)) by field. rewrite Rabs_mult. apply Rmult_le_compat_r; [apply Rabs_pos|]. apply Rabs_le. lra.
  - lra.
  - intros x Rx Hx. assert (Xs : x ^ 2 <= 4) by (apply Rabs_le_inv in Hx; nra). assert (Z : (x - 0) / 1 = x) by field.
    eapply close_weaken; [apply (C94_normal float32 1); rewrite ?Z, ?ln_1, ?Rabs_R0|]; try lra; auto using (log_accurate float32).
    + replace (x - 0) with x by ring. lra.
    + apply rounded_const. rewrite Rabs_pos_eq by lra. lra.
    + rewrite Z, ln_1, Rabs_R0. nra.
  - lra.
  - lra.
  - lra.
  - set (D := 4 * INR n ^ 2 + 2 * INR n) in *. clearbody D. assert (S <= 2 * INR n) by auto.
    set (dd := 130 * e32 + 2 * image_err (repeat halver n) 0 + q + INR n * e32 * (2 * S + 2)) in *. assert (dd <= 178 * e32 + 2 * INR n * e32 + (4 * INR n ^ 2 + 2 * INR n) * e32) by (unfold dd; lra).
    assert (l + S + dd + 1 <= 2 * INR n + 4) by lra. assert (e32 * (l + S + dd + 1) <= e32 * (2 * INR n + 4)) by (apply Rmult_le_compat_l; lra). lra.
Qed.
Print Assumptions C108_pass.
Print Assumptions C108_log_prob.
Print Assumptions C108_sample_and_log_prob.
Print Assumptions C108_affine_inverse.
Print Assumptions C108_affine_forward.
Print Assumptions C108_float32.
