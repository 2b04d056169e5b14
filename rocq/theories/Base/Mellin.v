(** Infrastructure: families of integrals M(a) = int_0^b x^(a-1) w(x) dx; their logarithmic moments, derivative and
    log-convexity; uniqueness of the log-convex solution of f(x+1) = x f(x). *)
From Coq Require Import Reals Lra Lia.
From Coquelicot Require Import Coquelicot.
From Verif Require Import Base.Improper.
Local Open Scope R_scope.

Lemma Rpower_pos x y : 0 < Rpower x y.
Proof. apply exp_pos. Qed.
Lemma Rpower_derive x y : 0 < x -> is_derive (fun x => Rpower x y) x (y * Rpower x (y - 1)).
Proof. intros Hx. apply is_derive_Reals, derivable_pt_lim_power, Hx. Qed.
Lemma Rpower_cont x y : 0 < x -> continuous (fun x => Rpower x y) x.
Proof. intros Hx. apply (ex_derive_continuous (fun x => Rpower x y)). eexists. apply Rpower_derive, Hx. Qed.
Lemma ln_cont x : 0 < x -> continuous ln x.
Proof. intros Hx. apply (ex_derive_continuous ln). exists (/ x). apply is_derive_Reals, derivable_pt_lim_ln, Hx. Qed.
Lemma exp_ge x : 1 + x <= exp x.
Proof. apply exp_ineq1_le. Qed.
Lemma Rpower_ge x h : 1 + h * ln x <= Rpower x h.
Proof. apply exp_ge. Qed.
Lemma exp_taylor2 u : exp u - 1 - u <= u * u * (exp u + exp (- u)).
Proof.
  assert (H1 : exp u - 1 <= u * exp u).
  { pose proof (exp_ge (- u)) as H. pose proof (exp_pos u). assert (exp u * (1 + - u) <= exp u * exp (- u)) by (apply Rmult_le_compat_l; lra).
    rewrite <- exp_plus, Rplus_opp_r, exp_0 in H1. lra. }
  pose proof (exp_ge u). pose proof (exp_pos u). pose proof (exp_pos (- u)). assert (0 <= u * u) by apply Rle_0_sqr.
  assert (0 <= u * u * exp (- u)) by (apply Rmult_le_pos; lra).
  destruct (Rle_dec 0 u).
  - assert (u * (exp u - 1) <= u * (u * exp u)) by (apply Rmult_le_compat_l; lra). lra.
  - assert (E : exp (- u) >= 1) by (pose proof (exp_ge (- u)); lra).
    assert ((- u) * (1 - exp u) <= (- u) * (- u)) by (apply Rmult_le_compat_l; lra).
    assert (u * u * 1 <= u * u * exp (- u)) by (apply Rmult_le_compat_l; lra).
    assert (0 <= u * u * exp u) by (apply Rmult_le_pos; lra). lra.
Qed.
Lemma exp_convex p q t : 0 <= t <= 1 -> exp (t * p + (1 - t) * q) <= t * exp p + (1 - t) * exp q.
Proof.
  intros Ht. set (m := t * p + (1 - t) * q). pose proof (exp_pos m) as Hm.
  assert (K : forall r, exp m * (1 + (r - m)) <= exp r).
  { intros r. replace (exp r) with (exp m * exp (r - m)) by (rewrite <- exp_plus; f_equal; ring). apply Rmult_le_compat_l; [lra|apply exp_ge]. }
  pose proof (K p). pose proof (K q).
  assert (t * (exp m * (1 + (p - m))) <= t * exp p) by (apply Rmult_le_compat_l; lra).
  assert ((1 - t) * (exp m * (1 + (q - m))) <= (1 - t) * exp q) by (apply Rmult_le_compat_l; lra).
  replace (exp m) with (t * (exp m * (1 + (p - m))) + (1 - t) * (exp m * (1 + (q - m)))) by (unfold m at 2 4; ring). lra.
Qed.

(** log-convexity on (0, infinity) *)
Definition log_convex (f : R -> R) : Prop :=
  forall a b t, 0 < a -> 0 < b -> 0 <= t <= 1 -> ln (f (t * a + (1 - t) * b)) <= t * ln (f a) + (1 - t) * ln (f b).

Section mellin.
Variables (b : Rbar) (w M : R -> R).
Hypothesis Hb : Rbar_lt 0 b.
Hypothesis Hw : forall x, inside 0 b x -> 0 < w x.
Hypothesis Cw : forall x, inside 0 b x -> continuous w x.
Hypothesis HM : forall a, 0 < a -> integral_on 0 b (fun x => Rpower x (a - 1) * w x) (M a).
Local Notation W a := (fun x => Rpower x (a - 1) * w x).

Lemma W_cont a x : inside 0 b x -> continuous (W a) x.
Proof. intros Ix. apply (continuous_mult (fun x => Rpower x (a - 1)) w); [apply Rpower_cont, Ix|apply Cw, Ix]. Qed.
Lemma W_pos a x : inside 0 b x -> 0 < W a x.
Proof. intros Ix. apply Rmult_lt_0_compat; [apply Rpower_pos|apply Hw, Ix]. Qed.
Lemma W_shift a h x : W (a + h) x = Rpower x h * W a x.
Proof. cbv beta. rewrite <- Rmult_assoc, <- Rpower_plus. do 2 f_equal. ring. Qed.
Lemma M_pos a : 0 < a -> 0 < M a.
Proof. intros Ha. apply (integral_on_pos 0 b Hb (W a)); auto; intros; [apply W_cont|apply W_pos]; auto. Qed.

Lemma M_log_convex : log_convex M.
Proof.
  intros a a' t Ha Ha' Ht. set (c := t * a + (1 - t) * a').
  assert (Hc : 0 < c). { unfold c. destruct (Req_dec t 0) as [-> |]; [lra|]. assert (0 < t * a) by (apply Rmult_lt_0_compat; lra). assert (0 <= (1 - t) * a') by (apply Rmult_le_pos; lra). lra. }
  pose proof (M_pos a Ha) as Pa. pose proof (M_pos a' Ha') as Pa'. pose proof (M_pos c Hc) as Pc.
  set (k := exp (- (t * ln (M a) + (1 - t) * ln (M a')))).
  assert (H : k * M c <= t / M a * M a + (1 - t) / M a' * M a').
  { apply (integral_on_le 0 b Hb (fun x => k * W c x) (fun x => t / M a * W a x + (1 - t) / M a' * W a' x)).
    - intros x Ix. apply (continuous_scal_r k (W c)), W_cont, Ix.
    - intros x Ix. apply (continuous_plus (fun x => t / M a * W a x) (fun x => (1 - t) / M a' * W a' x));
        [apply (continuous_scal_r (t / M a) (W a))|apply (continuous_scal_r ((1 - t) / M a') (W a'))]; apply W_cont, Ix.
    - intros x Ix. cbv beta.
      pose proof (exp_convex ((a - 1) * ln x - ln (M a)) ((a' - 1) * ln x - ln (M a')) t Ht) as E.
      replace (t * ((a - 1) * ln x - ln (M a)) + (1 - t) * ((a' - 1) * ln x - ln (M a'))) with
        (- (t * ln (M a) + (1 - t) * ln (M a')) + (c - 1) * ln x) in E by (unfold c; ring).
      rewrite exp_plus in E. fold k in E. fold (Rpower x (c - 1)) in E.
      unfold Rminus in E at 2 5. rewrite 2!exp_plus, !exp_Ropp, !exp_ln in E by auto. fold (Rpower x (a - 1)) (Rpower x (a' - 1)) in E.
      assert (P : 0 < w x) by (apply Hw, Ix).
      apply (Rmult_le_compat_r (w x)) in E; [|lra].
      replace (k * (Rpower x (c - 1) * w x)) with (k * Rpower x (c - 1) * w x) by ring.
      eapply Rle_trans; [exact E|]. right. field. lra.
    - apply integral_on_scal; auto.
    - apply integral_on_plus; auto; apply integral_on_scal; auto. }
  replace (t / M a * M a + (1 - t) / M a' * M a') with 1 in H by (field; lra).
  assert (Hk : 0 < k) by apply exp_pos.
  assert (ln (k * M c) <= ln 1). { destruct H as [H|H]; [left; apply ln_increasing; auto; apply Rmult_lt_0_compat; auto|right; f_equal; auto]. }
  rewrite ln_1, ln_mult in H0 by auto. unfold k in H0. rewrite ln_exp in H0. unfold c in *. lra.
Qed.

(** the logarithmic moment exists ... *)
Lemma log_moment_exists a : 0 < a -> exists L, integral_on 0 b (fun x => ln x * W a x) L.
Proof.
  intros Ha. set (d := a / 2). assert (Hd : 0 < d) by (unfold d; lra).
  assert (Ip : integral_on 0 b (fun x => Rpower x d * W a x) (M (a + d))).
  { apply (integral_on_ext 0 b Hb (W (a + d))); [intros; apply W_shift|]. apply HM; lra. }
  assert (Im : integral_on 0 b (fun x => Rpower x (- d) * W a x) (M (a + - d))).
  { apply (integral_on_ext 0 b Hb (W (a + - d))); [intros; apply W_shift|]. apply HM; unfold d; lra. }
  assert (Cp : forall h x, inside 0 b x -> continuous (fun x => Rpower x h * W a x) x).
  { intros h x Ix. apply (continuous_mult (fun x => Rpower x h) (W a)); [apply Rpower_cont, Ix|apply W_cont, Ix]. }
  assert (Cl : forall x, inside 0 b x -> continuous (fun x => ln x * W a x) x).
  { intros x Ix. apply (continuous_mult ln (W a)); [apply ln_cont, Ix|apply W_cont, Ix]. }
  assert (C1 : forall h x, inside 0 b x -> continuous (fun x => (Rpower x h * W a x - W a x) / h) x).
  { intros h x Ix. apply (continuous_scal_l (fun x => Rpower x h * W a x - W a x) (/ h)).
    apply (continuous_minus (fun x => Rpower x h * W a x) (W a)); [apply Cp, Ix|apply W_cont, Ix]. }
  destruct (integral_on_dominated 0 b Hb (fun x => (Rpower x d * W a x - W a x) / d - ln x * W a x)
              (fun x => (Rpower x d * W a x - W a x) / d - (Rpower x (- d) * W a x - W a x) / (- d)) ((M (a + d) - M a) / d - (M (a + - d) - M a) / - d)) as [v Hv].
  - intros x Ix. apply (continuous_minus (fun x => (Rpower x d * W a x - W a x) / d) (fun x => ln x * W a x)); auto.
  - intros x Ix. apply (continuous_minus (fun x => (Rpower x d * W a x - W a x) / d) (fun x => (Rpower x (- d) * W a x - W a x) / (- d))); auto.
  - intros x Ix. pose proof (W_pos a x Ix) as P. cbv beta in P.
    pose proof (Rpower_ge x d) as G1. pose proof (Rpower_ge x (- d)) as G2.
    set (r := Rpower x (a - 1) * w x) in *.
    assert (A1 : ln x <= (Rpower x d - 1) / d). { apply (Rmult_le_reg_l d); auto. field_simplify; lra. }
    assert (A2 : (Rpower x (- d) - 1) / - d <= ln x). { apply (Rmult_le_reg_l d); auto. replace (d * ((Rpower x (- d) - 1) / - d)) with (1 - Rpower x (- d)) by (field; lra). lra. }
    replace ((Rpower x d * r - r) / d) with ((Rpower x d - 1) / d * r) by (field; lra).
    replace ((Rpower x (- d) * r - r) / - d) with ((Rpower x (- d) - 1) / - d * r) by (field; lra).
    assert (ln x * r <= (Rpower x d - 1) / d * r) by (apply Rmult_le_compat_r; lra).
    assert ((Rpower x (- d) - 1) / - d * r <= ln x * r) by (apply Rmult_le_compat_r; lra). lra.
  - assert (K : forall h m, 0 < a + h -> integral_on 0 b (fun x => Rpower x h * W a x) m ->
      integral_on 0 b (fun x => (Rpower x h * W a x - W a x) / h) ((m - M a) / h)).
    { intros h m Hh Hi. apply (integral_on_ext 0 b Hb (fun x => / h * (Rpower x h * W a x - W a x))); [intros; unfold Rdiv; ring|].
      replace ((m - M a) / h) with (/ h * (m - M a)) by (unfold Rdiv; ring). apply integral_on_scal; auto. apply integral_on_minus; auto. }
    apply integral_on_minus; auto; apply K; auto; unfold d; lra.
  - exists ((M (a + d) - M a) / d - v).
    apply (integral_on_ext 0 b Hb (fun x => / d * (Rpower x d * W a x - W a x) - ((Rpower x d * W a x - W a x) / d - ln x * W a x))); [intros; unfold Rdiv; ring|].
    apply integral_on_minus; auto. replace ((M (a + d) - M a) / d) with (/ d * (M (a + d) - M a)) by (unfold Rdiv; ring).
    apply integral_on_scal; auto. apply integral_on_minus; auto.
Qed.
(** ... and is the derivative of M *)
Lemma log_moment_derive a L : 0 < a -> integral_on 0 b (fun x => ln x * W a x) L -> is_derive M a L.
Proof.
  intros Ha HL. set (e := a / 8). assert (He : 0 < e) by (unfold e; lra).
  set (K := (M (a + 3 * e) + M (a + - (3 * e))) / (e * e) * 2).
  assert (HK : 0 < K).
  { unfold K. pose proof (M_pos (a + 3 * e)). pose proof (M_pos (a + - (3 * e))). assert (0 < e * e) by (apply Rmult_lt_0_compat; auto).
    apply Rmult_lt_0_compat; [|lra]. apply Rdiv_lt_0_compat; auto. assert (0 < a + - (3 * e)) by (unfold e; lra). specialize (H ltac:(lra)). specialize (H0 H2). lra. }
  assert (Hq : forall h, Rabs h <= e -> 0 <= M (a + h) - M a - h * L <= h * h * K).
  { intros h Hh.
    assert (Hah : 0 < a + h) by (unfold Rabs in Hh; destruct (Rcase_abs h); unfold e in *; lra).
    set (Q := fun x => Rpower x h * W a x - W a x - h * (ln x * W a x)).
    assert (CQ : forall x, inside 0 b x -> continuous Q x).
    { intros x Ix. unfold Q. apply (continuous_minus (fun x => Rpower x h * W a x - W a x) (fun x => h * (ln x * W a x))).
      - apply (continuous_minus (fun x => Rpower x h * W a x) (W a)); [|apply W_cont, Ix].
        apply (continuous_mult (fun x => Rpower x h) (W a)); [apply Rpower_cont, Ix|apply W_cont, Ix].
      - apply (continuous_scal_r h (fun x => ln x * W a x)), (continuous_mult ln (W a)); [apply ln_cont, Ix|apply W_cont, Ix]. }
    assert (IQ : integral_on 0 b Q (M (a + h) - M a - h * L)).
    { unfold Q. apply integral_on_minus; auto; [apply integral_on_minus; auto|apply integral_on_scal; auto].
      apply (integral_on_ext 0 b Hb (W (a + h))); [intros; apply W_shift|]. apply HM; lra. }
    split.
    - apply (integral_on_nonneg 0 b Hb Q); auto. intros x Ix. unfold Q. pose proof (W_pos a x Ix) as P. cbv beta in P.
      pose proof (Rpower_ge x h). set (r := Rpower x (a - 1) * w x) in *.
      assert ((1 + h * ln x) * r <= Rpower x h * r) by (apply Rmult_le_compat_r; lra). lra.
    - set (c := h * h / (e * e) * 2).
      replace (h * h * K) with (c * (M (a + 3 * e) + M (a + - (3 * e)))) by (unfold c, K; field; lra).
      apply (integral_on_le 0 b Hb Q (fun x => c * (W (a + 3 * e) x + W (a + - (3 * e)) x))); auto.
      + intros x Ix. apply (continuous_scal_r c (fun x => W (a + 3 * e) x + W (a + - (3 * e)) x)).
        apply (continuous_plus (W (a + 3 * e)) (W (a + - (3 * e)))); apply W_cont, Ix.
      + intros x Ix. unfold Q. pose proof (W_pos a x Ix) as P.
        pose proof (W_shift a (3 * e) x) as S1. pose proof (W_shift a (- (3 * e)) x) as S2. cbv beta in S1, S2, P.
        rewrite S1, S2. set (r := Rpower x (a - 1) * w x) in *.
        set (l := ln x). unfold Rpower. fold l.
        assert (A : exp (h * l) - 1 - h * l <= c * (exp (3 * e * l) + exp (- (3 * e) * l))).
        { eapply Rle_trans; [apply exp_taylor2|].
          set (y := e * Rabs l). assert (Hy : 0 <= y) by (unfold y; apply Rmult_le_pos; [lra|apply Rabs_pos]).
          assert (B1 : Rabs (h * l) <= y). { unfold y. rewrite Rabs_mult. apply Rmult_le_compat_r; [apply Rabs_pos|auto]. }
          assert (B2 : exp (h * l) <= exp y /\ exp (- (h * l)) <= exp y).
          { assert (Z : h * l <= y /\ - (h * l) <= y) by (unfold Rabs in B1; destruct (Rcase_abs (h * l)); lra).
            destruct Z as [[Z|Z] [Z'|Z']]; split; try (left; apply exp_increasing; assumption); right; f_equal; assumption. }
          assert (B3 : y <= exp y) by (pose proof (exp_ge y); lra).
          assert (B4 : y * y <= exp y * exp y) by (apply Rmult_le_compat; auto).
          assert (B5 : l * l * (e * e) <= exp y * exp y).
          { replace (l * l * (e * e)) with (y * y); [auto|]. unfold y. replace (e * Rabs l * (e * Rabs l)) with (e * e * (Rabs l * Rabs l)) by ring.
            rewrite <- Rabs_mult, Rabs_right; [ring|]. apply Rle_ge, Rle_0_sqr. }
          assert (B6 : exp (3 * y) <= exp (3 * e * l) + exp (- (3 * e) * l)).
          { pose proof (exp_pos (3 * e * l)). pose proof (exp_pos (- (3 * e) * l)). unfold y, Rabs. destruct (Rcase_abs l).
            - replace (3 * (e * - l)) with (- (3 * e) * l) by ring. lra.
            - replace (3 * (e * l)) with (3 * e * l) by ring. lra. }
          assert (Hee : 0 < e * e) by (apply Rmult_lt_0_compat; auto).
          assert (Hc0 : 0 <= c). { unfold c. assert (0 <= h * h) by apply Rle_0_sqr. assert (0 < / (e * e)) by (apply Rinv_0_lt_compat; auto).
            apply Rmult_le_pos; [|lra]. apply Rmult_le_pos; lra. }
          apply Rle_trans with (c * exp (3 * y)); [|apply Rmult_le_compat_l; auto].
          replace (exp (3 * y)) with (exp y * exp y * exp y) by (rewrite <- !exp_plus; f_equal; ring).
          apply Rle_trans with (h * l * (h * l) * (2 * exp y)).
          - apply Rmult_le_compat_l; [apply Rle_0_sqr|lra].
          - replace (h * l * (h * l) * (2 * exp y)) with (h * h / (e * e) * 2 * (l * l * (e * e) * exp y)) by (field; lra).
            apply Rmult_le_compat_l; [exact Hc0|]. apply Rmult_le_compat_r; [apply Rlt_le, exp_pos|auto]. }
        assert (B : (exp (h * l) - 1 - h * l) * r <= c * (exp (3 * e * l) + exp (- (3 * e) * l)) * r) by (apply Rmult_le_compat_r; lra). lra.
      + apply integral_on_scal; auto. apply integral_on_plus; auto; apply HM; unfold e; lra. }
  apply is_derive_Reals. intros eps Heps.
  assert (Hd : 0 < Rmin e (eps / K)) by (apply Rmin_pos; auto; apply Rdiv_lt_0_compat; auto).
  exists (mkposreal _ Hd). intros h Hh Hlt. cbn in Hlt.
  pose proof (Rmin_l e (eps / K)). pose proof (Rmin_r e (eps / K)).
  assert (Hhe : Rabs h <= e) by lra. destruct (Hq h Hhe) as [Q1 Q2].
  assert (Hpos : 0 < Rabs h) by (apply Rabs_pos_lt; auto).
  replace ((M (a + h) - M a) / h - L) with ((M (a + h) - M a - h * L) / h) by (field; auto).
  rewrite Rabs_div by auto. rewrite (Rabs_right (M (a + h) - M a - h * L)) by lra.
  apply (Rmult_lt_reg_r (Rabs h)); auto. unfold Rdiv. rewrite Rmult_assoc, Rinv_l, Rmult_1_r by lra.
  eapply Rle_lt_trans; [exact Q2|].
  assert (E : h * h = Rabs h * Rabs h). { rewrite <- Rabs_mult, Rabs_right; auto. apply Rle_ge, Rle_0_sqr. } rewrite E.
  replace (Rabs h * Rabs h * K) with (Rabs h * K * Rabs h) by ring. apply Rmult_lt_compat_r; auto.
  apply Rlt_le_trans with (eps / K * K); [apply Rmult_lt_compat_r; lra|]. right. field. lra.
Qed.
Lemma log_moment a : 0 < a -> exists L, integral_on 0 b (fun x => ln x * W a x) L /\ is_derive M a L.
Proof.
  intros Ha. destruct (log_moment_exists a Ha) as [L HL]. exists L. split; auto. apply log_moment_derive; auto.
Qed.
End mellin.
