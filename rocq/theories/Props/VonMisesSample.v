(** C58: the von Mises sampler (Best-Fisher rejection). *)
From Coq Require Import Reals Lra Lia ZArith List Bool.
From Coquelicot Require Import Coquelicot.
From Verif Require Import Base.XR Model.MathUtils Model.ScalarDist Model.Multinomial Model.VonMises
  Spec.VonMises Proofs.Density Proofs.GammaFamily Proofs.VonMises Props.GammaBeta Props.VonMises.
Import ListNotations.
Local Open Scope R_scope.

(** ** The envelope parameter is finite and larger than 1 *)
Lemma vm_s_fin cutoff k : 0 < cutoff < 1 -> 0 <= k -> exists s, vm_s (Fin cutoff) (Fin k) = Fin s /\ 1 < s.
Proof.
  intros Hc Hk. unfold vm_s. destruct (Rlt_dec cutoff k) as [L|L].
  - rewrite xltb_t by auto. cbn [xwhere]. unfold xsquare. cbn [xmul xadd xsqrt]. assert (P1 : 0 < k * k) by nra.
    destruct (Rle_dec 0 (1 + 4 * (k * k))); [|lra]. cbn [xadd xmul xsqrt]. set (h := sqrt (1 + 4 * (k * k))).
    assert (Hh : 1 < h) by (unfold h; rewrite <- sqrt_1 at 1; apply sqrt_lt_1; lra). assert (Hq : h * h = 1 + 4 * (k * k)) by (apply sqrt_sqrt; lra).
    destruct (Rle_dec 0 (2 * (1 + h))); [|lra]. cbn [xsub xopp xadd]. rewrite xdiv_fin by lra. cbn [xmul xadd].
    set (q := sqrt (2 * (1 + h))). assert (Q2 : q * q = 2 * (1 + h)) by (apply sqrt_sqrt; lra). assert (Q0 : 0 < q) by (apply sqrt_lt_R0; lra).
    assert (Q1 : q < 1 + h) by nra. set (rho := (1 + h + - q) / (2 * k)).
    assert (E : rho * (2 * k) = 1 + h - q) by (unfold rho; field; lra). assert (R0 : 0 < rho) by (apply Rdiv_lt_0_compat; lra).
    assert (R1 : rho < 1). { apply (Rmult_lt_reg_r (2 * k)); [lra|]. rewrite E. assert (F : (2 * k) * (2 * k) = (1 + h - q) * (1 + h + q)) by nra. nra. }
    rewrite xdiv_fin by lra. exists ((1 + rho * rho) / (2 * rho)). split; auto.
    apply (Rmult_lt_reg_r (2 * rho)); [lra|]. replace ((1 + rho * rho) / (2 * rho) * (2 * rho)) with (1 + rho * rho) by (field; lra). nra.
  - rewrite xltb_f by lra. cbn [xwhere]. unfold xmax. cbn [xis_nan orb]. destruct (Rlt_dec k (1 / 10000000)).
    + rewrite xltb_t by auto. rewrite xdiv_fin by lra. eexists. split; [reflexivity|]. lra.
    + rewrite xltb_f by lra. rewrite xdiv_fin by lra. eexists. split; [reflexivity|]. apply (Rmult_lt_reg_r k); [lra|]. replace (1 / k * k) with 1 by (field; lra). lra.
Qed.

(** ** The proposed angle as a function of the draw *)
Section Angle.
Variables (s : R).
Hypothesis Hs : 1 < s.
Definition bb (s : R) : R := s - sqrt (s * s - 1).
Notation b := (bb s).
Lemma b_facts : 0 < b < 1 /\ 2 * b * s = 1 + b * b.
Proof.
  unfold bb. set (q := sqrt (s * s - 1)). assert (Q : q * q = s * s - 1) by (apply sqrt_sqrt; nra). assert (0 <= q) by apply sqrt_pos.
  assert (q < s) by nra. assert (s - 1 < q) by nra. split; [lra|nra].
Qed.
Definition ang (x : R) : R := x - 2 * atan (b * sin x / (1 + b * cos x)).
Lemma D_pos x : 0 < 1 + b * cos x /\ 0 < 1 + 2 * b * cos x + b * b.
Proof. destruct b_facts as [Hb _]. pose proof (COS_bound x). split; nra. Qed.
Definition dang (x : R) : R := (1 - b * b) / (1 + 2 * b * cos x + b * b).
Lemma ang_derive x : is_derive ang x (dang x).
Proof.
  destruct b_facts as [Hb _]. destruct (D_pos x) as [D1 D2]. unfold ang. auto_derive; [lra|].
  pose proof (sin2_cos2 x) as S2. unfold Rsqr in S2. set (c := cos x) in *. set (n := sin x) in *. unfold dang. fold c.
  assert (Dn : (1 + b * c) * (1 + b * c) + b * n * (b * n) = 1 + 2 * b * c + b * b) by nra.
  assert (E : 1 + b * n * / (1 + b * c) * (b * n * / (1 + b * c) * 1) = (1 + 2 * b * c + b * b) / ((1 + b * c) * (1 + b * c))) by (rewrite <- Dn; field; lra).
  rewrite E.
  replace (1 - b * b) with ((1 + 2 * b * c + b * b) - 2 * (b * c + b * b * (n * n + c * c))) by (rewrite S2; ring).
  field. repeat split; lra.
Qed.
Lemma dang_pos x : 0 < dang x.
Proof. destruct b_facts as [Hb _]. destruct (D_pos x) as [D1 D2]. apply Rdiv_lt_0_compat; nra. Qed.
Lemma ang_odd x : ang (- x) = - ang x.
Proof. unfold ang. rewrite sin_neg, cos_neg. replace (b * - sin x / (1 + b * cos x)) with (- (b * sin x / (1 + b * cos x))) by (unfold Rdiv; ring). rewrite atan_opp. ring. Qed.
Lemma ang_0 : ang 0 = 0.
Proof. unfold ang. rewrite sin_0. replace (b * 0 / (1 + b * cos 0)) with 0 by (unfold Rdiv; ring). rewrite atan_0. ring. Qed.
Lemma ang_PI : ang PI = PI.
Proof. unfold ang. rewrite sin_PI. replace (b * 0 / (1 + b * cos PI)) with 0 by (unfold Rdiv; ring). rewrite atan_0. ring. Qed.
Lemma ang_incr x y : x < y -> ang x < ang y.
Proof.
  intros H. apply (incr_function_le ang x y dang); cbn; try lra; intros; [apply ang_derive|apply dang_pos].
Qed.
Lemma ang_range x : 0 <= x <= PI -> 0 <= ang x <= PI.
Proof.
  intros [[H1|<-] [H2| ->]]; rewrite ?ang_0, ?ang_PI; pose proof PI_RGT_0; try lra.
  pose proof (ang_incr _ _ H1). pose proof (ang_incr _ _ H2). rewrite ang_0, ang_PI in *. lra.
Qed.
Lemma ang_cos x : cos (ang x) = (1 + s * cos x) / (s + cos x).
Proof.
  destruct b_facts as [Hb Eb]. destruct (D_pos x) as [D1 D2]. unfold ang. set (t := atan (b * sin x / (1 + b * cos x))).
  assert (T : tan t = b * sin x / (1 + b * cos x)) by apply tan_atan.
  assert (Ct : 0 < cos t) by (apply cos_gt_0; pose proof (atan_bound (b * sin x / (1 + b * cos x))); unfold t; lra).
  assert (St : sin t = cos t * (b * sin x / (1 + b * cos x))) by (rewrite <- T; unfold tan; field; lra).
  pose proof (sin2_cos2 t) as S1. pose proof (sin2_cos2 x) as S2. unfold Rsqr in S1, S2. rewrite cos_minus, cos_2a, sin_2a.
  set (c := cos x) in *. set (n := sin x) in *. set (ct := cos t) in *. rewrite St in *.
  assert (Dn : (1 + b * c) * (1 + b * c) + b * n * (b * n) = 1 + 2 * b * c + b * b) by nra.
  assert (C2 : ct * ct = (1 + b * c) * (1 + b * c) / (1 + 2 * b * c + b * b)).
  { rewrite <- Dn. apply (Rmult_eq_reg_r (((1 + b * c) * (1 + b * c) + b * n * (b * n)) / ((1 + b * c) * (1 + b * c)))).
    - replace ((1 + b * c) * (1 + b * c) / ((1 + b * c) * (1 + b * c) + b * n * (b * n)) * (((1 + b * c) * (1 + b * c) + b * n * (b * n)) / ((1 + b * c) * (1 + b * c)))) with 1 by (field; split; nra).
      refine (eq_trans _ S1). field. lra.
    - apply Rgt_not_eq, Rdiv_lt_0_compat; nra. }
  assert (Sc : 0 < s + c) by (unfold c; pose proof (COS_bound x); lra).
  replace (c * (ct * ct - ct * (b * n / (1 + b * c)) * (ct * (b * n / (1 + b * c)))) + n * (2 * (ct * (b * n / (1 + b * c))) * ct))
    with (ct * ct * (c * ((1 + b * c) * (1 + b * c) - b * b * (n * n)) + 2 * b * (n * n) * (1 + b * c)) / ((1 + b * c) * (1 + b * c))) by (field; lra).
  rewrite C2. replace (n * n) with (1 - c * c) by lra.
  replace ((1 + b * c) * (1 + b * c) / (1 + 2 * b * c + b * b) * (c * ((1 + b * c) * (1 + b * c) - b * b * (1 - c * c)) + 2 * b * (1 - c * c) * (1 + b * c)) / ((1 + b * c) * (1 + b * c)))
    with ((2 * b + (1 + b * b) * c) / (1 + 2 * b * c + b * b)) by (field; lra).
  rewrite <- Eb. replace (1 + 2 * b * c + b * b) with (2 * b * (s + c)) by lra. field. lra.
Qed.
(** the density of the proposal: the derivative of the angle is proportional to s - cos(angle) *)
Lemma dang_prop x : s - cos (ang x) = dang x * ((1 - b * b) / (2 * b)).
Proof.
  destruct b_facts as [Hb Eb]. destruct (D_pos x) as [D1 D2]. rewrite ang_cos. unfold dang. pose proof (COS_bound x). set (c := cos x) in *.
  set (B := b) in *. clearbody B.
  assert (Es : s = (1 + B * B) / (2 * B)) by (rewrite <- Eb; field; lra). rewrite Es. field. repeat split; try lra; nra.
Qed.
End Angle.

(** ** One proposal has the right law: a uniform draw u on (0,1) becomes the angle [th u]; it is accepted for v below [al u], a probability;
    and the mass of accepted draws between u1 and u2 is proportional to the von Mises mass between the angles th u1 and th u2. *)
Theorem C58_sampler_law s k : 1 < s -> 0 < k -> exists (th al : R -> R) (C : R), 0 < C /\
  th 0 = 0 /\ th 1 = PI /\ (forall u1 u2, 0 <= u1 < u2 -> u2 <= 1 -> th u1 < th u2) /\ (forall u, th (- u) = - th u) /\
  (forall u, vm_proposal (Fin s) (Fin u) = Fin (cos (th u)) /\ 0 < al u <= 1 /\
     forall v, vm_accept (Fin s) (Fin k) (vm_proposal (Fin s) (Fin u)) (Fin v) = true <-> v <= al u) /\
  forall u1 u2, exists I, is_RInt al u1 u2 (C * I) /\ is_RInt (fun t => exp (k * cos t)) (th u1) (th u2) I.
Proof.
  intros Hs Hk. pose proof PI_RGT_0 as HP. destruct (b_facts s Hs) as [Hb Eb]. set (b := bb s) in *.
  set (th := fun u => ang s (PI * u)). set (al := fun u => k * (s - cos (th u)) * exp (1 - k * (s - cos (th u)))).
  assert (Y : forall u, 0 < k * (s - cos (th u))) by (intros u; pose proof (COS_bound (th u)); apply Rmult_lt_0_compat; lra).
  assert (C0 : 0 < k * exp (1 - k * s) * ((1 - b * b) / (2 * b)) / PI).
  { apply Rdiv_lt_0_compat; auto. apply Rmult_lt_0_compat; [apply Rmult_lt_0_compat; auto; apply exp_pos|]. apply Rdiv_lt_0_compat; nra. }
  exists th, al, (k * exp (1 - k * s) * ((1 - b * b) / (2 * b)) / PI). split; auto.
  split; [unfold th; rewrite Rmult_0_r; apply ang_0|]. split; [unfold th; rewrite Rmult_1_r; apply ang_PI|].
  split; [intros u1 u2 H1 H2; apply ang_incr; auto; nra|].
  split; [intros u; unfold th; rewrite <- ang_odd; f_equal; ring|].
  split.
  - intros u. assert (Pr : vm_proposal (Fin s) (Fin u) = Fin (cos (th u))).
    { unfold vm_proposal. cbn [xmul xcos xadd]. pose proof (COS_bound (PI * u)). rewrite xdiv_fin by lra. unfold th. rewrite ang_cos by auto. reflexivity. }
    split; auto. split.
    + unfold al. set (y := k * (s - cos (th u))) in *. specialize (Y u). fold y in Y. split; [apply Rmult_lt_0_compat; [auto|apply exp_pos]|].
      pose proof (exp_ineq1_le (y - 1)). assert (E : exp (y - 1) * exp (1 - y) = 1) by (rewrite <- exp_plus; replace (y - 1 + (1 - y)) with 0 by ring; apply exp_0).
      pose proof (exp_pos (1 - y)). nra.
    + intros v. rewrite Pr. unfold vm_accept. cbn [xsub xopp xadd xmul xexp xltb]. unfold al, Rminus. destruct (Rlt_dec _ _); cbn [negb]; split; intros; try lra; try discriminate; auto.
  - intros u1 u2. exists (RInt (fun t => exp (k * cos t)) (th u1) (th u2)). split.
    + assert (Dt : forall u, is_derive th u (PI * dang s (PI * u))).
      { intros u. unfold th. pose proof (is_derive_comp (ang s) (fun u => PI * u) u _ PI (ang_derive s Hs (PI * u))) as D.
        apply D. auto_derive; auto. ring. }
      apply (is_RInt_ext (fun u => scal (k * exp (1 - k * s) * ((1 - b * b) / (2 * b)) / PI) (scal (PI * dang s (PI * u)) (exp (k * cos (th u)))))).
      * intros u _. unfold scal; cbn; unfold mult; cbn. unfold al. unfold th. rewrite dang_prop by auto. fold b. rewrite <- (dang_prop s Hs) at 1 || idtac.
        set (d := dang s (PI * u)). assert (Ec : cos (ang s (PI * u)) = s - d * ((1 - b * b) / (2 * b))) by (pose proof (dang_prop s Hs (PI * u)) as Q; fold b in Q; fold d in Q; lra).
        rewrite Ec. replace (1 - k * (d * ((1 - b * b) / (2 * b)))) with ((1 - k * s) + k * (s - d * ((1 - b * b) / (2 * b)))) by ring. rewrite exp_plus. field. lra.
      * apply (is_RInt_scal (fun u => scal (PI * dang s (PI * u)) (exp (k * cos (th u))))).
        apply (is_RInt_comp (fun t => exp (k * cos t)) th (fun u => PI * dang s (PI * u))).
        -- intros u _. apply (ex_derive_continuous (V := R_NormedModule)). auto_derive. auto.
        -- intros u _. split; [apply Dt|]. apply (ex_derive_continuous (V := R_NormedModule)). unfold dang. destruct (D_pos s Hs (PI * u)). auto_derive. lra.
    + apply (RInt_correct (fun t => exp (k * cos t))). apply (ex_RInt_continuous (V := R_CompleteNormedModule)). intros t _.
      apply (ex_derive_continuous (V := R_NormedModule)). auto_derive. auto.
Qed.

(** ** The loop: each lane keeps its first accepted proposal (or the hundredth one), and the sign comes from the last iteration's draw *)
Definition accepted (s conc : nat -> XR) (u v : nat -> nat -> XR) (i j : nat) : Prop := vm_accept (s i) (conc i) (vm_proposal (s i) (u j i)) (v j i) = true.
Definition lane_ok (s conc : nat -> XR) (u v : nat -> nat -> XR) (it i : nat) (l : lane) : Prop :=
  if l_done l then exists j, (j < it)%nat /\ l_w l = vm_proposal (s i) (u j i) /\ accepted s conc u v i j /\ forall j', (j' < j)%nat -> ~ accepted s conc u v i j'
  else (forall j, (j < it)%nat -> ~ accepted s conc u v i j) /\ forall m, it = S m -> l_w l = vm_proposal (s i) (u m i).
Lemma loop_inv N s conc u v rem : forall it st, (forall i, (i < N)%nat -> lane_ok s conc u v it i (st i)) -> (forall i m, (i < N)%nat -> it = S m -> l_u (st i) = u m i) ->
  exists T, (it <= T <= it + rem)%nat /\ ((T < it + rem)%nat -> forall i, (i < N)%nat -> l_done (vm_loop N s conc u v rem it st i) = true) /\
    (forall i, (i < N)%nat -> lane_ok s conc u v T i (vm_loop N s conc u v rem it st i)) /\
    (forall i m, (i < N)%nat -> T = S m -> l_u (vm_loop N s conc u v rem it st i) = u m i) /\
    (T = it -> rem <> O -> forall i, (i < N)%nat -> l_done (st i) = true).
Proof.
  induction rem as [|rem IH]; intros it st H1 H2.
  - exists it. cbn [vm_loop]. split; [lia|]. split; [lia|]. auto. 
  - cbn [vm_loop]. destruct (forallb (fun i => l_done (st i)) (seq 0 N)) eqn:Ef.
    + rewrite forallb_forall in Ef. assert (D : forall i, (i < N)%nat -> l_done (st i) = true) by (intros i Hi; apply Ef, in_seq; lia).
      exists it. split; [lia|]. split; auto.
    + destruct (IH (S it) (fun i => vm_lane_step (s i) (conc i) (st i) (u it i) (v it i))) as (T & T1 & T2 & T3 & T4 & _).
      * intros i Hi. specialize (H1 i Hi). unfold lane_ok in *. unfold vm_lane_step. cbn [l_done l_w]. destruct (l_done (st i)).
        -- rewrite orb_true_r. destruct H1 as (j & J1 & J2). exists j. split; [lia|auto].
        -- destruct H1 as [N1 _]. rewrite orb_false_r. destruct (vm_accept _ _ _ _) eqn:Ea.
           ++ exists it. split; [lia|]. split; [auto|]. split; auto.
           ++ split; [|intros m [= ->]; auto]. intros j Hj. destruct (Nat.eq_dec j it) as [->|]; [unfold accepted; congruence|]. apply N1. lia.
      * intros i m Hi [= ->]. reflexivity.
      * exists T. split; [lia|]. split; [intros L; apply T2; lia|]. split; auto. split; auto. intros ->. lia.
Qed.
Theorem C58_sampler_loop cutoff N conc u v : (0 < N)%nat -> let s := fun i => vm_s cutoff (conc i) in
  exists T, (0 < T <= 100)%nat /\ forall i, (i < N)%nat -> exists j, (j < T)%nat /\ (forall j', (j' < j)%nat -> ~ accepted s conc u v i j') /\
    (accepted s conc u v i j \/ (T = 100 /\ j = 99)%nat) /\
    vm_std_sample cutoff N conc u v i = xmul (xsign (u (T - 1)%nat i)) (xacos (xclip (vm_proposal (s i) (u j i)) (Fin (-1)) (Fin 1))).
Proof.
  intros HN s. destruct (loop_inv N s conc u v 100 0 (fun _ => mkLane false (Fin 0) (Fin 0))) as (T & T1 & T2 & T3 & T4 & T5).
  - intros i Hi. unfold lane_ok. cbn [l_done]. split; [lia|discriminate].
  - discriminate.
  - cbn [plus] in T1. exists T. assert (T0 : (0 < T)%nat). { destruct T as [|T]; [|lia]. specialize (T5 eq_refl ltac:(lia) 0%nat HN). discriminate. }
    split; [lia|]. intros i Hi. specialize (T3 i Hi). unfold vm_std_sample. fold s. cbn zeta. destruct T as [|m]; [lia|]. rewrite (T4 i m Hi eq_refl).
    replace (S m - 1)%nat with m by lia. unfold lane_ok in T3. destruct (l_done _) eqn:Ed.
    + destruct T3 as (j & J1 & J2 & J3 & J4). exists j. rewrite J2. auto.
    + destruct T3 as [J1 J2]. exists m. split; [lia|]. split; [intros; apply J1; lia|]. split; [|rewrite (J2 m eq_refl); reflexivity].
      right. destruct (Nat.eq_dec (S m) 100) as [E|E]; [lia|]. specialize (T2 ltac:(lia) i Hi). congruence.
Qed.
(** ** Range: every sample is a finite angle in [-pi, pi], congruent to (raw angle in [-pi, pi]) + loc *)
Lemma xclip11 w : -1 <= w <= 1 -> xclip (Fin w) (Fin (-1)) (Fin 1) = Fin w.
Proof. intros H. unfold xclip, xmax, xmin. cbn [xis_nan orb xltb]. destruct (Rlt_dec w (-1)); [lra|]. cbn [xis_nan orb xltb]. destruct (Rlt_dec 1 w); [lra|auto]. Qed.
Lemma proposal_fin s u : 1 < s -> exists w, vm_proposal (Fin s) (Fin u) = Fin w /\ -1 <= w <= 1.
Proof.
  intros Hs. unfold vm_proposal. cbn [xmul xcos xadd]. pose proof (COS_bound (PI * u)). rewrite xdiv_fin by lra.
  exists (cos (ang s (PI * u))). split; [rewrite ang_cos by auto; auto|]. apply COS_bound.
Qed.
Theorem C58_sample_range cutoff N (loc conc : nat -> R) (u : nat -> nat -> R) v : (0 < N)%nat -> 0 < cutoff < 1 -> (forall i, 0 <= conc i) -> forall i, (i < N)%nat ->
  exists raw x, vm_std_sample (Fin cutoff) N (fun i => Fin (conc i)) (fun j i => Fin (u j i)) v i = Fin raw /\ - PI <= raw <= PI /\
    vm_sample (Fin cutoff) N (fun i => Fin (loc i)) (fun i => Fin (conc i)) (fun j i => Fin (u j i)) v i = Fin x /\ - PI <= x <= PI /\ congruent x (raw + loc i).
Proof.
  intros HN Hc Hk i Hi. destruct (C58_sampler_loop (Fin cutoff) N (fun i => Fin (conc i)) (fun j i => Fin (u j i)) v HN) as (T & HT & L).
  destruct (L i Hi) as (j & _ & _ & _ & E). destruct (vm_s_fin cutoff (conc i) Hc (Hk i)) as (s & Es & Hs). cbn beta in E. rewrite Es in E.
  destruct (proposal_fin s (u j i) Hs) as (w & Ew & Bw). rewrite Ew, xclip11 in E by auto. cbn [xacos xsign] in E.
  destruct (Rle_dec (-1) w); [|lra]. destruct (Rle_dec w 1); [|lra]. cbn [xmul] in E. pose proof PI_RGT_0. pose proof (acos_bound w).
  set (sg := if Rlt_dec 0 _ then 1 else _) in E. assert (Bs : sg = 1 \/ sg = -1 \/ sg = 0) by (unfold sg; repeat destruct Rlt_dec; auto).
  destruct (C58_convert_angle (sg * acos w + loc i)) as (x & Ex & Cx & Bx & _).
  exists (sg * acos w), x. split; auto. split; [destruct Bs as [->|[->| ->]]; lra|]. split; [|auto].
  unfold vm_sample. rewrite E. cbn [xadd]. exact Ex.
Qed.
(** pi itself is a possible sample, although the documentation promises [-pi, pi): loc = pi and a last draw u = 0 *)
Theorem C58_sample_pi_refuted cutoff v k : 0 < cutoff < 1 -> 0 <= k ->
  vm_sample (Fin cutoff) 1 (fun _ => Fin PI) (fun _ => Fin k) (fun _ _ => Fin 0) v 0%nat = Fin PI.
Proof.
  intros Hc Hk. destruct (C58_sampler_loop (Fin cutoff) 1 (fun i => Fin k) (fun j i => Fin 0) v ltac:(lia)) as (T & HT & L).
  destruct (L 0%nat ltac:(lia)) as (j & _ & _ & _ & E). destruct (vm_s_fin cutoff k Hc Hk) as (s & Es & Hs). cbn beta in E. rewrite Es in E.
  destruct (proposal_fin s 0 Hs) as (w & Ew & Bw). rewrite Ew, xclip11 in E by auto. cbn [xacos xsign] in E.
  destruct (Rle_dec (-1) w); [|lra]. destruct (Rle_dec w 1); [|lra]. destruct (Rlt_dec 0 0); [lra|]. cbn [xmul] in E.
  unfold vm_sample. rewrite E. cbn [xadd]. rewrite Rmult_0_l, Rplus_0_l. apply C58_half_open_refuted.
Qed.
(** Concentration 0: no proposal is ever accepted (unless v = 0 exactly), so the loop always runs its 100 iterations, and the hundredth proposal is
    returned; its angle is not uniform: the median of |angle| is acos(1e-7), not pi/2. *)
Theorem C58_zero_concentration_refuted cutoff (u v : nat -> nat -> R) : 0 < cutoff < 1 -> (forall j i, 0 < v j i) ->
  let conc := fun _ : nat => Fin 0 in let s := fun i => vm_s (Fin cutoff) (conc i) in
  (forall j, ~ accepted s conc (fun j i => Fin (u j i)) (fun j i => Fin (v j i)) 0 j) /\
  (u 99%nat 0%nat = 1 / 2 -> exists x, vm_std_sample (Fin cutoff) 1 conc (fun j i => Fin (u j i)) (fun j i => Fin (v j i)) 0%nat = Fin x /\ cos x = 1 / 10000000 /\ 0 <= x < PI / 2).
Proof.
  intros Hc Hv conc s. assert (Es : s 0%nat = Fin 10000000).
  { unfold s, conc, vm_s. rewrite xltb_f by lra. cbn [xwhere]. unfold xmax. cbn [xis_nan orb]. rewrite xltb_t by lra. rewrite xdiv_fin by lra. f_equal. lra. }
  assert (A : forall j, ~ accepted s conc (fun j i => Fin (u j i)) (fun j i => Fin (v j i)) 0 j).
  { intros j. unfold accepted. rewrite Es. destruct (proposal_fin 10000000 (u j 0%nat) ltac:(lra)) as (w & -> & Bw). unfold vm_accept, conc. cbn [xsub xopp xadd xmul xexp].
    rewrite xltb_t; [discriminate|]. rewrite !Rmult_0_l. apply Hv. }
  split; auto. intros Hu. destruct (C58_sampler_loop (Fin cutoff) 1 conc (fun j i => Fin (u j i)) (fun j i => Fin (v j i)) ltac:(lia)) as (T & HT & L). fold s in L.
  destruct (L 0%nat ltac:(lia)) as (j & _ & _ & [D|[-> ->]] & E); [contradiction (A j D)|]. cbn beta in E. unfold s in Es. rewrite Es in E. replace (100 - 1)%nat with 99%nat in E by reflexivity. rewrite Hu in E.
  assert (W : vm_proposal (Fin 10000000) (Fin (1 / 2)) = Fin (1 / 10000000)).
  { unfold vm_proposal. cbn [xmul xcos xadd]. replace (PI * (1 / 2)) with (PI / 2) by field. rewrite cos_PI2. rewrite xdiv_fin by lra. f_equal. lra. }
  rewrite W, xclip11 in E by lra. cbn [xacos xsign] in E. destruct (Rle_dec (-1) (1 / 10000000)); [|lra]. destruct (Rle_dec (1 / 10000000) 1); [|lra]. destruct (Rlt_dec 0 (1 / 2)); [|lra].
  cbn [xmul] in E. rewrite Rmult_1_l in E. exists (acos (1 / 10000000)). split; auto. assert (C : cos (acos (1 / 10000000)) = 1 / 10000000) by (apply cos_acos; lra). split; auto.
  pose proof (acos_bound (1 / 10000000)) as B. split; [lra|]. destruct (Rlt_dec (acos (1 / 10000000)) (PI / 2)) as [|G]; auto. exfalso.
  pose proof (cos_le_0 (acos (1 / 10000000)) ltac:(lra) ltac:(lra)). lra.
Qed.
Example C58_sampler_meets : exists raw x, vm_std_sample (Fin 0.02) 2 (fun i => Fin (INR i)) (fun j i => Fin (1 / 3)) (fun j i => Fin (1 / 2)) 1%nat = Fin raw /\ - PI <= raw <= PI /\
  vm_sample (Fin 0.02) 2 (fun i => Fin 7) (fun i => Fin (INR i)) (fun j i => Fin (1 / 3)) (fun j i => Fin (1 / 2)) 1%nat = Fin x /\ - PI <= x <= PI /\ congruent x (raw + 7).
Proof. apply (C58_sample_range 0.02 2 (fun _ => 7) INR (fun _ _ => 1 / 3)); [lia|lra|apply pos_INR|lia]. Qed.
