(** Facts about the normal densities on R^n. *)
From mathcomp Require Import all_ssreflect all_algebra.
From mathcomp Require Import fingroup perm.
From Coq Require Import Reals Lra.
From Verif Require Import Base.Integral Base.Gauss Base.MultiInt Base.Cholesky Base.Rmx Spec.Density Spec.Mvn.
Set Implicit Arguments.
Unset Strict Implicit.
Unset Printing Implicit Defensive.
Import GRing.Theory.
Delimit Scope ring_scope with Ri.
Delimit Scope R_scope with R.
Local Open Scope R_scope.

Lemma zero11 : (0 : 'M[R]_1)%Ri ord0 ord0 = 0. Proof. by rewrite mxE. Qed.
Lemma prod_exp n (f : 'I_n -> R) : (\prod_i exp (f i))%Ri = exp (\sum_i f i)%Ri.
Proof.
elim: n f => [|n IH] f; first by rewrite !big_ord0 exp_0.
by rewrite !big_ord_recl IH mulRE addRE exp_plus.
Qed.
Lemma prod_const n (c : R) : (\prod_(i < n) c)%Ri = c ^ n.
Proof. elim: n => [|n IH]; first by rewrite big_ord0. by rewrite big_ord_recl IH. Qed.
Lemma sqrt_pow_n x n : 0 < x -> sqrt (x ^ n) = sqrt x ^ n.
Proof.
move=> Hx. elim: n => [|n IH] /=; first exact: sqrt_1.
rewrite sqrt_mult ?IH //; [exact: Rlt_le|]. exact: pow_le (Rlt_le _ _ Hx).
Qed.
Lemma two_pi_gt0 : 0 < 2 * PI. Proof. have := PI_RGT_0. lra. Qed.
Lemma pow2pi_gt0 n : 0 < (2 * PI) ^ n. Proof. apply: pow_lt. exact: two_pi_gt0. Qed.
Lemma std_n_exp n (z : 'cV[R]_n) : std_n z = exp (- (1 / 2) * (z^T *m z)%Ri ord0 ord0) / sqrt ((2 * PI) ^ n).
Proof.
rewrite /std_n /npdf.
have -> : (\prod_i (exp (- (z i ord0 ^ 2 / 2)) / sqrt (2 * PI))%R = (\prod_i exp (- (z i ord0 ^ 2 / 2))) * \prod_(i < n) (/ sqrt (2 * PI))%R)%Ri.
  by rewrite -big_split.
rewrite prod_exp prod_const mulRE sqrt_pow_n; last exact: two_pi_gt0.
rewrite /Rdiv Rinv_pow; last by have := sqrt_lt_R0 _ two_pi_gt0; lra.
congr (exp _ * _). rewrite dotE. rewrite -mulRE mulr_sumr. apply: eq_bigr => i _. rewrite mulRE.
move: (z i ord0) => a. toR. field.
Qed.
Lemma std_n_gt0 n (z : 'cV[R]_n) : 0 < std_n z.
Proof. rewrite /std_n. apply: prod_gt0 => i. exact: npdf_pos. Qed.

Lemma inv_gram n (A : 'M[R]_n) : A \in unitmx -> (invmx (A *m A^T) = (invmx A)^T *m invmx A)%Ri.
Proof.
move=> U. have UT : (A^T)%Ri \in unitmx by rewrite unitmx_tr.
have UG : (A *m A^T)%Ri \in unitmx by rewrite unitmx_mul U UT.
rewrite -[RHS](mulmxK UG) -[LHS]mul1mx. congr (_ *m _)%Ri.
by rewrite [RHS]mulmxA -[X in (X *m A^T)%Ri]mulmxA mulVmx // mulmx1 trmx_inv mulVmx.
Qed.
Lemma inv_gramE n (A : 'M[R]_n) v : A \in unitmx ->
  qform (invmx (A *m A^T)%Ri) v = ((invmx A *m v)^T *m (invmx A *m v))%Ri ord0 ord0.
Proof. move=> U. by rewrite /qform inv_gram // trmx_mul !mulmxA. Qed.
Lemma det_gram n (A : 'M[R]_n) : (\det (A *m A^T))%Ri = (\det A)%Ri * (\det A)%Ri.
Proof. by rewrite det_mulmx det_tr. Qed.
Lemma density_pull n (A : 'M[R]_n) (m z : 'cV[R]_n) : A \in unitmx ->
  mvn_density m (A *m A^T)%Ri (m + A *m z)%Ri = std_n z / Rabs (\det A)%Ri.
Proof.
move=> U. rewrite /mvn_density inv_gramE // addrC addKr mulKmx // std_n_exp det_gram.
have H : (\det A)%Ri <> 0 by apply/eqP; rewrite -unitfE -unitmxE.
rewrite sqrt_mult; [|exact: Rlt_le (pow2pi_gt0 n)|exact: Rle_0_sqr].
have -> : sqrt ((\det A)%Ri * (\det A)%Ri) = Rabs (\det A)%Ri by exact: sqrt_Rsqr_abs.
rewrite /Rdiv Rinv_mult. by rewrite Rmult_assoc.
Qed.
Lemma density_push n (A : 'M[R]_n) (m x : 'cV[R]_n) : A \in unitmx ->
  mvn_density m (A *m A^T)%Ri x = std_n (invmx A *m (x - m))%Ri / Rabs (\det A)%Ri.
Proof. move=> U. rewrite -(density_pull m _ U). by rewrite mulKVmx // addrC subrK. Qed.
Lemma density_gt0 n (m : 'cV[R]_n) C x : spd C -> 0 < mvn_density m C x.
Proof.
move=> H. apply: Rdiv_lt_0_compat; first exact: exp_pos. apply: sqrt_lt_R0. apply: Rmult_lt_0_compat; first exact: pow2pi_gt0. exact: spd_det_gt0.
Qed.
Lemma expect n (L : 'M[R]_n) (m : 'cV[R]_n) f v : chol_shape L ->
  integral_n (fun z => f (m + L *m z)%Ri * std_n z) v -> integral_n (fun x => f x * mvn_density m (L *m L^T)%Ri x) v.
Proof.
move=> HL H. have D := det_chol_gt0 HL. have U := chol_unit HL.
have := @integral_n_affine n (fun x => f x * mvn_density m (L *m L^T)%Ri x) m L (/ (\det L)%Ri * v) (proj1 HL) (proj2 HL).
rewrite -det_chol // -Rmult_assoc Rinv_r ?Rmult_1_l; last by move: D; set d := (\det L)%Ri => D; lra.
apply. apply: (integral_n_ext (f := fun z => / (\det L)%Ri * (f (m + L *m z)%Ri * std_n z))).
  move=> z. rewrite density_pull // Rabs_pos_eq; last exact: Rlt_le. rewrite /Rdiv. ring.
exact: integral_n_scal.
Qed.
Lemma sum_mulr n (f : 'I_n -> R) c : (\sum_i f i)%Ri * c = (\sum_i (f i * c)%R)%Ri.
Proof. by rewrite -mulRE mulr_suml. Qed.
Lemma quad n (a : R) (b : 'I_n -> R) (Q : 'M[R]_n) :
  integral_n (fun z => (a + (\sum_i (b i * z i ord0)%R)%Ri + (\sum_i \sum_j (Q i j * (z i ord0 * z j ord0))%R)%Ri) * std_n z) (a + (\tr Q)%Ri).
Proof.
have H0 := integral_n_scal a (std_n_mass n).
have H1 : integral_n (fun z : 'cV[R]_n => (\sum_i (b i * (z i ord0 * std_n z))%R)%Ri) (\sum_i (b i * 0)%R)%Ri.
  apply: integral_n_sum => i. apply: integral_n_scal. exact: std_n_mean.
have H2 : integral_n (fun z : 'cV[R]_n => (\sum_i \sum_j (Q i j * (z i ord0 * z j ord0 * std_n z))%R)%Ri) (\sum_i \sum_j (Q i j * (if i == j then 1 else 0))%R)%Ri.
  apply: integral_n_sum => i. apply: integral_n_sum => j. apply: integral_n_scal. exact: std_n_second.
apply: (integral_n_eq _ (integral_n_ext _ (integral_n_plus (integral_n_plus H0 H1) H2))).
- rewrite Rmult_1_r. rewrite big1; last by move=> i _; rewrite Rmult_0_r. rewrite Rplus_0_r. congr (_ + _).
  apply: eq_bigr => i _. rewrite (bigD1 i) //= eqxx Rmult_1_r big1 ?addr0 //. move=> j /negbTE H. by rewrite eq_sym H Rmult_0_r.
- move=> z. rewrite !Rmult_plus_distr_r. congr (_ + _ + _).
    rewrite sum_mulr. apply: eq_bigr => i _. by rewrite Rmult_assoc.
  rewrite sum_mulr. apply: eq_bigr => i _. rewrite sum_mulr. apply: eq_bigr => j _. exact: esym (Rmult_assoc _ _ _).
Qed.
(** The expectation of a quadratic polynomial a + b^T z + z^T Q z under the standard normal law. *)
Lemma quad_mx n a (b : 'cV[R]_n) (Q : 'M[R]_n) (f : 'cV[R]_n -> R) :
  (forall z, f z = a + (b^T *m z)%Ri ord0 ord0 + qform Q z) -> integral_n (fun z => f z * std_n z) (a + (\tr Q)%Ri).
Proof.
move=> E. apply: integral_n_ext (quad a (fun i => b i ord0) Q). move=> z. rewrite E dotE. congr ((_ + _) * _).
rewrite /qform mxE exchange_big /=. apply: eq_bigr => j _. rewrite mxE mulr_suml. apply: eq_bigr => i _. rewrite !mxE !mulRE.
move: (Q i j) (z i ord0) (z j ord0) => x y w. toR. ring.
Qed.
Lemma expect_quad n (m : 'cV[R]_n) (L : 'M[R]_n) a (b : 'cV[R]_n) Q f : chol_shape L ->
  (forall z, f (m + L *m z)%Ri = a + (b^T *m z)%Ri ord0 ord0 + qform Q z) ->
  integral_n (fun x => f x * mvn_density m (L *m L^T)%Ri x) (a + (\tr Q)%Ri).
Proof. move=> HL E. apply: expect => //. exact: (quad_mx (f := fun z => f (m + L *m z)%Ri)) E. Qed.

(** ** Normalisation and moments *)
Lemma row_dot n (L : 'M[R]_n) i (z : 'cV[R]_n) : (L *m z)%Ri i ord0 = ((row i L)^T^T *m z)%Ri ord0 ord0.
Proof. rewrite trmxK !mxE. apply: eq_bigr => k _. by rewrite mxE. Qed.
Lemma qform0 n (z : 'cV[R]_n) : qform 0%Ri z = 0.
Proof. by rewrite /qform mulmx0 mul0mx mxE. Qed.
Lemma density_normalised n (m : 'cV[R]_n) C : spd C -> normalised_n (mvn_density m C).
Proof.
move=> HC. split; first by move=> x; apply: Rlt_le; exact: density_gt0.
have [L [HL <-]] := cholesky_exists HC.
have H := @expect_quad n m L 1 0%Ri 0%Ri (fun _ => 1) HL.
apply: (integral_n_eq _ (integral_n_ext _ (H _))).
- by rewrite mxtrace0 zeroRE Rplus_0_r.
- move=> x. exact: Rmult_1_l.
- move=> z. by rewrite trmx0 mul0mx mxE qform0 zeroRE !Rplus_0_r.
Qed.
Lemma density_mean n (m : 'cV[R]_n) C : spd C -> mean_is_n (mvn_density m C) m.
Proof.
move=> HC i. have [L [HL <-]] := cholesky_exists HC.
have H := @expect_quad n m L (m i ord0) ((row i L)^T)%Ri 0%Ri (fun x => x i ord0) HL.
apply: (integral_n_eq _ (H _)).
- by rewrite mxtrace0 zeroRE Rplus_0_r.
- move=> z. by rewrite mxE row_dot qform0 addRE Rplus_0_r.
Qed.
Lemma density_covariance n (m : 'cV[R]_n) C : spd C -> covariance_is_n (mvn_density m C) m C.
Proof.
move=> HC i j. have [L [HL E]] := cholesky_exists HC. rewrite -E.
have H := @expect_quad n m L 0 0%Ri ((row i L)^T *m row j L)%Ri (fun x => (x i ord0 - m i ord0) * (x j ord0 - m j ord0)) HL.
apply: (integral_n_eq _ (H _)).
- rewrite mxtrace_mulC Rplus_0_l. rewrite {1}/mxtrace big_ord1 !mxE. apply: eq_bigr => k _. by rewrite !mxE mulrC.
- move=> z.
  have P k : (m + L *m z)%Ri k ord0 - m k ord0 = (L *m z)%Ri k ord0.
    rewrite mxE addRE. move: (m k ord0) ((L *m z)%Ri k ord0) => p q. ring.
  rewrite !P trmx0 mul0mx.
  have -> : qform ((row i L)^T *m row j L)%Ri z = (L *m z)%Ri i ord0 * (L *m z)%Ri j ord0.
    rewrite /qform mulmxA -mulmxA. rewrite mxE big_ord1. rewrite mulRE. congr (_ * _).
      rewrite !mxE. apply: eq_bigr => k _. by rewrite !mxE mulrC.
    rewrite !mxE. apply: eq_bigr => k _. by rewrite !mxE.
  have -> : (0 : 'M[R]_1)%Ri ord0 ord0 = 0 by rewrite mxE. by rewrite !Rplus_0_l.
Qed.
Lemma density_mode n (m : 'cV[R]_n) C : spd C -> unique_mode_n (mvn_density m C) m.
Proof.
move=> HC x Hx. have [L [HL <-]] := cholesky_exists HC. have U := chol_unit HL.
rewrite /mvn_density !inv_gramE //. apply: Rmult_lt_compat_r.
  apply: Rinv_0_lt_compat. apply: sqrt_lt_R0. apply: Rmult_lt_0_compat; first exact: pow2pi_gt0. rewrite det_gram. have := det_chol_gt0 HL => D. exact: Rmult_lt_0_compat.
apply: exp_increasing. rewrite subrr mulmx0. rewrite [X in _ < _ * X]mxE big1; last by move=> i _; rewrite mxE !mxE mul0r.
have : 0 < ((invmx L *m (x - m))^T *m (invmx L *m (x - m)))%Ri ord0 ord0.
  apply: sq_norm_gt0 => E. apply: Hx. apply/eqP. rewrite -subr_eq0. apply/eqP. by rewrite -[(x - m)%Ri](mulKVmx U) E mulmx0.
rewrite zeroRE. move: (_ ord0 ord0) => q. lra.
Qed.

(** ** Entropy and divergence *)
Lemma ln_density n (m : 'cV[R]_n) C x : spd C ->
  ln (mvn_density m C x) = - (1 / 2) * qform (invmx C) (x - m)%Ri - 1 / 2 * (INR n * ln (2 * PI) + ln (\det C)%Ri).
Proof.
move=> HC. have D := spd_det_gt0 HC. have P := pow2pi_gt0 n. have DP := Rmult_lt_0_compat _ _ P D.
rewrite /mvn_density /Rdiv ln_mult; [|exact: exp_pos|by apply: Rinv_0_lt_compat; apply: sqrt_lt_R0].
rewrite ln_exp ln_Rinv; last exact: sqrt_lt_R0.
have E : ln (sqrt ((2 * PI) ^ n * (\det C)%Ri)) = / 2 * (INR n * ln (2 * PI) + ln (\det C)%Ri).
  have S := sqrt_lt_R0 _ DP.
  have : ln (sqrt ((2 * PI) ^ n * (\det C)%Ri) * sqrt ((2 * PI) ^ n * (\det C)%Ri)) = INR n * ln (2 * PI) + ln (\det C)%Ri.
    rewrite sqrt_sqrt; last exact: Rlt_le. rewrite ln_mult //. congr (_ + _). 
    elim: (n) => [|k IH]; first by rewrite /= ln_1 Rmult_0_l.
    rewrite [(2 * PI) ^ _]/= ln_mult ?IH ?S_INR; [ring|exact: two_pi_gt0|exact: pow2pi_gt0].
  rewrite ln_mult //. move: (ln (sqrt _)) (ln (\det C)%Ri) => p q. lra.
rewrite E. ring.
Qed.
Lemma qform_scalar n c (z : 'cV[R]_n) : qform (c%:M)%Ri z = c * (z^T *m z)%Ri ord0 ord0.
Proof. by rewrite /qform mul_mx_scalar -scalemxAl mxE. Qed.
Lemma mxtrace_scalar n c : (\tr (c%:M : 'M[R]_n))%Ri = c * INR n.
Proof. rewrite mxtrace_scalar. elim: n => [|n IH]; first by rewrite mulr0n Rmult_0_r. rewrite mulrS IH S_INR addRE. toR. ring. Qed.
Lemma density_entropy n (m : 'cV[R]_n) C : spd C ->
  entropy_is_n (mvn_density m C) (1 / 2 * ln ((2 * PI * exp 1) ^ n * (\det C)%Ri)).
Proof.
move=> HC. have [L [HL E]] := cholesky_exists HC. have U := chol_unit HL. have D := spd_det_gt0 HC.
pose a := 1 / 2 * (INR n * ln (2 * PI) + ln (\det C)%Ri).
have H := @expect_quad n m L a 0%Ri ((1 / 2)%R%:M)%Ri (fun x => - ln (mvn_density m C x)) HL.
rewrite /entropy_is_n.
apply: (integral_n_eq _ (integral_n_ext _ (H _))).
- rewrite mxtrace_scalar /a.
  have -> : ln ((2 * PI * exp 1) ^ n * (\det C)%Ri) = INR n * ln (2 * PI) + INR n + ln (\det C)%Ri.
    have G : 0 < 2 * PI * exp 1 by apply: Rmult_lt_0_compat; [exact: two_pi_gt0|exact: exp_pos].
    rewrite ln_mult //; last exact: pow_lt. congr (_ + _).
    elim: (n) => [|k IH]; first by rewrite /= ln_1 Rmult_0_l Rplus_0_r.
    rewrite [(_ ^ _)]/= ln_mult ?IH ?S_INR; [|exact: G|exact: pow_lt].
    rewrite ln_mult; [|exact: two_pi_gt0|exact: exp_pos]. rewrite ln_exp. ring.
  move: (ln (\det C)%Ri) (ln _) => p q. field.
- move=> x. rewrite E. ring.
- move=> z. rewrite ln_density // -E inv_gramE // addrC addKr mulKmx // trmx0 mul0mx zero11 qform_scalar /a -E.
  move: (ln (\det _)%Ri) ((_ *m _)%Ri ord0 ord0) => p q. ring.
Qed.
Lemma trace_inv_gram n (A B : 'M[R]_n) : B \in unitmx ->
  (\tr (invmx (B *m B^T) *m (A *m A^T)) = \tr ((invmx B *m A) *m (invmx B *m A)^T))%Ri.
Proof. move=> U. rewrite inv_gram // -mulmxA mxtrace_mulC trmx_mul !mulmxA. by []. Qed.
Lemma qformD n (Q : 'M[R]_n) u v : (Q^T = Q)%Ri -> qform Q (u + v)%Ri = qform Q u + 2 * (u^T *m Q *m v)%Ri ord0 ord0 + qform Q v.
Proof.
move=> S. have -> : qform Q (u + v)%Ri = ((u^T *m Q *m u) + (u^T *m Q *m v) + ((v^T *m Q *m u) + (v^T *m Q *m v)))%Ri ord0 ord0.
  rewrite /qform. have -> : ((u + v)^T = u^T + v^T)%Ri by rewrite linearD. by rewrite !mulmxDl !mulmxDr addrACA.
have -> : (v^T *m Q *m u = (u^T *m Q *m v)^T)%Ri by rewrite !trmx_mul trmxK S !mulmxA.
rewrite /qform. move: (u^T *m Q *m u)%Ri (u^T *m Q *m v)%Ri (v^T *m Q *m v)%Ri => x y z.
rewrite !mxE !addRE. move: (x _ _) (y _ _) (z _ _) => p q r. ring.
Qed.
Lemma density_kl n (m1 : 'cV[R]_n) C1 m2 C2 : spd C1 -> spd C2 ->
  kl_is_n (mvn_density m1 C1) (mvn_density m2 C2) (mvn_kl m1 C1 m2 C2).
Proof.
move=> H1 H2. have [L [HL E]] := cholesky_exists H1. have U := chol_unit HL.
have D1 := spd_det_gt0 H1. have D2 := spd_det_gt0 H2.
pose P := invmx C2.
have SP : (P^T = P)%Ri by rewrite /P trmx_inv (proj1 H2).
pose a := 1 / 2 * qform P (m1 - m2)%Ri + 1 / 2 * (ln (\det C2)%Ri - ln (\det C1)%Ri).
pose b := (L^T *m P *m (m1 - m2))%Ri.
pose Q := ((- (1 / 2))%R%:M + (1 / 2)%R *: (L^T *m P *m L))%Ri.
have H := @expect_quad n m1 L a b Q (fun x => ln (mvn_density m1 C1 x) - ln (mvn_density m2 C2 x)) HL.
rewrite /kl_is_n.
apply: (integral_n_eq _ (integral_n_ext _ (H _))).
- rewrite /Q mxtraceD mxtrace_scalar mxtraceZ /a /mvn_kl -/P.
  have -> : (\tr (L^T *m P *m L) = \tr (P *m C1))%Ri by rewrite mxtrace_mulC mulmxA -E mxtrace_mulC.
  have -> : qform P (m2 - m1)%Ri = qform P (m1 - m2)%Ri.
    have -> : (m2 - m1 = - (m1 - m2))%Ri by rewrite opprB. rewrite /qform. have -> : ((- (m1 - m2))^T = - (m1 - m2)^T)%Ri by rewrite linearN.
    by rewrite !mulNmx mulmxN opprK.
  rewrite addRE mulRE {1}/Rdiv [ln (_ / _)]ln_mult; [|exact: D2|exact: Rinv_0_lt_compat]. rewrite ln_Rinv //.
  move: (ln (\det C2)%Ri) (ln (\det C1)%Ri) (qform P _) (\tr _)%Ri => p q r s. field.
- move=> x. rewrite E. ring.
- move=> z. rewrite !ln_density // -{1}E inv_gramE // [X in (invmx L *m X)%Ri]addrC addKr mulKmx //.
  have -> : (m1 + L *m z - m2 = (m1 - m2) + L *m z)%Ri by rewrite addrAC.
  rewrite qformD //.
  have -> : ((m1 - m2)^T *m P *m (L *m z))%Ri ord0 ord0 = (b^T *m z)%Ri ord0 ord0.
    by rewrite /b !trmx_mul trmxK SP !mulmxA.
  have -> : qform Q z = - (1 / 2) * (z^T *m z)%Ri ord0 ord0 + 1 / 2 * qform P (L *m z)%Ri.
    have -> : qform Q z = qform ((- (1 / 2))%R%:M)%Ri z + qform ((1 / 2)%R *: (L^T *m P *m L))%Ri z by rewrite /Q /qform mulmxDr mulmxDl mxE.
    rewrite qform_scalar. congr (_ + _). rewrite /qform.
    rewrite -scalemxAr -scalemxAl mxE mulRE. congr (_ * _). by rewrite trmx_mul !mulmxA.
  rewrite /a -/P. move: (ln (\det C2)%Ri) (ln (\det C1)%Ri) (qform P _) (qform P _) (_ ord0 ord0) (_ ord0 ord0) => p q r s t u. field.
Qed.
Lemma kl_whiten n (m1 m2 : 'cV[R]_n) (A B : 'M[R]_n) : A \in unitmx -> B \in unitmx ->
  mvn_kl m1 (A *m A^T)%Ri m2 (B *m B^T)%Ri =
  1 / 2 * ((\tr ((invmx B *m A) *m (invmx B *m A)^T))%Ri - INR n - ln (\det ((invmx B *m A) *m (invmx B *m A)^T))%Ri) +
  1 / 2 * ((invmx B *m (m2 - m1))^T *m (invmx B *m (m2 - m1)))%Ri ord0 ord0.
Proof.
move=> UA UB. rewrite /mvn_kl trace_inv_gram // inv_gramE //.
have NA : (\det A)%Ri <> 0 by apply/eqP; rewrite -unitfE -unitmxE.
have NB : (\det B)%Ri <> 0 by apply/eqP; rewrite -unitfE -unitmxE.
have E : ln ((\det (B *m B^T))%Ri / (\det (A *m A^T))%Ri) = - ln (\det ((invmx B *m A) *m (invmx B *m A)^T))%Ri.
  rewrite !det_gram det_mulmx det_inv mulRE invRE //. rewrite -ln_Rinv.
    congr ln. move: (\det A)%Ri (\det B)%Ri NA NB => a b Na Nb. field. by split.
  have : (/ (\det B)%Ri * (\det A)%Ri) <> 0.
    apply: Rmult_integral_contrapositive_currified => //. exact: Rinv_neq_0_compat.
  move=> N. exact: Rlt_0_sqr.
rewrite E. move: (\tr _)%Ri (ln _) (_ ord0 ord0) => p q r. ring.
Qed.
Lemma kl_ge0 n (m1 : 'cV[R]_n) C1 m2 C2 : spd C1 -> spd C2 ->
  0 <= mvn_kl m1 C1 m2 C2 /\ (mvn_kl m1 C1 m2 C2 = 0 <-> m1 = m2 /\ C1 = C2).
Proof.
move=> /cholesky_exists [A [HA <-]] /cholesky_exists [B [HB <-]].
have UA := chol_unit HA. have UB := chol_unit HB. rewrite kl_whiten //.
pose M := (invmx B *m A)%Ri. rewrite -/M.
have UM : M \in unitmx by rewrite /M unitmx_mul unitmx_inv UB UA.
have [T1 T2] := trace_logdet (spd_gram UM).
pose w := (invmx B *m (m2 - m1))%Ri. rewrite -/w. have W := sq_norm_ge0 w.
split.
  move: T1 W. move: (\tr _)%Ri (ln _) (_ ord0 ord0) => p q r. lra.
split.
  move=> E.
  have EW : (w^T *m w)%Ri ord0 ord0 = 0. { move: T1 W E. move: (\tr _)%Ri (ln _) (_ ord0 ord0) => p q r. lra. }
  have ET : (\tr (M *m M^T))%Ri - INR n - ln (\det (M *m M^T))%Ri = 0.
  { move: T1 W E. move: (\tr _)%Ri (ln _) (_ ord0 ord0) => p q r. lra. }
  split.
    have Z := sq_norm_eq0 EW. apply/esym/eqP. rewrite -subr_eq0. apply/eqP. by rewrite -[(m2 - m1)%Ri](mulKVmx UB) -/w Z mulmx0.
  have := T2 ET => EM. 
  have : (B *m (M *m M^T) *m B^T = A *m A^T)%Ri.
    rewrite /M trmx_mul !mulmxA mulmxV // mul1mx -!mulmxA. congr (_ *m _)%Ri. by rewrite trmx_inv mulVmx ?mulmx1 // unitmx_tr.
  rewrite EM mulmx1. by move=> <-.
move=> [Em EC].
have EM : (M *m M^T = 1%:M)%Ri.
  rewrite /M trmx_mul mulmxA -[X in (X *m _)%Ri]mulmxA EC. rewrite mulmxA mulVmx // mul1mx trmx_inv mulmxV ?unitmx_tr //.
rewrite EM det1 mxtrace_scalar oneRE ln_1 /w Em subrr mulmx0. rewrite [X in _ + _ * X]mxE big1; last by move=> i _; rewrite !mxE mul0r.
rewrite zeroRE. ring.
Qed.

(** ** One-dimensional marginals *)
Definition first_perm (n : nat) (i : 'I_n.+1) : 'S_(n.+1) := lift_perm ord0 i 1%g.
Lemma insert_perm n (i : 'I_n.+1) x (z : 'cV[R]_n) : insert_at i x z = (perm_mx (first_perm i)^-1%g *m vcons x z)%Ri.
Proof.
apply/colP => k. rewrite -row_permE !mxE.
case: (unliftP i k) => [j ->|->].
  have -> : (first_perm i)^-1%g (lift i j) = lift ord0 j by apply: (canLR (permK _)); rewrite /first_perm lift_perm_lift perm1.
  by rewrite liftK.
have -> : (first_perm i)^-1%g i = ord0 by apply: (canLR (permK _)); rewrite /first_perm lift_perm_id.
by rewrite unlift_none.
Qed.
Lemma density_first n (m : 'cV[R]_(n.+1)) L x : chol_shape L ->
  integral_n (fun z : 'cV[R]_n => mvn_density m (L *m L^T)%Ri (vcons x z)) (gaussian (m ord0 ord0) (L ord0 ord0) x).
Proof.
move=> HL. have U := chol_unit HL. have D := det_chol_gt0 HL. have L0 := proj2 HL ord0.
pose z0 := (x - m ord0 ord0) / L ord0 ord0.
pose l := (\col_i L (lift ord0 i) ord0)%Ri : 'cV[R]_n.
pose L' := (\matrix_(i, j) L (lift ord0 i) (lift ord0 j))%Ri : 'M[R]_n.
pose m' := (\col_i m (lift ord0 i) ord0)%Ri : 'cV[R]_n.
have HL' : chol_shape L'.
  split.
    move=> i j Hij. rewrite mxE. apply: (proj1 HL). by rewrite /= /bump /= add1n add1n ltnS.
  move=> i. rewrite mxE. exact: (proj2 HL).
have D' := det_chol_gt0 HL'.
have ED : (\det L)%Ri = L ord0 ord0 * (\det L')%Ri.
  rewrite !det_chol // big_ord_recl mulRE. congr (_ * _). apply: eq_bigr => i _. by rewrite mxE.
have H := @integral_n_affine n (fun z => mvn_density m (L *m L^T)%Ri (vcons x z)) (m' + z0 *: l)%Ri L' (npdf z0 / (\det L)%Ri) (proj1 HL') (proj2 HL').
apply: (integral_n_eq _ (H _)).
- rewrite -det_chol // ED /npdf /gaussian -/z0.
  have S := sqrt_lt_R0 _ two_pi_gt0.
  have -> : - z0 ^ 2 / 2 = - (z0 ^ 2 / 2) by field.
  move: (exp _) (sqrt _) S (\det L')%Ri D' (L ord0 ord0) L0 => e s Hs d Hd t Ht. field. lra.
- apply: (integral_n_ext (f := fun z => npdf z0 / (\det L)%Ri * std_n z)).
    move=> z.
    have -> : vcons x (m' + z0 *: l + L' *m z)%Ri = (m + L *m vcons z0 z)%Ri.
      apply/esym. apply: vcons_ext.
        rewrite vcons0 !mxE big_ord_recl vcons0 big1 ?addr0.
          rewrite addRE mulRE /z0. clear -L0. move: (L ord0 ord0) (m ord0 ord0) L0 => a b H0. toR. by field; lra.
        move=> i _. by rewrite (proj1 HL) ?mul0r.
      move=> i. rewrite vconsS !mxE big_ord_recl vcons0 -!addrA. congr (_ + _)%Ri. congr (_ + _)%Ri.
        by rewrite mulrC.
      apply: eq_bigr => j _. by rewrite vconsS !mxE.
    rewrite density_pull // Rabs_pos_eq; last exact: Rlt_le.
    rewrite {2}/std_n big_ord_recl vcons0 mulRE.
    have -> : (\prod_(i < n) npdf (vcons z0 z (lift ord0 i) ord0))%Ri = std_n z by apply: eq_bigr => i _; rewrite vconsS.
    rewrite /Rdiv. ring.
  apply: (integral_n_eq _ (integral_n_scal _ (std_n_mass n))). exact: Rmult_1_r.
Qed.
Lemma density_marginal n (m : 'cV[R]_(n.+1)) C (i : 'I_n.+1) : spd C ->
  marginal_is (mvn_density m C) i (gaussian (m i ord0) (sqrt (C i i))).
Proof.
move=> HC x.
pose P := perm_mx (first_perm i)^-1%g : 'M[R]_(n.+1).
have UP : P \in unitmx by rewrite unitmx_perm.
have OP : (P^T *m P = 1%:M)%Ri by rewrite /P tr_perm_mx -perm_mxM mulVg perm_mx1.
have OP' : (P *m P^T = 1%:M)%Ri by rewrite /P tr_perm_mx -perm_mxM mulgV perm_mx1.
have OI : (invmx P = P^T)%Ri.
  by rewrite -[RHS](mulmxK UP) OP mul1mx.
pose C' := (P^T *m C *m P)%Ri. pose m' := (P^T *m m)%Ri.
have SC' : spd C'.
  split; first by rewrite /C' !trmx_mul trmxK (proj1 HC) mulmxA.
  move=> v Hv. have -> : qform C' v = qform C (P *m v)%Ri by rewrite /qform /C' trmx_mul !mulmxA.
  apply: (proj2 HC) => E. apply: Hv. by rewrite -[v](mulKmx UP) E mulmx0.
have HP k l : (P^T *m C *m P)%Ri k l = C (first_perm i k) (first_perm i l).
  rewrite /P tr_perm_mx invgK -row_permE -col_permE. by rewrite !mxE.
have F0 : first_perm i ord0 = i by rewrite /first_perm lift_perm_id.
have [L [HL EL]] := cholesky_exists SC'.
have L0 := proj2 HL ord0.
have E00 : C i i = L ord0 ord0 * L ord0 ord0.
  have := HP ord0 ord0. rewrite F0 -/C' -EL => <-. rewrite mxE big_ord_recl big1 ?addr0 ?mxE // => k _.
  by rewrite mxE (proj1 HL) ?mul0r.
have := density_first m' x HL.
have -> : m' ord0 ord0 = m i ord0 by rewrite /m' /P tr_perm_mx invgK -row_permE mxE F0.
rewrite E00 sqrt_square; last exact: Rlt_le. apply: integral_n_ext => z.
rewrite EL insert_perm -/P /mvn_density. congr (exp (_ * _) / sqrt (_ * _)).
  rewrite /qform /C' /m'.
  have -> : (invmx (P^T *m C *m P) = P^T *m invmx C *m P)%Ri.
    have UC := spd_unit HC.
    have UA : (P^T *m C *m P)%Ri \in unitmx by rewrite !unitmx_mul unitmx_tr UP UC.
    rewrite -[RHS](mulmxK UA). rewrite -[LHS]mul1mx. congr (_ *m _)%Ri.
    rewrite !mulmxA -(mulmxA (P^T *m invmx C)%Ri P (P^T)%Ri) OP' mulmx1 -(mulmxA (P^T)%Ri (invmx C) C) mulVmx // mulmx1 OP. by [].
  have -> : (vcons x z - P^T *m m = P^T *m (P *m vcons x z - m))%Ri by rewrite mulmxBr mulmxA OP mul1mx.
  by rewrite trmx_mul trmxK !mulmxA -(mulmxA _ P) OP' mulmx1 -(mulmxA _ P) OP' mulmx1.
have DP : (\det P * \det P = 1)%Ri by rewrite -{2}det_tr -det_mulmx OP' det1.
by rewrite /C' !det_mulmx det_tr mulrC mulrA DP mul1r.
Qed.
