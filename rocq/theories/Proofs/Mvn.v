(** Proofs about the multivariate normal distributions. *)
From mathcomp Require Import all_ssreflect all_algebra.
From Coq Require Import Reals List ZArith Lra Lia.
From Verif Require Import Base.Result Base.Sums Base.Tensor Base.XR Base.Lift Base.Rows Base.Gauss Base.MultiInt Base.Cholesky Base.Rmx
  Model.Bijector Model.ScalarBij Model.Linear Model.ScalarDist Model.ArrayDist Model.Compose Model.Transformed Model.Mvn
  Spec.Bijector Spec.Jacobian Spec.Linear Spec.Density Spec.ArrayDist Spec.Univariate Spec.Mvn Spec.MvnDist
  Proofs.Bijector Proofs.Block Proofs.ScalarBij Proofs.ArrayDist Proofs.Density Proofs.Compose Proofs.Linear Proofs.GaussianN.
Set Implicit Arguments.
Unset Strict Implicit.
Unset Printing Implicit Defensive.
Import GRing.Theory.
Delimit Scope ring_scope with Ri.
Delimit Scope R_scope with R.
Local Open Scope R_scope.

(** ** The bijector *)
Lemma mvn_chain_ok loc lb n sc sb (A : list nat -> 'M[R]_n) bs :
  wf loc -> shp loc = (lb ++ n :: nil)%list -> linear_scale sc sb A -> bshape sb lb = Some bs ->
  exists sh blk c, shift_init loc = Ok sh /\ block_init sh 1 = Ok blk /\ chain_init (blk :: s_bij sc :: nil) = Ok c /\
  affine_bijector c bs (fun j => A (bindex sb j)) (fun j => vector_at n loc (bindex lb j)) /\
  (forall j, inb bs j -> (\det (A (bindex sb j)))%Ri <> 0).
Proof.
move=> Wl Sl [[Uf [Ui [Um [Uin [Uout [Ucj Ucl]]]]]] [_ [_ [_ [DA _]]]]] Hb.
have [sh Esh] : exists sh, shift_init loc = Ok sh by eexists.
have [blk Eblk] : exists blk, block_init sh 1 = Ok blk.
{ move: Esh. rewrite /shift_init /= => -[<-]. rewrite /block_init /=. by eexists. }
have HS := shift_block_ok Wl Sl Esh Eblk. have [Sf [Si [Smm [Sin [Sout [Scj Scl]]]]]] := HS.
have [c Ec] : exists c, chain_init (blk :: s_bij sc :: nil) = Ok c.
{ rewrite /chain_init /chain_neighbours_ok /= Sin Uout /=. by rewrite Uin Sout Ucj Ucl Scj Scl /=; eexists. }
exists sh, blk, c. do 3!split=> //.
have DS : forall j, inb lb j -> (\det (1%:M : 'M[R]_n))%Ri <> 0 by move=> j _; rewrite det1; exact: R1_neq_R0.
have [G1 [G2 G3]] := affine_seq Uf Ui Sf Si Hb DA DS.
have Ic : b_in c = 1%Z /\ b_out c = 1%Z /\ b_cj c = true /\ b_cl c = true /\
   (forall x, b_fal c x = then_op (b_fal (s_bij sc)) (b_fal blk) x) /\
   (forall x, b_ial c x = then_op (b_ial blk) (b_ial (s_bij sc)) x).
{ move: Ec. rewrite /chain_init. case: (chain_neighbours_ok _) => //=.
  rewrite Uin Sout Ucj Ucl Scj Scl /=. by move=> [<-]. }
move: Ic => [Iin [Iout [Icj [Icl [Ff Fi]]]]].
have Hm : methods_agree c.
{ apply: chain_methods_agree Ec _ => x /=. by case=> [<-|[<-|[]]]. }
split; last by move=> j Hj; apply: DA; exact: bindex_inb Hb Hj.
split; [|split; [|by []]].
- apply: (acts_affine_op_ext Ff). apply: acts_affine_ext G1 => j Hj. cbv beta zeta. by rewrite mul1mx mulmx0 add0r.
- apply: (acts_affine_op_ext Fi). apply: acts_affine_ext G2 => j Hj. cbv beta zeta. by rewrite mul1mx mulmx0 add0r.
Qed.

(** ** The standard normal base *)
Lemma ln_std_n n (z : 'cV[R]_n) : ln (std_n z) = sumf (fun k => ln (npdf (vget z k))) (List.seq 0 n).
Proof.
rewrite sumf_ord /std_n ln_prod; last by move=> i; exact: npdf_pos.
by apply: eq_bigr => i _; rewrite vget_ord.
Qed.
Lemma xget_fin (v : arr) S idx : wf v -> bshape (shp v) S = Some S -> inb S idx -> xget (tmap Fin v) idx = Fin (bget v idx).
Proof.
move=> W B H. rewrite /xget /bget. cbn [shp tmap]. rewrite (tget_tmap 0 (Fin 0)) //. exact: bindex_inb B H.
Qed.
Lemma ln_npdf x : ln (npdf x) = - (x ^ 2 / 2) - 1 / 2 * ln (2 * PI).
Proof.
rewrite /npdf. have P := exp_pos. have H2 := sqrt_lt_R0 _ two_pi_gt0.
rewrite /Rdiv ln_mult; [|exact: exp_pos|exact: Rinv_0_lt_compat].
rewrite ln_exp ln_Rinv //.
have E := sqrt_sqrt (2 * PI) (Rlt_le _ _ two_pi_gt0).
have : ln (sqrt (2 * PI)) + ln (sqrt (2 * PI)) = ln (2 * PI) by rewrite -ln_mult // E. lra.
Qed.
Lemma normal_log_prob_std x : normal_log_prob (Fin x) (Fin 0) (Fin 1) = Fin (ln (npdf x)).
Proof.
rewrite /normal_log_prob standardize_fin; last lra. rewrite xlog_fin; last lra. cbn. congr Fin.
rewrite ln_npdf ln_1. field.
Qed.
Lemma normal_salp_std x : normal_salp_log_prob (Fin x) (Fin 1) = Fin (ln (npdf x)).
Proof.
rewrite /normal_salp_log_prob xlog_fin; last lra. cbn. congr Fin. rewrite ln_npdf ln_1. field.
Qed.
Lemma bget_tzeros s S idx : bshape s S = Some S -> inb S idx -> bget (tzeros s) idx = 0.
Proof. move=> B H. rewrite /bget /tzeros tget_tgen //. exact: bindex_inb B H. Qed.
Lemma tzeros_wf s : wf (tzeros s). Proof. exact: tgen_wf. Qed.
Lemma tscalar_wf (x : R) : wf (tscalar x). Proof. by []. Qed.
Lemma bget_scalar (x : R) i : bget (tscalar x) i = x.
Proof. by rewrite /bget /bindex /= /tget. Qed.
Lemma sum_event n s (t : tensor XR) (f : list nat -> R) : holds t (s ++ n :: nil)%list (fun idx => Fin (f idx)) ->
  exists r, sum_last_axes 1 t = Ok r /\ holds r s (fun i => Fin (sumf (fun k => f (i ++ k :: nil)%list) (List.seq 0 n))).
Proof.
move=> H. have [r [Er [Wr [Sr Hr]]]] := sum_last_axes_ok 1 t s (n :: nil)%list _ H erefl.
exists r. split=> //. split=> //. split=> // i Hi. rewrite Hr // xsum_sumf indices_vec sumf_map. by [].
Qed.
Lemma bget_snoc (x : arr) s n i k : shp x = (s ++ n :: nil)%list -> (k < n)%coq_nat -> bget x (i ++ k :: nil)%list = vget (vector_at n x (bindex s i)) k.
Proof. move=> S Hk. have Hk' := introT ltP Hk. rewrite (vget_lt _ Hk'). exact: (@bget_vec x s n i (Ordinal Hk')). Qed.

Section Base.
Context {K : Type}.
Variable rng : K -> shape -> arr.
Lemma std_base_ok bs n : exists base, std_mvn_dist rng (bs ++ n :: nil)%list = Ok base /\
  d_batch base = bs /\ d_event base = Some (n :: nil) /\
  (forall v s, wf v -> shp v = (s ++ n :: nil)%list -> bshape bs s = Some s ->
     exists r, d_log_prob base v = Ok r /\ holds r s (fun i => Fin (ln (std_n (vector_at n v i))))) /\
  (exists h, d_entropy base = Ok h /\ holds h bs (fun _ => Fin (INR n * (1 / 2 + 1 / 2 * ln (2 * PI))))) /\
  (proper_rng rng -> forall key k, d_sample_n base key k = Ok (rng key (k :: bs ++ n :: nil)%list) /\
     exists lp, d_salp base key k = Ok (rng key (k :: bs ++ n :: nil)%list, lp) /\
       holds lp (k :: bs) (fun ib => Fin (ln (std_n (vector_at n (rng key (k :: bs ++ n :: nil)%list) ib))))).
Proof.
pose B := (bs ++ n :: nil)%list.
have EB : bcast_shapes (shp (tzeros B)) (shp (tscalar 1)) = Ok B by rewrite /bcast_shapes bshape_nil_r.
rewrite -/B /std_mvn_dist /normal_pdist EB. cbn [rbind]. rewrite /independent_init. cbn [p_event p_batch].
have HL : length B = S (length bs) by rewrite /B app_length /= PeanoNat.Nat.add_1_r.
rewrite HL. case: Z.ltb_spec => [|_]; first lia. cbn [Z.ltb Z.compare rbind].
eexists. split; first by [].
rewrite /independent_dist. cbn [dist_of_pdist d_batch d_event d_log_prob d_entropy d_sample_n d_salp p_batch p_event i_dist i_ndims].
have Fb : firstn (length B - 1)%coq_nat B = bs.
{ rewrite HL (_ : (S (length bs) - 1)%coq_nat = length bs); last lia. rewrite /B firstn_app firstn_all PeanoNat.Nat.sub_diag /=. exact: app_nil_r. }
have Sb : skipn (length B - 1)%coq_nat B = (n :: nil)%list.
{ rewrite HL (_ : (S (length bs) - 1)%coq_nat = length bs); last lia. rewrite /B skipn_app skipn_all PeanoNat.Nat.sub_diag /=. by []. }
split; first by rewrite /independent_batch_shape; cbn [i_dist i_ndims p_batch]; rewrite Fb.
split; first by rewrite /independent_event_shape; cbn [i_dist i_ndims p_batch p_event]; rewrite Sb.
have Bn S : bshape nil S = Some S by exact: bshape_nil_l.
split; [|split].
- move=> v s Wv Sv Hs. cbn [p_log_prob]. rewrite /independent_log_prob /independent_reduce. cbn [i_dist i_ndims p_log_prob].
  have HB : bshape B (s ++ n :: nil)%list = Some (s ++ n :: nil)%list by rewrite /B bshape_snoc Hs.
  have [t [Et [Wt [St Ht]]]] : exists t, normal_log_prob_arr (tmap Fin v) (tmap Fin (tzeros B)) (tmap Fin (tscalar 1)) = Ok t /\
     holds t (s ++ n :: nil)%list (fun idx => Fin (ln (npdf (bget v idx)))).
  { have := @lift3_stat normal_log_prob (tmap Fin v) (tmap Fin (tzeros B)) (tmap Fin (tscalar 1)) B (s ++ n :: nil)%list.
    case. by rewrite bshape_nil_r. by cbn [shp tmap]; rewrite Sv bshape_comm.
    move=> t [Et [Wt [St Ht]]]. exists t. split=> //. split=> //. split=> // idx Hi. rewrite Ht //.
    rewrite (@xget_fin v (s ++ n :: nil)%list) //; last by rewrite Sv bshape_refl.
    rewrite (@xget_fin (tzeros B) (s ++ n :: nil)%list) //; last exact: tzeros_wf.
    rewrite (@xget_fin (tscalar 1) (s ++ n :: nil)%list) //.
    rewrite (bget_tzeros HB) // bget_scalar. exact: normal_log_prob_std. }
  rewrite Et. cbn [rbind].
  have [r [Er [Wr [Sr Hr]]]] := @sum_event n s t _ (conj Wt (conj St Ht)).
  exists r. split=> //. split=> //. split=> // i Hi. rewrite Hr // ln_std_n. congr Fin.
  apply: sumf_ext => k. rewrite in_seq => Hk. by rewrite (bget_snoc _ Sv) ?bindex_refl //; lia.
- cbn [p_entropy]. rewrite /independent_entropy /independent_reduce. cbn [i_dist i_ndims p_entropy].
  have [t [Et [Wt [St Ht]]]] : exists t, normal_entropy_arr (tmap Fin (tzeros B)) (tmap Fin (tscalar 1)) = Ok t /\
     holds t (bs ++ n :: nil)%list (fun idx => Fin (1 / 2 + 1 / 2 * ln (2 * PI))).
  { have HB : bshape (shp (tmap Fin (tzeros B))) (shp (tmap Fin (tscalar 1))) = Some B by exact: bshape_nil_r.
    rewrite /normal_entropy_arr (@param_ok (tmap Fin (tscalar 1)) _ _ B HB) //. cbn [rbind]. rewrite lift1_ok.
    eexists. split; first by []. split; first exact: tgen_wf. split=> // idx Hi. rewrite tget_tgen // xget_tgen_same //.
    rewrite (@xget_fin (tscalar 1) B) //. rewrite bget_scalar /normal_entropy xlog_fin; last lra. cbn. congr Fin. rewrite ln_1. ring. }
  rewrite Et. cbn [rbind].
  have [r [Er [Wr [Sr Hr]]]] := @sum_event n bs t _ (conj Wt (conj St Ht)).
  exists r. split=> //. split=> //. split=> // i Hi. by rewrite Hr // sumf_const seq_length.
- move=> HR key k. have [Wz Sz] := HR key (k :: B)%list. set z := rng key (k :: B)%list in Wz Sz *.
  have HBk : bshape B (k :: B)%list = Some (k :: B)%list by exact: bshape_lead.
  have [t [Et Ht]] : exists t, lift3 normal_sample (tmap Fin z) (tmap Fin (tzeros B)) (tmap Fin (tscalar 1)) = Ok t /\ tmap XR.toR t = z.
  { have := @lift3_stat normal_sample (tmap Fin z) (tmap Fin (tzeros B)) (tmap Fin (tscalar 1)) B (k :: B)%list.
    case. by rewrite bshape_nil_r. by cbn [shp tmap]; rewrite Sz bshape_comm.
    move=> t [Et [Wt [St Ht]]]. exists t. split=> //. apply: (tensor_ext 0) => //; [exact: tmap_wf|by rewrite /= St Sz|].
    move=> idx /=. rewrite St => Hi. rewrite (tget_tmap (Fin 0)) ?St // Ht //.
    rewrite (@xget_fin z (k :: B)%list) //; last by rewrite Sz bshape_refl.
    rewrite (@xget_fin (tzeros B) (k :: B)%list) //; last exact: tzeros_wf.
    rewrite (@xget_fin (tscalar 1) (k :: B)%list) //.
    rewrite (bget_tzeros HBk) // bget_scalar bget_inb ?Sz //. cbn. ring. }
  cbn [p_sample p_salp]. rewrite /independent_salp /independent_reduce. cbn [i_dist i_ndims p_salp]. rewrite /normal_sample_n /normal_salp Et. cbn [rbind].
  rewrite Ht. split=> //.
  have [lp [Elp [Wlp [Slp Hlp]]]] : exists t, lift2 normal_salp_log_prob (tmap Fin z) (tmap Fin (tscalar 1)) = Ok t /\
     holds t ((k :: bs) ++ n :: nil)%list (fun idx => Fin (ln (npdf (bget z idx)))).
  { have := @lift2_stat normal_salp_log_prob (tmap Fin z) (tmap Fin (tscalar 1)) (k :: B)%list.
    case. by rewrite bshape_nil_r /= Sz.
    move=> u [Eu [Wu [Su Hu]]]. exists u. split=> //. split=> //. split=> // idx Hi. rewrite Hu //.
    rewrite (@xget_fin z (k :: B)%list) //; last by rewrite Sz bshape_refl.
    rewrite (@xget_fin (tscalar 1) (k :: B)%list) //.
    rewrite bget_scalar. exact: normal_salp_std. }
  rewrite Elp. cbn [rbind].
  have [r [Er [Wr [Sr Hr]]]] := @sum_event n (k :: bs)%list lp _ (conj Wlp (conj Slp Hlp)).
  rewrite Er. cbn [rbind]. exists r. split; first by rewrite Ht. split=> //. split=> // i Hi. rewrite Hr // ln_std_n. congr Fin.
  have Sz' : shp z = ((k :: bs) ++ n :: nil)%list by [].
  apply: sumf_ext => l. rewrite in_seq => Hk. by rewrite (bget_snoc _ Sz') ?bindex_refl //; lia.
Qed.
End Base.

(** ** Arrays of vectors and matrices *)
Lemma bcast_vectors n a sb bs (f : list nat -> 'cV[R]_n) : vectors_are a sb f -> bshape sb bs = Some bs ->
  exists r, bcast_to a (bs ++ n :: nil)%list = Ok r /\ vectors_are r bs (fun j => f (bindex sb j)).
Proof.
move=> [W [S H]] B. rewrite bcast_to_ok; last by rewrite S bshape_snoc B.
eexists. split; first by []. split; first exact: tgen_wf. split=> // j Hj. rewrite vec_at_tgen // -H; last exact: bindex_inb B Hj.
apply/colP => k. by rewrite mxE (@bget_vec a sb n j k S).
Qed.
Lemma bshape_mats sb bs n k : bshape (sb ++ n :: k :: nil)%list (bs ++ n :: k :: nil)%list = option_map (fun s => s ++ n :: k :: nil)%list (bshape sb bs).
Proof.
have E (s : shape) : (s ++ n :: k :: nil)%list = ((s ++ n :: nil) ++ k :: nil)%list by rewrite -app_assoc.
rewrite (E sb) (E bs) !bshape_snoc. case: (bshape sb bs) => //= s. by rewrite -app_assoc.
Qed.
Lemma mat_at_tgen s n k f j : inb s j -> matrix_at n k (tgen (s ++ n :: k :: nil)%list f) j = (\matrix_(a, b) f (j ++ (a : nat) :: (b : nat) :: nil)%list)%Ri.
Proof. move=> H; apply/matrixP => a b. rewrite !mxE tget_tgen //. exact: inb_mat. Qed.
Lemma bget_mat m s n k j (a : 'I_n) (b : 'I_k) : shp m = (s ++ n :: k :: nil)%list -> bget m (j ++ (a : nat) :: (b : nat) :: nil)%list = matrix_at n k m (bindex s j) a b.
Proof. move=> S. rewrite mxE /bget S bindex_rows //; exact: ltR. Qed.
Lemma bcast_matrices n a sb bs (f : list nat -> 'M[R]_n) : matrices_are a sb f -> bshape sb bs = Some bs ->
  exists r, bcast_to a (bs ++ n :: n :: nil)%list = Ok r /\ matrices_are r bs (fun j => f (bindex sb j)).
Proof.
move=> [W [S H]] B. rewrite bcast_to_ok; last by rewrite S bshape_mats B.
eexists. split; first by []. split; first exact: tgen_wf. split=> // j Hj. rewrite mat_at_tgen // -H; last exact: bindex_inb B Hj.
apply/matrixP => k l. by rewrite mxE (@bget_mat a sb n n j k l S).
Qed.
Lemma vectors_ext n a bs (f g : list nat -> 'cV[R]_n) : (forall j, inb bs j -> f j = g j) -> vectors_are a bs f -> vectors_are a bs g.
Proof. move=> E [W [S H]]. split=> //. split=> // j Hj. by rewrite H // E. Qed.
Lemma matrices_ext n a bs (f g : list nat -> 'M[R]_n) : (forall j, inb bs j -> f j = g j) -> matrices_are a bs f -> matrices_are a bs g.
Proof. move=> E [W [S H]]. split=> //. split=> // j Hj. by rewrite H // E. Qed.
Lemma tmap_vectors n a bs (f : list nat -> 'cV[R]_n) (h : R -> R) : vectors_are a bs f ->
  vectors_are (tmap h a) bs (fun j => (\col_i h (f j i ord0))%Ri).
Proof.
move=> [W [S H]]. split; first exact: tmap_wf. split=> // j Hj. apply/colP => k. rewrite -H // !mxE (tget_tmap 0 0) // S. exact: inb_snoc (ltR k).
Qed.
Lemma mat_at_mstack s n k (f : list nat -> 'M[R]_(n, k)) j : inb s j -> matrix_at n k (mstack s f) j = f j.
Proof.
move=> H; apply/matrixP => a b. rewrite /mstack mat_at_tgen // mxE.
have L := inb_length _ _ H. rewrite -L firstn_app PeanoNat.Nat.sub_diag /= app_nil_r firstn_all app_nth2 // PeanoNat.Nat.sub_diag /=.
rewrite app_nth2; last by lia. rewrite (_ : (S (length j) - length j)%coq_nat = 1%nat); last by lia. exact: mget_ord.
Qed.
Lemma diag_matrices_ok n a bs (f : list nat -> 'cV[R]_n) : vectors_are a bs f -> matrices_are (diag_matrices a) bs (fun j => diag_of (f j)).
Proof.
move=> [W [S H]]. split; first exact: tgen_wf. split; first by rewrite /diag_matrices S lead_app trail_app.
move=> j Hj. rewrite /diag_matrices S lead_app trail_app mat_at_mstack //. by rewrite -H.
Qed.
Lemma sum_sq_ok n a bs (f : list nat -> 'M[R]_n) : matrices_are a bs f ->
  vectors_are (sum_axis_last (tmap (fun x => x * x) a)) bs (fun j => (\col_i (f j *m (f j)^T) i i)%Ri).
Proof.
move=> [W [S H]]. rewrite /sum_axis_last. cbn [shp tmap]. rewrite S.
have E (s : shape) : (s ++ n :: n :: nil)%list = ((s ++ n :: nil) ++ n :: nil)%list by rewrite -app_assoc.
rewrite E lead_app trail_app. split; first exact: tgen_wf. split=> // j Hj. rewrite vec_at_tgen //. apply/colP => i. rewrite !mxE sumf_ord.
apply: eq_bigr => k _. rewrite -H // !mxE -app_assoc /=. rewrite (tget_tmap 0 0) // S. exact: inb_mat.
Qed.
Lemma row_slice_ok n a bs (f : list nat -> 'M[R]_n) (r : 'I_n) : matrices_are a bs f -> vectors_are (row_slice a r) bs (fun j => ((row r (f j))^T)%Ri).
Proof.
move=> [W [S H]]. rewrite /row_slice S mlead_app mcols_app. split; first exact: tgen_wf. split=> // j Hj. rewrite vec_at_tgen //.
apply/colP => k. rewrite -H // !mxE. have L := inb_length _ _ Hj.
by rewrite -L firstn_app PeanoNat.Nat.sub_diag /= app_nil_r firstn_all app_nth2 // PeanoNat.Nat.sub_diag.
Qed.
Lemma inb_snoc2_inv s idx n k : inb (s ++ n :: k :: nil)%list idx ->
  exists j (a : 'I_n) (b : 'I_k), idx = (j ++ (a : nat) :: (b : nat) :: nil)%list /\ inb s j.
Proof.
have -> : (s ++ n :: k :: nil)%list = ((s ++ n :: nil) ++ k :: nil)%list by rewrite -app_assoc.
move=> /inb_snoc_inv [i [b [-> [Hi Hb]]]]. have [j [a [-> [Hj Ha]]]] := inb_snoc_inv Hi.
exists j, (Ordinal (introT ltP Ha)), (Ordinal (introT ltP Hb)). by rewrite -app_assoc.
Qed.
Lemma split_idx (j : list nat) (a b : nat) : firstn (length j) (j ++ a :: b :: nil)%list = j /\
  List.nth (length j) (j ++ a :: b :: nil)%list 0%nat = a /\ List.nth (S (length j)) (j ++ a :: b :: nil)%list 0%nat = b.
Proof.
split; last split.
- by rewrite firstn_app PeanoNat.Nat.sub_diag /= app_nil_r firstn_all.
- by rewrite app_nth2 // PeanoNat.Nat.sub_diag.
- rewrite app_nth2; last by lia. by rewrite (_ : (S (length j) - length j)%coq_nat = 1%nat); last by lia.
Qed.
(** forward of an affine bijector on an array of vectors *)
Lemma affine_fwd b n bs A (c : list nat -> 'cV[R]_n) x xb s v : affine_bijector b bs A c -> bshape bs xb = Some s ->
  vectors_are x xb v -> exists y, b_fwd b x = Ok y /\ vectors_are y s (fun i => A (bindex bs i) *m v (bindex xb i) + c (bindex bs i))%Ri.
Proof.
move=> [Hf [_ [[M _] _]]] Hs [W [S H]]. have [y [ld [E [Wy [Sy [_ [_ Hy]]]]]]] := Hf x xb s W S Hs.
have [E' _] := M _ _ _ E. exists y. split=> //. split=> //. split=> // i Hi. have [-> _] := Hy i Hi. rewrite H //.
rewrite bshape_comm in Hs. exact: bindex_inb Hs Hi.
Qed.
Lemma affine_inv b n bs A (c : list nat -> 'cV[R]_n) x xb s v : affine_bijector b bs A c -> bshape bs xb = Some s ->
  vectors_are x xb v -> exists y, b_inv b x = Ok y /\
    vectors_are y s (fun i => invmx (A (bindex bs i)) *m v (bindex xb i) - (invmx (A (bindex bs i)) *m c (bindex bs i)))%Ri.
Proof.
move=> [_ [Hf [[_ M] _]]] Hs [W [S H]]. have [y [ld [E [Wy [Sy [_ [_ Hy]]]]]]] := Hf x xb s W S Hs.
have [E' _] := M _ _ _ E. exists y. split=> //. split=> //. split=> // i Hi. have [-> _] := Hy i Hi. rewrite H //.
rewrite bshape_comm in Hs. exact: bindex_inb Hs Hi.
Qed.
Lemma row_slice_shape n a bs r : shp a = (bs ++ n :: n :: nil)%list -> vectors_are (row_slice a r) bs (fun j => vector_at n (row_slice a r) j).
Proof. move=> S. rewrite /row_slice S mlead_app mcols_app. split; first exact: tgen_wf. by []. Qed.
Lemma vmap_rows_ok b n bs A a (f : list nat -> 'M[R]_n) : affine_bijector b bs A (fun _ => 0%Ri) -> matrices_are a bs f ->
  exists y, vmap_rows (b_fwd b) a = Ok y /\ matrices_are y bs (fun j => f j *m (A j)^T)%Ri.
Proof.
move=> HA HM. have [W [S H]] := HM.
have [y0 [E0 [W0 [S0 H0]]]] := affine_fwd HA (bshape_refl bs) (row_slice_shape 0 S).
rewrite /vmap_rows E0. cbn [rbind]. rewrite S0 S lead_app trail_app mrows_app.
eexists. split; first by []. split; first exact: tgen_wf. split=> // j Hj. rewrite mat_at_tgen //. apply/matrixP => r k. rewrite mxE.
have L := inb_length _ _ Hj. rewrite -L. have [-> [-> ->]] := split_idx j r k.
have [y [E [Wy [Sy Hy]]]] := affine_fwd HA (bshape_refl bs) (row_slice_ok r HM).
rewrite E /=. have := Hy j Hj. rewrite bindex_refl // addr0 => /colP /(_ k). rewrite mxE => ->.
rewrite !mxE. apply: eq_bigr => l _. by rewrite !mxE mulrC.
Qed.

(** ** Mapping over the leading axis *)
Lemma vmap_ok (f : arr -> result arr) x k s s' (g : nat -> arr) : (0 < k)%coq_nat -> shp x = (k :: s)%list ->
  (forall i, (i < k)%coq_nat -> f (trow i x) = Ok (g i) /\ wf (g i) /\ shp (g i) = s') ->
  exists y, vmap f x = Ok y /\ wf y /\ shp y = (k :: s')%list /\ forall i, (i < k)%coq_nat -> trow i y = g i.
Proof.
move=> Hk S H. rewrite /vmap /lead_size S. cbn [hd].
have E : rmapM (fun i => f (trow i x)) (List.seq 0 k) = Ok (List.map g (List.seq 0 k)).
{ apply: (rmapM_of_nth _ _ _ 0%nat (g 0%nat)); first by rewrite map_length.
  move=> i. rewrite seq_length => Hi. rewrite map_nth seq_nth //. by have [-> _] := H i Hi. }
rewrite E. cbn [rbind].
have HS : forall u, List.In u (List.map g (List.seq 0 k)) -> shp u = s'.
{ move=> u /in_map_iff [i [<- /in_seq Hi]]. by have [_ [_ ->]] := H i ltac:(lia). }
have HW : forall u, List.In u (List.map g (List.seq 0 k)) -> wf u.
{ move=> u /in_map_iff [i [<- /in_seq Hi]]. by have [_ [? _]] := H i ltac:(lia). }
have NE : List.map g (List.seq 0 k) <> nil by case: (k) Hk => //; lia.
have ET := tstack_ok _ _ NE HS.
have [s0 [Sy [Wy [Hs [_ HR]]]]] := tstack_inv _ _ ET HW.
eexists. split; first exact: ET. split=> //. split; first by rewrite /= map_length seq_length.
move=> i Hi. rewrite (HR i (g 0%nat)); last by rewrite map_length seq_length. by rewrite map_nth seq_nth.
Qed.
Lemma vmap_pair_ok (f : arr -> result (arr * arr)) x k s s1 s2 (g h : nat -> arr) : (0 < k)%coq_nat -> shp x = (k :: s)%list ->
  (forall i, (i < k)%coq_nat -> f (trow i x) = Ok (g i, h i) /\ (wf (g i) /\ shp (g i) = s1) /\ (wf (h i) /\ shp (h i) = s2)) ->
  exists y l, vmap_pair f x = Ok (y, l) /\ (wf y /\ shp y = (k :: s1)%list /\ forall i, (i < k)%coq_nat -> trow i y = g i) /\
    (wf l /\ shp l = (k :: s2)%list /\ forall i, (i < k)%coq_nat -> trow i l = h i).
Proof.
move=> Hk S H. rewrite /vmap_pair /lead_size S. cbn [hd].
have E : rmapM (fun i => f (trow i x)) (List.seq 0 k) = Ok (List.map (fun i => (g i, h i)) (List.seq 0 k)).
{ apply: (rmapM_of_nth _ _ _ 0%nat (g 0%nat, h 0%nat)); first by rewrite map_length.
  move=> i. rewrite seq_length => Hi. rewrite (map_nth (fun i => (g i, h i)) _ 0%nat) seq_nth //. by have [-> _] := H i Hi. }
rewrite E. cbn [rbind]. rewrite !map_map. cbn [fst snd].
have [y [Ey Hy]] := @vmap_ok (fun z => rmap fst (f z)) x k s s1 g Hk S (fun i Hi => conj (f_equal (rmap fst) (proj1 (H i Hi))) (proj1 (proj2 (H i Hi)))).
have [l [El Hl]] := @vmap_ok (fun z => rmap snd (f z)) x k s s2 h Hk S (fun i Hi => conj (f_equal (rmap snd) (proj1 (H i Hi))) (proj2 (proj2 (H i Hi)))).
move: Ey El. rewrite /vmap /lead_size S. cbn [hd].
have E1 : rmapM (fun i => rmap fst (f (trow i x))) (List.seq 0 k) = Ok (List.map g (List.seq 0 k)).
{ apply: (rmapM_of_nth _ _ _ 0%nat (g 0%nat)); first by rewrite map_length.
  move=> i. rewrite seq_length => Hi. rewrite map_nth seq_nth //. by have [-> _] := H i Hi. }
have E2 : rmapM (fun i => rmap snd (f (trow i x))) (List.seq 0 k) = Ok (List.map h (List.seq 0 k)).
{ apply: (rmapM_of_nth _ _ _ 0%nat (h 0%nat)); first by rewrite map_length.
  move=> i. rewrite seq_length => Hi. rewrite map_nth seq_nth //. by have [-> _] := H i Hi. }
rewrite E1 E2. cbn [rbind]. move=> -> ->. cbn [rbind]. by exists y, l.
Qed.
Lemma vmap2_ok (f : tensor XR -> tensor XR -> result (tensor XR)) x x' k s t s' (g : nat -> tensor XR) : (0 < k)%coq_nat ->
  shp x = (k :: s)%list -> shp x' = (k :: t)%list ->
  (forall i, (i < k)%coq_nat -> f (trow i x) (trow i x') = Ok (g i) /\ wf (g i) /\ shp (g i) = s') ->
  exists y, vmap2 f x x' = Ok y /\ wf y /\ shp y = (k :: s')%list /\ forall i, (i < k)%coq_nat -> trow i y = g i.
Proof.
move=> Hk S S' H. rewrite /vmap2 /lead_size S S'. cbn [hd]. rewrite Nat.eqb_refl.
have E : rmapM (fun i => f (trow i x) (trow i x')) (List.seq 0 k) = Ok (List.map g (List.seq 0 k)).
{ apply: (rmapM_of_nth _ _ _ 0%nat (g 0%nat)); first by rewrite map_length.
  move=> i. rewrite seq_length => Hi. rewrite map_nth seq_nth //. by have [-> _] := H i Hi. }
rewrite E. cbn [rbind].
have HS : forall u, List.In u (List.map g (List.seq 0 k)) -> shp u = s'.
{ move=> u /in_map_iff [i [<- /in_seq Hi]]. by have [_ [_ ->]] := H i ltac:(lia). }
have HW : forall u, List.In u (List.map g (List.seq 0 k)) -> wf u.
{ move=> u /in_map_iff [i [<- /in_seq Hi]]. by have [_ [? _]] := H i ltac:(lia). }
have NE : List.map g (List.seq 0 k) <> nil by case: (k) Hk => //; lia.
have ET := tstack_ok _ _ NE HS.
have [s0 [Sy [Wy [Hs [_ HR]]]]] := tstack_inv _ _ ET HW.
eexists. split; first exact: ET. split=> //. split; first by rewrite /= map_length seq_length.
move=> i Hi. rewrite (HR i (g 0%nat)); last by rewrite map_length seq_length. by rewrite map_nth seq_nth.
Qed.

(** ** MultivariateNormalFromBijector *)
Lemma lift2_fin (h : R -> R -> R) (g : XR -> XR -> XR) (a : tensor XR) (b : arr) s fa fb :
  (forall x y, g (Fin x) (Fin y) = Fin (h x y)) ->
  holds a s (fun i => Fin (fa i)) -> wf b -> shp b = s -> (forall i, inb s i -> tget 0 b i = fb i) ->
  exists r, lift2 g a (tmap Fin b) = Ok r /\ holds r s (fun i => Fin (h (fa i) (fb i))).
Proof.
move=> G [Wa [Sa Ha]] Wb Sb Hb.
have := @lift2_stat g a (tmap Fin b) s. case; first by cbn [shp tmap]; rewrite Sa Sb bshape_refl.
move=> r [Er [Wr [Sr Hr]]]. exists r. split=> //. split=> //. split=> // i Hi. rewrite Hr //.
rewrite xget_same ?Sa // Ha // (@xget_fin b s) ?Sb ?bshape_refl // bget_inb ?Sb // Hb //.
Qed.
Lemma vector_at_row n (y : arr) k bs i b : wf y -> shp y = (k :: bs ++ n :: nil)%list -> (i < k)%coq_nat -> inb bs b ->
  vector_at n (trow i y) b = vector_at n y (i :: b).
Proof.
move=> W S Hi Hb. apply/colP => l. rewrite !mxE. rewrite (trow_get _ _ _ _ _ _ W S Hi) //. exact: inb_snoc (ltR l).
Qed.
Lemma ln_density_push n (A : 'M[R]_n) (m x : 'cV[R]_n) : (\det A)%Ri <> 0 ->
  ln (mvn_density m (A *m A^T)%Ri x) = ln (std_n (invmx A *m (x - m))%Ri) - ln (Rabs (\det A)%Ri).
Proof.
move=> D. rewrite density_push; last exact: det_unit. rewrite /Rdiv ln_mult; [|exact: std_n_gt0|by apply: Rinv_0_lt_compat; exact: Rabs_pos_lt].
rewrite ln_Rinv //. exact: Rabs_pos_lt.
Qed.
Lemma ln_pow_n x n : 0 < x -> ln (x ^ n) = INR n * ln x.
Proof. move=> H. by rewrite -Rpower_pow // /Rpower ln_exp. Qed.
Lemma entropy_eq n (A : 'M[R]_n) : (\det A)%Ri <> 0 ->
  INR n * (1 / 2 + 1 / 2 * ln (2 * PI)) + ln (Rabs (\det A)%Ri) = 1 / 2 * ln ((2 * PI * exp 1) ^ n * (\det (A *m A^T))%Ri).
Proof.
move=> D. have HD := Rabs_pos_lt _ D. have P := two_pi_gt0. have P1 := exp_pos 1.
have E : (\det A)%Ri * (\det A)%Ri = Rabs (\det A)%Ri * Rabs (\det A)%Ri by exact: Rsqr_abs.
rewrite det_gram E.
have Q : 0 < (2 * PI * exp 1) ^ n by apply: pow_lt; exact: Rmult_lt_0_compat.
rewrite (ln_mult ((2 * PI * exp 1) ^ n)) //; last exact: Rmult_lt_0_compat.
rewrite ln_pow_n; last exact: Rmult_lt_0_compat. rewrite (ln_mult (2 * PI) (exp 1)) // ln_exp (ln_mult (Rabs _)) //. field.
Qed.

Section Law.
Context {K : Type}.
Variable rng : K -> shape -> arr.
Lemma mvn_init_ok loc lb n sc sb (A : list nat -> 'M[R]_n) bs :
  wf loc -> shp loc = (lb ++ n :: nil)%list -> linear_scale sc sb A -> bshape sb lb = Some bs ->
  let m j := vector_at n loc (bindex lb j) in
  let S j := A (bindex sb j) in
  let C j := (S j *m (S j)^T)%Ri in
  exists d, mvn_init rng loc sc = Ok d /\ v_loc d = loc /\ v_scale d = sc /\ is_normal_law d bs m C /\
    has_covariance (mvn_covariance d) (mvn_variance d) (mvn_stddev d) bs C /\ (proper_rng rng -> samples_affinely rng d bs m S).
Proof.
move=> Wl Sl HL Hb m S C.
have [HA [Hd [Hsb [HM [HD Hdiag]]]]] := HL.
have [sh [blk [c [Esh [Eblk [Ec [Hc Dc]]]]]]] := mvn_chain_ok Wl Sl HL Hb.
have [base [Eb [Bb [Be [Blp [[h [Eh Hh]] Bs]]]]]] := std_base_ok rng bs n.
have [Cf [Ci [Cm [Cin [Cout [Ccj Ccl]]]]]] := Hc.
rewrite /mvn_init /rank Sl ltb1 Hd trail_app Nat.eqb_refl. cbn [negb]. cbv zeta. rewrite lead_app Hsb /bcast_shapes Hb. cbn [rbind]. rewrite Eb. cbn [rbind].
rewrite Esh. cbn [rbind]. rewrite Eblk. cbn [rbind]. rewrite Ec. cbn [rbind].
rewrite /transformed_check Be Cin. cbn [length Z.of_nat Pos.of_succ_nat Z.eqb Pos.eqb rbind].
eexists. split; first by []. cbn [v_loc v_scale]. do 2!split=> //.
set d := mkMvn _ _ _ _ _.
have Hsb' := bshape_absorb_l _ _ _ Hb. have Hlb' := bshape_absorb_r _ _ _ Hb.
have VL : vectors_are loc lb (fun j => vector_at n loc j) by [].
have [l [El Hl]] := bcast_vectors VL Hlb'.
(* log_prob *)
have LP : forall x xb s, wf x -> shp x = (xb ++ n :: nil)%list -> bshape bs xb = Some s ->
     exists r, transformed_log_prob base c x = Ok r /\
       holds r s (fun i => Fin (ln (mvn_density (m (bindex bs i)) (C (bindex bs i)) (vector_at n x (bindex xb i))))).
{ move=> x xb s Wx Sx Hs. have [z [ld [Ez [Wz [Sz [Wd [Sd Hz]]]]]]] := Ci x xb s Wx Sx Hs.
  rewrite /transformed_log_prob Ez. cbn [rbind].
  have Hss := bshape_absorb_l _ _ _ Hs.
  have [lp [Elp Hlp]] := Blp z s Wz Sz Hss. rewrite Elp. cbn [rbind].
  have [r [Er [Wr [Sr Hr]]]] := @lift2_fin Rplus xadd lp ld s _ _ (fun _ _ => erefl) Hlp Wd Sd (fun i Hi => proj2 (Hz i Hi)).
  exists r. split=> //. split=> //. split=> // i Hi. rewrite Hr //. have [-> _] := Hz i Hi. congr Fin.
  have Hj := bindex_inb _ _ _ _ Hs Hi.
  rewrite /C ln_density_push; last exact: Dc. rewrite mulmxBr. by []. }
split; [|split].
- do 4!split=> //. split; [exact: LP|]. split; last by exists l.
  cbn [v_dist d_entropy d]. rewrite /transformed_entropy Ccl Bb Eh. cbn [rbind].
  have [y [ld [Ey [_ [_ [Wd [Sd Hy]]]]]]] := Cf (tzeros (bs ++ n :: nil)%list) bs bs (tzeros_wf _) erefl (bshape_refl bs).
  have [_ ->] := proj1 Cm _ _ _ Ey. cbn [rbind].
  have [r [Er [Wr [Sr Hr]]]] := @lift2_fin Rplus xadd h ld bs _ _ (fun _ _ => erefl) Hh Wd Sd (fun i Hi => proj2 (Hy i Hi)).
  exists r. split=> //. split=> //. split=> // i Hi. rewrite Hr // (bindex_refl bs i) //. congr Fin. apply: entropy_eq. exact: Dc.
- (* covariance *)
  have VV : exists v, mvn_variance d = Ok v /\
             vectors_are v bs (fun j => (\col_i C j i i)%Ri).
  { rewrite /mvn_variance. cbn [v_scale v_batch v_dims d].
    have [v [Hv Ev]] : exists v, vectors_are v sb (fun j => (\col_i (A j *m (A j)^T) i i)%Ri) /\ v =
       match s_diag sc with Some diag => tmap (fun x => x * x) diag | None => sum_axis_last (tmap (fun x => x * x) (s_matrix sc)) end.
    { case Eq : (s_diag sc) Hdiag => [dg|] Hdg; last by eexists; split; [exact: sum_sq_ok HM|].
      eexists; split; last by []. move: Hdg => [Hdg Hoff]. apply: vectors_ext (tmap_vectors (fun x => x * x) Hdg) => j Hj.
      apply/colP => i. rewrite !mxE (bigD1 i) //= big1; last first.
      { move=> k Hk. rewrite mxE Hoff //; first by rewrite mul0r. move=> E. by rewrite E eqxx in Hk. }
      by rewrite addr0 mxE. }
    rewrite -Ev. have [r [Er Hr]] := bcast_vectors Hv Hsb'. exists r. split=> //. }
  have [v [Ev Hv]] := VV. split; [|split; last first].
  + rewrite /mvn_covariance /mvn_covariance_with Ev. cbn [v_scale v_batch v_dims d].
    case Eq : (s_diag sc) Hdiag => [dg|] Hdg.
    * move: Hdg => [Hdg Hoff]. cbn [rbind]. have [r [Er Hr]] := bcast_matrices (diag_matrices_ok Hv) (bshape_refl bs).
      exists r. split=> //. apply: matrices_ext Hr => j Hj. rewrite bindex_refl //. apply/matrixP => i k. rewrite /diag_of !mxE.
      case: (eqVneq i k) => [->|Hik]; first by rewrite mulr1n. rewrite mulr0n. symmetry. apply: big1 => o _. rewrite mxE.
      have Hj' := bindex_inb _ _ _ _ Hb Hj.
      case: (eqVneq i o) => [<-|Hil]; last by rewrite Hoff //; [by rewrite mul0r|move/eqP: Hil].
      rewrite (Hoff _ k i) //; first by rewrite mulr0. move=> E; by rewrite E eqxx in Hik.
    * have [y [Ey Hy]] := vmap_rows_ok HA HM. rewrite Ey. cbn [rbind].
      have [r [Er Hr]] := bcast_matrices Hy Hsb'. by exists r.
  + rewrite /mvn_stddev /mvn_stddev_with Ev. cbn [v_scale v_batch v_dims d].
    case Eq : (s_diag sc) Hdiag => [dg|] Hdg.
    * move: Hdg => [Hdg Hoff]. cbn [rbind]. have [r [Er Hr]] := bcast_vectors (tmap_vectors Rabs Hdg) Hsb'.
      exists r. split=> //. apply: vectors_ext Hr => j Hj. apply/colP => i. rewrite !mxE (bigD1 i) //= big1; last first.
      { move=> k Hk. rewrite mxE Hoff //; [by rewrite mul0r|by exact: bindex_inb Hb Hj|]. move=> E. by rewrite E eqxx in Hk. }
      rewrite addr0 mxE. by rewrite -sqrt_Rsqr_abs.
    * cbn [rbind]. have [r [Er Hr]] := bcast_vectors (tmap_vectors sqrt Hv) (bshape_refl bs).
      exists r. split=> //. apply: vectors_ext Hr => j Hj. apply/colP => i. by rewrite bindex_refl // !mxE.
  + by exists v.
- (* samples *)
  move=> HR key k Hk. have [Esam [lp [Esalp [Wlp [Slp Hlp]]]]] := Bs HR key k.
  cbn [v_dist d_sample_n d_salp d_log_prob d]. have [Wz Sz] := HR key (k :: bs ++ n :: nil)%list.
  set z := rng key (k :: bs ++ n :: nil)%list in Wz Sz Esam Esalp Hlp *.
  pose g i := match b_fal c (trow i z) with Ok (y, _) => y | Err _ => z end.
  pose q i := match b_fal c (trow i z) with Ok (_, l) => l | Err _ => z end.
  have Row : forall i, (i < k)%coq_nat -> b_fal c (trow i z) = Ok (g i, q i) /\ (wf (g i) /\ shp (g i) = (bs ++ n :: nil)%list) /\ (wf (q i) /\ shp (q i) = bs) /\
    forall b, inb bs b -> vector_at n (g i) b = (S b *m vector_at n z (i :: b) + m b)%Ri /\ tget 0 (q i) b = ln (Rabs (\det (S b))%Ri).
  { move=> i Hi. have [y [ld [Ey [Wy [Sy [Wd [Sd Hy]]]]]]] := Cf (trow i z) bs bs (trow_wf _ _ _ _ Wz Sz Hi) (trow_shp _ _ _ i Sz) (bshape_refl bs).
    rewrite /g /q Ey. do 3!split=> //. move=> b Hb'. have := Hy b Hb'. rewrite (bindex_refl bs b) //. rewrite (vector_at_row Wz Sz Hi Hb'). by []. }
  have [y [Ey [Wy [Sy Ry]]]] := @vmap_ok (b_fwd c) z k (bs ++ n :: nil)%list (bs ++ n :: nil)%list g Hk Sz
     (fun i Hi => conj (proj1 (proj1 Cm _ _ _ (proj1 (Row i Hi)))) (proj1 (proj2 (Row i Hi)))).
  have [y' [l' [Ep [[Wy' [Sy' Ry']] [Wl' [Sl' Rl']]]]]] := @vmap_pair_ok (b_fal c) z k (bs ++ n :: nil)%list (bs ++ n :: nil)%list bs g q Hk Sz
     (fun i Hi => conj (proj1 (Row i Hi)) (conj (proj1 (proj2 (Row i Hi))) (proj1 (proj2 (proj2 (Row i Hi)))))).
  have Eyy : y' = y. { apply: (row_ext _ _ _ _ Wy' Wy Sy' Sy Hk) => i Hi. by rewrite Ry // Ry'. } subst y'.
  have VY : vectors_are y (k :: bs) (fun ib => (m (tail ib) + S (tail ib) *m vector_at n z ib)%Ri).
  { split=> //. split=> // ib Hib. case: ib Hib => [|i b] Hib; first by inversion Hib. move/inb_cons: Hib => [Hi Hb']. cbn [List.tl].
    rewrite -(vector_at_row Wy Sy Hi Hb') Ry //. have [_ [_ [_ H4]]] := Row i Hi. have [-> _] := H4 b Hb'. by rewrite addrC. }
  have Wlf : wf (tmap Fin l') by exact: tmap_wf.
  have Step : forall i, (i < k)%coq_nat -> exists r, lift2 xsub (trow i lp) (trow i (tmap Fin l')) = Ok r /\
     holds r bs (fun b => Fin (ln (std_n (vector_at n z (i :: b))) - ln (Rabs (\det (S b))%Ri))).
  { move=> i Hi. have E : trow i (tmap Fin l') = tmap Fin (q i).
    { rewrite -Rl' // /trow /tmap. cbn [shp dat]. by rewrite skipn_map firstn_map. }
    rewrite E. have [_ [_ [[Wq Sq] H4]]] := Row i Hi.
    apply: (@lift2_fin Rminus xsub _ (q i) bs (fun b => ln (std_n (vector_at n z (i :: b)))) _ (fun _ _ => erefl)) => //; last by move=> b Hb'; have [_ ->] := H4 b Hb'.
    split; first exact: trow_wf Wlp Slp Hi. split; first exact: trow_shp Slp. move=> b Hb'. rewrite (trow_get _ _ _ _ _ _ Wlp Slp Hi Hb') Hlp //. by apply/inb_cons. }
  pose w i := match lift2 xsub (trow i lp) (trow i (tmap Fin l')) with Ok r => r | Err _ => lp end.
  have Hw : forall i, (i < k)%coq_nat -> lift2 xsub (trow i lp) (trow i (tmap Fin l')) = Ok (w i) /\
     holds (w i) bs (fun b => Fin (ln (std_n (vector_at n z (i :: b))) - ln (Rabs (\det (S b))%Ri))).
  { move=> i Hi. have [r [Er Hr]] := Step i Hi. by rewrite /w Er. }
  have [r [Er [Wr [Sr Rr]]]] := @vmap2_ok (lift2 xsub) lp (tmap Fin l') k bs bs bs w Hk Slp Sl'
    (fun i Hi => conj (proj1 (Hw i Hi)) (conj (proj1 (proj2 (Hw i Hi))) (proj1 (proj2 (proj2 (Hw i Hi)))))).
  exists y, r. rewrite /transformed_sample_n Esam. cbn [rbind]. rewrite Ey. split=> //.
  rewrite /transformed_salp Esalp. cbn [rbind]. rewrite Ep. cbn [rbind]. rewrite Er. cbn [rbind]. split=> //. split=> //.
  have Hbk : bshape bs (k :: bs)%list = Some (k :: bs)%list by exact: bshape_lead.
  have [r' [Er' [Wr' [Sr' Hr']]]] := LP y (k :: bs)%list (k :: bs)%list Wy Sy Hbk. rewrite Er'. congr Ok.
  apply: (tensor_ext (Fin 0)) => //; first by rewrite Sr' Sr. move=> ib. rewrite Sr' => Hib. rewrite Hr' //.
  case: ib Hib => [|i b] Hib; first by inversion Hib. have [Hi Hb'] := proj1 (inb_cons _ _ _ _) Hib.
  rewrite bindex_lead // bindex_refl // -(trow_get (Fin 0) _ _ _ _ _ Wr Sr Hi Hb') Rr //. have [_ [_ [_ ->]]] := Hw i Hi => //. congr Fin.
  have [_ [_ H5]] := VY. rewrite H5 //. cbn [List.tl].
  have DS : (\det (S b))%Ri <> 0 by exact: Dc.
  rewrite /C ln_density_push // addrC addKr mulKmx //. exact: det_unit.
Qed.
End Law.

(** ** The scale bijectors *)
Lemma diag_scale_ok n a db (f : list nat -> 'cV[R]_n) : vectors_are a db f -> (forall j i, inb db j -> f j i ord0 <> 0) ->
  exists sc, diag_scale a = Ok sc /\ linear_scale sc db (fun j => diag_of (f j)) /\ s_diag sc = Some a.
Proof.
move=> HV Hn. have [W [S H]] := HV.
have [b Eb] : exists b, diag_linear_init a = Ok b.
{ have := proj2 (diag_ctor a). rewrite S. case: (diag_linear_init a) => [b _|e]; first by exists b. move=> E. have : (db ++ n :: nil)%list <> nil by case: (db). by move/E. }
have Hn' : forall j, inb db j -> forall i, vector_at n a j i ord0 <> 0 by move=> j Hj i; rewrite H //; exact: Hn.
have HA := diag_linear_ok W S Eb Hn'.
rewrite /diag_scale Eb. cbn [rbind]. rewrite S trail_app lead_app. eexists. split; first by []. split; last by [].
split; [|split; [by []|split; [by []|split; [|split]]]].
- apply: affine_bijector_ext HA => j Hj. by rewrite H.
- exact: diag_matrices_ok.
- move=> j Hj. rewrite det_diag_of. apply: prod_neq0 => i. exact: Hn.
- cbn [s_diag]. split; first by apply: vectors_ext HV => j Hj; apply/colP => i; rewrite !mxE eqxx mulr1n.
  move=> j i k Hj Hik. rewrite !mxE. case: eqVneq => [E|_]; first by []. by rewrite mulr0n.
Qed.
Lemma triangular_scale_ok n a tb (T : list nat -> 'M[R]_n) lo : matrices_are a tb T -> (forall j i, inb tb j -> T j i i <> 0) ->
  exists sc, triangular_scale a lo = Ok sc /\ linear_scale sc tb (fun j => tri_of lo (T j)) /\ s_diag sc = None.
Proof.
move=> HV Hn. have [W [S H]] := HV.
have [p Ep] : exists p, triangular_linear_init a lo = Ok p.
{ have := proj2 (proj1 (triangular_ctor a lo)). case: (triangular_linear_init a lo) => [p _|e]; first by exists p. move=> E. have : exists n, square_matrix a n by exists n, tb. by move/E. }
case: p Ep => [mat b] Ep.
have Hn' : forall j, inb tb j -> forall i, matrix_at n n a j i i <> 0 by move=> j Hj i; rewrite H //; exact: Hn.
have [HA [Sm [Wm Hm]]] := triangular_linear_ok S Ep Hn'.
rewrite /triangular_scale Ep. cbn [rbind]. rewrite S mlead_app mcols_app. eexists. split; first by []. split; last by [].
split; [|split; [by []|split; [by []|split; [|split]]]].
- apply: affine_bijector_ext HA => j Hj. by rewrite H.
- split=> //. split; first by rewrite Sm. move=> j Hj. by rewrite Hm // H.
- move=> j Hj. rewrite det_tri_of. apply: prod_neq0 => i. exact: Hn.
- by [].
Qed.
Lemma dplr_scale_ok n k a u v db ub vb bs1 bs (f : list nat -> 'cV[R]_n) :
  vectors_are a db f -> shp u = (ub ++ n :: k :: nil)%list -> shp v = (vb ++ n :: k :: nil)%list ->
  bshape db ub = Some bs1 -> bshape bs1 vb = Some bs ->
  (forall j i, inb db j -> f j i ord0 <> 0) ->
  let A j := (diag_of (f (bindex db j)) + matrix_at n k u (bindex ub j) *m (matrix_at n k v (bindex vb j))^T)%Ri in
  (forall j, inb bs j -> (\det (A j))%Ri <> 0) ->
  exists sc, diag_plus_low_rank_scale a u v = Ok sc /\ linear_scale sc bs A /\ s_diag sc = None.
Proof.
move=> HV Su Sv Hb1 Hb Hn A HD. have [W [S H]] := HV.
have [b Eb] : exists b, diag_plus_low_rank_init a u v = Ok b.
{ have := proj2 (proj1 (low_rank_ctor a u v)). case: (diag_plus_low_rank_init a u v) => [p _|e]; first by exists p. move=> E.
  have /E : exists n k db ub vb bs1 bs, shp a = (db ++ n :: nil)%list /\ shp u = (ub ++ n :: k :: nil)%list /\ shp v = (vb ++ n :: k :: nil)%list /\
     bshape db ub = Some bs1 /\ bshape bs1 vb = Some bs by exists n, k, db, ub, vb, bs1, bs. by []. }
have Jd : forall j, inb bs j -> inb db (bindex db j).
{ move=> j Hj. rewrite -(bindex_bindex _ _ _ j Hb1). apply: bindex_inb Hb1 _. exact: bindex_inb Hb Hj. }
have Hn' : forall j, inb db j -> forall i, vector_at n a j i ord0 <> 0 by move=> j Hj i; rewrite H //; exact: Hn.
have EA : forall j, inb bs j -> (diag_of (vector_at n a (bindex db j)) + matrix_at n k u (bindex ub j) *m (matrix_at n k v (bindex vb j))^T = A j)%Ri.
{ move=> j Hj. rewrite /A H //. exact: Jd. }
have HA : affine_bijector b bs (fun j => diag_of (vector_at n a (bindex db j)) + matrix_at n k u (bindex ub j) *m (matrix_at n k v (bindex vb j))^T)%Ri (fun _ => 0%Ri).
{ apply: (diag_plus_low_rank_ok W S Su Sv Hb1 Hb Hn') Eb. move=> j Hj. rewrite EA //. exact: HD. }
rewrite /diag_plus_low_rank_scale Eb. cbn [rbind]. rewrite S Su Sv lead_app trail_app !mlead_app mcols_app /bcast_shapes Hb1. cbn [rbind]. rewrite Hb. cbn [rbind].
eexists. split; first by []. split; last by [].
split; [|split; [by []|split; [by []|split; [|split]]]] => //.
- by apply: affine_bijector_ext HA => j Hj; rewrite EA.
- split; first exact: tgen_wf. split=> // j Hj. rewrite mat_at_mstack // -EA //.
Qed.

(** ** Defaults *)
Lemma zeros_vectors n : vectors_are (tzeros (n :: nil)) nil (fun _ => 0 : 'cV[R]_n)%Ri.
Proof.
split; first exact: tgen_wf. split=> // j Hj. have -> := inb_nil_inv _ Hj. apply/colP => i. rewrite !mxE /tzeros tget_tgen //.
by constructor; [exact: ltR|constructor].
Qed.
Lemma ones_vectors n : vectors_are (tones (n :: nil)) nil (fun _ => const_mx 1 : 'cV[R]_n)%Ri.
Proof.
split; first exact: tgen_wf. split=> // j Hj. have -> := inb_nil_inv _ Hj. apply/colP => i. rewrite !mxE /tones tget_tgen //.
by constructor; [exact: ltR|constructor].
Qed.
Lemma eye_matrices n : matrices_are (teye n) nil (fun _ => 1%:M : 'M[R]_n)%Ri.
Proof.
split; first exact: tgen_wf. split=> // j Hj. have -> := inb_nil_inv _ Hj. apply/matrixP => i k. rewrite !mxE /teye tget_tgen.
- cbn [List.nth List.app]. case: (eqVneq i k) => [->|H]; first by rewrite Nat.eqb_refl.
  case: PeanoNat.Nat.eqb_spec => // E. by rewrite (ord_inj E) eqxx in H.
- do 2!(constructor; first exact: ltR). constructor.
Qed.
Lemma vector_arg_get n a (d : 'cV[R]_n) bs f (dflt : arr) : vector_arg a d bs f -> vectors_are dflt nil (fun _ => d) ->
  vectors_are (match a with Some a => a | None => dflt end) bs f.
Proof. case: a => [a|] //= [-> E] H. apply: vectors_ext H => j _. by rewrite E. Qed.
Lemma matrix_arg_get n a (d : 'M[R]_n) bs f (dflt : arr) : matrix_arg a d bs f -> matrices_are dflt nil (fun _ => d) ->
  matrices_are (match a with Some a => a | None => dflt end) bs f.
Proof. case: a => [a|] //= [-> E] H. apply: matrices_ext H => j _. by rewrite E. Qed.
Lemma diag_of_ones n : diag_of (const_mx 1 : 'cV[R]_n)%Ri = 1%:M%Ri.
Proof. apply/matrixP => i k. by rewrite !mxE. Qed.
Lemma tri_of_1 lo n : tri_of lo (1%:M : 'M[R]_n)%Ri = 1%:M%Ri.
Proof.
case: lo; apply/matrixP => i k; rewrite !mxE.
- case: (leqP k i) => // H. case: eqVneq => // E. by rewrite E ltnn in H.
- case: (leqP i k) => // H. case: eqVneq => // E. by rewrite E ltnn in H.
Qed.
Lemma tri_of_idem lo n (T : 'M[R]_n) : tri_of lo (tri_of lo T) = tri_of lo T.
Proof. case: lo; apply/matrixP => i k; rewrite !mxE; by case: leq. Qed.
Lemma law_ext K (d : mvn (K := K)) n bs (m m' : list nat -> 'cV[R]_n) C C' : (forall j, inb bs j -> m j = m' j /\ C j = C' j) ->
  is_normal_law d bs m C -> is_normal_law d bs m' C'.
Proof.
move=> E [H1 [H2 [H3 [H4 [H5 [[h [Eh [Wh [Sh Hh]]]] [l [L1 [L2 [L3 [L4 [L5 L6]]]]]]]]]]]]. do 4!split=> //. split; [|split].
- move=> x xb s Wx Sx Hs. have [r [Er [Wr [Sr Hr]]]] := H5 x xb s Wx Sx Hs. exists r. split=> //. split=> //. split=> // i Hi.
  have [<- <-] := E _ (bindex_inb _ _ _ _ Hs Hi). exact: Hr.
- exists h. split=> //. split=> //. split=> // b Hb. have [_ <-] := E b Hb. exact: Hh.
- exists l. do 5!split=> //. apply: vectors_ext L6 => j Hj. by have [-> _] := E j Hj.
Qed.
Lemma cov_ext cov var std n bs (C C' : list nat -> 'M[R]_n) : (forall j, inb bs j -> C j = C' j) ->
  has_covariance cov var std bs C -> has_covariance cov var std bs C'.
Proof.
move=> E [[c [Ec Hc]] [[v [Ev Hv]] [s [Es Hs]]]]. split; [|split].
- exists c. split=> //. exact: matrices_ext E Hc.
- exists v. split=> //. apply: vectors_ext Hv => j Hj. by rewrite E.
- exists s. split=> //. apply: vectors_ext Hs => j Hj. by rewrite E.
Qed.
Lemma samples_ext K rng (d : mvn (K := K)) n bs (m m' : list nat -> 'cV[R]_n) C C' : (forall j, inb bs j -> m j = m' j /\ C j = C' j) ->
  samples_affinely rng d bs m C -> samples_affinely rng d bs m' C'.
Proof.
move=> E H key k Hk. have [y [r [E1 [E2 [E3 V]]]]] := H key k Hk. exists y, r. do 3!split=> //. apply: vectors_ext V => ib Hib.
case: ib Hib => [|i b] Hib; first by inversion Hib. have [_ Hb] := proj1 (inb_cons _ _ _ _) Hib. cbn [List.tl]. by have [-> ->] := E b Hb.
Qed.
