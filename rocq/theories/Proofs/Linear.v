(** Proofs about the linear bijectors. *)
From mathcomp Require Import all_ssreflect all_algebra.
From Coq Require Import Reals List ZArith Lra Lia.
From Verif Require Import Base.Result Base.Sums Base.Tensor Model.Bijector Model.ScalarBij Model.Linear
  Spec.Bijector Spec.Jacobian Spec.Linear Proofs.Bijector Proofs.Block Proofs.ScalarBij Proofs.Jacobian Base.Rmx.
Set Implicit Arguments.
Unset Strict Implicit.
Unset Printing Implicit Defensive.
Import GRing.Theory.
Delimit Scope ring_scope with Ri.
Delimit Scope R_scope with R.
Local Open Scope R_scope.

(** ** Shapes *)
Lemma lead_app s n : lead (s ++ n :: nil)%list = s.
Proof. exact: removelast_last. Qed.
Lemma trail_app s n : trail (s ++ n :: nil)%list = n.
Proof. exact: last_last. Qed.
Lemma bshape_snoc s1 s2 n : bshape (s1 ++ n :: nil)%list (s2 ++ n :: nil)%list = option_map (fun s => s ++ n :: nil)%list (bshape s1 s2).
Proof.
rewrite /bshape !rev_app_distr /= /bdim Nat.eqb_refl.
by case: (bshape_rev (rev s1) (rev s2)).
Qed.
Lemma bindex_snoc s i n k : (k < n)%coq_nat -> bindex (s ++ n :: nil)%list (i ++ k :: nil)%list = (bindex s i ++ k :: nil)%list.
Proof.
move=> H. rewrite /bindex !rev_app_distr /=. congr (_ ++ _ :: nil)%list. case: (Nat.eqb_spec n 1) => // E. lia.
Qed.
Lemma inb_snoc s i n k : inb s i -> (k < n)%coq_nat -> inb (s ++ n :: nil)%list (i ++ k :: nil)%list.
Proof. move=> H Hk; apply: inb_app => //. by constructor. Qed.
Lemma inb_snoc_inv s idx n : inb (s ++ n :: nil)%list idx -> exists i k, idx = (i ++ k :: nil)%list /\ inb s i /\ (k < n)%coq_nat.
Proof.
move=> /inb_app_inv [i1 [i2 [-> [H1 H2]]]]. inversion H2 as [|k m l l' Hk Hl]; subst.
inversion Hl; subst. by exists i1, k.
Qed.
Lemma ltR n (i : 'I_n) : (i < n)%coq_nat. Proof. exact/ltP. Qed.

Lemma vget_ord n (v : 'cV[R]_n) (i : 'I_n) : vget v i = v i ord0.
Proof. by rewrite /vget insubT //= => p; congr (v _ _); apply: val_inj. Qed.
Lemma vget_lt n (v : 'cV[R]_n) i (H : leq i.+1 n) : vget v i = v (Ordinal H) ord0.
Proof. exact: (vget_ord v (Ordinal H)). Qed.
Lemma mget_ord n k (v : 'M[R]_(n,k)) (i : 'I_n) (j : 'I_k) : mget v i j = v i j.
Proof. rewrite /mget insubT //= => p. rewrite insubT //= => q; congr (v _ _); exact: val_inj. Qed.

Lemma vstack_wf s n (f : list nat -> 'cV[R]_n) : wf (vstack s f). Proof. exact: tgen_wf. Qed.
Lemma vec_at_vstack s n (f : list nat -> 'cV[R]_n) i : inb s i -> vector_at n (vstack s f) i = f i.
Proof.
move=> H; apply/colP => k. rewrite mxE /vstack tget_tgen; last exact: inb_snoc (ltR k).
have L := inb_length _ _ H.
by rewrite -L firstn_app PeanoNat.Nat.sub_diag /= app_nil_r firstn_all app_nth2 // PeanoNat.Nat.sub_diag /= vget_ord.
Qed.
Lemma vec_ext s n (x y : arr) : wf x -> wf y -> shp x = (s ++ n :: nil)%list -> shp y = (s ++ n :: nil)%list ->
  (forall i, inb s i -> vector_at n x i = vector_at n y i) -> x = y.
Proof.
move=> Wx Wy Sx Sy H. apply: (tensor_ext 0 x y) => //; first by rewrite Sx Sy.
move=> idx; rewrite Sx => /inb_snoc_inv [i [k [-> [Hi Hk]]]].
have/colP := H i Hi. move/(_ (Ordinal (introT ltP Hk))). by rewrite !mxE.
Qed.

(** ** The generic methods *)
Lemma linear_methods_acts m n bs fwd inv logdet (A : list nat -> 'M[R]_n) c l :
  m_in m = 1%Z -> m_out m = 1%Z -> wf logdet -> bshape (shp logdet) bs = Some bs ->
  (forall j x, inb bs j -> fwd j x = (A j *m x + c j)%Ri) ->
  (forall j, inb bs j -> bget logdet j = l j) ->
  acts_affine (b_fal (linear_methods m bs fwd inv logdet)) bs A c l.
Proof.
move=> Mi Mo Wl Bl Hf Hl x xb s Wx Sx Hs.
have Bs : bshape (shp logdet) s = Some s by apply: bshape_trans (bshape_absorb_l _ _ _ Hs).
exists (vstack s (fun i => fwd (bindex bs i) (vec_at n x (bindex xb i)))), (tgen s (bget logdet)).
split.
{ cbn. rewrite /check_input_shape /vectorize /bcast_logdet /rank Sx Mi lead_app trail_app Nat.eqb_refl app_length /=.
  rewrite PeanoNat.Nat.add_1_r. case: Z.ltb_spec => [|_]; first lia.
  cbn. rewrite /bcast_shapes Hs /=. by rewrite bcast_to_ok. }
do 4![split; first by first [exact: tgen_wf | done]].
move=> i Hi. rewrite vec_at_vstack // Hf; last exact: bindex_inb Hs Hi. split => //.
rewrite tget_tgen // -Hl; last exact: bindex_inb Hs Hi.
rewrite /bget. by rewrite (bindex_bindex _ _ _ i Bl).
Qed.
Lemma linear_methods_acts_inv m n bs fwd inv logdet (A : list nat -> 'M[R]_n) c l :
  m_in m = 1%Z -> m_out m = 1%Z -> wf logdet -> bshape (shp logdet) bs = Some bs ->
  (forall j x, inb bs j -> inv j x = (A j *m x + c j)%Ri) ->
  (forall j, inb bs j -> bget logdet j = l j) ->
  acts_affine (b_ial (linear_methods m bs fwd inv logdet)) bs A c (fun j => - l j).
Proof.
move=> Mi Mo Wl Bl Hf Hl x xb s Wx Sx Hs.
have Bs : bshape (shp logdet) s = Some s by apply: bshape_trans (bshape_absorb_l _ _ _ Hs).
exists (vstack s (fun i => inv (bindex bs i) (vec_at n x (bindex xb i)))), (tneg (tgen s (bget logdet))).
split.
{ cbn. rewrite /check_input_shape /vectorize /bcast_logdet /rank Sx Mi Mo lead_app trail_app Nat.eqb_refl app_length /=.
  rewrite PeanoNat.Nat.add_1_r. case: Z.ltb_spec => [|_]; first lia.
  cbn. rewrite /bcast_shapes Hs /=. by rewrite bcast_to_ok. }
do 2![split; first by first [exact: tgen_wf | done]].
split; first by apply: tmap_wf; exact: tgen_wf. split; first by [].
move=> i Hi. rewrite vec_at_vstack // Hf; last exact: bindex_inb Hs Hi. split => //.
rewrite tget_tneg //; last exact: tgen_wf.
rewrite tget_tgen // -Hl; last exact: bindex_inb Hs Hi.
rewrite /bget. by rewrite (bindex_bindex _ _ _ i Bl).
Qed.
Lemma linear_methods_agree m n bs (fwd inv : list nat -> 'cV[R]_n -> 'cV[R]_n) logdet :
  methods_agree (linear_methods m bs fwd inv logdet).
Proof.
split => x y l; cbn; move=> E.
- have [y' [-> E1]] := rbind_ok_inv _ _ _ E. have [l' [-> E2]] := rbind_ok_inv _ _ _ E1. by case: E2 => <- <-.
- have [y' [-> E1]] := rbind_ok_inv _ _ _ E. have [l' [-> E2]] := rbind_ok_inv _ _ _ E1. by case: E2 => <- <-.
Qed.
Lemma base1 : base_init 1 None true None = Ok (mkMeta 1 1 true true). Proof. by []. Qed.

Lemma acts_affine_ext op n bs (A A' : list nat -> 'M[R]_n) c c' l l' :
  (forall j, inb bs j -> A j = A' j /\ c j = c' j /\ l j = l' j) ->
  acts_affine op bs A c l -> acts_affine op bs A' c' l'.
Proof.
move=> E H x xb s Wx Sx Hs. have [y [ld [Eo [Wy [Sy [Wl [Sl K]]]]]]] := H x xb s Wx Sx Hs.
exists y, ld. do 5!split => //. move=> i Hi. have Hj := bindex_inb _ _ _ _ Hs Hi.
have [<- [<- <-]] := E _ Hj. exact: K.
Qed.

(** ** Consequences of [affine_bijector] *)
Lemma affine_round_trip b n bs A (c : list nat -> 'cV[R]_n) x xb s y l :
  affine_bijector b bs A c -> (forall j, inb bs j -> (\det (A j))%Ri <> 0) ->
  wf x -> shp x = (xb ++ n :: nil)%list -> bshape bs xb = Some s -> b_fal b x = Ok (y, l) ->
  exists z, b_ial b y = Ok (z, tneg l) /\ wf z /\ shp z = (s ++ n :: nil)%list /\
    forall i, inb s i -> vector_at n z i = vector_at n x (bindex xb i).
Proof.
move=> [Hf [Hi _]] Hd Wx Sx Hs E.
have [y' [l' [E' [Wy [Sy [Wl [Sl K]]]]]]] := Hf x xb s Wx Sx Hs.
move: E'; rewrite E => -[? ?]; subst y' l'.
have Hss := bshape_absorb_l _ _ _ Hs.
have [z [l2 [E2 [Wz [Sz [Wl2 [Sl2 K2]]]]]]] := Hi y s s Wy Sy Hss.
have El : l2 = tneg l.
{ apply: (tensor_ext 0 l2) => //; first exact: tmap_wf. by rewrite Sl2 /tneg /= Sl.
  move=> idx; rewrite Sl2 => Hx. rewrite tget_tneg ?Sl //. have [_ ->] := K2 _ Hx. have [_ ->] := K _ Hx. by []. }
subst l2. exists z. split=> //. do 2!split => //.
move=> i Hx. have [-> _] := K2 _ Hx. rewrite (bindex_refl s i) //. have [-> _] := K _ Hx.
have Hj := bindex_inb _ _ _ _ Hs Hx.
have U : A (bindex bs i) \in unitmx by rewrite unitmxE unitfE; apply/eqP; apply: Hd.
by rewrite mulmxDr mulKmx // -addrA subrr addr0.
Qed.
Lemma affine_round_trip_inv b n bs A (c : list nat -> 'cV[R]_n) x xb s y l :
  affine_bijector b bs A c -> (forall j, inb bs j -> (\det (A j))%Ri <> 0) ->
  wf y -> shp y = (xb ++ n :: nil)%list -> bshape bs xb = Some s -> b_ial b y = Ok (x, l) ->
  exists z, b_fal b x = Ok (z, tneg l) /\ wf z /\ shp z = (s ++ n :: nil)%list /\
    forall i, inb s i -> vector_at n z i = vector_at n y (bindex xb i).
Proof.
move=> [Hf [Hi _]] Hd Wx Sx Hs E.
have [y' [l' [E' [Wy [Sy [Wl [Sl K]]]]]]] := Hi y xb s Wx Sx Hs.
move: E'; rewrite E => -[? ?]; subst y' l'.
have Hss := bshape_absorb_l _ _ _ Hs.
have [z [l2 [E2 [Wz [Sz [Wl2 [Sl2 K2]]]]]]] := Hf x s s Wy Sy Hss.
have El : l2 = tneg l.
{ apply: (tensor_ext 0 l2) => //; first exact: tmap_wf. by rewrite Sl2 /tneg /= Sl.
  move=> idx; rewrite Sl2 => Hx. rewrite tget_tneg ?Sl //. have [_ ->] := K2 _ Hx. have [_ ->] := K _ Hx.
  by rewrite Ropp_involutive. }
subst l2. exists z. split=> //. do 2!split => //.
move=> i Hx. have [-> _] := K2 _ Hx. rewrite (bindex_refl s i) //. have [-> _] := K _ Hx.
have Hj := bindex_inb _ _ _ _ Hs Hx.
have U : A (bindex bs i) \in unitmx by rewrite unitmxE unitfE; apply/eqP; apply: Hd.
by rewrite mulmxDr mulKVmx // mulmxN mulKVmx // -addrA addNr addr0.
Qed.
Lemma affine_log_det n (A : 'M[R]_n) (c v : 'cV[R]_n) :
  (\det A)%Ri <> 0 -> is_log_det (fun x => (A *m x + c)%Ri) v (ln (Rabs (\det A)%Ri)).
Proof. move=> H; exists A. split; first exact: jacobian_affine. by []. Qed.

(** ** Composition *)
Lemma acts_affine_compose op1 op2 n bs1 bs2 bs A1 A2 (c1 c2 : list nat -> 'cV[R]_n) l1 l2 :
  acts_affine op1 bs1 A1 c1 l1 -> acts_affine op2 bs2 A2 c2 l2 -> bshape bs1 bs2 = Some bs ->
  acts_affine (fun x => do (v, a) <- op1 x; do (w, b) <- op2 v; do t <- tadd a b; Ok (w, t)) bs
    (fun j => A2 (bindex bs2 j) *m A1 (bindex bs1 j))%Ri
    (fun j => A2 (bindex bs2 j) *m c1 (bindex bs1 j) + c2 (bindex bs2 j))%Ri
    (fun j => l1 (bindex bs1 j) + l2 (bindex bs2 j)).
Proof.
move=> H1 H2 Hb x xb s Wx Sx Hs.
have HA := bshape_assoc bs2 bs1 xb. rewrite (bshape_comm bs2) Hb /= Hs in HA.
case E1 : (bshape bs1 xb) HA => [s1|] //= E2. symmetry in E2.
have [v [a [Ea [Wv [Sv [Wa [Sa Ka]]]]]]] := H1 x xb s1 Wx Sx E1.
have [w [b [Eb [Ww [Sw [Wb [Sb Kb]]]]]]] := H2 v s1 s Wv Sv E2.
rewrite Ea /= Eb /=. have E3 := bshape_absorb_r _ _ _ E2.
rewrite /tadd /tmap2 Sa Sb E3 /=.
eexists w, _. split; first by []. do 2!split => //. split; first exact: tgen_wf. split=> //.
move=> i Hi. have [-> Kb2] := Kb i Hi.
have Hi1 := bindex_inb _ _ _ _ E3 Hi. have [-> Ka2] := Ka _ Hi1.
rewrite tget_tgen // Ka2 (bindex_refl s i) // Kb2.
have Hb1 : bindex bs1 (bindex s1 i) = bindex bs1 i by apply: bindex_bindex E1.
have Hb2 : bindex xb (bindex s1 i) = bindex xb i by apply: (bindex_bindex _ bs1); rewrite bshape_comm.
have Hb3 : bindex bs1 (bindex bs i) = bindex bs1 i by apply: bindex_bindex Hb.
have Hb4 : bindex bs2 (bindex bs i) = bindex bs2 i by apply: (bindex_bindex _ bs1); rewrite bshape_comm.
by rewrite Hb1 Hb2 Hb3 Hb4 mulmxDr mulmxA -addrA.
Qed.

(** ** Matrix facts *)
Lemma invmx_uniq n (A B : 'M[R]_n) : (A *m B = 1%:M)%Ri -> (invmx A = B)%Ri.
Proof.
move=> H. have [U _] := mulmx1_unit H.
by rewrite -[B]mul1mx -(mulVmx U) -mulmxA H mulmx1.
Qed.
Lemma det_unit n (A : 'M[R]_n) : (\det A)%Ri <> 0 -> A \in unitmx.
Proof. by move=> H; rewrite unitmxE unitfE; apply/eqP. Qed.
Lemma prod_neq0 n (f : 'I_n -> R) : (forall i, f i <> 0) -> (\prod_i f i)%Ri <> 0.
Proof.
move=> H. elim/big_ind: _ => //; first exact: R1_neq_R0.
move=> x y Hx Hy; rewrite mulRE. exact: Rmult_integral_contrapositive_currified.
Qed.
Lemma ln_abs_prod n (f : 'I_n -> R) : (forall i, f i <> 0) ->
  (\sum_i ln (Rabs (f i)))%Ri = ln (Rabs (\prod_i f i)%Ri).
Proof.
move=> H. suff [//] : (\sum_i ln (Rabs (f i)))%Ri = ln (Rabs (\prod_i f i)%Ri) /\ (\prod_i f i)%Ri <> 0.
elim/big_ind2: _ => //.
- split; last exact: R1_neq_R0. by rewrite /= oneRE Rabs_R1 ln_1.
- move=> s1 p1 s2 p2 [-> H1] [-> H2]. rewrite mulRE addRE Rabs_mult ln_mult; try exact: Rabs_pos_lt.
  split=> //. exact: Rmult_integral_contrapositive_currified.
Qed.
Lemma det_lower_of n (A : 'M[R]_n) : (\det (lower_of A) = \prod_i A i i)%Ri.
Proof.
rewrite det_trig; last first.
{ apply/is_trig_mxP => i j Hij. rewrite mxE. by rewrite leqNgt Hij. }
by apply: eq_bigr => i _; rewrite mxE leqnn.
Qed.
Lemma det_upper_of n (A : 'M[R]_n) : (\det (upper_of A) = \prod_i A i i)%Ri.
Proof.
rewrite -det_tr det_trig; last first.
{ apply/is_trig_mxP => i j Hij. rewrite !mxE. by rewrite leqNgt Hij. }
by apply: eq_bigr => i _; rewrite !mxE leqnn.
Qed.
Lemma det_unit_lower_of n (A : 'M[R]_n) : (\det (unit_lower_of A) = 1)%Ri.
Proof.
rewrite det_trig; last first.
{ apply/is_trig_mxP => i j Hij. rewrite mxE. rewrite ltnNge (ltnW Hij) /=.
  case: eqP => // E. by rewrite E ltnn in Hij. }
by rewrite big1 // => i _; rewrite !mxE ltnn eqxx.
Qed.
(** Sylvester's determinant identity and Woodbury. *)
Lemma sylvester n k (U V : 'M[R]_(n, k)) : (\det (1%:M + U *m V^T) = \det (1%:M + V^T *m U))%Ri.
Proof.
set M := block_mx (1%:M : 'M[R]_n)%Ri (- U)%Ri (V^T)%Ri (1%:M : 'M[R]_k)%Ri.
have E1 : (M = block_mx 1%:M 0 V^T 1%:M *m block_mx 1%:M (- U) 0 (1%:M + V^T *m U))%Ri.
{ rewrite mulmx_block ?mul1mx ?mul0mx ?mulmx0 ?mulmx1 ?addr0 mulmxN. by rewrite addrC addrK. }
have E2 : (M = block_mx 1%:M (- U) 0 1%:M *m block_mx (1%:M + U *m V^T) 0 V^T 1%:M)%Ri.
{ rewrite mulmx_block ?mul1mx ?mul0mx ?mulmx0 ?mulmx1 ?add0r mulNmx. by rewrite addrK. }
have D1 : (\det M = \det (1%:M + V^T *m U))%Ri.
{ by rewrite E1 det_mulmx det_lblock det_ublock !det1 !mul1r. }
have D2 : (\det M = \det (1%:M + U *m V^T))%Ri.
{ by rewrite E2 det_mulmx det_lblock det_ublock !det1 !mul1r mulr1. }
by rewrite -D1 -D2.
Qed.
Lemma woodbury n k (U V : 'M[R]_(n, k)) : (\det (small_matrix U V))%Ri <> 0 ->
  (invmx (1%:M + U *m V^T) = 1%:M - U *m (invmx (small_matrix U V) *m V^T))%Ri.
Proof.
move=> /det_unit HU. apply: invmx_uniq.
rewrite mulmxDl mul1mx !mulmxBr mulmx1.
have -> : (U *m V^T *m (U *m (invmx (small_matrix U V) *m V^T)) =
           U *m V^T - U *m (invmx (small_matrix U V) *m V^T))%Ri.
{ rewrite -!mulmxA -mulmxBr. congr (_ *m _)%Ri.
  have E : (V^T *m U = small_matrix U V - 1%:M)%Ri by rewrite /small_matrix addrC addKr.
  rewrite !mulmxA E mulmxBl mul1mx mulmxBl mulmxV // mul1mx. by []. }
by rewrite opprB [(U *m V^T + _)%Ri]addrC subrK subrK.
Qed.

(** ** TriangularLinear *)
Lemma len2 (s : shape) n k : subn (length (s ++ n :: k :: nil)%list) 2 = length s.
Proof. rewrite -minusE app_length. cbn [length]. lia. Qed.
Lemma len1 (s : shape) n k : subn (length (s ++ n :: k :: nil)%list) 1 = S (length s).
Proof. rewrite -minusE app_length. cbn [length]. lia. Qed.
Lemma ltb2 (s : shape) n k : Nat.ltb (length (s ++ n :: k :: nil)%list) 2 = false.
Proof. rewrite app_length. cbn [length]. case: Nat.ltb_spec => // H. exfalso. lia. Qed.
Lemma ltb1 (s : shape) n : Nat.ltb (length (s ++ n :: nil)%list) 1 = false.
Proof. rewrite app_length. cbn [length]. case: Nat.ltb_spec => // H. exfalso. lia. Qed.
Lemma nth_app2_0 (s : list nat) n k : List.nth (length s) (s ++ n :: k :: nil)%list 0%nat = n.
Proof. rewrite app_nth2; last lia. by rewrite PeanoNat.Nat.sub_diag. Qed.
Lemma nth_app2_1 (s : list nat) n k : List.nth (S (length s)) (s ++ n :: k :: nil)%list 0%nat = k.
Proof. rewrite app_nth2; last lia. have -> : (S (length s) - length s)%coq_nat = 1%nat by lia. by []. Qed.
Lemma mlead_app s n k : mlead (s ++ n :: k :: nil)%list = s.
Proof.
rewrite /mlead len2 firstn_app PeanoNat.Nat.sub_diag /= app_nil_r. exact: firstn_all.
Qed.
Lemma mrows_app s n k : mrows (s ++ n :: k :: nil)%list = n.
Proof. by rewrite /mrows len2 nth_app2_0. Qed.
Lemma mcols_app s n k : mcols (s ++ n :: k :: nil)%list = k.
Proof. by rewrite /mcols len1 nth_app2_1. Qed.
Lemma inb_mat s j n k (i : 'I_n) (l : 'I_k) : inb s j -> inb (s ++ n :: k :: nil)%list (j ++ (i : nat) :: (l : nat) :: nil)%list.
Proof. move=> H; apply: inb_app => //. constructor; first exact/ltP. by constructor; first exact/ltP. Qed.
Lemma nth_mat (s : shape) j (a b d : nat) : length j = length s ->
  List.nth (length (s ++ d :: d :: nil)%list - 2) (j ++ a :: b :: nil)%list 0%nat = a /\
  List.nth (length (s ++ d :: d :: nil)%list - 1) (j ++ a :: b :: nil)%list 0%nat = b.
Proof.
by move=> L; rewrite len2 len1 -L nth_app2_0 nth_app2_1.
Qed.
Lemma leb_leq a b : Nat.leb a b = leq a b.
Proof. by apply/idP/idP => [/Nat.leb_le/leP|/leP/Nat.leb_le]. Qed.
Lemma trilk_at m mb n j : shp m = (mb ++ n :: n :: nil)%list -> inb mb j ->
  matrix_at n n (trilk false m) j = lower_of (matrix_at n n m j).
Proof.
move=> S H; apply/matrixP => i k. rewrite !mxE /trilk S tget_tgen; last exact: inb_mat.
have [-> ->] := nth_mat i k n (inb_length _ _ H). by rewrite leb_leq.
Qed.
Lemma triu_at m mb n j : shp m = (mb ++ n :: n :: nil)%list -> inb mb j ->
  matrix_at n n (triu m) j = upper_of (matrix_at n n m j).
Proof.
move=> S H; apply/matrixP => i k. rewrite !mxE /triu S tget_tgen; last exact: inb_mat.
have [-> ->] := nth_mat i k n (inb_length _ _ H). by rewrite leb_leq.
Qed.
Lemma unit_lower_shp m : shp (unit_lower m) = shp m. Proof. by []. Qed.
Lemma unit_lower_at m mb n j : shp m = (mb ++ n :: n :: nil)%list -> inb mb j ->
  lower_of (matrix_at n n (unit_lower m) j) = unit_lower_of (matrix_at n n m j).
Proof.
move=> S H; apply/matrixP => i k. rewrite !mxE /unit_lower S tget_tgen; last exact: inb_mat.
rewrite /trilk S tget_tgen; last exact: inb_mat.
have [-> ->] := nth_mat i k n (inb_length _ _ H). rewrite /Nat.ltb leb_leq.
have -> : Nat.eqb i k = (i == k). { by apply/idP/idP => [/Nat.eqb_eq/val_inj/eqP|/eqP ->]; last exact: Nat.eqb_refl. }
case: (ltngtP k i) => Hik.
- case: eqP => [E|_]; first by rewrite E ltnn in Hik. by rewrite Rplus_0_l.
- case: eqP => // E. by rewrite E ltnn in Hik.
- case: eqP => [_|[]]; first by rewrite Rplus_0_r. exact: val_inj.
Qed.
Lemma unit_lower_diag m mb n j (i : 'I_n) : shp m = (mb ++ n :: n :: nil)%list -> inb mb j ->
  matrix_at n n (unit_lower m) j i i = 1.
Proof.
move=> S H. have E := unit_lower_at S H.
have : lower_of (matrix_at n n (unit_lower m) j) i i = 1 by rewrite E mxE ltnn eqxx.
by rewrite mxE leqnn.
Qed.

Definition tri_of (is_lower : bool) (n : nat) (A : 'M[R]_n) := if is_lower then lower_of A else upper_of A.
Lemma det_tri_of lo n (A : 'M[R]_n) : (\det (tri_of lo A) = \prod_i A i i)%Ri.
Proof. by case: lo; [exact: det_lower_of | exact: det_upper_of]. Qed.
Lemma tri_of_diag lo n (A : 'M[R]_n) i : tri_of lo A i i = A i i.
Proof. by case: lo; rewrite mxE leqnn. Qed.

Lemma triangular_linear_ok matrix lo mb n mat b :
  shp matrix = (mb ++ n :: n :: nil)%list ->
  triangular_linear_init matrix lo = Ok (mat, b) ->
  (forall j, inb mb j -> forall i, matrix_at n n matrix j i i <> 0) ->
  affine_bijector b mb (fun j => tri_of lo (matrix_at n n matrix j)) (fun _ => 0%Ri) /\
  shp mat = shp matrix /\ wf mat /\ forall j, inb mb j -> matrix_at n n mat j = tri_of lo (matrix_at n n matrix j).
Proof.
move=> S. rewrite /triangular_linear_init /rank S mlead_app mrows_app mcols_app Nat.eqb_refl ltb2 /=.
move=> [<- <-] Hd.
have Hm : forall j, inb mb j -> matrix_at n n (if lo then trilk false matrix else triu matrix) j = tri_of lo (matrix_at n n matrix j).
{ move=> j Hj; case: lo; [exact: (trilk_at S Hj)|exact: (triu_at S Hj)]. }
have Hl : forall j, inb mb j -> bget (tgen mb (fun j => triangular_logdet (mat_at n n (if lo then trilk false matrix else triu matrix) j))) j
   = ln (Rabs (\det (tri_of lo (matrix_at n n matrix j)))%Ri).
{ move=> j Hj. rewrite bget_tgen // /triangular_logdet.
  change (mat_at n n) with (matrix_at n n). rewrite Hm // det_tri_of.
  rewrite -ln_abs_prod; last by exact: Hd.
  by apply: eq_bigr => i _; rewrite tri_of_diag. }
split; last first.
{ split; first by rewrite -S; case: (lo). split; last exact: Hm. case: (lo); exact: tgen_wf. }
split; [|split; [|split; [|by []]]].
- apply: linear_methods_acts => //; [exact: tgen_wf|exact: bshape_refl|].
  move=> j x Hj. change (mat_at n n) with (matrix_at n n). by rewrite Hm // addr0.
- apply: linear_methods_acts_inv => //; [exact: tgen_wf|exact: bshape_refl|].
  move=> j x Hj. change (mat_at n n) with (matrix_at n n). by rewrite Hm // mulmx0 oppr0 addr0.
- exact: linear_methods_agree.
Qed.

(** ** UnconstrainedAffine *)
Lemma unconstrained_affine_ok matrix bias mb bb n bs b :
  shp matrix = (mb ++ n :: n :: nil)%list -> shp bias = (bb ++ n :: nil)%list -> bshape mb bb = Some bs ->
  unconstrained_affine_init matrix bias = Ok b ->
  affine_bijector b bs (fun j => matrix_at n n matrix (bindex mb j)) (fun j => vector_at n bias (bindex bb j)).
Proof.
move=> Sm Sb Hb. rewrite /unconstrained_affine_init /check_affine_parameters /rank Sm Sb.
rewrite mlead_app mrows_app mcols_app trail_app lead_app Nat.eqb_refl ltb2 ltb1 /=.
rewrite /bcast_shapes Hb /=.
move=> [<-].
split; [|split; [|split; [|by []]]].
- apply: linear_methods_acts => //; [exact: tgen_wf|exact: bshape_absorb_l Hb|].
  move=> j Hj. rewrite /bget tget_tgen //. exact: bindex_inb Hb Hj.
- apply: linear_methods_acts_inv => //; [exact: tgen_wf|exact: bshape_absorb_l Hb| |].
  + move=> j x Hj. by rewrite mulmxBr.
  + move=> j Hj. rewrite /bget tget_tgen //. exact: bindex_inb Hb Hj.
- exact: linear_methods_agree.
Qed.

(** ** DiagLinear *)
Lemma sumf_ord n (f : nat -> R) : sumf f (List.seq 0 n) = (\sum_(i < n) f i)%Ri.
Proof.
elim: n => [|n IH]; first by rewrite big_ord0.
rewrite seq_S sumf_app IH big_ord_recr /= sumf_cons sumf_nil addRE. by rewrite Rplus_0_r.
Qed.
Definition diag_of (n : nat) (d : 'cV[R]_n) : 'M[R]_n := diag_mx (d^T)%Ri.
Lemma det_diag_of n (d : 'cV[R]_n) : (\det (diag_of d) = \prod_i d i ord0)%Ri.
Proof. rewrite det_diag. by apply: eq_bigr => i _; rewrite mxE. Qed.
Lemma diag_of_mul n (d v : 'cV[R]_n) : (diag_of d *m v = \col_i (d i ord0 * v i ord0)%R)%Ri.
Proof. apply/colP => i. by rewrite /diag_of mul_diag_mx !mxE. Qed.
Lemma diag_of_inv n (d : 'cV[R]_n) : (forall i, d i ord0 <> 0) -> (invmx (diag_of d) = diag_of (\col_i (/ d i ord0)%R))%Ri.
Proof.
move=> H; apply: invmx_uniq. apply/matrixP => i k. rewrite /diag_of mul_diag_mx !mxE.
case: (eqVneq i k) => [->|_]; last by rewrite !mulr0n mulr0.
rewrite !mulr1n mulRE. exact: Rinv_r.
Qed.

Lemma block1_op sa bl x xb n s f lf :
  coherent sa -> b_in sa = 0%Z -> b_out sa = 0%Z -> block_init sa 1 = Ok bl -> shp x = (xb ++ n :: nil)%list ->
  (b_fal sa x = Ok (tgen (s ++ n :: nil)%list f, tgen (s ++ n :: nil)%list lf) ->
   b_fal bl x = Ok (tgen (s ++ n :: nil)%list f, tgen s (fun i => (\sum_(k < n) lf (i ++ (k : nat) :: nil)%list)%Ri))) /\
  (b_ial sa x = Ok (tgen (s ++ n :: nil)%list f, tgen (s ++ n :: nil)%list lf) ->
   b_ial bl x = Ok (tgen (s ++ n :: nil)%list f, tgen s (fun i => (\sum_(k < n) lf (i ++ (k : nat) :: nil)%list)%Ri))).
Proof.
move=> Hc Hi Ho Hb Sx.
have [_ [_ [_ [_ [_ [_ [_ [_ [_ [F5 F6]]]]]]]]]] := block_fields _ _ _ Hc Hb.
have SL : sum_last (tgen (s ++ n :: nil)%list lf) 1 = Ok (tgen s (fun i => (\sum_(k < n) lf (i ++ (k : nat) :: nil)%list)%Ri)).
{ rewrite (sum_last_ok _ s (n :: nil)%list) //. congr Ok. apply: tgen_ext => i Hx.
  rewrite indices_vec sumf_map sumf_ord. apply: eq_bigr => k _. rewrite tget_tgen //. exact: inb_snoc (ltR k). }
have Hr : forall z, (z = 1)%Z -> check_input_shape z x = Ok tt.
{ move=> z ->. apply: check_ok. rewrite /rank Sx app_length. cbn [length]. lia. }
split => E.
- rewrite F5 Hr; last by rewrite Hi. cbn [rbind]. rewrite E. cbn [rbind]. by rewrite SL.
- rewrite F6 Hr; last by rewrite Ho. cbn [rbind]. rewrite E. cbn [rbind]. by rewrite SL.
Qed.
Lemma vec_at_tgen s n f i : inb s i -> vector_at n (tgen (s ++ n :: nil)%list f) i = (\col_k f (i ++ (k : nat) :: nil)%list)%Ri.
Proof. move=> H; apply/colP => k. rewrite !mxE tget_tgen //. exact: inb_snoc (ltR k). Qed.
Lemma bget_vec x xb n i (k : 'I_n) : shp x = (xb ++ n :: nil)%list -> bget x (i ++ (k : nat) :: nil)%list = vector_at n x (bindex xb i) k ord0.
Proof. move=> Sx. rewrite mxE /bget Sx bindex_snoc //. exact: ltR. Qed.

Lemma diag_linear_ok diag db n b : wf diag -> shp diag = (db ++ n :: nil)%list -> diag_linear_init diag = Ok b ->
  (forall j, inb db j -> forall i, vector_at n diag j i ord0 <> 0) ->
  affine_bijector b db (fun j => diag_of (vector_at n diag j)) (fun _ => 0%Ri).
Proof.
move=> Wd Sd. rewrite /diag_linear_init /rank Sd ltb1.
move=> E0. have [sa [Esa E1]] := rbind_ok_inv _ _ _ E0. have [bl [Ebl E2]] := rbind_ok_inv _ _ _ E1. case: E2 => <-.
move=> Hd.
have Hsa : coherent sa /\ b_in sa = 0%Z /\ b_out sa = 0%Z /\ methods_agree sa.
{ have EB : bcast_shapes (shp (tscalar 0)) (shp diag) = Ok (shp diag) by rewrite /bcast_shapes bshape_nil_l.
  move: Esa. rewrite /scalar_affine_init. change (base_init 0 None true None) with (Ok (mkMeta 0 0 true true)).
  cbn [rbind sa_params]. rewrite EB. cbn [rbind] => -[<-].
  split; first by split; cbn; lia. do 2!split => //.
  split => x y l; cbn => E.
  - have [y' [-> E3]] := rbind_ok_inv _ _ _ E. have [l' [-> E4]] := rbind_ok_inv _ _ _ E3. by case: E4 => <- <-.
  - have [y' [-> E3]] := rbind_ok_inv _ _ _ E. have [l' [-> E4]] := rbind_ok_inv _ _ _ E3. by case: E4 => <- <-. }
move: Hsa => [Hc [Hi [Ho Hm]]].
have Key : forall x xb s, wf x -> shp x = (xb ++ n :: nil)%list -> bshape db xb = Some s ->
  b_fal sa x = Ok (tgen (s ++ n :: nil)%list (fun i => eff_scale (Some diag) None i * bget x i + bget (tscalar 0) i),
                  tgen (s ++ n :: nil)%list (fun i => ln (Rabs (eff_scale (Some diag) None i)))) /\
  b_ial sa x = Ok (tgen (s ++ n :: nil)%list (fun i => (bget x i - bget (tscalar 0) i) / eff_scale (Some diag) None i),
                  tgen (s ++ n :: nil)%list (fun i => - ln (Rabs (eff_scale (Some diag) None i)))).
{ move=> x xb s Wx Sx Hs.
  have := @scalar_affine_spec (tscalar 0) (Some diag) None sa x (s ++ n :: nil)%list.
  case=> //.
  - by move=> a [<-].
  - exists (shp diag). rewrite bshape_nil_l. split=> //. by rewrite Sd Sx bshape_snoc Hs.
  - move=> idx /inb_snoc_inv [i [k [-> [Hi' Hk]]]]. cbn.
    rewrite (@bget_vec diag db n i (Ordinal (introT ltP Hk))) //. apply: Hd. exact: bindex_inb Hs Hi'.
  - by move=> -> [_ [_ [-> _]]]. }
have Z0 : forall i, bget (tscalar 0) i = 0.
{ move=> i. by rewrite /bget /bindex /= /tget. }
split; [|split; [|split; [|by []]]].
- move=> x xb s Wx Sx Hs. have [K1 _] := Key x xb s Wx Sx Hs.
  cbn [b_fal b_ial]. rewrite (proj1 (@block1_op _ _ _ _ _ s _ _ Hc Hi Ho Ebl Sx) K1).
  eexists _, _. split; first by []. split; first exact: tgen_wf. split=> //. split; first exact: tgen_wf. split=> //.
  move=> i Hx. have Hj := bindex_inb _ _ _ _ Hs Hx. rewrite vec_at_tgen // tget_tgen //. cbv beta. split.
  + rewrite diag_of_mul addr0. apply/colP => k. rewrite mxE [RHS]mxE Z0 Rplus_0_r. cbn.
    by rewrite (bget_vec i k Sx) (bget_vec i k Sd).
  + rewrite det_diag_of -ln_abs_prod; last by exact: Hd.
    apply: eq_bigr => k _. cbn. by rewrite (bget_vec i k Sd).
- move=> x xb s Wx Sx Hs. have [_ K1] := Key x xb s Wx Sx Hs.
  cbn [b_fal b_ial]. rewrite (proj2 (@block1_op _ _ _ _ _ s _ _ Hc Hi Ho Ebl Sx) K1).
  eexists _, _. split; first by []. split; first exact: tgen_wf. split=> //. split; first exact: tgen_wf. split=> //.
  move=> i Hx. have Hj := bindex_inb _ _ _ _ Hs Hx. rewrite vec_at_tgen // tget_tgen //. cbv beta. split.
  + rewrite diag_of_inv; last by exact: Hd. rewrite diag_of_mul mulmx0 oppr0 addr0. apply/colP => k.
    rewrite mxE [RHS]mxE [X in X * _]mxE Z0 Rminus_0_r. cbn.
    by rewrite (bget_vec i k Sx) (bget_vec i k Sd) Rmult_comm.
  + rewrite det_diag_of -ln_abs_prod; last by exact: Hd.
    rewrite -oppRE -sumrN. apply: eq_bigr => k _. cbn. by rewrite (bget_vec i k Sd).
- exact: (block_methods_agree _ _ _ Hc Hm Ebl).
Qed.

Lemma shift_block_ok bias bb n sh b : wf bias -> shp bias = (bb ++ n :: nil)%list -> shift_init bias = Ok sh -> block_init sh 1 = Ok b ->
  affine_bijector b bb (fun _ => 1%:M)%Ri (fun j => vector_at n bias j).
Proof.
move=> Wd Sd Esh Ebl.
have Hsa : coherent sh /\ b_in sh = 0%Z /\ b_out sh = 0%Z /\ methods_agree sh /\ b_cj sh = true /\ b_cl sh = true.
{ move: Esh. rewrite /shift_init /= => -[<-].
  split; first by split; cbn; lia. do 2!split => //. split => //.
  split => x y l; cbn => E.
  - have [y' [-> E3]] := rbind_ok_inv _ _ _ E. have [l' [-> E4]] := rbind_ok_inv _ _ _ E3. by case: E4 => <- <-.
  - have [y' [-> E3]] := rbind_ok_inv _ _ _ E. have [l' [-> E4]] := rbind_ok_inv _ _ _ E3. by case: E4 => <- <-. }
move: Hsa => [Hc [Hi [Ho [Hm [Hcj Hcl]]]]].
have Key : forall x xb s, wf x -> shp x = (xb ++ n :: nil)%list -> bshape bb xb = Some s ->
  b_fal sh x = Ok (tgen (s ++ n :: nil)%list (fun i => bget x i + bget bias i), tgen (s ++ n :: nil)%list (fun _ => 0)) /\
  b_ial sh x = Ok (tgen (s ++ n :: nil)%list (fun i => bget x i - bget bias i), tgen (s ++ n :: nil)%list (fun _ => 0)).
{ move=> x xb s Wx Sx Hs. have := @shift_spec bias sh x (s ++ n :: nil)%list Wd Wx Esh.
  rewrite Sx Sd bshape_snoc bshape_comm Hs. case=> //. by move=> -> [-> _]. }
have [_ [Fi [Fo [Fcj [Fcl _]]]]] := block_fields _ _ _ Hc Ebl.
have D1 : ln (Rabs (\det (1%:M : 'M[R]_n))%Ri) = 0 by rewrite det1 oneRE Rabs_R1 ln_1.
split; [|split; [|split; [|by rewrite Fi Fo Fcj Fcl Hi Ho]]].
- move=> x xb s Wx Sx Hs. have [K1 _] := Key x xb s Wx Sx Hs.
  cbn [b_fal b_ial]. rewrite (proj1 (@block1_op _ _ _ _ _ s _ _ Hc Hi Ho Ebl Sx) K1).
  eexists _, _. split; first by []. split; first exact: tgen_wf. split=> //. split; first exact: tgen_wf. split=> //.
  move=> i Hx. rewrite vec_at_tgen // tget_tgen //. cbv beta. split.
  + rewrite mul1mx. apply/colP => k. by rewrite mxE [RHS]mxE (bget_vec i k Sx) (bget_vec i k Sd).
  + by rewrite D1 big1.
- move=> x xb s Wx Sx Hs. have [_ K1] := Key x xb s Wx Sx Hs.
  cbn [b_fal b_ial]. rewrite (proj2 (@block1_op _ _ _ _ _ s _ _ Hc Hi Ho Ebl Sx) K1).
  eexists _, _. split; first by []. split; first exact: tgen_wf. split=> //. split; first exact: tgen_wf. split=> //.
  move=> i Hx. rewrite vec_at_tgen // tget_tgen //. cbv beta. split.
  + rewrite invmx1 !mul1mx. apply/colP => k. by rewrite mxE [RHS]mxE (bget_vec i k Sx) (bget_vec i k Sd) [X in GRing.add _ X]mxE.
  + rewrite D1 big1 //. by rewrite Ropp_0.
- exact: (block_methods_agree _ _ _ Hc Hm Ebl).
Qed.

(** ** Chains of two affine bijectors *)
Lemma ln_abs_det_mul n (A B : 'M[R]_n) : (\det A)%Ri <> 0 -> (\det B)%Ri <> 0 ->
  ln (Rabs (\det (A *m B))%Ri) = ln (Rabs (\det A)%Ri) + ln (Rabs (\det B)%Ri).
Proof. move=> HA HB. rewrite det_mulmx mulRE Rabs_mult ln_mult //; exact: Rabs_pos_lt. Qed.
Lemma invmx_mul n (A B : 'M[R]_n) : (\det A)%Ri <> 0 -> (\det B)%Ri <> 0 -> (invmx (A *m B) = invmx B *m invmx A)%Ri.
Proof. move=> /det_unit HA /det_unit HB. apply: invmx_uniq. by rewrite -mulmxA mulKVmx // mulmxV. Qed.
Definition then_op (op1 op2 : arr -> result (arr * arr)) (x : arr) : result (arr * arr) :=
  do (v, a) <- op1 x; do (w, b) <- op2 v; do t <- tadd a b; Ok (w, t).

Lemma affine_seq n (fal1 ial1 fal2 ial2 : arr -> result (arr * arr)) bs1 bs2 bs (A1 A2 : list nat -> 'M[R]_n) c1 c2 :
  acts_affine fal1 bs1 A1 c1 (fun j => ln (Rabs (\det (A1 j))%Ri)) ->
  acts_affine ial1 bs1 (fun j => invmx (A1 j)) (fun j => - (invmx (A1 j) *m c1 j))%Ri (fun j => - ln (Rabs (\det (A1 j))%Ri)) ->
  acts_affine fal2 bs2 A2 c2 (fun j => ln (Rabs (\det (A2 j))%Ri)) ->
  acts_affine ial2 bs2 (fun j => invmx (A2 j)) (fun j => - (invmx (A2 j) *m c2 j))%Ri (fun j => - ln (Rabs (\det (A2 j))%Ri)) ->
  bshape bs1 bs2 = Some bs ->
  (forall j, inb bs1 j -> (\det (A1 j))%Ri <> 0) -> (forall j, inb bs2 j -> (\det (A2 j))%Ri <> 0) ->
  let A j := (A2 (bindex bs2 j) *m A1 (bindex bs1 j))%Ri in
  let c j := (A2 (bindex bs2 j) *m c1 (bindex bs1 j) + c2 (bindex bs2 j))%Ri in
  acts_affine (then_op fal1 fal2) bs A c (fun j => ln (Rabs (\det (A j))%Ri)) /\
  acts_affine (then_op ial2 ial1) bs (fun j => invmx (A j)) (fun j => - (invmx (A j) *m c j))%Ri (fun j => - ln (Rabs (\det (A j))%Ri)) /\
  (forall j, inb bs j -> (\det (A j))%Ri <> 0).
Proof.
move=> F1 I1 F2 I2 Hb D1 D2 A c.
have J1 : forall j, inb bs j -> inb bs1 (bindex bs1 j) by move=> j; exact: bindex_inb Hb.
have Hb' : bshape bs2 bs1 = Some bs by rewrite bshape_comm.
have J2 : forall j, inb bs j -> inb bs2 (bindex bs2 j) by move=> j; exact: bindex_inb Hb'.
split; [|split].
- apply: acts_affine_ext (acts_affine_compose F1 F2 Hb) => j Hj. do 2!split=> //.
  rewrite ln_abs_det_mul; [by rewrite Rplus_comm|by apply: D2; apply: J2|by apply: D1; apply: J1].
- apply: acts_affine_ext (acts_affine_compose I2 I1 Hb') => j Hj.
  have E1 := D1 _ (J1 _ Hj). have E2 := D2 _ (J2 _ Hj).
  rewrite /A /c invmx_mul //. split=> //. split.
  + rewrite mulmxDr -!mulmxA mulKmx; last exact: det_unit. by rewrite mulmxN opprD addrC.
  + rewrite ln_abs_det_mul //. by rewrite Ropp_plus_distr.
- move=> j Hj. rewrite /A det_mulmx mulRE.
  apply: Rmult_integral_contrapositive_currified; [by apply: D2; apply: J2|by apply: D1; apply: J1].
Qed.

Lemma acts_affine_op_ext (op op' : arr -> result (arr * arr)) n bs (A : list nat -> 'M[R]_n) c l :
  (forall x, op x = op' x) -> acts_affine op' bs A c l -> acts_affine op bs A c l.
Proof. move=> E H x xb s Wx Sx Hs. rewrite E. exact: H. Qed.
Lemma affine_bijector_ext b n bs (A A' : list nat -> 'M[R]_n) c c' :
  (forall j, inb bs j -> A j = A' j /\ c j = c' j) -> affine_bijector b bs A c -> affine_bijector b bs A' c'.
Proof.
move=> E [H1 [H2 H3]]. split; [|split=> //].
- apply: acts_affine_ext H1 => j /E [-> ->]. by [].
- apply: acts_affine_ext H2 => j /E [-> ->]. by [].
Qed.

(** ** LowerUpperTriangularAffine *)
Lemma lu_affine_ok matrix bias mb bb n bs b :
  wf bias -> shp matrix = (mb ++ n :: n :: nil)%list -> shp bias = (bb ++ n :: nil)%list -> bshape mb bb = Some bs ->
  (forall j, inb mb j -> forall i, matrix_at n n matrix j i i <> 0) ->
  lu_affine_init matrix bias = Ok b ->
  affine_bijector b bs
    (fun j => unit_lower_of (matrix_at n n matrix (bindex mb j)) *m upper_of (matrix_at n n matrix (bindex mb j)))%Ri
    (fun j => vector_at n bias (bindex bb j)).
Proof.
move=> Wb Sm Sb Hb Hd. rewrite /lu_affine_init => E0.
have [u [_ E1]] := rbind_ok_inv _ _ _ E0. have [[um up] [Eu E2]] := rbind_ok_inv _ _ _ E1.
have [[lm lo] [El E3]] := rbind_ok_inv _ _ _ E2. have [sh [Esh E4]] := rbind_ok_inv _ _ _ E3.
have [shb [Eshb E5]] := rbind_ok_inv _ _ _ E4. clear E0 E1 E2 E3 E4.
have [[Uf [Ui [Um [Uin [Uout [Ucj Ucl]]]]]] _] := triangular_linear_ok Sm Eu Hd.
have Hd' : forall j, inb mb j -> forall i, matrix_at n n (unit_lower matrix) j i i <> 0.
{ move=> j Hj i. rewrite (unit_lower_diag i Sm Hj). exact: R1_neq_R0. }
have Sl : shp (unit_lower matrix) = (mb ++ n :: n :: nil)%list by [].
have [[Lf [Li [Lm [Lin [Lout [Lcj Lcl]]]]]] _] := triangular_linear_ok Sl El Hd'.
have [Sf [Si [Smm [Sin [Sout [Scj Scl]]]]]] := shift_block_ok Wb Sb Esh Eshb.
have DU : forall j, inb mb j -> (\det (tri_of false (matrix_at n n matrix j)))%Ri <> 0.
{ move=> j Hj. rewrite det_tri_of. apply: prod_neq0. exact: Hd. }
have DL : forall j, inb mb j -> (\det (tri_of true (matrix_at n n (unit_lower matrix) j)))%Ri <> 0.
{ move=> j Hj. rewrite det_tri_of. apply: prod_neq0. exact: Hd'. }
have DS : forall j, inb bb j -> (\det (1%:M : 'M[R]_n))%Ri <> 0 by move=> j _; rewrite det1; exact: R1_neq_R0.
have [G1 [G2 G3]] := affine_seq Uf Ui Lf Li (bshape_refl mb) DU DL.
have [K1 [K2 K3]] := affine_seq G1 G2 Sf Si Hb G3 DS.
have Ic : b_in b = 1%Z /\ b_out b = 1%Z /\ b_cj b = true /\ b_cl b = true /\
   (forall x, b_fal b x = then_op (then_op (b_fal up) (b_fal lo)) (b_fal shb) x) /\
   (forall x, b_ial b x = then_op (then_op (b_ial shb) (b_ial lo)) (b_ial up) x).
{ move: E5. rewrite /chain_init. case: (chain_neighbours_ok _) => //=.
  rewrite Uin Sout Ucj Ucl Lcj Lcl Scj Scl /=. by move=> [<-]. }
move: Ic => [Iin [Iout [Icj [Icl [Ff Fi]]]]].
have Hm : methods_agree b.
{ apply: chain_methods_agree E5 _ => x /=. by case=> [<-|[<-|[<-|[]]]]. }
(* the inverse runs shift^-1, then L^-1, then U^-1 *)
have [M1 [M2 M3]] := affine_seq Lf Li Sf Si Hb DL DS.
have Hmb := bshape_absorb_l _ _ _ Hb.
have [N1 [N2 N3]] := affine_seq Uf Ui M1 M2 Hmb DU M3.
have Eq : forall j, inb bs j ->
  tri_of true (matrix_at n n (unit_lower matrix) (bindex mb j)) = unit_lower_of (matrix_at n n matrix (bindex mb j)).
{ move=> j Hj. apply: (unit_lower_at Sm). exact: bindex_inb Hb Hj. }
split; [|split; [|by []]].
- apply: (acts_affine_op_ext Ff).
  apply: acts_affine_ext K1 => j Hj. have Hj' := bindex_inb _ _ _ _ Hb Hj.
  cbv beta zeta.   rewrite (bindex_refl mb _ Hj') Eq // mul1mx mulmx0 addr0 mulmx0 add0r. by [].
- apply: (acts_affine_op_ext Fi).
  apply: acts_affine_ext N2 => j Hj. have Hj' := bindex_inb _ _ _ _ Hb Hj.
  cbv beta zeta.   rewrite (bindex_refl bs j Hj) Eq // mul1mx mulmx0 add0r mulmx0 add0r. by [].
Qed.

(** ** DiagPlusLowRankLinear *)
Lemma id_plus_low_rank_ok n k u v ub vb bs b :
  shp u = (ub ++ n :: k :: nil)%list -> shp v = (vb ++ n :: k :: nil)%list -> bshape ub vb = Some bs ->
  (forall j, inb bs j -> (\det (1%:M + matrix_at n k u (bindex ub j) *m (matrix_at n k v (bindex vb j))^T))%Ri <> 0) ->
  id_plus_low_rank_init n k u v = Ok b ->
  affine_bijector b bs (fun j => 1%:M + matrix_at n k u (bindex ub j) *m (matrix_at n k v (bindex vb j))^T)%Ri (fun _ => 0%Ri).
Proof.
move=> Su Sv Hb Hd. rewrite /id_plus_low_rank_init Su Sv !mlead_app /bcast_shapes Hb /= => -[<-].
have DS : forall j, inb bs j -> (\det (small_matrix (matrix_at n k u (bindex ub j)) (matrix_at n k v (bindex vb j))))%Ri <> 0.
{ move=> j Hj. rewrite /small_matrix -sylvester. exact: Hd. }
split; [|split; [|split; [|by []]]].
- apply: linear_methods_acts => //; [exact: tgen_wf|exact: bshape_refl| |].
  + move=> j x Hj. by rewrite mulmxDl mul1mx addr0 mulmxA.
  + move=> j Hj. by rewrite bget_tgen // sylvester.
- apply: linear_methods_acts_inv => //; [exact: tgen_wf|exact: bshape_refl| |].
  + move=> j x Hj. rewrite woodbury; last exact: DS. by rewrite mulmxBl mul1mx mulmx0 oppr0 addr0 !mulmxA.
  + move=> j Hj. by rewrite bget_tgen // sylvester.
- exact: linear_methods_agree.
Qed.
Lemma bshape_rows ub db n k : bshape (ub ++ n :: k :: nil)%list (db ++ n :: 1%nat :: nil)%list =
  option_map (fun s => s ++ n :: k :: nil)%list (bshape ub db).
Proof.
rewrite /bshape !rev_app_distr /= /bdim (Nat.eqb_refl n).
have -> : (if Nat.eqb k 1 then Some k else if Nat.eqb k 1 then Some 1%nat else Some k) = Some k by case: Nat.eqb.
case: (bshape_rev (rev ub) (rev db)) => //= s. by rewrite -app_assoc.
Qed.
Lemma bindex_rows s i n k a b : (a < n)%coq_nat -> (b < k)%coq_nat ->
  bindex (s ++ n :: k :: nil)%list (i ++ a :: b :: nil)%list = (bindex s i ++ a :: b :: nil)%list.
Proof.
move=> Ha Hb. rewrite /bindex !rev_app_distr /= -app_assoc /=.
by case: (Nat.eqb_spec n 1); case: (Nat.eqb_spec k 1) => E1 E2; congr (_ ++ _ :: _ :: nil)%list; lia.
Qed.
Lemma bindex_rows1 s i n a b : (a < n)%coq_nat ->
  bindex (s ++ n :: 1%nat :: nil)%list (i ++ a :: b :: nil)%list = (bindex s i ++ a :: 0%nat :: nil)%list.
Proof.
move=> Ha. rewrite /bindex !rev_app_distr /= -app_assoc /=.
by case: (Nat.eqb_spec n 1) => E1; congr (_ ++ _ :: _ :: nil)%list; lia.
Qed.
Lemma tget_newaxis (d : arr) db n j (i : nat) : shp d = (db ++ n :: nil)%list -> inb db j ->
  tget 0 (mkT (shp d ++ 1%nat :: nil)%list (dat d)) (j ++ i :: 0%nat :: nil)%list = tget 0 d (j ++ i :: nil)%list.
Proof.
move=> S H. rewrite /tget /=. have L := inb_length _ _ H.
have -> : (j ++ i :: 0%nat :: nil)%list = ((j ++ i :: nil) ++ 0%nat :: nil)%list by rewrite -app_assoc.
rewrite ravel_app; last by rewrite S !app_length L. congr (List.nth _ _ _). cbn. lia.
Qed.
Lemma div_rows_ok u diag ub db n k ws w : shp u = (ub ++ n :: k :: nil)%list -> shp diag = (db ++ n :: nil)%list ->
  bshape ub db = Some ws -> div_rows u diag = Ok w ->
  shp w = (ws ++ n :: k :: nil)%list /\ wf w /\
  forall j, inb ws j -> matrix_at n k w j = (\matrix_(i, l) (matrix_at n k u (bindex ub j) i l / vector_at n diag (bindex db j) i ord0)%R)%Ri.
Proof.
move=> Su Sd Hb. rewrite /div_rows /tmap2. cbn [shp]. rewrite Su Sd -app_assoc /= bshape_rows Hb /= => -[<-].
split=> //. split; first exact: tgen_wf. move=> j Hj. apply/matrixP => i l. rewrite !mxE.
rewrite tget_tgen; last exact: inb_mat. rewrite bindex_rows; try exact: ltR. rewrite bindex_rows1; last exact: ltR.
congr (_ / _).
have Hb' : bshape db ub = Some ws by rewrite bshape_comm.
have := @tget_newaxis diag db n (bindex db j) i Sd (bindex_inb _ _ _ _ Hb' Hj).
by rewrite Sd -app_assoc.
Qed.

Lemma bindex3 a b c s j : bshape a b = Some c -> bshape c s = Some s -> bindex a (bindex c j) = bindex a j.
Proof. move=> H _. exact: bindex_bindex H. Qed.

Lemma diag_plus_low_rank_ok diag u v db ub vb n k bs1 bs b :
  wf diag -> shp diag = (db ++ n :: nil)%list -> shp u = (ub ++ n :: k :: nil)%list -> shp v = (vb ++ n :: k :: nil)%list ->
  bshape db ub = Some bs1 -> bshape bs1 vb = Some bs ->
  (forall j, inb db j -> forall i, vector_at n diag j i ord0 <> 0) ->
  let A j := (diag_of (vector_at n diag (bindex db j)) + matrix_at n k u (bindex ub j) *m (matrix_at n k v (bindex vb j))^T)%Ri in
  (forall j, inb bs j -> (\det (A j))%Ri <> 0) ->
  diag_plus_low_rank_init diag u v = Ok b ->
  affine_bijector b bs A (fun _ => 0%Ri).
Proof.
move=> Wd Sd Su Sv Hb1 Hb Hd A HA. rewrite /diag_plus_low_rank_init => E0.
have [t [_ E1]] := rbind_ok_inv _ _ _ E0. have [w [Ew E2]] := rbind_ok_inv _ _ _ E1.
have [idl [Eid E3]] := rbind_ok_inv _ _ _ E2. have [dl [Edl E4]] := rbind_ok_inv _ _ _ E3.
have [ch [Ech E5]] := rbind_ok_inv _ _ _ E4. clear E0 E1 E2 E3 E4.
have Hb1' : bshape ub db = Some bs1 by rewrite bshape_comm.
have [Sw [Ww Hw]] := div_rows_ok Su Sd Hb1' Ew.
move: E5. rewrite Sd Su Sv lead_app !mlead_app /bcast_shapes Hb1 /= Hb /= => -[<-].
move: Eid. rewrite Sd Su trail_app mcols_app => Eid.
have Jd : forall j, inb bs j -> inb db (bindex db j).
{ move=> j Hj. rewrite -(bindex_bindex _ _ _ j Hb1). apply: bindex_inb Hb1 _. exact: bindex_inb Hb Hj. }
(* S (I + W V^T) = S + U V^T *)
have Fac : forall j, inb bs j -> (diag_of (vector_at n diag (bindex db j)) *m
    (1%:M + matrix_at n k w (bindex bs1 j) *m (matrix_at n k v (bindex vb j))^T) = A j)%Ri.
{ move=> j Hj. rewrite mulmxDr mulmx1 mulmxA. congr (_ + _ *m _)%Ri.
  rewrite Hw; last exact: bindex_inb Hb Hj. apply/matrixP => i l. rewrite /diag_of mul_diag_mx mxE [X in (_ * X)%Ri]mxE.
  rewrite (bindex_bindex _ _ _ j Hb1) (bindex_bindex _ _ _ j Hb1') mxE mulRE.
  have := Hd _ (Jd _ Hj) i. move: (vector_at _ _ _ _ _) => d. move: (matrix_at _ _ _ _ _ _) => a Hda. by toR; field. }
have Dd : forall j, inb db j -> (\det (diag_of (vector_at n diag j)))%Ri <> 0.
{ move=> j Hj. rewrite det_diag_of. apply: prod_neq0. exact: Hd. }
have Did : forall j, inb bs j -> (\det (1%:M + matrix_at n k w (bindex bs1 j) *m (matrix_at n k v (bindex vb j))^T))%Ri <> 0.
{ move=> j Hj H0. apply: (HA j Hj). rewrite -Fac // det_mulmx H0 mulRE. exact: Rmult_0_r. }
have [If [Ii [Im [Iin [Iout [Icj Icl]]]]]] := id_plus_low_rank_ok Sw Sv Hb Did Eid.
have [Df [Di [Dm [Din [Dout [Dcj Dcl]]]]]] := diag_linear_ok Wd Sd Edl Hd.
have Hbd : bshape bs db = Some bs.
{ rewrite bshape_comm. apply: bshape_trans (bshape_absorb_l _ _ _ Hb). exact: bshape_absorb_l Hb1. }
have [G1 [G2 G3]] := affine_seq If Ii Df Di Hbd Did Dd.
have Hm : methods_agree ch.
{ apply: chain_methods_agree Ech _ => x /=. by case=> [<-|[<-|[]]]. }
have Ic : (forall x, b_fal ch x = then_op (b_fal idl) (b_fal dl) x) /\ (forall x, b_ial ch x = then_op (b_ial dl) (b_ial idl) x).
{ move: Ech. rewrite /chain_init. case: (chain_neighbours_ok _) => //=.
  rewrite Iin Dout Icj Icl Dcj Dcl /=. by move=> [<-]. }
move: Ic => [Ff Fi].
split; [|split; [|by []]].
- cbn [b_fal]. apply: (acts_affine_op_ext Ff). apply: acts_affine_ext G1 => j Hj. cbv beta zeta.
  by rewrite (bindex_refl bs j Hj) Fac // mulmx0 add0r.
- cbn [b_ial]. apply: (acts_affine_op_ext Fi). apply: acts_affine_ext G2 => j Hj. cbv beta zeta.
  by rewrite (bindex_refl bs j Hj) Fac // mulmx0 add0r.
Qed.

(** ** Which constructor arguments are accepted *)
Definition square_matrix (m : arr) (n : nat) : Prop := exists mb, shp m = (mb ++ n :: n :: nil)%list.
Definition vector_array (v : arr) (n : nat) : Prop := exists vb, shp v = (vb ++ n :: nil)%list.
Lemma split2 (s : shape) : Nat.ltb (length s) 2 = false -> exists p a b, s = (p ++ a :: b :: nil)%list.
Proof.
case: Nat.ltb_spec => // H _. elim/rev_ind: s H => [/=|b s _]; first lia.
elim/rev_ind: s => [/=|a s _ _]; first lia. exists s, a, b. by rewrite -app_assoc.
Qed.
Lemma split1 (s : shape) : Nat.ltb (length s) 1 = false -> exists p a, s = (p ++ a :: nil)%list.
Proof. case: Nat.ltb_spec => // H _. elim/rev_ind: s H => [/=|b s _]; first lia. by exists s, b. Qed.
Lemma snoc2_inj (p q : shape) a b c d : (p ++ a :: b :: nil)%list = (q ++ c :: d :: nil)%list -> p = q /\ a = c /\ b = d.
Proof.
have E : forall (r : shape) x y, (r ++ x :: y :: nil)%list = ((r ++ x :: nil) ++ y :: nil)%list by move=> r x y; rewrite -app_assoc.
rewrite !E => H. have [H1 ->] := app_inj_tail _ _ _ _ H. have [-> ->] := app_inj_tail _ _ _ _ H1. by [].
Qed.
Lemma check_affine_iff matrix bias :
  check_affine_parameters matrix bias = Ok tt <-> exists n, square_matrix matrix n /\ vector_array bias n.
Proof.
rewrite /check_affine_parameters /rank. split.
- case E2 : Nat.ltb => //. case E1 : Nat.ltb => //.
  have [p [a [c Sm]]] := split2 E2. have [q [d Sb]] := split1 E1.
  rewrite Sm Sb mrows_app mcols_app trail_app. case: Nat.eqb_spec => //= Ea. case: Nat.eqb_spec => //= Eb _. subst.
  exists d. split; [by exists p|by exists q].
- move=> [n [[mb Sm] [bb Sb]]]. by rewrite Sm Sb ltb2 ltb1 mrows_app mcols_app trail_app !Nat.eqb_refl.
Qed.
Lemma check_affine_err matrix bias : is_ok (check_affine_parameters matrix bias) = false -> check_affine_parameters matrix bias = Err ValueError.
Proof. rewrite /check_affine_parameters. by do 4!case: (ifP _) => //. Qed.
Lemma triangular_ctor matrix lo :
  (is_ok (triangular_linear_init matrix lo) = true <-> exists n, square_matrix matrix n) /\
  (is_ok (triangular_linear_init matrix lo) = false -> triangular_linear_init matrix lo = Err ValueError).
Proof.
rewrite /triangular_linear_init /rank. split.
- split.
  + case E2 : Nat.ltb => //. have [p [a [c Sm]]] := split2 E2. rewrite Sm mrows_app mcols_app.
    case: Nat.eqb_spec => //= Ea _. subst. by exists c, p.
  + move=> [n [mb Sm]]. by rewrite Sm ltb2 mrows_app mcols_app Nat.eqb_refl.
- by do 2!case: (ifP _) => //.
Qed.
Lemma unconstrained_ctor matrix bias :
  (is_ok (unconstrained_affine_init matrix bias) = true <->
   exists n mb bb bs, shp matrix = (mb ++ n :: n :: nil)%list /\ shp bias = (bb ++ n :: nil)%list /\ bshape mb bb = Some bs) /\
  (is_ok (unconstrained_affine_init matrix bias) = false -> unconstrained_affine_init matrix bias = Err ValueError).
Proof.
split.
- split.
  + rewrite /unconstrained_affine_init. case Ec : (check_affine_parameters matrix bias) => [[]|] //=.
    have [n [[mb Sm] [bb Sb]]] := proj1 (check_affine_iff _ _) Ec.
    rewrite Sm Sb mlead_app lead_app /bcast_shapes. case E : bshape => [bs|] //= _.
    by exists n, mb, bb, bs.
  + move=> [n [mb [bb [bs [Sm [Sb Hb]]]]]].
    have Ec : check_affine_parameters matrix bias = Ok tt by apply/check_affine_iff; exists n; split; [exists mb|exists bb].
    by rewrite /unconstrained_affine_init Ec /= Sm Sb mlead_app lead_app /bcast_shapes Hb.
- rewrite /unconstrained_affine_init. case Ec : (check_affine_parameters matrix bias) => [[]|e] /=.
  + rewrite /bcast_shapes. by case: bshape.
  + move=> _. have := @check_affine_err matrix bias. rewrite Ec /= => /(_ erefl). by case=> ->.
Qed.
Lemma lu_ctor matrix bias :
  (is_ok (lu_affine_init matrix bias) = true <-> exists n, square_matrix matrix n /\ vector_array bias n) /\
  (is_ok (lu_affine_init matrix bias) = false -> lu_affine_init matrix bias = Err ValueError).
Proof.
have Pos : (exists n, square_matrix matrix n /\ vector_array bias n) -> is_ok (lu_affine_init matrix bias) = true.
{ move=> H. have Ec := proj2 (check_affine_iff matrix bias) H. move: H => [n [[mb Sm] [bb Sb]]].
  rewrite /lu_affine_init Ec /= /triangular_linear_init /rank unit_lower_shp Sm ltb2 mrows_app mcols_app Nat.eqb_refl /=.
  by []. }
split.
- split=> //. rewrite /lu_affine_init. case Ec : (check_affine_parameters matrix bias) => [[]|] //= _. exact/check_affine_iff.
- case Ec : (check_affine_parameters matrix bias) => [[]|e].
  + rewrite Pos //. exact/check_affine_iff.
  + move=> _. rewrite /lu_affine_init. have := @check_affine_err matrix bias. rewrite Ec /= => /(_ erefl). by case=> ->.
Qed.
Lemma low_rank_check_iff diag u v :
  check_shapes_are_valid diag u v = Ok tt <->
  exists n k db ub vb, shp diag = (db ++ n :: nil)%list /\ shp u = (ub ++ n :: k :: nil)%list /\ shp v = (vb ++ n :: k :: nil)%list.
Proof.
rewrite /check_shapes_are_valid /rank. split.
- case E1 : Nat.ltb => //=. case E2 : Nat.ltb => //=. case E3 : Nat.ltb => //=.
  have [db [d Sd]] := split1 E1. have [ub [n [k Su]]] := split2 E2. have [vb [n' [k' Sv]]] := split2 E3.
  rewrite Sd Su Sv !mrows_app !mcols_app trail_app. case: Nat.eqb_spec => //= Ea. case: Nat.eqb_spec => //= Eb.
  case: Nat.eqb_spec => //= Ec _. subst. by exists n', k', db, ub, vb.
- move=> [n [k [db [ub [vb [Sd [Su Sv]]]]]]]. by rewrite Sd Su Sv ltb1 !ltb2 !mrows_app !mcols_app trail_app !Nat.eqb_refl.
Qed.
Lemma low_rank_ctor diag u v :
  (is_ok (diag_plus_low_rank_init diag u v) = true <->
   exists n k db ub vb bs1 bs, shp diag = (db ++ n :: nil)%list /\ shp u = (ub ++ n :: k :: nil)%list /\ shp v = (vb ++ n :: k :: nil)%list /\
     bshape db ub = Some bs1 /\ bshape bs1 vb = Some bs) /\
  (is_ok (diag_plus_low_rank_init diag u v) = false -> diag_plus_low_rank_init diag u v = Err ValueError).
Proof.
case Ec : (check_shapes_are_valid diag u v) => [[]|e]; last first.
{ have Ee : e = ValueError. { move: Ec. rewrite /check_shapes_are_valid. do 3!(case: ifP => _; first by case). by []. }
  rewrite /diag_plus_low_rank_init Ec /= Ee. split=> //. split=> //.
  move=> [n [k [db [ub [vb [bs1 [bs [Sd [Su [Sv _]]]]]]]]]].
  have : check_shapes_are_valid diag u v = Ok tt by apply/low_rank_check_iff; exists n, k, db, ub, vb. by rewrite Ec. }
have [n [k [db [ub [vb [Sd [Su Sv]]]]]]] := proj1 (low_rank_check_iff _ _ _) Ec.
have EW : div_rows u diag = match bshape ub db with Some ws => div_rows u diag | None => Err ValueError end.
{ rewrite /div_rows /tmap2. cbn [shp]. rewrite Su Sd -app_assoc /= bshape_rows. by case: bshape. }
rewrite /diag_plus_low_rank_init Ec /= EW.
have Uniq : forall n' k' db' ub' vb', shp diag = (db' ++ n' :: nil)%list -> shp u = (ub' ++ n' :: k' :: nil)%list -> shp v = (vb' ++ n' :: k' :: nil)%list ->
  db' = db /\ ub' = ub /\ vb' = vb.
{ move=> n' k' db' ub' vb'. rewrite Sd Su Sv => H /snoc2_inj [<- _] /snoc2_inj [<- _]. by have [<- _] := app_inj_tail _ _ _ _ H. }
case E1 : (bshape ub db) => [ws|]; last first.
{ split=> //. split=> //. move=> [n' [k' [db' [ub' [vb' [bs1 [bs [Sd' [Su' [Sv' [H1 H2]]]]]]]]]]].
  have [? [? ?]] := Uniq _ _ _ _ _ Sd' Su' Sv'. subst. by rewrite bshape_comm E1 in H1. }
case Ew : (div_rows u diag) => [w|] /=; last first.
{ exfalso. move: Ew. rewrite /div_rows /tmap2. cbn [shp]. by rewrite Su Sd -app_assoc /= bshape_rows E1. }
have [Sw [Ww Hw]] := div_rows_ok Su Sd E1 Ew.
rewrite /id_plus_low_rank_init Sw Sv !mlead_app /bcast_shapes. cbn [rbind base_init Z.ltb Z.compare andb negb].
case E2 : (bshape ws vb) => [bs|] /=; last first.
{ split=> //. split=> //. move=> [n' [k' [db' [ub' [vb' [bs1 [bs [Sd' [Su' [Sv' [H1 H2]]]]]]]]]]].
  rewrite -Sv in Sv'. have [? [? ?]] := Uniq _ _ _ _ _ Sd' Su' Sv'. subst. rewrite bshape_comm E1 in H1. by case: H1 H2 => <-; rewrite E2. }
case Ed : (diag_linear_init diag) => [dl|] /=; last first.
{ exfalso. move: Ed. rewrite /diag_linear_init /rank Sd ltb1 /scalar_affine_init.
  change (base_init 0 None true None) with (Ok (mkMeta 0 0 true true)).
  cbn [rbind sa_params]. by rewrite /bcast_shapes bshape_nil_l. }
have Hdl : b_in dl = 1%Z /\ b_out dl = 1%Z /\ b_cj dl = true /\ b_cl dl = true.
{ move: Ed. rewrite /diag_linear_init. case: (ifP _) => // _ E.
  have [sa [_ E']] := rbind_ok_inv _ _ _ E. have [bl [_ E'']] := rbind_ok_inv _ _ _ E'. by case: E'' => <-. }
move: Hdl => [H1 [H2 [H3 H4]]].
rewrite /chain_init /chain_neighbours_ok /= H1 H2 H3 H4 /= Sd Su lead_app mlead_app.
rewrite bshape_comm E1 /= E2 /=. split=> //. split=> // _. exists n, k, db, ub, vb, ws, bs. by rewrite bshape_comm E1.
Qed.
Lemma diag_ctor diag :
  (shp diag = nil -> diag_linear_init diag = Err ValueError) /\
  (shp diag <> nil -> is_ok (diag_linear_init diag) = true).
Proof.
split; first by rewrite /diag_linear_init /rank => ->.
by move=> H; rewrite /diag_linear_init /rank; case: (shp diag) H.
Qed.
