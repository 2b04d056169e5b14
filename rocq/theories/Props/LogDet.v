(** C02 (true Jacobian) and C08. *)
From mathcomp Require Import all_ssreflect all_algebra.
From Coq Require Import Reals Lra List ZArith.
From Verif Require Import Base.Result Base.Sums Base.Tensor Model.Bijector Model.ScalarBij Base.Rmx
  Spec.Bijector Spec.Scalar Spec.Jacobian Proofs.Bijector Proofs.Block Proofs.Jacobian Proofs.ScalarBij Proofs.LogDet.
Delimit Scope ring_scope with Ri.
Delimit Scope R_scope with R.
Local Open Scope R_scope.

(** If every link reports log|det| of its own true Jacobian at the point the chain feeds it,
    the chain reports log|det| of the Jacobian of the composed map, in every batch position. *)
Theorem C02_chain_log_det_true_jacobian :
  forall pre suf (bs : list (bij * (list nat -> 'cV[R]_(prodl suf) -> 'cV[R]_(prodl suf)))) c x,
  chain_init (List.map fst bs) = Ok c -> (forall b, In b (List.map fst bs) -> methods_agree b) ->
  wf x -> shp x = (pre ++ suf)%list -> links_log_det_ok pre bs x ->
  log_det_ok c pre (compose_maps (List.map snd bs)) x.
Proof. exact chain_log_det. Qed.
Print Assumptions C02_chain_log_det_true_jacobian.

Theorem C08_block_log_det_true_jacobian :
  forall m f lf g lg k c pre suf (x : arr),
  m_in m = 0%Z -> m_out m = 0%Z -> (m_cj m = true -> m_cl m = true) ->
  block_init (elementwise m f lf g lg) k = Ok c ->
  wf x -> shp x = (pre ++ suf)%list -> Z.of_nat (length suf) = k ->
  (forall idx, inb (pre ++ suf) idx -> log_abs_derivative f lf (tget 0 x idx)) ->
  log_det_ok c pre (fun _ (v : 'cV[R]_(prodl suf)) => (\col_i f (v i ord0))%Ri) x.
Proof. exact block_elementwise_log_det. Qed.
Print Assumptions C08_block_log_det_true_jacobian.

(** Non-vacuity of both: Chain([Block(Tanh,1), Block(GumbelCDF,1)]) on every batch of n-vectors. *)
Definition ex_meta := mkMeta 0 0 false false.
Definition ex_tanh1 := block_init (elementwise ex_meta tanh_forward tanh_fldj tanh_inverse tanh_ildj) 1.
Definition ex_gumbel1 := block_init (elementwise ex_meta gumbel_forward gumbel_fldj gumbel_inverse gumbel_ildj) 1.
Example C02_C08_nonvacuous : forall t g, ex_tanh1 = Ok t -> ex_gumbel1 = Ok g ->
  forall c, chain_init (t :: g :: nil) = Ok c ->
  forall pre n (x : arr), wf x -> shp x = (pre ++ n :: nil)%list ->
  log_det_ok c (suf := n :: nil) pre (fun _ v => (\col_i tanh_forward (gumbel_forward (v i ord0)))%Ri) x.
Proof.
move=> t g Ht Hg c Hc pre n x Hw Hs.
have At : methods_agree t by apply: (block_methods_agree _ _ _ _ _ Ht); [split|]; [|split|split] => //=; move=> a b l [<- <-].
have Ag : methods_agree g by apply: (block_methods_agree _ _ _ _ _ Hg); [split|]; [|split|split] => //=; move=> a b l [<- <-].
have Hok : forall (f lf f' lf' : R -> R) b z, block_init (elementwise ex_meta f lf f' lf') 1 = Ok b ->
  (forall r, log_abs_derivative f lf r) -> wf z -> shp z = (pre ++ n :: nil)%list ->
  log_det_ok b (suf := n :: nil) pre (fun _ v => (\col_i f (v i ord0))%Ri) z.
{ move=> f lf f' lf' b z Hb Hd Hwz Hsz. exact: (@C08_block_log_det_true_jacobian ex_meta f lf f' lf' 1%Z b pre (n :: nil) z erefl erefl (fun h => h) Hb Hwz Hsz erefl (fun _ _ => Hd _)). }
have Hlg := Hok _ _ _ _ _ _ Hg gumbel_log_det Hw Hs.
pose bs : list (bij * (list nat -> 'cV[R]_(prodl (n :: nil)) -> 'cV[R]_(prodl (n :: nil)))) :=
  ((t, fun _ (v : 'cV[R]_(prodl (n :: nil))) => (\col_i tanh_forward (v i ord0))%Ri) :: (g, fun _ (v : 'cV[R]_(prodl (n :: nil))) => (\col_i gumbel_forward (v i ord0))%Ri) :: nil).
have H := @C02_chain_log_det_true_jacobian pre (n :: nil) bs c x Hc.
have [||y [ld [E K]]] := H _ Hw Hs.
- by move=> b /= [<-|[<-|[]]].
- split; [split => //|].
  + by move=> z /= [<-].
  + move=> z /= Ez. have [y [ld [E [Hwy [Hsy _]]]]] := Hlg.
    have [Ey _] := proj1 Ag _ _ _ E. rewrite Ey in Ez. case: Ez => <-. exact: (Hok _ _ _ _ _ _ Ht tanh_log_det).
- exists y, ld. split; first exact: E.
  have [h1 [h2 [h3 [h4 h5]]]] := K. split => //. split => //. split => //. split => //.
  move=> idx Hi. have [e d] := h5 idx Hi. rewrite /= in e d.
  have ext : forall v : 'cV[R]_(prodl (n :: nil)),
   (\col_i tanh_forward ((\col_i0 gumbel_forward (v i0 ord0)) i ord0))%Ri = (\col_i tanh_forward (gumbel_forward (v i ord0)))%Ri.
  { by move=> v; apply/colP => i; rewrite !mxE. }
  rewrite e ext. split; first done. have [J [HJ [h6 h7]]] := d. exists J. split; last by [].
  exact: (jacobian_ext ext HJ).
Qed.
