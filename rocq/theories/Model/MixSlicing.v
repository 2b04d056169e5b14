(** [__getitem__] of MixtureSameFamily, MixtureOfTwo, CategoricalUniform and Dirichlet. *)
From Coq Require Import List Reals ZArith Bool.
From Verif Require Import Base.Result Base.Sums Base.Tensor Base.XR Base.Lift Model.Distribution Model.AdvIndex Model.MathUtils Model.ScalarDist Model.ArrayDist Model.Categorical Model.CatSlicing
  Model.Mixture Model.Slicing Model.GammaFamily.
Import ListNotations.

(** to_batch_shape_index, distribution.py:353-358: the tuple of integer arrays with which the parts are then indexed *)
Definition batch_index (batch : shape) (ix : index_object) : result index_object :=
  do ixs <- rmapM (fun x => any_getitem 0 x ix) (np_indices batch); Ok (tuple_index ixs).

(** Categorical.logits, categorical.py:71-76, 150-152, of a batch: the mixture distribution as MixtureSameFamily sees it *)
Definition catb_logits (d : catb) : tensor XR :=
  tgen (shp (cb_param d)) (fun idx => nth (last idx 0) (cat_logits (cat_at d (removelast idx))) NaN).
Definition catb_mixing (d : catb) : mixing unit := mkMixing (catb_batch d) (catb_logits d) (fun _ _ => Err NotImplementedError).

(** A family of univariate distributions with two parameters (Normal, Laplace, ...): log_prob, mean and variance *)
Record family := mkFamily {
  fam_log_prob : tensor XR -> tensor XR -> tensor XR -> result (tensor XR);
  fam_mean : tensor XR -> tensor XR -> result (tensor XR);
  fam_variance : tensor XR -> tensor XR -> result (tensor XR) }.
Definition fam_dist (F : family) (d : tensor XR * tensor XR) : result (xdist unit) :=
  let '(p, q) := d in
  do batch <- batch_shape2 p q;
  Ok (mkXdist batch [] (fun x => fam_log_prob F x p q) (fun _ _ => Err NotImplementedError) (fam_mean F p q) (fam_variance F p q)).

(** MixtureSameFamily(mixture_distribution=cat, components_distribution=F(p, q)) *)
Record msfb := mkMsfb { mb_cat : catb; mb_comp : tensor XR * tensor XR; mb_msf : msf unit }.
Definition msfb_init (F : family) (cat : catb) (comp : tensor XR * tensor XR) : result msfb :=
  do c <- fam_dist F comp; do m <- msf_init (catb_mixing cat) c; Ok (mkMsfb cat comp m).
(** mixture_same_family.py:152-157 *)
Definition msfb_getitem (F : family) (d : msfb) (ix : index_object) : result msfb :=
  do index <- batch_index (msf_batch_shape (mb_msf d)) ix;
  do cat <- catb_getitem (mb_cat d) index;
  do comp <- pair_getitem (fst (mb_comp d)) (snd (mb_comp d)) index;
  msfb_init F cat comp.

(** MixtureOfTwo(prob_a, F(p, q), G(p', q')); mixture_of_two.py:105-111 *)
Record mo2b := mkMo2b { tb_prob : XR; tb_a : tensor XR * tensor XR; tb_b : tensor XR * tensor XR; tb_mo2 : mo2 unit }.
Definition mo2b_init (F G : family) (prob : XR) (a b : tensor XR * tensor XR) : result mo2b :=
  do da <- fam_dist F a; do db <- fam_dist G b; do m <- mo2_init 0 prob da db 0 0; Ok (mkMo2b prob a b m).
Definition mo2b_getitem (F G : family) (d : mo2b) (ix : index_object) : result mo2b :=
  do index <- batch_index (mo2_batch_shape (tb_mo2 d)) ix;
  do a <- pair_getitem (fst (tb_a d)) (snd (tb_a d)) index;
  do b <- pair_getitem (fst (tb_b d)) (snd (tb_b d)) index;
  mo2b_init F G (tb_prob d) a b.

(** CategoricalUniform, categorical_uniform.py:48-82: the arguments as given; the element at a batch index, 144-160 *)
Record cub := mkCub { ub_low : tensor XR; ub_high : tensor XR; ub_logits : tensor XR }.
Definition cub_init (low high logits : tensor XR) : result cub := if Nat.ltb (rank logits) 1 then Err ValueError else Ok (mkCub low high logits).
Definition cub_batch (d : cub) : result shape :=
  match bshapes [shp (ub_low d); shp (ub_high d); removelast (shp (ub_logits d))] with Some s => Ok s | None => Err ValueError end.
Definition cub_bins (d : cub) : nat := last (shp (ub_logits d)) 0.
Definition cub_at (d : cub) (i : list nat) : catuni :=
  mkCU (xget (ub_low d) i) (xget (ub_high d) i) (map (fun k => xget (ub_logits d) (i ++ [k])) (seq 0 (cub_bins d))).
(** 109-113; self.low, self.high and self.logits are the arguments broadcast to the batch shape (144-156) *)
Definition cub_getitem (d : cub) (ix : index_object) : result cub :=
  do batch <- cub_batch d;
  do low <- broadcast_to (ub_low d) batch; do low' <- slice_param_any (Fin 0) batch ix low;
  do high <- broadcast_to (ub_high d) batch; do high' <- slice_param_any (Fin 0) batch ix high;
  do logits <- broadcast_to (ub_logits d) (batch ++ [cub_bins d]); do logits' <- slice_param_any (Fin 0) batch ix logits;
  cub_init low' high' logits'.

(** Dirichlet, dirichlet.py:53-81: the concentration, of shape batch + (K,) *)
Record dirb := mkDirb { db_conc : tensor XR }.
Definition dirb_init (conc : tensor XR) : result dirb := do s <- dirichlet_shapes (shp conc); Ok (mkDirb conc).
Definition dirb_batch (d : dirb) : shape := removelast (shp (db_conc d)).
(** a method that works along the last axis of the concentration and of the value (log_prob, 96-99), or of the concentration alone (entropy, 101-110) *)
Definition dirb_eval (f : list XR -> list XR -> XR) (d : dirb) (value : tensor XR) : result (tensor XR) :=
  match bshape (shp value) (shp (db_conc d)) with
  | None => Err ValueError
  | Some s => let row t i := map (fun k => xget t (i ++ [k])) (seq 0 (last s 0)) in
              Ok (tgen (removelast s) (fun i => f (row value i) (row (db_conc d) i)))
  end.
Definition dirb_stat (f : list XR -> XR) (d : dirb) : result (tensor XR) := Ok (tgen (dirb_batch d) (fun i => f (vec (db_conc d) i))).
(** mean, mode and variance, 112-136: arrays of events *)
Definition dirb_events (f : list XR -> list XR) (d : dirb) : result (tensor XR) := Ok (along_last f (db_conc d)).
(** 153-156 *)
Definition dirb_getitem (d : dirb) (ix : index_object) : result dirb :=
  do c <- slice_param_any NaN (dirb_batch d) ix (db_conc d); dirb_init c.
