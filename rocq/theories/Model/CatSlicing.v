(** Batches of the Categorical family and their [__getitem__].  Parameters are arrays whose last axis lists the categories; every method
    works along that axis, so that a batch is a family of the one-row objects of Model/Categorical.v. *)
From Coq Require Import List Reals ZArith Bool.
From Verif Require Import Base.Result Base.Sums Base.Tensor Base.XR Base.Lift Model.Distribution Model.AdvIndex Model.MathUtils Model.Categorical.
Import ListNotations.

(** the vector along the last axis at the batch index [i], and an operation along the last axis *)
Definition last_axis (t : tensor XR) : nat := last (shp t) 0.
Definition vec (t : tensor XR) (i : list nat) : list XR := map (fun j => tget NaN t (i ++ [j])) (seq 0 (last_axis t)).
Definition along_last (f : list XR -> list XR) (t : tensor XR) : tensor XR :=
  tgen (shp t) (fun idx => nth (last idx 0) (f (vec t (removelast idx))) NaN).

Inductive cat_kind := KLogits | KProbs.
(** Categorical / OneHotCategorical: which of _logits and _probs is stored, and its value *)
Record catb := mkCatb { cb_kind : cat_kind; cb_param : tensor XR; cb_dtype : dtype }.
(** Categorical.__init__, categorical.py:51-64 *)
Definition catb_init (logits probs : option (tensor XR)) (dt : dtype) : result catb :=
  match logits, probs with
  | None, None | Some _, Some _ => Err ValueError
  | Some l, None => match dt with DInt | DFloat => Ok (mkCatb KLogits (along_last normalize_logits l) dt) | _ => Err ValueError end
  | None, Some p => match dt with DInt | DFloat => Ok (mkCatb KProbs (along_last normalize_probs p) dt) | _ => Err ValueError end
  end.
(** batch_shape: the default of distribution.py:108-130 for samples of shape logits.shape[:-1] (categorical.py:94) *)
Definition catb_batch (d : catb) : shape := removelast (shp (cb_param d)).
(** the one-row object at a batch index *)
Definition cat_at (d : catb) (i : list nat) : categorical :=
  match cb_kind d with KLogits => CLogits (vec (cb_param d) i) | KProbs => CProbs (vec (cb_param d) i) end.
(** log_prob, prob, cdf, categorical.py:101-144: the value, of any shape that broadcasts with the batch, elementwise *)
Definition catb_eval (f : categorical -> XR -> XR) (d : catb) (value : tensor XR) : result (tensor XR) :=
  match bshape (shp value) (catb_batch d) with
  | None => Err ValueError
  | Some s => Ok (tgen s (fun i => f (cat_at d (bindex (catb_batch d) i)) (xget value i)))
  end.
(** entropy, mode, categorical.py:117-128 *)
Definition catb_stat (f : categorical -> XR) (d : catb) : result (tensor XR) := Ok (tgen (catb_batch d) (fun i => f (cat_at d i))).
(** __getitem__, categorical.py:154-159 and one_hot_categorical.py:92-97: the stored array is sliced and normalised again *)
Definition catb_getitem (d : catb) (ix : index_object) : result catb :=
  match cb_kind d with
  | KLogits => do l <- slice_param_any NaN (catb_batch d) ix (cb_param d); catb_init (Some l) None (cb_dtype d)
  | KProbs => do p <- slice_param_any NaN (catb_batch d) ix (cb_param d); catb_init None (Some p) (cb_dtype d)
  end.

(** Greedy, EpsilonGreedy and Softmax keep the constructor's argument next to the Categorical's fields: greedy.py:40-64,
    epsilon_greedy.py:49-81, softmax.py:37-69.  [build] is the constructor as a function of that argument. *)
Record policy := mkPolicy { po_arg : tensor XR; po_cat : catb }.
Definition greedy_build (dt : dtype) (prefs : tensor XR) : result policy :=
  do c <- catb_init None (Some (along_last tie_breaking prefs)) dt; Ok (mkPolicy prefs c).
Definition epsilon_greedy_build (epsilon : XR) (dt : dtype) (prefs : tensor XR) : result policy :=
  do c <- catb_init None (Some (along_last (fun p => mix_probs_with_uniform p epsilon) (along_last tie_breaking prefs))) dt; Ok (mkPolicy prefs c).
Definition softmax_build (temperature : XR) (dt : dtype) (logits : tensor XR) : result policy :=
  do c <- catb_init (Some (tmap (fun l => xdiv l temperature) logits)) None dt; Ok (mkPolicy logits c).
Definition policy_getitem (build : tensor XR -> result policy) (d : policy) (ix : index_object) : result policy :=
  do a <- slice_param_any NaN (catb_batch (po_cat d)) ix (po_arg d); build a.

(** Bernoulli, bernoulli.py:58-99, 162-167: nothing is normalised *)
Record bernb := mkBernb { bb_kind : cat_kind; bb_param : tensor XR }.
Definition bern_at (d : bernb) (i : list nat) : bernoulli :=
  match bb_kind d with KLogits => BLogits (xget (bb_param d) i) | KProbs => BProbs (xget (bb_param d) i) end.
Definition bernb_eval (f : bernoulli -> XR -> XR) (d : bernb) (value : tensor XR) : result (tensor XR) :=
  match bshape (shp value) (shp (bb_param d)) with
  | None => Err ValueError
  | Some s => Ok (tgen s (fun i => f (bern_at d i) (xget value i)))
  end.
Definition bernb_stat (f : bernoulli -> XR) (d : bernb) : result (tensor XR) := Ok (tgen (shp (bb_param d)) (fun i => f (bern_at d i))).
Definition bernb_getitem (d : bernb) (ix : index_object) : result bernb :=
  do p <- slice_param_any (Fin 0) (shp (bb_param d)) ix (bb_param d); Ok (mkBernb (bb_kind d) p).
