(** Model of straight_through.py: straight_through_wrapper, with forward-mode tangents.
    The wrapped distribution is a batch of categoricals (one per index of [B]), of Model/Categorical.v. *)
From Coq Require Import Reals List Arith.
From Verif Require Import Base.Result Base.Tensor Base.XR Base.Lift Model.ArrayDist Model.Categorical.
Import ListNotations.

(** The class passed to the wrapper.  Greedy, EpsilonGreedy and Softmax derive from Categorical but have no [probs]
    keyword; Bernoulli has one but does not derive from Categorical. *)
Inductive base_class := BCategorical | BOneHotCategorical | BGreedy | BEpsilonGreedy | BSoftmax | BBernoulli.
(** line 45-46: Distribution(probs=self._probs, logits=self._logits), with the default dtype, and the assertion; the outcome
    depends on the class only, since exactly one of the two is stored *)
Definition recreate (d : categorical) : categorical :=
  match (match d with CProbs p => cat_init None (Some p) DInt | CLogits l => cat_init (Some l) None DInt end) with
  | Ok obj => obj | Err _ => d
  end.
(** the samples of the base class, of shape S + B (Categorical) or S + B + (K,) (OneHotCategorical), categorical.py:92-99,
    one_hot_categorical.py:60-70; [gumbel] are the random draws *)
Definition cat_sample_n (S B : shape) (d : list nat -> categorical) (gumbel : list nat -> list XR) : tensor XR :=
  tgen (S ++ B) (fun idx => cat_sample (gumbel idx) (d (skipn (length S) idx))).
Definition ohc_sample_n (S B : shape) (K : nat) (d : list nat -> categorical) (gumbel : list nat -> list XR) : tensor XR :=
  tgen (S ++ B ++ [K]) (fun idx =>
    let sb := removelast idx in nth (last idx 0) (ohc_sample (gumbel sb) (d (skipn (length S) sb))) NaN).
(** obj.probs, of shape B + (K,) *)
Definition probs_arr (B : shape) (K : nat) (d : list nat -> categorical) : tensor XR :=
  tgen (B ++ [K]) (fun idx => nth (last idx 0) (cat_probs (d (removelast idx))) NaN).
(** _pad, 55-59: [probs[None]] until the number of dimensions is [n] *)
Definition expand_first (t : tensor XR) : tensor XR := tgen (1 :: shp t) (fun idx => tget (Fin 0) t (tl idx)).
Fixpoint pad_loop (fuel : nat) (t : tensor XR) : tensor XR :=
  match fuel with O => t | S fuel' => pad_loop fuel' (expand_first t) end.
Definition pad (t : tensor XR) (n : nat) : tensor XR := pad_loop (n - length (shp t)) t.
(** lines 49-53 on values and tangents: stop_gradient has a zero tangent *)
Definition zeros_like (t : tensor XR) : tensor XR := tgen (shp t) (fun _ => Fin 0).
Definition straight_through (sample sample_dot probs probs_dot : tensor XR) : result (tensor XR * tensor XR) :=
  let padded := pad probs (length (shp sample)) in
  let padded_dot := pad probs_dot (length (shp sample)) in
  do diff <- lift2 xsub padded padded;
  do diff_dot <- lift2 xsub padded_dot (zeros_like padded);
  do value <- lift2 xadd sample diff;
  do tangent <- lift2 xadd sample_dot diff_dot;
  Ok (value, tangent).
(** sample, 26-53, for a batch of stored distributions [d]; [probs_dot] is the tangent of obj.probs.  Samples are integers
    and have a zero tangent. *)
Definition st_sample (cls : base_class) (S B : shape) (K : nat) (d : list nat -> categorical)
    (gumbel : list nat -> list XR) (probs_dot : list nat -> R) : result (tensor XR * tensor XR) :=
  let obj := fun b => recreate (d b) in
  let run sample := straight_through sample (zeros_like sample) (probs_arr B K obj) (tgen (B ++ [K]) (fun idx => Fin (probs_dot idx))) in
  match cls with
  | BOneHotCategorical => run (ohc_sample_n S B K obj gumbel)
  | BCategorical => run (cat_sample_n S B obj gumbel)
  | BGreedy | BEpsilonGreedy | BSoftmax => Err TypeError      (* unexpected keyword argument 'probs' *)
  | BBernoulli => Err AssertionError                          (* 46 *)
  end.
