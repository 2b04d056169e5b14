(** Model of distrax/_src/utils/hmm.py.  Vectors are lists, matrices lists of rows; the categorical
    components are those of Model/Categorical.v, one per row; the observation distribution is seen through
    its batch of log_prob / prob values and its batch of samples.  Random keys are replaced by the noise
    they produce. *)
From Coq Require Import Reals List Bool ZArith.
From Verif Require Import Base.Result Base.XR Base.Tensor Model.MathUtils Model.Categorical.
Import ListNotations.
Local Open Scope R_scope.

(** the default eps of _normalize, hmm.py:30 *)
Definition hmm_eps : R := / 10 ^ 15.
(** _normalize on one vector, hmm.py:28-44 *)
Definition hmm_normalize (u : list XR) : list XR * XR :=
  let u := map (fun x => if xeqb x (Fin 0) then Fin 0 else if xltb x (Fin hmm_eps) then Fin hmm_eps else x) u in
  let c := xsum u in
  let c := if xeqb c (Fin 0) then Fin 1 else c in
  (map (fun x => xdiv x c) u, c).

(** A batch of Categoricals as the constructor sees it: dtype, batch shape, one categorical per batch element
    (row-major) and the size of the last axis of the stored parameter. *)
Record cat_batch := mkCatBatch { cb_dtype : dtype; cb_batch : shape; cb_rows : list categorical; cb_num : nat }.
(** An observation distribution: batch shape, and prob / log_prob of one observation, one entry per batch element *)
Record obs_dist (E : Type) := mkObs { ob_batch : shape; ob_prob : E -> list XR; ob_log_prob : E -> list XR }.
Arguments mkObs {E}. Arguments ob_batch {E}. Arguments ob_prob {E}. Arguments ob_log_prob {E}.
Record hmm (E : Type) := mkHMM { h_init : categorical; h_trans : list categorical; h_obs : obs_dist E; h_n : nat }.
Arguments mkHMM {E}. Arguments h_init {E}. Arguments h_trans {E}. Arguments h_obs {E}. Arguments h_n {E}.

Definition is_int (d : dtype) : bool := match d with DInt => true | _ => false end.
Definition shape_is (s t : shape) : bool := if list_eq_dec Nat.eq_dec s t then true else false.
(** HMM.__init__, hmm.py:65-101.  (as_distribution is the identity on distrax objects, see C67.) *)
Definition hmm_init {E} (init trans : cat_batch) (obs : obs_dist E) : result (hmm E) :=
  let n_states := cb_num init in
  if negb (is_int (cb_dtype init)) then Err TypeError
  else if negb (is_int (cb_dtype trans)) then Err TypeError
  else match cb_batch init with
  | _ :: _ => Err ValueError
  | [] =>
    if negb (shape_is (ob_batch obs) [n_states]) then Err ValueError
    else if negb (shape_is (cb_batch trans) [n_states]) then Err ValueError
    else if negb (Nat.eqb (cb_num trans) n_states) then Err ValueError
    else match cb_rows init with
    | [d] => Ok (mkHMM d (cb_rows trans) obs n_states)
    | _ => Err AssertionError          (* impossible: an empty batch shape has one element *)
    end
  end.

(** jax.lax.scan *)
Fixpoint scan {C X Y} (f : C -> X -> C * Y) (c : C) (xs : list X) : C * list Y :=
  match xs with
  | [] => (c, [])
  | x :: xs' => let '(c1, y) := f c x in let '(c2, ys) := scan f c1 xs' in (c2, y :: ys)
  end.
(** indexing a vector by a traced integer: negative counts from the end, then clamped *)
Definition jnp_get {A} (d : A) (l : list A) (i : Z) : A :=
  let n := Z.of_nat (length l) in
  let i := if (i <? 0)%Z then (i + n)%Z else i in
  nth (Z.to_nat (Z.max 0 (Z.min i (n - 1)))) l d.

(** HMM.sample, hmm.py:132-150, as a function of the draws: the initial state, for every later step the
    batch of N states drawn by trans_dist.sample, and for every step the batch of N observations drawn by
    obs_dist.sample. *)
Definition sample_states (initial_state : Z) (trans_draws : list (list Z)) : list Z :=
  let draw_state prev_state draws := let state := jnp_get (-1)%Z draws prev_state in (state, state) in
  initial_state :: snd (scan draw_state initial_state trans_draws).
Definition sample_from {E} (e0 : E) (initial_state : Z) (trans_draws : list (list Z)) (obs_draws : list (list E))
  : list Z * list E :=
  let states := sample_states initial_state trans_draws in
  (states, map2 (fun state draws => jnp_get e0 draws state) states obs_draws).
(** Categorical.sample as an integer (categorical.py:92-99) *)
Definition cat_sample_int (gumbel : list XR) (d : categorical) : Z :=
  if cat_is_valid d then Z.of_nat (random_categorical gumbel (cat_logits d)) else (-1)%Z.
Definition hmm_sample {E} (e0 : E) (h : hmm E) (g0 : list XR) (gs : list (list (list XR))) (obs_draws : list (list E))
  : list Z * list E :=
  sample_from e0 (cat_sample_int g0 (h_init h)) (map (fun g => map2 cat_sample_int g (h_trans h)) gs) obs_draws.

(** m.sum(axis=0) and m.sum(axis=1) of a matrix with n columns *)
Definition sum_axis0 (n : nat) (m : list (list XR)) : list XR :=
  map (fun j => xsum (map (fun row => nth j row NaN) m)) (seq 0 n).
Definition sum_axis1 (m : list (list XR)) : list XR := map xsum m.

Section Algorithms.
Context {E : Type} (h : hmm E).
Let n_states := h_n h.
Let init_probs : list XR := cat_probs (h_init h).
Let trans_probs : list (list XR) := map cat_probs (h_trans h).
Let obs_prob : E -> list XR := ob_prob (h_obs h).
Let obs_log_prob : E -> list XR := ob_log_prob (h_obs h).

(** HMM.forward, hmm.py:167-197 (obs_seq[0] of an empty sequence is an IndexError) *)
Definition forward (obs_seq : list E) (length_ : option Z) : result (XR * list (list XR)) :=
  match obs_seq with
  | [] => Err IndexError
  | x0 :: _ =>
    let seq_len := length obs_seq in
    let len := match length_ with None => Z.of_nat seq_len | Some l => l end in
    let scan_fn (carry : list XR * XR) (t : nat) :=
      let '(alpha_prev, log_ll_prev) := carry in
      let alpha_n :=
        if (Z.of_nat t <? len)%Z
        then map2 xmul (obs_prob (nth t obs_seq x0))
                  (sum_axis0 n_states (map2 (fun a row => map (xmul a) row) alpha_prev trans_probs))
        else map (fun _ => Fin 0) alpha_prev in
      let '(alpha_n, cn) := hmm_normalize alpha_n in
      ((alpha_n, xadd (xlog cn) log_ll_prev), alpha_n) in
    let '(alpha_0, c0) := hmm_normalize (map2 xmul init_probs (obs_prob x0)) in
    let '((_, log_ll), alpha_hist) := scan scan_fn (alpha_0, xlog c0) (seq 1 (seq_len - 1)) in
    Ok (log_ll, alpha_0 :: alpha_hist)
  end.

(** HMM.backward, hmm.py:213-234; the scan runs over t = seq_len, ..., 2 *)
Definition backward (obs_seq : list E) (length_ : option Z) : list (list XR) :=
  let seq_len := length obs_seq in
  let len := match length_ with None => Z.of_nat seq_len | Some l => l end in
  let beta_0 := repeat (Fin 1) n_states in
  let scan_fn (beta_prev : list XR) (t : nat) :=
    let beta_t :=
      if (len <? Z.of_nat t)%Z then map (fun _ => Fin 0) beta_prev
      else match nth_error obs_seq (t - 1) with
           | Some x => fst (hmm_normalize (sum_axis1
                         (map (map2 xmul (map2 xmul beta_prev (obs_prob x))) trans_probs)))
           | None => []                (* unreachable: 1 <= t - 1 < seq_len *)
           end in
    (beta_t, beta_t) in
  let '(_, beta_hist) := scan scan_fn beta_0 (rev (seq 2 (seq_len - 1))) in
  rev (beta_0 :: beta_hist).

(** HMM.forward_backward, hmm.py:261-276 *)
Definition forward_backward (obs_seq : list E) (length_ : option Z)
  : result (list (list XR) * list (list XR) * list (list XR) * XR) :=
  do fw <- forward obs_seq length_;
  let '(ll, alpha) := fw in
  let beta := backward obs_seq length_ in
  let gamma := map (fun t => map2 xmul (nth t alpha []) (nth t beta [])) (seq 0 (length obs_seq)) in
  let gamma := map (fun x => fst (hmm_normalize x)) gamma in
  Ok (alpha, beta, gamma, ll).

(** HMM.viterbi, hmm.py:290-323.  argmax / max over axis -2 run over the rows of a column. *)
Definition column (m : list (list XR)) (j : nat) : list XR := map (fun row => nth j row NaN) m.
Definition viterbi_forward (trans_log_probs : list (list XR)) (prev_logp : list XR) (obs : E) : list XR * list nat :=
  let obs_logp := obs_log_prob obs in
  let logp := map2 (fun p row => map2 (fun l o => xadd (xadd p l) o) row obs_logp) prev_logp trans_log_probs in
  (map (fun j => xmaxl (column logp j)) (seq 0 n_states), map (fun j => argmax (column logp j)) (seq 0 n_states)).
(** viterbi_backward, 314-317: a one-hot product and a sum *)
Definition viterbi_backward (state : nat) (most_likely_sources : list nat) : nat * nat :=
  let hot := map (fun i => if Nat.eqb i state then 1%nat else 0%nat) (seq 0 n_states) in
  let most_likely := fold_right Nat.add 0%nat (map2 Nat.mul most_likely_sources hot) in
  (most_likely, most_likely).
(** jax.lax.scan(..., reverse=True): the last element is visited first, outputs keep their positions *)
Definition scan_reverse {C X Y} (f : C -> X -> C * Y) (c : C) (xs : list X) : C * list Y :=
  let '(c', ys) := scan f c (rev xs) in (c', rev ys).
Definition viterbi (obs_seq : list E) : result (list nat) :=
  match obs_seq with
  | [] => Err IndexError
  | x0 :: obs_tail =>
    let trans_log_probs := map (fun d => log_softmax (cat_logits d)) (h_trans h) in
    let init_log_probs := log_softmax (cat_logits (h_init h)) in
    let first_log_prob := map2 xadd init_log_probs (obs_log_prob x0) in
    match obs_tail with
    | [] => Ok [argmax first_log_prob]
    | _ :: _ =>
      let '(final_log_prob, most_likely_sources) := scan (viterbi_forward trans_log_probs) first_log_prob obs_tail in
      (* 308-312: a first entry is computed and prepended, then skipped by [1:] at 321 *)
      let most_likely_initial_given_successor :=
        map (fun j => argmax (column (map (fun row => map2 xadd row first_log_prob) trans_log_probs) j)) (seq 0 n_states) in
      let most_likely_sources := most_likely_initial_given_successor :: most_likely_sources in
      let final_state := argmax final_log_prob in
      let '(_, most_likely_path) := scan_reverse viterbi_backward final_state (tl most_likely_sources) in
      Ok (most_likely_path ++ [final_state])
    end
  end.
End Algorithms.
