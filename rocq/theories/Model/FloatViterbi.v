(** HMM.viterbi in floating point, utils/hmm.py.  Vectors over the [n] states are functions of the state:
    [ti] = log_softmax(init_dist.logits), [tr i j] = log_softmax(trans_dist.logits)[i, j],
    [ob t j] = obs_dist.log_prob(obs_seq[t])[j].  [dt] is the dtype of the log-probabilities, [dth] that of
    jax.nn.one_hot (JAX's default float), [o] the order in which the backward sum is added. *)
From Coq Require Import Reals List Arith ZArith.
From Flocq Require Import Core.
From Verif Require Import Base.XR Base.Float Spec.Rounding Model.MathUtils Model.FloatDist.
Import ListNotations.
Local Open Scope R_scope.

Section Viterbi.
Variables (dt dth : Float.dtype) (o : order) (n : nat) (ti : nat -> XR) (tr ob : nat -> nat -> XR).
(** hmm.py:299-300 *)
Definition fl_viterbi_logp (t : nat) (prev_logp : nat -> XR) (i j : nat) : XR :=
  fadd dt (fadd dt (prev_logp i) (tr i j)) (ob t j).
(** hmm.py:293 and the carry of the scan at 301, 305-306: after the first [t + 1] observations *)
Fixpoint fl_viterbi_max (t : nat) : nat -> XR :=
  match t with
  | O => fun j => fadd dt (ti j) (ob 0 j)
  | S t => fun j => fl_amax n (fun i => fl_viterbi_logp (S t) (fl_viterbi_max t) i j)
  end.
(** hmm.py:302: the best state at time [t] before state [j] at time [t + 1] *)
Definition fl_viterbi_source (t j : nat) : nat :=
  argmax (map (fun i => fl_viterbi_logp (S t) (fl_viterbi_max t) i j) (seq 0 n)).
(** hmm.py:316 [.astype(jnp.int64)], towards zero *)
Definition fl_as_index (a : XR) : nat := match a with Fin r => Z.to_nat (Ztrunc r) | _ => O end.
(** hmm.py:314-317 *)
Definition fl_viterbi_back (sources : nat -> nat) (state : nat) : nat :=
  let hot i := if Nat.eqb i state then Fin 1 else Fin 0 in
  fl_as_index (sum_in dth o (fun i => fmul dth (fround dth (Fin (INR (sources i)))) (hot i))).
(** hmm.py:319-323: the states chosen at times 0..t when the one at time [t] is [state]; lines 308-312 prepend an
    entry that the slice [1:] at 321 drops *)
Fixpoint fl_viterbi_trace (t state : nat) : list nat :=
  match t with
  | O => [state]
  | S t => fl_viterbi_trace t (fl_viterbi_back (fl_viterbi_source t) state) ++ [state]
  end.
(** hmm.py:295-296 (t = 0), 319-323; [t + 1] observations *)
Definition fl_viterbi (t : nat) : list nat := fl_viterbi_trace t (argmax (map (fl_viterbi_max t) (seq 0 n))).
End Viterbi.
