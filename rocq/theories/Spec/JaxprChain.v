(** Programs that are a chain of registered invertible steps, and variables a program does not use. *)
From Coq Require Import List Reals ZArith Bool.
From Verif Require Import Base.Result Model.Jaxpr.
Import ListNotations.
Local Open Scope R_scope.

(** the primitives in the table of transformations.py:68-102 *)
Definition registered1 (has_square : bool) (p : uprim) : Prop :=
  match p with p_other1 _ => False | p_square => has_square = true | _ => True end.
Definition registered2 (p : bprim) : Prop := match p with p_other2 _ => False | _ => True end.

(** [step v q o]: equation [q] takes the variable [v], and possibly a constant, to [o];
    [chain v l o]: the equations [l] take [v] to [o] one after the other, nested calls included. *)
Inductive step (sq : bool) : var -> eqn -> var -> Prop :=
| step_un p v o : registered1 sq p -> step sq v (EUn p (AVar v) o) o
| step_int_pow n v o : n <> 0%Z -> step sq v (EIntPow n (AVar v) o) o
| step_left p v c o : registered2 p -> step sq v (EBin p (AVar v) (ALit c) o) o
| step_right p v c o : registered2 p -> step sq v (EBin p (ALit c) (AVar v) o) o
| step_call i cvs body w consts v o : length cvs = length consts -> chain sq i body w ->
    step sq v (ECall [i] cvs body [AVar w] consts (AVar v) [o]) o
with chain (sq : bool) : var -> list eqn -> var -> Prop :=
| chain_nil v : chain sq v [] v
| chain_cons v q w l o : step sq v q w -> chain sq w l o -> chain sq v (q :: l) o.

(** the operands of an equation *)
Definition operands (q : eqn) : list atom :=
  match q with
  | EUn _ a _ | EIntPow _ a _ => [a]
  | EBin _ a b _ => [a; b]
  | EMany _ args _ => args
  | ECall _ _ _ _ _ arg _ => [arg]
  end.
(** the result of [j] does not depend on the variable [v]: no equation reads it and it is not returned *)
Definition unused (v : var) (j : jaxpr) : Prop :=
  (forall q, In q (j_eqns j) -> ~ In (AVar v) (operands q)) /\ ~ In (AVar v) (j_out j) /\ ~ In v (j_const j).
