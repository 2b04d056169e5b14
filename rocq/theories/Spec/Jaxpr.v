(** Independent specification vocabulary for programs: single assignment, and the region in
    which a program runs through invertible steps only. *)
From Coq Require Import List Reals ZArith Bool.
From Verif Require Import Base.Result Model.Jaxpr.
Import ListNotations.
Local Open Scope R_scope.

(** Every variable is assigned once, in the program and inside every nested call. *)
Definition results (q : eqn) : list var :=
  match q with EUn _ _ o | EIntPow _ _ o | EBin _ _ _ o | EMany _ _ o => [o] | ECall _ _ _ _ _ _ r => r end.
Definition fresh_results (bound : list var) (q : eqn) : Prop :=
  NoDup (results q) /\ forall v, In v (results q) -> ~ In v bound.
Fixpoint ssa_inside (q : eqn) : Prop :=
  match q with
  | ECall ins cvs body _ _ _ _ =>
      NoDup (cvs ++ ins) /\
      (fix go (bound : list var) (l : list eqn) : Prop :=
         match l with
         | [] => True
         | q :: l' => fresh_results bound q /\ ssa_inside q /\ go (results q ++ bound) l'
         end) (cvs ++ ins) body
  | _ => True
  end.
Fixpoint ssa (bound : list var) (l : list eqn) : Prop :=
  match l with
  | [] => True
  | q :: l' => fresh_results bound q /\ ssa_inside q /\ ssa (results q ++ bound) l'
  end.
Definition single_assignment (j : jaxpr) : Prop :=
  NoDup (j_const j ++ j_in j) /\ ssa (j_const j ++ j_in j) (j_eqns j).

(** The arguments at which a primitive is invertible on its principal branch. *)
Definition un_invertible (p : uprim) (x : R) : Prop :=
  match p with
  | p_cosh | p_square => 0 <= x       (* even functions *)
  | _ => True                         (* injective wherever defined *)
  end.
Definition int_pow_invertible (n : Z) (x : R) : Prop :=
  (0 < x /\ n <> 0%Z) \/ (x = 0 /\ (0 < n)%Z) \/ (n = 1%Z \/ (n = (-1)%Z /\ x <> 0)).
(** variable [x] on the left / on the right of a binary operation with constant [c] *)
Definition left_invertible (p : bprim) (x c : R) : Prop :=
  match p with
  | p_mul | p_div => c <> 0
  | p_pow => (0 < x /\ c <> 0) \/ (x = 0 /\ 0 < c)
  | _ => True
  end.
Definition right_invertible (p : bprim) (c x : R) : Prop :=
  match p with
  | p_mul | p_div => c <> 0
  | p_pow => False                    (* c ** x: see C25_constant_base_power_refuted *)
  | _ => True
  end.

Section Domain.
  Variable other1 : nat -> R -> val.
  Variable other2 : nat -> R -> R -> val.
  Variable other_many : nat -> list R -> val.
  Notation eval1 := (eval_eqn other1 other2 other_many).

  (** [q], run in environment [e], takes a finite value in an invertible way to a finite value. *)
  Fixpoint step_invertible (q : eqn) (e : env) {struct q} : Prop :=
    match q with
    | EUn p a o => exists x y, read e a = Ok (Some x) /\ un other1 p x = Some y /\ un_invertible p x
    | EIntPow n a o => exists x y, read e a = Ok (Some x) /\ r_int_pow x n = Some y /\ int_pow_invertible n x
    | EBin p (AVar v) (ALit c) o =>
        exists x y, read e (AVar v) = Ok (Some x) /\ bin other2 p x c = Some y /\ left_invertible p x c
    | EBin p (ALit c) (AVar v) o =>
        exists x y, read e (AVar v) = Ok (Some x) /\ bin other2 p c x = Some y /\ right_invertible p c x
    | EBin _ _ _ _ | EMany _ _ _ => True   (* rejected by the inversion, no condition needed *)
    | ECall ins cvs body outs consts arg res =>
        exists x e0 e1, read e arg = Ok x /\ write_all empty_env cvs (map Some consts) = Ok e0 /\
          write_all e0 ins [x] = Ok e1 /\
          (fix go (l : list eqn) (e : env) : Prop :=
             match l with
             | [] => True
             | q :: l' => step_invertible q e /\ forall e', eval1 q e = Ok e' -> go l' e'
             end) body e1
    end.
  Fixpoint steps_invertible (l : list eqn) (e : env) : Prop :=
    match l with
    | [] => True
    | q :: l' => step_invertible q e /\ forall e', eval1 q e = Ok e' -> steps_invertible l' e'
    end.
  (** every step of [j], run on [args], is invertible *)
  Definition runs_invertibly (j : jaxpr) (consts : list R) (args : list val) : Prop :=
    forall e0 e1, write_all empty_env (j_const j) (map Some consts) = Ok e0 ->
      write_all e0 (j_in j) args = Ok e1 -> steps_invertible (j_eqns j) e1.
End Domain.

(** Equations the inversion must refuse. *)
Definition unsupported (has_square : bool) (q : eqn) : Prop :=
  match q with
  | EUn (p_other1 _) _ _ => True
  | EUn p_square _ _ => has_square = false
  | EBin (p_other2 _) (AVar _) (ALit _) _ | EBin (p_other2 _) (ALit _) (AVar _) _ => True
  | EBin _ (AVar _) (AVar _) _ => True
  | EMany _ _ _ => True
  | _ => False
  end.

(** For the constant-Jacobian analysis: nested calls pass each variable at most once and return
    each inner variable at most once. *)
Fixpoint tidy_calls (q : geqn) : Prop :=
  match q with
  | GPrim _ _ _ => True
  | GCall ins body outvars args outs =>
      (forall i j v, nth_error args i = Some (AVar v) -> nth_error args j = Some (AVar v) -> i = j) /\
      (forall i j v, nth_error outvars i = Some (AVar v) -> nth_error outvars j = Some (AVar v) -> i = j) /\
      (fix go (l : list geqn) : Prop := match l with [] => True | q :: l' => tidy_calls q /\ go l' end) body
  end.
Fixpoint all_tidy (l : list geqn) : Prop :=
  match l with [] => True | q :: l' => tidy_calls q /\ all_tidy l' end.
