(** Model of distrax/_src/utils/transformations.py: automatic inversion ([inv]) and the
    constant-Jacobian analysis, as interpreters of traced programs (jaxprs).
    Simplifications: values are scalars (the primitives act entrywise); a value is a real number
    or [None], "not a finite real" (NaN or infinite); variables are numbered per jaxpr. *)
From Coq Require Import List Reals ZArith Bool ClassicalEpsilon.
From Coquelicot Require Import Coquelicot.
From Verif Require Import Base.Result.
Import ListNotations.
Local Open Scope R_scope.

Definition var := nat.
Inductive atom : Type := AVar (v : var) | ALit (c : R).
Definition val := option R.

(** Unary primitives of the registry (transformations.py:69-85, 97-102) and others without entry. *)
Inductive uprim : Set :=
| p_tanh | p_atanh | p_sinh | p_asinh | p_cosh | p_acosh | p_exp | p_log | p_sqrt | p_rsqrt
| p_neg | p_log1p | p_expm1 | p_erf | p_erf_inv | p_conj | p_square | p_other1 (name : nat).
(** Binary primitives (89-93). *)
Inductive bprim : Set := p_mul | p_div | p_add | p_sub | p_pow | p_other2 (name : nat).

(** Equations.  [ECall] stands for a nested jaxpr with one argument: a call primitive (277-280,
    whose inner consts are always [()]) or [pjit] (282-290). *)
Inductive eqn : Type :=
| EUn (p : uprim) (a : atom) (out : var)
| EIntPow (y : Z) (a : atom) (out : var)
| EBin (p : bprim) (a b : atom) (out : var)
| EMany (name : nat) (args : list atom) (out : var)   (* three or more operands *)
| ECall (invars constvars : list var) (body : list eqn) (outvars : list atom) (consts : list R)
        (arg : atom) (outs : list var).
Record jaxpr := mkJaxpr { j_in : list var; j_const : list var; j_eqns : list eqn; j_out : list atom }.

(** *** Exact-real meaning of the primitives; [None] outside the domain. *)
Definition r_erf (x : R) : R := 2 / sqrt PI * RInt (fun t => exp (- t ^ 2)) 0 x.
Definition r_erf_inv (y : R) : val :=
  match excluded_middle_informative (exists x, r_erf x = y) with
  | left H => Some (proj1_sig (constructive_indefinite_description _ H))
  | right _ => None
  end.
Definition guard (P : Prop) (d : {P} + {~ P}) (v : R) : val := if d then Some v else None.
(** lax.pow: positive base; zero base with nonnegative exponent; negative base with an integer
    exponent; otherwise not a finite real. *)
Definition r_pow (x y : R) : val :=
  if Rlt_dec 0 x then Some (Rpower x y)
  else if Req_EM_T x 0 then (if Rlt_dec 0 y then Some 0 else if Req_EM_T y 0 then Some 1 else None)
  else if Req_EM_T (frac_part y) 0 then Some (powerRZ x (Int_part y)) else None.
Definition r_int_pow (x : R) (n : Z) : val :=
  if (n <? 0)%Z then (if Req_EM_T x 0 then None else Some (powerRZ x n)) else Some (powerRZ x n).
Definition r_div (x y : R) : val := if Req_EM_T y 0 then None else Some (x / y).

Section Prims.
  (** primitives without a registered inverse, uninterpreted *)
  Variable other1 : nat -> R -> val.
  Variable other2 : nat -> R -> R -> val.
  Variable other_many : nat -> list R -> val.

  Definition un (p : uprim) (x : R) : val :=
    match p with
    | p_tanh => Some (tanh x)
    | p_atanh => if Rlt_dec (-1) x then (if Rlt_dec x 1 then Some (/ 2 * ln ((1 + x) / (1 - x))) else None) else None
    | p_sinh => Some (sinh x)
    | p_asinh => Some (arcsinh x)
    | p_cosh => Some (cosh x)
    | p_acosh => if Rle_dec 1 x then Some (ln (x + sqrt (x ^ 2 - 1))) else None
    | p_exp => Some (exp x)
    | p_log => if Rlt_dec 0 x then Some (ln x) else None
    | p_sqrt => if Rle_dec 0 x then Some (sqrt x) else None
    | p_rsqrt => if Rlt_dec 0 x then Some (/ sqrt x) else None
    | p_neg => Some (- x)
    | p_log1p => if Rlt_dec (-1) x then Some (ln (1 + x)) else None
    | p_expm1 => Some (exp x - 1)
    | p_erf => Some (r_erf x)
    | p_erf_inv => r_erf_inv x
    | p_conj => Some x
    | p_square => Some (x * x)
    | p_other1 n => other1 n x
    end.
  Definition bin (p : bprim) (x y : R) : val :=
    match p with
    | p_mul => Some (x * y)
    | p_div => r_div x y
    | p_add => Some (x + y)
    | p_sub => Some (x - y)
    | p_pow => r_pow x y
    | p_other2 n => other2 n x y
    end.

  Definition vbind (v : val) (f : R -> val) : val := match v with Some x => f x | None => None end.
  Definition vbind2 (v w : val) (f : R -> R -> val) : val := vbind v (fun x => vbind w (f x)).
  Definition vall (vs : list val) : option (list R) :=
    fold_right (fun v acc => match v, acc with Some x, Some l => Some (x :: l) | _, _ => None end) (Some []) vs.

  (** Environments: Python dicts keyed by variable. *)
  Definition env := var -> option val.
  Definition empty_env : env := fun _ => None.
  Definition upd (e : env) (v : var) (x : val) : env := fun w => if Nat.eqb w v then Some x else e w.
  (** [read], transformations.py:262-263: a literal's value, or [env[var]] (KeyError if missing). *)
  Definition read (e : env) (a : atom) : result val :=
    match a with ALit c => Ok (Some c) | AVar v => match e v with Some x => Ok x | None => Err KeyError end end.
  (** [safe_map(write, vars, vals)]: raises if the lengths differ; writing a literal has no
      effect that can be read back. *)
  Fixpoint write_all (e : env) (vs : list var) (xs : list val) : result env :=
    match vs, xs with
    | [], [] => Ok e
    | v :: vs', x :: xs' => write_all (upd e v x) vs' xs'
    | _, _ => Err AssertionError
    end.
  Fixpoint write_atoms (e : env) (vs : list atom) (xs : list val) : result env :=
    match vs, xs with
    | [], [] => Ok e
    | AVar v :: vs', x :: xs' => write_atoms (upd e v x) vs' xs'
    | ALit _ :: vs', _ :: xs' => write_atoms e vs' xs'
    | _, _ => Err AssertionError
    end.

  (** *** Forward evaluation of a jaxpr (JAX's own evaluation, not in /repo). *)
  Fixpoint eval_eqn (q : eqn) (e : env) {struct q} : result env :=
    match q with
    | EUn p a o => do x <- read e a; Ok (upd e o (vbind x (un p)))
    | EIntPow n a o => do x <- read e a; Ok (upd e o (vbind x (fun r => r_int_pow r n)))
    | EBin p a b o => do x <- read e a; do y <- read e b; Ok (upd e o (vbind2 x y (bin p)))
    | EMany n args o => do xs <- rmapM (read e) args;
        Ok (upd e o (match vall xs with Some l => other_many n l | None => None end))
    | ECall ins cvs body outs consts arg res =>
        do x <- read e arg;
        do e0 <- write_all empty_env cvs (map Some consts);
        do e1 <- write_all e0 ins [x];
        do e2 <- (fix go (l : list eqn) (e : env) : result env :=
                    match l with [] => Ok e | q :: l' => do e' <- eval_eqn q e; go l' e' end) body e1;
        do ys <- rmapM (read e2) outs;
        write_all e res ys
    end.
  Fixpoint eval_eqns (l : list eqn) (e : env) : result env :=
    match l with [] => Ok e | q :: l' => do e' <- eval_eqn q e; eval_eqns l' e' end.
  Definition eval_jaxpr (j : jaxpr) (consts : list R) (args : list val) : result (list val) :=
    do e0 <- write_all empty_env (j_const j) (map Some consts);
    do e1 <- write_all e0 (j_in j) args;
    do e2 <- eval_eqns (j_eqns j) e1;
    rmapM (read e2) (j_out j).

  (** *** The inverse registry, transformations.py:68-102.  [has_square] is the test of line 97. *)
  Variable has_square : bool.
  Definition inv_un (p : uprim) : option (R -> val) :=
    match p with
    | p_tanh => Some (un p_atanh)
    | p_atanh => Some (un p_tanh)
    | p_sinh => Some (un p_asinh)
    | p_asinh => Some (un p_sinh)
    | p_cosh => Some (un p_acosh)
    | p_acosh => Some (un p_cosh)
    | p_exp => Some (un p_log)
    | p_log => Some (un p_exp)
    | p_sqrt => Some (if has_square then un p_square else fun x => r_pow x 2)
    | p_rsqrt => Some (if has_square then fun x => vbind (un p_square x) (r_div 1)
                       else fun x => vbind (r_pow x 2) (r_div 1))
    | p_neg => Some (un p_neg)
    | p_log1p => Some (un p_expm1)
    | p_expm1 => Some (un p_log1p)
    | p_erf => Some (un p_erf_inv)
    | p_erf_inv => Some (un p_erf)
    | p_conj => Some (un p_conj)
    | p_square => if has_square then Some (un p_sqrt) else None
    | p_other1 _ => None
    end.
  (** the binary rules, already applied to [var_idx] (300-301): arguments in call order (308-312) *)
  Definition inv_bin_left (p : bprim) : option (R -> R -> val) :=   (* prim_inv(y, lit) *)
    match p with
    | p_mul => Some r_div                                           (* 89 *)
    | p_div => Some (bin p_mul)                                     (* 90 *)
    | p_add => Some (bin p_sub)                                     (* 91 *)
    | p_sub => Some (bin p_add)                                     (* 92 *)
    | p_pow => Some (fun x y => vbind (r_div 1 y) (r_pow x))        (* 93 *)
    | p_other2 _ => None
    end.
  Definition inv_bin_right (p : bprim) : option (R -> R -> val) :=  (* prim_inv(lit, y) *)
    match p with
    | p_mul => Some (fun x y => r_div y x)
    | p_div => Some r_div
    | p_add => Some (fun x y => bin p_sub y x)
    | p_sub => Some (bin p_sub)
    | p_pow => Some (fun x y => vbind (r_div 1 y) (r_pow x))        (* not a tuple: same rule *)
    | p_other2 _ => None
    end.
  (** 293-295: a missing entry raises. *)
  Definition lookup {A} (o : option A) : result A :=
    match o with Some a => Ok a | None => Err NotImplementedError end.

  (** One iteration of the loop of [_interpret_inverse], transformations.py:270-324, with
      [_identify_variable_in_eqn] (223-255) inlined.  A unary equation whose operand is a literal
      writes to a key that is never read back. *)
  Fixpoint inv_eqn (q : eqn) (e : env) {struct q} : result env :=
    match q with
    | EUn p a o =>
        do f <- lookup (inv_un p); do y <- read e (AVar o);
        write_atoms e [a] [vbind y f]
    | EIntPow n a o =>                                              (* 94: pow(x, 1.0/y) *)
        do y <- read e (AVar o);
        if (n =? 0)%Z then Err ZeroDivisionError
        else write_atoms e [a] [vbind y (fun r => r_pow r (1 / IZR n))]
    | EBin p (AVar v) (ALit c) o =>                                 (* 230-231 *)
        do f <- lookup (inv_bin_left p); do y <- read e (AVar o);
        Ok (upd e v (vbind y (fun r => f r c)))
    | EBin p (ALit c) (AVar v) o =>                                 (* 233-234 *)
        do f <- lookup (inv_bin_right p); do y <- read e (AVar o);
        Ok (upd e v (vbind y (fun r => f c r)))
    | EBin _ (AVar _) (AVar _) _ => Err NotImplementedError         (* 236-241 *)
    | EBin _ (ALit _) (ALit _) _ => Err ValueError                  (* 243-245 *)
    | EMany _ _ _ => Err NotImplementedError                        (* 251-253 *)
    | ECall ins cvs body outs consts arg res =>                     (* 275-290, 321-322 *)
        do ys <- rmapM (fun o => read e (AVar o)) res;
        do e0 <- write_atoms empty_env outs ys;
        do e1 <- write_all e0 cvs (map Some consts);
        do e2 <- (fix go (l : list eqn) (e : env) : result env :=
                    match l with [] => Ok e | q :: l' => do e' <- go l' e; inv_eqn q e' end) body e1;
        do xs <- (if forallb (fun v => match e2 v with Some _ => true | None => false end) ins
                  then rmapM (fun v => read e2 (AVar v)) ins else Err ValueError);
        write_atoms e [arg] xs
    end.
  Fixpoint inv_eqns (l : list eqn) (e : env) : result env :=        (* [reversed(jaxpr.eqns)] *)
    match l with [] => Ok e | q :: l' => do e' <- inv_eqns l' e; inv_eqn q e' end.

  (** _interpret_inverse, transformations.py:258-330. *)
  Definition interpret_inverse (j : jaxpr) (consts : list R) (args : list val) : result (list val) :=
    do e0 <- write_atoms empty_env (j_out j) args;                  (* 267 *)
    do e1 <- write_all e0 (j_const j) (map Some consts);            (* 268 *)
    do e2 <- inv_eqns (j_eqns j) e1;                                (* 270-324 *)
    if forallb (fun v => match e2 v with Some _ => true | None => false end) (j_in j)
    then rmapM (fun v => read e2 (AVar v)) (j_in j)                 (* 330 *)
    else Err ValueError.                                            (* 326-328 *)
  (** inv, transformations.py:129-138. *)
  Definition inv (j : jaxpr) (consts : list R) (y : val) : result val :=
    do out <- interpret_inverse j consts [y];
    match out with x :: _ => Ok x | [] => Err IndexError end.
End Prims.

(** ** The constant-Jacobian analysis, transformations.py:141-163 and 189-209.
    Here every primitive is uninterpreted: [GPrim name args outs].  [GCall] is an equation whose
    primitive is a call or map primitive ([_extract_call_jaxpr], 333-338); [pjit] is not one and
    is an ordinary [GPrim] for this analysis. *)
Inductive geqn : Type :=
| GPrim (name : nat) (args : list atom) (outs : list var)
| GCall (invars : list var) (body : list geqn) (outvars : list atom)
        (args : list atom) (outs : list var).
Record gjaxpr := mkG { g_in : list var; g_const : list var; g_eqns : list geqn; g_out : list atom }.

Definition vset := var -> bool.
Definition add_all (s : vset) (vs : list var) : vset := fun w => existsb (Nat.eqb w) vs || s w.
Definition in_set (s : vset) (a : atom) : bool := match a with AVar v => s v | ALit _ => false end.
(** Equality of dict keys: variables by identity, literals by value (a literal is never in a
    dependence set, so its entry is never used). *)
Definition akey (a : atom) (v : var) : bool := match a with AVar w => Nat.eqb v w | ALit _ => false end.
(** [dict(zip(keys, vals))[v]]: the last pair with that key wins. *)
Fixpoint dict_get {A} (keys : list atom) (vals : list A) (v : var) : option A :=
  match keys, vals with
  | k :: keys', x :: vals' =>
      match dict_get keys' vals' v with
      | Some y => Some y
      | None => if akey k v then Some x else None
      end
  | _, _ => None
  end.
Definition opt_list {A} (o : option A) : list A := match o with Some a => [a] | None => [] end.

(** One equation of [_dependent_variables], 194-207. *)
Fixpoint dep_eqn (q : geqn) (d : vset) {struct q} : vset :=
  match q with
  | GPrim _ args outs => if existsb (in_set d) args then add_all d outs else d   (* 204-207 *)
  | GCall ins body outvars args outs =>
      let arg_dependence : vset :=                                               (* 198-199 *)
        add_all (fun _ => false)
          (flat_map (fun a => match a with
                              | AVar v => if d v then opt_list (dict_get args ins v) else []
                              | ALit _ => [] end) args) in
      let sub := (fix go (l : list geqn) (d : vset) : vset :=                    (* 200 *)
                    match l with [] => d | q :: l' => go l' (dep_eqn q d) end) body arg_dependence in
      add_all d                                                                  (* 201-203 *)
        (flat_map (fun a => match a with
                            | AVar v => if sub v then opt_list (dict_get outvars outs v) else []
                            | ALit _ => [] end) outvars)
  end.
Fixpoint dep_eqns (l : list geqn) (d : vset) : vset :=
  match l with [] => d | q :: l' => dep_eqns l' (dep_eqn q d) end.
(** [_dependent_variables(jaxpr)] with [dependent = set(jaxpr.invars)], 189-192. *)
Definition dependent_variables (j : gjaxpr) : vset :=
  dep_eqns (g_eqns j) (add_all (fun _ => false) (g_in j)).
(** is_constant_jacobian, 141-163, given the traced Jacobian [jac_jaxpr] of line 157. *)
Definition is_constant_jacobian (jac_jaxpr : gjaxpr) : bool :=
  negb (existsb (in_set (dependent_variables jac_jaxpr)) (g_out jac_jaxpr)).

(** Evaluation of such programs under an interpretation of the primitives. *)
Section GEval.
  Variable I : nat -> list R -> list R.
  Definition genv := var -> option R.
  Definition gread (e : genv) (a : atom) : option R := match a with ALit c => Some c | AVar v => e v end.
  Fixpoint gwrite (e : genv) (vs : list var) (xs : list R) : option genv :=
    match vs, xs with
    | [], [] => Some e
    | v :: vs', x :: xs' => gwrite (fun w => if Nat.eqb w v then Some x else e w) vs' xs'
    | _, _ => None
    end.
  Fixpoint greads (e : genv) (l : list atom) : option (list R) :=
    match l with
    | [] => Some []
    | a :: l' => match gread e a, greads e l' with Some x, Some xs => Some (x :: xs) | _, _ => None end
    end.
  Definition obind {A B} (o : option A) (f : A -> option B) : option B :=
    match o with Some a => f a | None => None end.
  Fixpoint geval_eqn (q : geqn) (e : genv) {struct q} : option genv :=
    match q with
    | GPrim n args outs => obind (greads e args) (fun xs => gwrite e outs (I n xs))
    | GCall ins body outvars args outs =>
        obind (greads e args) (fun xs =>
        obind (gwrite (fun _ => None) ins xs) (fun e1 =>
        obind ((fix go (l : list geqn) (e : genv) : option genv :=
                  match l with [] => Some e | q :: l' => obind (geval_eqn q e) (go l') end) body e1) (fun e2 =>
        obind (greads e2 outvars) (fun ys => gwrite e outs ys))))
    end.
  Fixpoint geval_eqns (l : list geqn) (e : genv) : option genv :=
    match l with [] => Some e | q :: l' => obind (geval_eqn q e) (geval_eqns l') end.
  Definition geval (j : gjaxpr) (consts args : list R) : option (list R) :=
    obind (gwrite (fun _ => None) (g_const j) consts) (fun e0 =>
    obind (gwrite e0 (g_in j) args) (fun e1 =>
    obind (geval_eqns (g_eqns j) e1) (fun e2 => greads e2 (g_out j)))).
End GEval.
