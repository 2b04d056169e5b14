(** Model of the [same_as] methods.  Arrays live in a heap and are compared with Python's [is],
    i.e. by their address; an object records the addresses its [same_as] method looks at. *)
From Coq Require Import List Reals ZArith Bool.
From Verif Require Import Base.Result Base.Sums Base.Tensor Model.Bijector Model.ScalarBij Model.Linear.
Import ListNotations.

Definition addr := nat.
Definition heap := addr -> arr.

Inductive obj : Type :=
| OTanh | OSigmoid | OGumbelCDF
| OShift (shift : addr)                                     (* shift.py:46-47 *)
| OScalarAffine (arg_scale arg_log : option addr)           (* constructor arguments *)
    (shift scale log_scale : addr)                          (* stored arrays, scalar_affine.py:63-78 *)
| ODiagLinear (diag : addr)                                 (* diag_linear.py:59 *)
| OTriangularLinear (arg : addr) (is_lower : bool) (matrix : addr)  (* triangular_linear.py:77-78 *)
| OUnconstrainedAffine (matrix bias : addr)                 (* unconstrained_affine.py:77-78 *)
| OLowerUpper (arg_matrix bias lower upper : addr)          (* lower_upper_triangular_affine.py:71-76 *)
| ODiagPlusLowRank (diag u v : addr)                        (* diag_plus_low_rank_linear.py:200-202 *)
| OChain (links : list obj)                                 (* chain.py:59 *)
| OInverse (bijector : obj)                                 (* inverse.py:41 *)
| OBlock (bijector : obj) (ndims : Z)                       (* block.py:62-63 *)
| OLambda (behaviour : bij)
| OOther (behaviour : bij).                                 (* classes that inherit Bijector.same_as *)

(** The bijector an object is: what its constructor builds from its arguments. *)
Section Denote.
  Variable h : heap.
  Fixpoint denote (o : obj) : result bij :=
    match o with
    | OTanh => tanh_bij
    | OSigmoid => sigmoid_bij
    | OGumbelCDF => gumbel_bij
    | OShift s => shift_init (h s)
    | OScalarAffine asc al s _ _ => scalar_affine_init (h s) (option_map h asc) (option_map h al)
    | ODiagLinear d => diag_linear_init (h d)
    | OTriangularLinear a lo _ => rmap snd (triangular_linear_init (h a) lo)
    | OUnconstrainedAffine m b => unconstrained_affine_init (h m) (h b)
    | OLowerUpper m b _ _ => lu_affine_init (h m) (h b)
    | ODiagPlusLowRank d u v => diag_plus_low_rank_init (h d) (h u) (h v)
    | OChain l =>
        do bs <- (fix go (l : list obj) : result (list bij) :=
                    match l with [] => Ok [] | o :: l' => do b <- denote o; do bs <- go l'; Ok (b :: bs) end) l;
        chain_init bs
    | OInverse o => do b <- denote o; inverse_init b
    | OBlock o k => do b <- denote o; block_init b k
    | OLambda b | OOther b => Ok b
    end.
  Fixpoint denotes (l : list obj) : result (list bij) :=
    match l with [] => Ok [] | o :: l' => do b <- denote o; do bs <- denotes l'; Ok (b :: bs) end.

  (** The stored arrays are those the constructor computes. *)
  Definition stored_ok (o : obj) : Prop :=
    match o with
    | OScalarAffine asc al _ sc ls =>
        exists inv, sa_params (option_map h asc) (option_map h al) = Ok (h sc, inv, h ls)
    | OTriangularLinear a lo m => rmap fst (triangular_linear_init (h a) lo) = Ok (h m)
    | OLowerUpper m _ lo up =>
        rmap fst (triangular_linear_init (unit_lower (h m)) true) = Ok (h lo) /\
        rmap fst (triangular_linear_init (h m) false) = Ok (h up)
    | _ => True
    end.
  Fixpoint all_stored_ok (o : obj) : Prop :=
    match o with
    | OChain l => (fix go (l : list obj) : Prop := match l with [] => True | o :: l' => all_stored_ok o /\ go l' end) l
    | OInverse o => all_stored_ok o
    | OBlock o _ => all_stored_ok o
    | o => stored_ok o
    end.
End Denote.

(** [a.same_as(b)]: the override of each class, or Bijector.same_as (bijector.py:170-173). *)
Fixpoint same_as (a b : obj) {struct a} : bool :=
  match a with
  | OTanh => match b with OTanh => true | _ => false end                        (* tanh.py:66-68 *)
  | OSigmoid => match b with OSigmoid => true | _ => false end                  (* sigmoid.py:72-74 *)
  | OGumbelCDF => match b with OGumbelCDF => true | _ => false end              (* gumbel_cdf.py:50-52 *)
  | OShift s => match b with OShift s' => Nat.eqb s s' | _ => false end         (* shift.py:80-84 *)
  | OScalarAffine _ _ s c l =>                                                  (* scalar_affine.py:130-139 *)
      match b with
      | OScalarAffine _ _ s' c' l' => Nat.eqb s s' && Nat.eqb c c' && Nat.eqb l l'
      | _ => false end
  | ODiagLinear d => match b with ODiagLinear d' => Nat.eqb d d' | _ => false end  (* diag_linear.py:80-84 *)
  | OTriangularLinear _ lo m =>                                                 (* triangular_linear.py:125-132 *)
      match b with
      | OTriangularLinear _ lo' m' => Nat.eqb m m' && Bool.eqb lo lo'
      | _ => false end
  | OUnconstrainedAffine m c =>                                                 (* unconstrained_affine.py:129-136 *)
      match b with OUnconstrainedAffine m' c' => Nat.eqb m m' && Nat.eqb c c' | _ => false end
  | OLowerUpper _ c lo up =>                                                    (* lower_upper_...py:99-107 *)
      match b with
      | OLowerUpper _ c' lo' up' => Nat.eqb lo lo' && Nat.eqb up up' && Nat.eqb c c'
      | _ => false end
  | ODiagPlusLowRank d u v =>                                                   (* diag_plus_low_rank_linear.py:237-245 *)
      match b with
      | ODiagPlusLowRank d' u' v' => Nat.eqb d d' && Nat.eqb u u' && Nat.eqb v v'
      | _ => false end
  | OChain l =>                                                                 (* chain.py:111-123 *)
      match b with
      | OChain l' =>
          Nat.eqb (length l) (length l') &&
          (fix go (l l' : list obj) : bool :=
             match l, l' with o :: r, o' :: r' => same_as o o' && go r r' | _, _ => true end) l l'
      | _ => match l with [o] => same_as o b | _ => false end
      end
  | OInverse o => match b with OInverse o' => same_as o o' | _ => false end     (* inverse.py:85-89 *)
  | OBlock o k => match b with OBlock o' k' => same_as o o' && Z.eqb k k' | _ => false end (* block.py:119-124 *)
  | OLambda _ => false   (* lambda_bijector.py:138-150: [self.forward is other.forward] compares two
                            freshly created bound-method objects and is always False *)
  | OOther _ => false    (* bijector.py:170-173 *)
  end.
