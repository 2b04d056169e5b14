(** The dtypes that flow through distrax: every definition follows one method of distrax line by line,
    with arrays replaced by their JAX types (Base/JaxDtype.v).  Shapes and values are in the other
    models.  [x64] is the global jax_enable_x64 flag. *)
From Coq Require Import List Bool.
From Verif Require Import Base.Result Base.JaxDtype.
Import ListNotations.

Section Dtypes.
Variable x64 : bool.
Notation "a +! b" := (promote x64 a b) (at level 50, left associativity).  (* also [-], [*], [where] *)
Notation "a /! b" := (divide x64 a b) (at level 40, left associativity).
Notation lit := (py_float x64).                          (* a Python float literal *)
Notation lit_int := (py_int x64).                        (* a Python int literal *)
Notation fn := (inexact x64).                            (* jnp.log, jnp.exp, jnp.sqrt, ... *)

(** conversion.py:127-148, [as_float_array].  Python numbers go through [jnp.asarray] (139-140), which
    keeps them weak; [astype(jnp.float_)] (145) does not. *)
Definition as_float_array (x : aval) : result aval :=
  if is_floating (ty x) then Ok x
  else if is_integer (ty x) then Ok (astype x64 F64)
  else Err ValueError.

(** ** The two-parameter families *)
Inductive family := Normal | Laplace | Logistic | Gumbel | Uniform | Gamma | Beta | VonMises.

(** The constructors: normal.py:50-51, laplace.py:56-57, logistic.py:47-48, gumbel.py:48-49,
    uniform.py:48-49, gamma.py:47-48, beta.py:60-61, von_mises.py:95-96 *)
Definition construct (p q : aval) : result (aval * aval) :=
  do a <- as_float_array p; do b <- as_float_array q; Ok (a, b).

(** von_mises.py:211-215, [_convert_angle_to_standard] *)
Definition convert_angle (angle : aval) : aval :=
  let num_periods := fn (angle /! lit) in                                    (* 213 *)
  angle +! (lit +! num_periods).                                             (* 214 *)
(** von_mises.py:217-233: the cutoff table has no entry for bfloat16 *)
Definition von_mises_sample (dtype : jdtype) : result aval :=
  match dtype with
  | F16 | F32 | F64 => Ok (strong dtype)
  | _ => Err KeyError
  end.

(** [_sample_n]: normal.py:73-83, laplace.py:81-89, logistic.py:75-86, gumbel.py:82-90,
    uniform.py:76-83, gamma.py:72-82, beta.py:86-92, von_mises.py:145-151 *)
Definition sample (f : family) (a b : aval) : result aval :=
  let dtype := result_type x64 a b in
  let rnd := strong dtype in
  match f with
  | Normal => Ok ((b +! rnd) +! a)                                           (* scale * rnd + loc *)
  | Laplace => Ok (a +! (b +! rnd))
  | Logistic => Ok ((b +! (fn rnd +! fn rnd)) +! a)                          (* rnd = log(u) - log1p(-u) *)
  | Gumbel => Ok ((b +! rnd) +! a)
  | Uniform =>
      let range := b +! a in                                                 (* uniform.py:70 *)
      Ok (a +! (range +! strong (ty range)))                                 (* 80, 83 *)
  | Gamma => Ok (rnd /! b)
  | Beta => Ok rnd
  | VonMises => do s <- von_mises_sample dtype; Ok (convert_angle (s +! a))  (* 150-151 *)
  end.

Definition standardize (v a b : aval) : aval := (v +! a) /! b.  (* normal.py:115, laplace.py:113, logistic.py:73, gumbel.py:75 *)
Definition softplus (x : aval) : aval := fn (x +! lit_int).       (* jax.nn.softplus = logaddexp(x, 0) *)
Definition log_beta (a b : aval) : aval := (a +! b) +! (a +! b). (* utils/math.py:174: sums of lgamma *)

(** [log_prob]: normal.py:92-96, laplace.py:98-101, logistic.py:88-91, gumbel.py:77-80,
    uniform.py:92-101, gamma.py:84-91, beta.py:94-105, von_mises.py:137-143 *)
Definition log_prob (f : family) (v a b : aval) : aval :=
  let z := standardize v a b in
  match f with
  | Normal => (lit +! fn z) +! (lit +! fn b)
  | Laplace => (fn z +! lit) +! fn b
  | Logistic => (z +! (lit +! softplus z)) +! fn b
  | Gumbel => (z +! fn z) +! fn b
  | Uniform => fn (v +! (v /! (b +! a)))                            (* log(where(_, zeros_like(v), ones_like(v) / range)) *)
  | Gamma => (((a +! fn b) +! ((a +! lit_int) +! fn v)) +! (b +! v)) +! a
  | Beta =>
      let c := log_beta a b in
      c +! (((a +! lit) +! fn v) +! ((b +! lit) +! fn (lit +! v)) +! c)
  | VonMises => ((b +! fn (v +! a)) +! lit) +! fn b
  end.

(** [_sample_n_and_log_prob], second component: normal.py:85-90, laplace.py:91-96, gumbel.py:92-97,
    uniform.py:85-90; the others use the default of distribution.py:77-79, [log_prob] of the samples *)
Definition sample_log_prob (f : family) (a b : aval) : result aval :=
  let rnd := strong (result_type x64 a b) in
  match f with
  | Normal => Ok (((lit +! fn rnd) +! lit) +! fn b)
  | Laplace => Ok ((fn rnd +! lit) +! fn b)
  | Gumbel => Ok ((rnd +! fn rnd) +! fn b)
  | Uniform => Ok (fn (b +! a))
  | _ => do s <- sample f a b; Ok (log_prob f s a b)
  end.

(** [mean]: normal.py:125, laplace.py:127, logistic.py:115, gumbel.py:110, uniform.py:109, gamma.py:113,
    beta.py:126, von_mises.py:123 *)
Definition mean (f : family) (a b : aval) : aval :=
  match f with
  | Normal | Laplace | Logistic | VonMises => a                              (* self.loc *)
  | Gumbel => a +! (b +! lit)                                                (* loc + scale * euler_gamma *)
  | Uniform => (a +! b) /! lit
  | Gamma => a /! b
  | Beta => a /! (a +! b)
  end.
(** [variance]: normal.py:129, laplace.py:135, logistic.py:119, gumbel.py:118, uniform.py:113,
    gamma.py:121, beta.py:130-132, von_mises.py:128 *)
Definition variance (f : family) (a b : aval) : aval :=
  match f with
  | Normal => b
  | Laplace => lit +! b
  | Logistic => (b +! lit) /! lit
  | Gumbel => ((b +! a) +! lit) /! lit
  | Uniform => (b +! a) /! lit
  | Gamma => a /! b
  | Beta => (a +! b) /! ((a +! b) +! ((a +! b) +! lit))
  | VonMises => lit +! (fn b /! fn b)
  end.
(** [entropy]: normal.py:119-121, laplace.py:105, logistic.py:95, gumbel.py:101, uniform.py:105,
    gamma.py:95-101, beta.py:116-122, von_mises.py:155-158 *)
Definition entropy (f : family) (a b : aval) : aval :=
  match f with
  | Normal => lit +! (lit +! fn b)
  | Laplace => lit +! fn b
  | Logistic => lit +! fn b
  | Gumbel => (fn b +! lit) +! lit
  | Uniform => fn (b +! a)
  | Gamma => ((a +! fn b) +! a) +! ((lit +! a) +! a)
  | Beta => ((log_beta a b +! ((a +! lit) +! a)) +! ((b +! lit) +! b)) +! (((a +! b) +! lit) +! (a +! b))
  | VonMises => ((b +! (lit_int +! (fn b /! fn b))) +! lit) +! fn (fn b)
  end.

(** ** Bernoulli, Categorical, OneHotCategorical, Multinomial: the samples have the requested dtype *)
Inductive discrete := Bernoulli | Categorical | OneHotCategorical | Multinomial.
(** bernoulli.py:64-69, categorical.py:56-60 (OneHotCategorical through super), multinomial.py:75-79 *)
Definition construct_discrete (f : discrete) (requested : jdtype) : result jdtype :=
  match f with
  | Bernoulli =>
      if jdtype_eqb requested Bool || is_integer requested || is_floating requested
      then Ok requested else Err ValueError
  | _ => if is_integer requested || is_floating requested then Ok requested else Err ValueError
  end.
(** bernoulli.py:114, categorical.py:98 (and 94-97), one_hot_categorical.py:68-69; multinomial.py:177-183
    accumulates one-hot arrays cast to the requested dtype into zeros of that dtype *)
Definition sample_discrete (f : discrete) (dtype : jdtype) : aval :=
  match f with
  | Multinomial => astype x64 dtype +! astype x64 dtype
  | _ => astype x64 dtype
  end.
(** bernoulli.py:160, categorical.py:128, one_hot_categorical.py:85; Multinomial has no mode *)
Definition mode_discrete (f : discrete) (dtype : jdtype) : option aval :=
  match f with Multinomial => None | _ => Some (astype x64 dtype) end.

(** ** Deterministic, deterministic.py *)
Definition det_sample (loc : aval) : aval := loc.                            (* 98-102: expand_dims, repeat *)
Definition det_sample_log_prob (loc : aval) : aval := det_sample loc.        (* 104-108: zeros_like(samples) *)
Definition det_prob : aval := lit +! lit.                                    (* 114-117: where(_, 1., 0.) *)
Definition det_log_prob : aval := fn det_prob.                               (* 110-112 *)

(** ** Bijectors, [forward] *)
Inductive dbij :=
| ScalarAffine (shift scale : aval)      (* also DiagLinear(diag) = ScalarAffine(0., diag), diag_linear.py:50-51 *)
| Shift (shift : aval)
| Tanh
| Matrix (a : aval)                      (* TriangularLinear, LowerUpperTriangularAffine, ...: [A @ x] *)
| Block (b : dbij)
| Chain (bs : list dbij).
Fixpoint forward (b : dbij) (x : aval) : aval :=
  match b with
  | ScalarAffine shift scale => (scale +! x) +! shift                        (* scalar_affine.py:98-103 *)
  | Shift shift => x +! shift                                                (* shift.py:57 *)
  | Tanh => fn x                                                             (* tanh.py:59 (Bijector.forward of base) *)
  | Matrix a => a +! x                                                       (* triangular_linear.py:96-97 *)
  | Block b => forward b x                                                   (* block.py:83 *)
  | Chain bs => (fix go (l : list dbij) := match l with [] => x | b :: l' => forward b (go l') end) bs  (* chain.py:85-87 *)
  end.

(** ** Nested distributions *)
Inductive ddist :=
| Scalar (f : family) (p q : aval)
| Discrete (f : discrete) (requested : jdtype)
| Deterministic (loc : aval)
| Independent (d : ddist)
| MixtureSameFamily (d : ddist)
| MixtureOfTwo (a b : ddist)
| Clipped (d : ddist) (minimum maximum : aval)
| Transformed (d : ddist) (b : dbij)
| MvnFromBijector (scale loc : aval).

(** [eval d]: the type of the arrays [sample] returns, and the dtype the [dtype] property reports; the
    constructors run first, inner to outer.  Only Transformed and MultivariateNormalFromBijector override
    the property; the default of distribution.py:137-142 is the dtype of an abstractly evaluated sample. *)
Definition default_dtype (s : aval) : result (aval * jdtype) := Ok (s, ty s).
Fixpoint eval (d : ddist) : result (aval * jdtype) :=
  match d with
  | Scalar f p q => do ab <- construct p q; do s <- sample f (fst ab) (snd ab); default_dtype s
  | Discrete f r => do t <- construct_discrete f r; default_dtype (sample_discrete f t)
  | Deterministic loc => default_dtype (det_sample loc)
  | Independent d => do e <- eval d; default_dtype (fst e)                   (* independent.py:98-100 *)
  | MixtureSameFamily d =>
      do e <- eval d;
      let mask := astype x64 F64 in                                          (* mixture_same_family.py:104: one_hot, default dtype *)
      default_dtype (fst e +! mask)                                          (* 113: sum(samples_all * mask) *)
  | MixtureOfTwo a b =>
      do ea <- eval a; do eb <- eval b;
      if jdtype_eqb (snd ea) (snd eb) then default_dtype (fst ea +! fst eb)  (* mixture_of_two.py:81: where *)
      else Err ValueError                                                    (* 65-68 *)
  | Clipped d mn mx => do e <- eval d; default_dtype (mx +! (mn +! fst e))   (* clipped.py:72: jnp.clip *)
  | Transformed d b =>
      do e <- eval d;
      Ok (forward b (fst e),                                                 (* transformed.py:168-172 *)
          ty (forward b (strong (snd e))))                                   (* 120-126: zeros of the base's dtype *)
  | MvnFromBijector scale loc =>
      let dtype := result_type x64 (strong (ty scale)) (strong (ty loc)) in  (* mvn_from_bijector.py:77 *)
      do ab <- construct (strong dtype) lit;                                 (* 80-84: Normal(zeros(dtype), 1.) *)
      do s <- sample Normal (fst ab) (snd ab);
      Ok (forward (Chain [Block (Shift loc); Matrix scale]) s, dtype)        (* 87, 92 *)
  end.
Definition sample_of (d : ddist) : result aval := rmap fst (eval d).
Definition dtype_of (d : ddist) : result jdtype := rmap snd (eval d).
End Dtypes.
