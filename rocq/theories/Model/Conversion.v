(** Model of utils/conversion.py, bijector_from_tfp.py and tfp_compatible_bijector.py. *)
From Coq Require Import List Reals ZArith Bool.
From Verif Require Import Base.Result Base.Sums Base.Tensor Base.XR Model.Bijector Model.Transformed Model.Categorical.
Import ListNotations.
Local Open Scope Z_scope.

(** ** The TFP bijector interface, as far as distrax uses it: [forward_min_event_ndims], [inverse_min_event_ndims],
    [is_constant_jacobian], [forward], [inverse] and the two log-dets, which take [event_ndims] (or None). *)
Record tfp_bij := mkTfp {
  t_in : Z; t_out : Z; t_cj : bool;
  t_fwd : arr -> result arr; t_inv : arr -> result arr;
  t_fld : arr -> option Z -> result arr; t_ild : arr -> option Z -> result arr
}.

(** ** tfp_compatible_bijector.py *)
(** _check_ndims, 161-168 *)
Definition check_ndims (event_ndims : option Z) (expected_ndims : Z) : result Z :=
  match event_ndims with
  | Some n => if n <? expected_ndims then Err ValueError else Ok (n - expected_ndims)
  | None => Ok 0
  end.
(** forward_event_ndims, 105-109, and inverse_event_ndims, 111-115 *)
Definition forward_event_ndims (b : bij) (n : Z) : result Z := do extra <- check_ndims (Some n) (b_in b); Ok (b_out b + extra).
Definition inverse_event_ndims (b : bij) (n : Z) : result Z := do extra <- check_ndims (Some n) (b_out b); Ok (b_in b + extra).
(** _check_shape, 170-177; forward_event_shape, 117-122, and inverse_event_shape, 124-129: jax.eval_shape of the method
    is the shape of its result at zeros *)
Definition check_shape (s : shape) (expected_ndims : Z) : result unit :=
  if Z.of_nat (length s) <? expected_ndims then Err ValueError else Ok tt.
Definition forward_event_shape (b : bij) (s : shape) : result shape :=
  do _ <- check_shape s (b_in b); do y <- b_fwd b (tzeros s); Ok (shp y).
Definition inverse_event_shape (b : bij) (s : shape) : result shape :=
  do _ <- check_shape s (b_out b); do x <- b_inv b (tzeros s); Ok (shp x).
(** the wrapper: the log-dets of 145-159; [forward] and [inverse] run the code of the wrapped class on the attributes of
    the wrapped object (65, 78-79) *)
Definition tfp_compatible_bijector (b : bij) : tfp_bij :=
  mkTfp (b_in b) (b_out b) (b_cj b) (b_fwd b) (b_inv b)
    (fun x n => do extra <- check_ndims n (b_in b); do fldj <- b_fld b x; sum_last fldj extra)
    (fun y n => do extra <- check_ndims n (b_out b); do ildj <- b_ild b y; sum_last ildj extra).

(** ** bijector_from_tfp.py *)
(** jnp.broadcast_to on arrays of reals *)
Definition broadcast_arr (t : arr) (s : shape) : result arr :=
  match bshape (shp t) s with
  | Some s' => if list_eq_dec Nat.eq_dec s' s then Ok (tgen s (bget t)) else Err ValueError
  | None => Err ValueError
  end.
(** _ensure_batch_shape, 62-78 *)
Definition ensure_batch_shape (t : tfp_bij) (logdet : arr) (event_ndims_out : Z) (forward_fn : arr -> result arr) (x : arr) : result arr :=
  if t_cj t then
    do y <- forward_fn x;
    let y_shape := shp y in
    let batch_shape := if event_ndims_out =? 0 then y_shape
                       else firstn (length y_shape - Z.to_nat event_ndims_out) y_shape in
    broadcast_arr logdet batch_shape
  else Ok logdet.
(** BijectorFromTFP, 39-110 *)
Definition bijector_from_tfp (t : tfp_bij) : result bij :=
  do m <- base_init (t_in t) (Some (t_out t)) (t_cj t) None;
  let fld x := do logdet <- t_fld t x (Some (m_in m)); ensure_batch_shape t logdet (m_out m) (t_fwd t) x in
  let ild y := do logdet <- t_ild t y (Some (m_out m)); ensure_batch_shape t logdet (m_in m) (t_inv t) y in
  Ok (mkBij (m_in m) (m_out m) (m_cj m) (m_cl m) (t_fwd t) (t_inv t) fld ild
        (fun x => do y <- t_fwd t x; do l <- fld x; Ok (y, l))
        (fun y => do x <- t_inv t y; do l <- ild y; Ok (x, l))).

(** ** Objects.  [B], [D] identify native distrax bijectors and distributions, [TB], [TD] TFP ones, [F] functions. *)
Section Objects.
Context {B D TB TD F : Type}.
Variables (sigmoid tanh : F).                     (* jax.nn.sigmoid, jnp.tanh *)
Variable same_fn : F -> F -> bool.                 (* [is] *)
Inductive bijector :=
| Native (b : B)
| SigmoidBijector | TanhBijector | LambdaBijector (f : F)
| FromTFP (t : TB)                                 (* BijectorFromTFP(t): a distrax bijector only *)
| Compatible (b : bijector) (name : option nat).   (* tfp_compatible_bijector(b, name): a distrax bijector only *)
Inductive distribution :=
| NativeDist (d : D)
| DistFromTFP (t : TD)                             (* inherits from both libraries, distribution_from_tfp.py:49-50 *)
| CompatibleDist (d : distribution) (name : option nat).
Inductive object :=
| OBij (b : bijector) | OTfpBij (t : TB) | ODist (d : distribution) | OTfpDist (t : TD) | OFn (f : F) | OOther.
Definition is_tfd (o : object) : bool :=            (* isinstance(o, tfd.Distribution) *)
  match o with
  | OTfpDist _ => true
  | ODist d => (fix go d := match d with NativeDist _ => false | DistFromTFP _ => true | CompatibleDist d' _ => go d' end) d
  | _ => false
  end.
(** to_tfp, conversion.py:43-71.  A compatible wrapper inherits from the class of the wrapped object. *)
Definition to_tfp (o : object) (name : option nat) : result object :=
  match o with
  | OTfpBij _ | OTfpDist _ => Ok o
  | OBij b => Ok (OBij (Compatible b name))
  | ODist d => if is_tfd o then Ok o else Ok (ODist (CompatibleDist d name))
  | OFn _ | OOther => Err TypeError
  end.
(** as_bijector, conversion.py:74-101.  ([callable] is true of functions; distrax and TFP distributions and other
    objects are taken not to be callable.) *)
Definition as_bijector (o : object) : result object :=
  match o with
  | OBij _ => Ok o
  | OTfpBij t => Ok (OBij (FromTFP t))
  | OFn f => if same_fn f sigmoid then Ok (OBij SigmoidBijector)
             else if same_fn f tanh then Ok (OBij TanhBijector)
             else Ok (OBij (LambdaBijector f))
  | _ => Err TypeError
  end.
(** as_distribution, conversion.py:104-124 *)
Definition as_distribution (o : object) : result object :=
  match o with
  | ODist _ => Ok o
  | OTfpDist t => Ok (ODist (DistFromTFP t))
  | _ => Err TypeError
  end.
End Objects.

(** as_float_array, conversion.py:127-148, on the type and the contents of an array *)
Definition as_float_array (dt : dtype) (x : tensor XR) : result (dtype * tensor XR) :=
  match dt with DFloat => Ok (DFloat, x) | DInt => Ok (DFloat, x) | DBool | DOther => Err ValueError end.
