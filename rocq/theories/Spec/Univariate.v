(** Specification vocabulary: batched univariate distributions as families of laws on the real line, clipping and
    quantisation of a real random variable. *)
From Coq Require Import List Reals ZArith.
From Coquelicot Require Import Coquelicot.
From Verif Require Import Base.Result Base.Sums Base.Tensor Base.XR Base.Lift Model.Distribution Model.Clipped Spec.ArrayDist Spec.Distribution.
Import ListNotations.
Local Open Scope R_scope.

(** the array [t] has shape [s] and holds [val idx] at every index *)
Definition holds (t : tensor XR) (s : shape) (val : list nat -> XR) : Prop :=
  wf t /\ shp t = s /\ forall idx, inb s idx -> tget (Fin 0) t idx = val idx.
(** the array [t] can be broadcast to shape [s] and then holds [val idx] at every index *)
Definition reads (t : tensor XR) (s : shape) (val : list nat -> XR) : Prop :=
  bshape (shp t) s = Some s /\ forall idx, inb s idx -> xget t idx = val idx.
(** the method [f] maps an array of finite values, broadcast against the batch shape, elementwise through [g b]
    where [b] is the position in the batch *)
Definition computes (f : tensor XR -> result (tensor XR)) (batch : shape) (g : list nat -> R -> XR) : Prop :=
  forall v S x, wf v -> bshape (shp v) batch = Some S -> reads v S (fun idx => Fin (x idx)) ->
  exists r, f v = Ok r /\ holds r S (fun idx => g (bindex batch idx) (x idx)).
(** a cumulative distribution function (not necessarily continuous) *)
Definition is_cdf (F : R -> R) : Prop := (forall x, 0 <= F x <= 1) /\ (forall x y, x <= y -> F x <= F y).
(** [d] is, at batch position b, the law with cdf [F b]; its four cdf-like methods say so *)
Definition has_cdf {K} (d : udist K) (batch : shape) (F : list nat -> R -> R) : Prop :=
  u_batch d = batch /\ u_event d = [] /\ (forall b, inb batch b -> is_cdf (F b)) /\
  computes (u_cdf d) batch (fun b x => Fin (F b x)) /\
  computes (u_log_cdf d) batch (fun b x => rlog (F b x)) /\
  computes (u_survival d) batch (fun b x => Fin (1 - F b x)) /\
  computes (u_log_survival d) batch (fun b x => rlog (1 - F b x)).
(** ... and its log_prob is the log of the density [f b] *)
Definition has_density {K} (d : udist K) (batch : shape) (f : list nat -> R -> R) : Prop :=
  computes (u_log_prob d) batch (fun b x => rlog (f b x)).
(** a sample of [n] finite draws *)
Definition draws {K} (d : udist K) (key : K) (n : nat) (batch : shape) (x : list nat -> R) : Prop :=
  exists raw, u_sample d key n = Ok raw /\ holds raw (n :: batch) (fun idx => Fin (x idx)).

(** ** Clipping *)
(** the clipped value of a draw *)
Definition clip (lo hi x : R) : R := if Rlt_dec x lo then lo else if Rlt_dec hi x then hi else x.
(** the mass (at the end points) and density (between them) of the clipped variable whose base has no atom at [hi]:
    F lo = P(X <= lo) at the lower end, 1 - F hi = P(X > hi) = P(X >= hi) at the upper end *)
Definition clipped_mass (F f : R -> R) (lo hi x : R) : R :=
  if Rlt_dec x lo then 0 else if Rlt_dec hi x then 0
  else if Req_EM_T x lo then F lo else if Req_EM_T x hi then 1 - F hi else f x.
(** [f] integrates to the increments of F *)
Definition density_of (F f : R -> R) : Prop := (forall x, 0 <= f x) /\ forall x y, x <= y -> is_RInt f x y (F y - F x).

(** ** Quantisation, Y = clamp (ceil X) *)
Definition is_ceiling (x : R) (c : Z) : Prop := IZR c - 1 < x <= IZR c.
Definition is_floor (x : R) (c : Z) : Prop := IZR c <= x < IZR c + 1.
Definition clamp (L H : option Z) (c : Z) : Z :=
  let c := match L with Some l => Z.max l c | None => c end in match H with Some h => Z.min h c | None => c end.
Definition in_bounds (L H : option Z) (k : Z) : Prop :=
  match L with Some l => (l <= k)%Z | None => True end /\ match H with Some h => (k <= h)%Z | None => True end.
Definition ordered (L H : option Z) : Prop := match L, H with Some l, Some h => (l <= h)%Z | _, _ => True end.
(** P(clamp (ceil X) <= k) when X has cdf F *)
Definition cdf_upto (F : R -> R) (L H : option Z) (k : Z) : R :=
  if match H with Some h => (h <=? k)%Z | None => false end then 1
  else if match L with Some l => (k <? l)%Z | None => false end then 0 else F (IZR k).
(** P(clamp (ceil X) = k) for k within the bounds: F(k) - F(k-1), with everything below L moved to L and everything
    above H moved to H *)
Definition mass_at (F : R -> R) (L H : option Z) (k : Z) : R :=
  (if match H with Some h => (k =? h)%Z | None => false end then 1 else F (IZR k)) -
  (if match L with Some l => (k =? l)%Z | None => false end then 0 else F (IZR (k - 1))).
(** P(clamp (ceil X) = x) for any real x: zero unless x is an integer within the bounds *)
Definition in_boundsb (L H : option Z) (k : Z) : bool :=
  (match L with Some l => (l <=? k)%Z | None => true end && match H with Some h => (k <=? h)%Z | None => true end)%bool.
Definition pmf (F : R -> R) (L H : option Z) (x : R) : R :=
  if Req_EM_T (IZR (Int_part x)) x then if in_boundsb L H (Int_part x) then mass_at F L H (Int_part x) else 0 else 0.
(** the bounds at batch position [b] of an optional array of integers *)
Definition bounds_at (t : option (tensor XR)) (batch : shape) (L : list nat -> option Z) : Prop :=
  match t with
  | None => forall b, inb batch b -> L b = None
  | Some t => bshape (shp t) batch = Some batch /\
      forall b, inb batch b -> exists z, L b = Some z /\ xget t b = Fin (IZR z)
  end.
(** ... and of the user's real bounds, rounded with [rnd] *)
Definition rounded_bounds (rnd : R -> Z -> Prop) (t : option (tensor XR)) (batch : shape) (L : list nat -> option Z) : Prop :=
  match t with
  | None => forall b, inb batch b -> L b = None
  | Some t => wf t /\ bshape (shp t) batch = Some batch /\
      forall b, inb batch b -> exists r z, xget t b = Fin r /\ rnd r z /\ L b = Some z
  end.
(** the probability reported when a gap [e] (the option eps) is set: with u = P(Y <= x), w = P(Y <= x - 1), the difference is taken
    between the tails when the upper tail is the smaller one, and the larger term is raised to at least e^e times the smaller *)
Definition guarded_mass (e u w : R) : R :=
  let '(big, small) := if Rlt_dec (1 - u) u then (1 - w, 1 - u) else (u, w) in Rmax big (small * exp e) - small.
