(** Specification vocabulary for the rational-quadratic spline. *)
From Coq Require Import List Reals ZArith Bool.
From Verif Require Import Base.Result Base.Sums Base.Tensor Model.Bijector Model.RQS.
Import ListNotations.
Local Open Scope R_scope.

(** [pos] lists n+1 knots from [lo] to [hi], neighbours at least [min_size] apart. *)
Definition valid_knots (n : nat) (lo hi min_size : R) (pos : list R) : Prop :=
  length pos = S n /\ nth 0 pos 0 = lo /\ nth n pos 0 = hi /\
  forall i, (i < n)%nat -> nth i pos 0 + min_size <= nth (S i) pos 0.
(** n+1 slopes, none below [min_slope], with the requested boundary condition. *)
Definition valid_slopes (n : nat) (min_slope : R) (bd : boundary) (ds : list R) : Prop :=
  length ds = S n /\ (forall i, (i <= n)%nat -> min_slope <= nth i ds 0) /\
  match bd with
  | Unconstrained => True
  | LowerIdentity => nth 0 ds 0 = 1
  | UpperIdentity => nth n ds 0 = 1
  | Identity => nth 0 ds 0 = 1 /\ nth n ds 0 = 1
  | Circular => nth 0 ds 0 = nth n ds 0
  | Other => False
  end.
(** The bijector [b] acts independently on every entry, with one pair of maps (and log-dets)
    per position of a batch of shape [bs], inputs and batch being broadcast together. *)
Definition acts_elementwise (b : bij) (bs : shape) (F LF G LG : list nat -> R -> R) : Prop :=
  forall x s, bshape (shp x) bs = Some s ->
    b_fal b x = Ok (tgen s (fun i => F (bindex bs i) (bget x i)), tgen s (fun i => LF (bindex bs i) (bget x i))) /\
    b_ial b x = Ok (tgen s (fun i => G (bindex bs i) (bget x i)), tgen s (fun i => LG (bindex bs i) (bget x i))) /\
    b_fwd b x = rmap fst (b_fal b x) /\ b_inv b x = rmap fst (b_ial b x) /\
    b_fld b x = rmap snd (b_fal b x) /\ b_ild b x = rmap snd (b_ial b x).
(** No bin is so degenerate that the discriminant of its inverse falls below [tiny] (the
    smallest normal float, 1.2e-38): with s the bin's mean slope and d, d' its end slopes,
    tiny <= (s * min(s,d,d') / max(s,d,d'))^2. *)
Definition nondegenerate (tiny : R) (xs ys ds : list R) : Prop :=
  forall k, (S k < length xs)%nat ->
    let s := (nth (S k) ys 0 - nth k ys 0) / (nth (S k) xs 0 - nth k xs 0) in
    let d := nth k ds 0 in let d' := nth (S k) ds 0 in
    tiny <= (s * Rmin s (Rmin d d') / Rmax s (Rmax d d')) ^ 2.
