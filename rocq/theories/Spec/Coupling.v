(** Specification vocabulary for the coupling bijectors. *)
From Coq Require Import List Reals ZArith Bool.
From Verif Require Import Base.Result Base.Sums Base.Tensor Model.Bijector.
Import ListNotations.

(** The mask value that applies to position [idx] (NumPy broadcasting of the mask). *)
Definition mask_at (m : tensor bool) (idx : list nat) : bool := tget false m (bindex (shp m) idx).
(** The input with the unmasked inner events replaced by zero ([k] leading axes are masked). *)
Definition masked_input (m : tensor bool) (k : nat) (x : arr) : arr :=
  tgen (shp x) (fun idx => if mask_at m (firstn k idx) then tget 0%R x idx else 0%R).

(** Two arrays agree on the trailing-axes event at [idx]. *)
Definition same_event (suf : shape) (x x' : arr) (idx : list nat) : Prop :=
  forall j, inb suf j -> tget 0%R x (idx ++ j) = tget 0%R x' (idx ++ j).
(** One direction of a bijector acting independently on the events of arrays of shape
    [pre ++ suf]: defined on all of them, shape preserving, and the value and log-det of an
    event depend on that event only. *)
Definition acts_eventwise (pre suf : shape) (op : arr -> result (arr * arr)) : Prop :=
  (forall x, wf x -> shp x = pre ++ suf ->
     exists y l, op x = Ok (y, l) /\ wf y /\ shp y = pre ++ suf /\ wf l /\ shp l = pre) /\
  (forall x x' y y' l l' idx, wf x -> wf x' -> shp x = pre ++ suf -> shp x' = pre ++ suf ->
     op x = Ok (y, l) -> op x' = Ok (y', l') -> inb pre idx -> same_event suf x x' idx ->
     same_event suf y y' idx /\ tget 0%R l idx = tget 0%R l' idx).
(** [inv] undoes [fwd] and reports the opposite log-det. *)
Definition undoes (pre suf : shape) (fwd inv : arr -> result (arr * arr)) : Prop :=
  forall x y l, wf x -> shp x = pre ++ suf -> fwd x = Ok (y, l) -> inv y = Ok (x, tneg l).

(** [part] is the slice lo <= coordinate < hi of [x] along the axis between [pre] and [post]. *)
Definition slice_of (pre post : shape) (lo hi : nat) (x part : arr) : Prop :=
  wf part /\ shp part = pre ++ (hi - lo)%nat :: post /\
  forall i a j, inb pre i -> (a < hi - lo)%nat -> inb post j ->
    tget 0%R part (i ++ a :: j) = tget 0%R x (i ++ (lo + a)%nat :: j).
(** Bounds of the part left unchanged and of the transformed part. *)
Definition kept_lo (swap : bool) (k d : nat) := if swap then k else 0%nat.
Definition kept_hi (swap : bool) (k d : nat) := if swap then d else k.
(** The inner bijector promoted to [ev] event dims, as documented: itself, or Block. *)
Definition promoted (ev : Z) (b b' : bij) : Prop :=
  b_in b = b_out b /\ ((b_in b = ev /\ b' = b) \/ (b_in b < ev /\ block_init b (ev - b_in b) = Ok b')%Z).
