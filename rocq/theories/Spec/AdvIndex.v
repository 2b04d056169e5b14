(** Specification vocabulary: indexing with integer arrays. *)
From Coq Require Import List ZArith.
From Verif Require Import Base.Result Base.Tensor Base.Lift Model.Distribution Model.AdvIndex.
Import ListNotations.

(** [c] are the coordinates that the arrays [l], broadcast together and read at [rb], select on the leading axes, negative numbers counting from the end *)
Definition selects (batch : shape) (l : list (tensor Z)) (rb : list nat) (c : list nat) : Prop :=
  length c = length l /\
  forall j d t i, nth_error batch j = Some d -> nth_error l j = Some t -> nth_error c j = Some i ->
    let z := tget 0%Z t (bindex (shp t) rb) in Z.of_nat i = (if (z <? 0)%Z then z + Z.of_nat d else z)%Z /\ i < d.
(** no more arrays than axes, and every entry within its axis *)
Definition legal_arrays (batch : shape) (l : list (tensor Z)) : Prop :=
  length l <= length batch /\ forall j d t z, nth_error batch j = Some d -> nth_error l j = Some t -> In z (dat t) -> (- Z.of_nat d <= z < Z.of_nat d)%Z.

(** * General index tuples *)
Definition is_array (e : melem) : Prop := match e with MArr _ | MMask _ | MBasic (IInt _) => True | _ => False end.
Definition arrays_wf (ix : list melem) : Prop := forall t, In (MArr t) ix -> wf t.
(** [spans s ix arrays kept]: the elements [ix] are legal for, and use up exactly, the axes [s]; the index arrays among them have the shapes
    [arrays] (an int is an array of shape (), a mask with [n] true entries one of shape (n)); the other elements leave axes of lengths [kept]. *)
Inductive spans : shape -> list melem -> list shape -> shape -> Prop :=
| Sp_done : spans [] [] [] []
| Sp_new s ix l ks : spans s ix l ks -> spans s (MBasic INewAxis :: ix) l (1 :: ks)
| Sp_ellipsis s1 s ix l ks : spans s ix l ks -> spans (s1 ++ s) (MBasic IEllipsis :: ix) l (s1 ++ ks)
| Sp_slice d s ix l ks a b c first step count : slice_spec d a b c = Ok (first, step, count) ->
    spans s ix l ks -> spans (d :: s) (MBasic (ISlice a b c) :: ix) l (count :: ks)
| Sp_int d s ix l ks z : (- Z.of_nat d <= z < Z.of_nat d)%Z -> spans s ix l ks -> spans (d :: s) (MBasic (IInt z) :: ix) ([] :: l) ks
| Sp_array d s ix l ks t : (forall z, In z (dat t) -> - Z.of_nat d <= z < Z.of_nat d)%Z -> spans s ix l ks -> spans (d :: s) (MArr t :: ix) (shp t :: l) ks
| Sp_mask s ix l ks m : spans s ix l ks -> spans (shp m ++ s) (MMask m :: ix) ([length (filter (tget false m) (indices (shp m)))] :: l) ks.
(** [reads rb s ix arrays kept k p]: with the index arrays broadcast together and read at [rb], and the kept axes at [k], the coordinates are [p]. *)
Inductive reads (rb : list nat) : shape -> list melem -> list shape -> shape -> list nat -> list nat -> Prop :=
| R_done : reads rb [] [] [] [] [] []
| R_new s ix l ks k p : reads rb s ix l ks k p -> reads rb s (MBasic INewAxis :: ix) l (1 :: ks) (0 :: k) p
| R_ellipsis s1 k1 s ix l ks k p : inb s1 k1 -> reads rb s ix l ks k p -> reads rb (s1 ++ s) (MBasic IEllipsis :: ix) l (s1 ++ ks) (k1 ++ k) (k1 ++ p)
| R_slice d s ix l ks k p a b c first step count j q : slice_spec d a b c = Ok (first, step, count) -> j < count ->
    (Z.of_nat q = first + Z.of_nat j * step)%Z -> q < d ->
    reads rb s ix l ks k p -> reads rb (d :: s) (MBasic (ISlice a b c) :: ix) l (count :: ks) (j :: k) (q :: p)
| R_int d s ix l ks k p z i : (Z.of_nat i = if z <? 0 then z + Z.of_nat d else z)%Z -> i < d ->
    reads rb s ix l ks k p -> reads rb (d :: s) (MBasic (IInt z) :: ix) ([] :: l) ks k (i :: p)
| R_array d s ix l ks k p t i : let z := tget 0%Z t (bindex (shp t) rb) in (Z.of_nat i = if z <? 0 then z + Z.of_nat d else z)%Z -> i < d ->
    reads rb s ix l ks k p -> reads rb (d :: s) (MArr t :: ix) (shp t :: l) ks k (i :: p)
| R_mask s ix l ks k p m c j : let hits := filter (tget false m) (indices (shp m)) in bindex [length hits] rb = [j] -> nth_error hits j = Some c ->
    reads rb s ix l ks k p -> reads rb (shp m ++ s) (MMask m :: ix) ([length hits] :: l) ks k (c ++ p).
(** The axes of the index arrays come after those of the elements [pre]: the arrays are adjacent and [pre] is what precedes them, or they
    are not and [pre] is empty (NumPy's rule). *)
Definition arrays_come_after (ix pre post : list melem) : Prop :=
  ix = pre ++ post /\
  ((exists arrays after, post = arrays ++ after /\ Forall is_array arrays /\ (arrays = [] -> after = []) /\ Forall (fun e => ~ is_array e) (pre ++ after)) \/
   (pre = [] /\ forall before arrays after, ix = before ++ arrays ++ after -> Forall is_array arrays -> ~ Forall (fun e => ~ is_array e) (before ++ after))).
(** at most one Ellipsis, and with one no axis is left over *)
Definition ellipsis_ok (ix : list melem) (rest : shape) : Prop :=
  (forall a b c, ix <> a ++ MBasic IEllipsis :: b ++ MBasic IEllipsis :: c) /\ (In (MBasic IEllipsis) ix -> rest = []).
(** indexing an array of shape [s] with the tuple [ix] is legal and gives an array of shape [rs] *)
Inductive mixed_shape (s : shape) (ix : list melem) : shape -> Prop :=
| Mixed_shape pre post s1 s2 rest l bs ks1 ks2 : arrays_come_after ix pre post -> ellipsis_ok ix rest -> s = s1 ++ s2 ++ rest ->
    spans s1 pre [] ks1 -> spans s2 post l ks2 -> bshapes l = Some bs -> mixed_shape s ix (ks1 ++ bs ++ ks2 ++ rest).
(** its entry [r] is the entry [p] of the original *)
Inductive mixed_reads (s : shape) (ix : list melem) : shape -> list nat -> list nat -> Prop :=
| Mixed_reads pre post s1 s2 rest l bs ks1 ks2 rb k1 k2 p1 p2 rr : arrays_come_after ix pre post -> ellipsis_ok ix rest -> s = s1 ++ s2 ++ rest ->
    bshapes l = Some bs -> inb bs rb -> inb rest rr -> reads rb s1 pre [] ks1 k1 p1 -> reads rb s2 post l ks2 k2 p2 ->
    mixed_reads s ix (ks1 ++ bs ++ ks2 ++ rest) (k1 ++ rb ++ k2 ++ rr) (p1 ++ p2 ++ rr).
