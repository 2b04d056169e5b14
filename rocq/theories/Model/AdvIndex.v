(** Slicing a distribution with array-valued indices (NumPy "advanced" indexing): distribution.py:330-358 with an index that is an
    integer array, a tuple of integer arrays, a boolean mask, or a tuple that mixes these with ints, slices, Ellipsis and None. *)
From Coq Require Import List Reals ZArith Bool.
From Verif Require Import Base.Result Base.Sums Base.Tensor Base.XR Base.Lift Model.Distribution.
Import ListNotations.

(** an element of a general index tuple *)
Inductive melem := MBasic (e : ielem) | MArr (t : tensor Z) | MMask (m : tensor bool).
Inductive index_object :=
| IxBasic (ix : list ielem)            (* ints, slices, Ellipsis, None *)
| IxArrays (l : list (tensor Z))       (* integer arrays, one per leading axis; a single array is the tuple of one *)
| IxMask (m : tensor bool)             (* a boolean array for the leading axes *)
| IxMixed (ix : list melem).           (* a tuple of any of these *)

Definition in_range (d : nat) (z : Z) : bool := ((- Z.of_nat d <=? z) && (z <? Z.of_nat d))%Z.
Definition wrap (d : nat) (z : Z) : nat := Z.to_nat (if (z <? 0)%Z then z + Z.of_nat d else z)%Z.
(** NumPy integer-array indexing of an array of shape [s]: shape of the result and the position every entry is read from.
    Out-of-range entries are errors (NumPy lets them pass when the result is empty: not modelled). *)
Definition int_index (s : shape) (l : list (tensor Z)) : result (shape * (list nat -> list nat)) :=
  if Nat.ltb (length s) (length l) then Err IndexError else
  match bshapes (map shp l) with
  | None => Err IndexError
  | Some bs =>
      if forallb (fun p => forallb (in_range (fst p)) (dat (snd p))) (combine s l)
      then Ok (bs ++ skipn (length l) s,
               fun r => let rb := firstn (length bs) r in
                        map (fun p => wrap (fst p) (tget 0%Z (snd p) (bindex (shp (snd p)) rb))) (combine s l) ++ skipn (length bs) r)
      else Err IndexError
  end.
(** NumPy boolean-mask indexing: the true positions in row-major order. *)
Definition mask_hits (m : tensor bool) : list (list nat) := filter (tget false m) (indices (shp m)).
Definition mask_index (s : shape) (m : tensor bool) : result (shape * (list nat -> list nat)) :=
  if list_eq_dec Nat.eq_dec (firstn (rank m) s) (shp m)
  then Ok (length (mask_hits m) :: skipn (rank m) s, fun r => nth (hd 0 r) (mask_hits m) [] ++ tl r)
  else Err IndexError.
(** NumPy indexing of an array of shape [s] by a general tuple (np.ndarray.__getitem__, called on np.indices(batch_shape) in
    distribution.py:354).  What one element does: it keeps axes of lengths [ks] ([f] maps a position on them to coordinates), or it
    is an index array of shape [sh] ([c] maps a position in it to coordinates).  In such a tuple an int is an array of shape (). *)
Inductive piece := PKeep (ks : shape) (f : list nat -> list nat) | PAdv (sh : shape) (c : list nat -> list nat).
Definition advanced (e : melem) : bool := match e with MBasic (IInt _) | MArr _ | MMask _ => true | MBasic _ => false end.
Definition m_ellipsis (e : melem) : bool := match e with MBasic IEllipsis => true | _ => false end.
(** how many axes an element uses up (Ellipsis apart) *)
Definition uses (e : melem) : nat := match e with MBasic (IInt _) | MBasic (ISlice _ _ _) | MArr _ => 1 | MMask m => rank m | MBasic _ => 0 end.
Definition all_uses (ix : list melem) : nat := fold_right (fun e n => uses e + n) 0 ix.
(** The pieces, and the axes left over; an Ellipsis stands for [m] axes.  (Which exception a tuple with several mistakes raises is
    not modelled exactly: the first mistake from the left is reported.) *)
Fixpoint pieces (m : nat) (s : shape) (ix : list melem) : result (list piece * shape) :=
  match ix with
  | [] => Ok ([], s)
  | MBasic INewAxis :: ix' => do (ps, rest) <- pieces m s ix'; Ok (PKeep [1] (fun _ => []) :: ps, rest)
  | MBasic IEllipsis :: ix' =>
      if Nat.ltb (length s) m then Err IndexError
      else do (ps, rest) <- pieces m (skipn m s) ix'; Ok (PKeep (firstn m s) (fun k => k) :: ps, rest)
  | MBasic (IInt z) :: ix' =>
      match s with [] => Err IndexError | d :: s' =>
        if in_range d z then do (ps, rest) <- pieces m s' ix'; Ok (PAdv [] (fun _ => [wrap d z]) :: ps, rest) else Err IndexError end
  | MBasic (ISlice a b c) :: ix' =>
      match s with [] => Err IndexError | d :: s' =>
        do (st, step, cnt) <- slice_spec d a b c;
        do (ps, rest) <- pieces m s' ix'; Ok (PKeep [cnt] (fun k => [Z.to_nat (st + Z.of_nat (hd 0 k) * step)]) :: ps, rest) end
  | MArr t :: ix' =>
      match s with [] => Err IndexError | d :: s' =>
        if forallb (in_range d) (dat t)
        then do (ps, rest) <- pieces m s' ix'; Ok (PAdv (shp t) (fun i => [wrap d (tget 0%Z t i)]) :: ps, rest) else Err IndexError end
  | MMask mk :: ix' =>
      if list_eq_dec Nat.eq_dec (firstn (rank mk) s) (shp mk)
      then do (ps, rest) <- pieces m (skipn (rank mk) s) ix'; Ok (PAdv [length (mask_hits mk)] (fun i => nth (hd 0 i) (mask_hits mk) []) :: ps, rest)
      else Err IndexError
  end.
Definition adv_shapes (ps : list piece) : list shape := flat_map (fun p => match p with PAdv sh _ => [sh] | PKeep _ _ => [] end) ps.
Definition kept_dims (ps : list piece) : shape := flat_map (fun p => match p with PKeep ks _ => ks | PAdv _ _ => [] end) ps.
(** the coordinates read for the position [rb] of the broadcast index arrays and the position [k] on the kept axes *)
Fixpoint assemble (rb : list nat) (ps : list piece) (k : list nat) : list nat :=
  match ps with
  | [] => k
  | PKeep ks f :: ps' => f (firstn (length ks) k) ++ assemble rb ps' (skipn (length ks) k)
  | PAdv sh c :: ps' => c (bindex sh rb) ++ assemble rb ps' k
  end.
(** Where the axes of the index arrays go: in the place of the arrays if these are adjacent in the tuple, otherwise in front. *)
Fixpoint lead_basic (ix : list melem) : nat := match ix with e :: ix' => if advanced e then 0 else S (lead_basic ix') | [] => 0 end.
Fixpoint drop_advanced (ix : list melem) : list melem := match ix with e :: ix' => if advanced e then drop_advanced ix' else ix | [] => [] end.
Definition adjacent_arrays (ix : list melem) : bool := forallb (fun e => negb (advanced e)) (drop_advanced (skipn (lead_basic ix) ix)).
Definition mixed_index (s : shape) (ix : list melem) : result (shape * (list nat -> list nat)) :=
  if Nat.ltb 1 (length (filter m_ellipsis ix)) then Err IndexError else
  do (ps, rest) <- pieces (length s - all_uses ix) s ix;
  match bshapes (adv_shapes ps) with
  | None => Err IndexError
  | Some bs =>
      let n := if adjacent_arrays ix then lead_basic ix else 0 in
      let d1 := kept_dims (firstn n ps) in
      Ok (d1 ++ bs ++ kept_dims (skipn n ps) ++ rest,
          fun r => let rb := firstn (length bs) (skipn (length d1) r) in
                   assemble rb ps (firstn (length d1) r ++ skipn (length d1 + length bs) r))
  end.
Definition any_index (s : shape) (ix : index_object) : result (shape * (list nat -> list nat)) :=
  match ix with IxBasic l => np_index s l | IxArrays l => int_index s l | IxMask m => mask_index s m | IxMixed l => mixed_index s l end.
Definition any_getitem {A} (d : A) (x : tensor A) (ix : index_object) : result (tensor A) :=
  do (rs, src) <- any_index (shp x) ix; Ok (tgen rs (fun r => tget d x (src r))).
(** to_batch_shape_index, distribution.py:353-358, and the slice of one parameter array *)
Definition slice_param_any {A} (d : A) (batch_shape : shape) (ix : index_object) (p : tensor A) : result (tensor A) :=
  do ixs <- rmapM (fun x => any_getitem 0 x ix) (np_indices batch_shape); Ok (adv_getitem d p ixs).
