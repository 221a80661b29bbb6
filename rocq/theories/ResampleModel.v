(** Model of resampling in time: imas/_util.py:37-87 (resample_impl) and, for the conversion of pulse_schedule, imas/ids_convert.py:1205-1220
    (the common time base) and 1232-1251 (_pulse_schedule_resample_callback).

    numpy.unique, numpy.interp and scipy.interpolate.interp1d are not part of the repository; they are modelled here by what they compute for
    arrays without NaN ([cmp] below ignores NaN).  Linear interpolation strictly between two points is a parameter.
    Integers pass through float64 (exact for int32) and are stored as int32 again; this is left out.
    Not modelled: log messages; other keyword arguments than kind="previous" for resample; the deepcopy (no [inplace]). *)
From Verif Require Import Base TreeModel.

Definition fle (a b : flt) : bool := (f_key a <=? f_key b)%Z.
Definition flt_lt (a b : flt) : bool := (f_key a <? f_key b)%Z.

(** numpy.unique: sorted, without equal elements *)
Fixpoint insert_unique (t : flt) (l : list flt) : list flt :=
  match l with
  | [] => [t]
  | u :: r => if flt_lt t u then t :: l else if fle t u then l else u :: insert_unique t r
  end.
Definition np_unique (l : list flt) : list flt := fold_right insert_unique [] l.

(** numpy.argsort(kind="mergesort"): stable *)
Definition key_at (x : list flt) (i : nat) : Z := match nth_error x i with Some t => f_key t | None => 0%Z end.
Definition before_eq (x : list flt) (a b : nat) : bool := ((key_at x a <? key_at x b)%Z || ((key_at x a =? key_at x b)%Z && (a <=? b)))%bool.
Fixpoint insert_by (le : nat -> nat -> bool) (a : nat) (l : list nat) : list nat :=
  match l with
  | [] => [a]
  | b :: r => if le a b then a :: l else b :: insert_by le a r
  end.
Definition argsort (x : list flt) : list nat := fold_right (insert_by (before_eq x)) [] (seq 0 (length x)).

(** how many elements of a sorted array are not later than t: numpy.searchsorted(x, t, side="right") *)
Definition count_le (x : list flt) (t : flt) : nat := length (filter (fun a => fle a t) x).
Definition clip (lo hi n : nat) : nat := Nat.min hi (Nat.max lo n).

Inductive rexn := TimeModeErr | NoTimeAxis | LengthErr | OutOfRange | TypeErr.

(** * resample (imas/_util.py) *)

(** interp1d(old, y, kind="previous")(new): for each new time the index of the data that are taken *)
Definition previous_index (old : list flt) (t : flt) : result rexn nat :=
  let ind := argsort old in
  let x := map (fun i => nth i old 0%Z) ind in
  match x with
  | [] => Err LengthErr
  | x0 :: _ =>
    if flt_lt t x0 || flt_lt (last x 0%Z) t then Err OutOfRange
    else Ok (nth (clip 1 (length x) (count_le x t) - 1) ind 0)
  end.
Definition rmap {A B} (f : A -> result rexn B) : list A -> result rexn (list B) :=
  fix go l := match l with [] => Ok [] | x :: t => do y <- f x; do r <- go t; Ok (y :: r) end.

(** selection along one axis of an array with n elements on that axis, [post] elements per index *)
Definition take_axis {A} (pre n post : nat) (idx : list nat) (d : list A) : list A :=
  flat_map (fun i => flat_map (fun k => firstn post (skipn ((i * n + k) * post) d)) idx) (seq 0 pre).
Definition resample_array {A} (old new : list flt) (axis : nat) (sh : list nat) (d : list A) : result rexn (list nat * list A) :=
  match nth_error sh axis with
  | None => Err TypeErr
  | Some n =>
    if Nat.eqb n (length old) then
      do idx <- rmap (previous_index old) new;
      let pre := firstn axis sh in let post := skipn (S axis) sh in
      Ok (pre ++ length new :: post, take_axis (prod pre) n (prod post) idx d)
    else Err LengthErr
  end.
Definition resample_value (old new : list flt) (axis : option nat) (v : value) : result rexn value :=
  match axis with
  | None => Err NoTimeAxis                         (* interp1d(axis=None) raises *)
  | Some axis =>
    match v with
    | VIntA sh d => do r <- resample_array old new axis sh d; Ok (VIntA (fst r) (snd r))
    | VFltA sh d => do r <- resample_array old new axis sh d; Ok (VFltA (fst r) (snd r))
    | VCpxA sh d => do r <- resample_array old new axis sh d; Ok (VCpxA (fst r) (snd r))
    | _ => Err TypeErr
    end
  end.

Section Resample.
(** attributes of a data node by its path: dynamic, and the index of the time coordinate (ids_coordinates.py:269-279) *)
Variable dynamic : list str -> bool.
Variable time_index : list str -> option nat.
Variables old new : list flt.

(** 55-72 applied to every filled data node (util.py:23-70 with leaf_only): [names] is the path of the node from the IDS *)
Fixpoint resample_node (m : meta) (names : list str) (n : node) {struct m} : result rexn node :=
  match m with
  | Meta nm k cs =>
    let resample_struct : list (str * node) -> result rexn (list (str * node)) :=
      (fix go cs fs := match cs with
                       | [] => Ok fs
                       | d :: t => match alookup (mname d) fs with
                                   | Some ch => if has_value d ch then do ch' <- resample_node d (names ++ [mname d]) ch; go t (aset (mname d) ch' fs)
                                                else go t fs
                                   | None => go t fs
                                   end
                       end) cs in
    match k, n with
    | KStruct, NStruct fs => do fs' <- resample_struct fs; Ok (NStruct fs')
    | KAoS, NAoS els => do els' <- rmap (fun e => do fs' <- resample_struct (node_fields e); Ok (NStruct fs')) els; Ok (NAoS els')
    | KLeaf _ _, NLeaf (Some v) =>
      if has_value m n && dynamic names && negb (str_eqb nm (strs "time"))
      then do v' <- resample_value old new (time_index names) v; Ok (NLeaf (Some v'))
      else Ok n
    | _, _ => Ok n
    end
  end.

(** 37-87 for a whole IDS with its time mode *)
Definition resample (mode : Z) (m : meta) (n : node) : result rexn node :=
  if (mode =? 1)%Z then
    do n' <- resample_node m [] n;
    match n' with
    | NStruct fs => Ok (NStruct (aset (strs "time") (NLeaf (Some (VFltA [length new] new))) fs))
    | n' => Ok n'
    end
  else Err TimeModeErr.
End Resample.

(** * pulse_schedule *)

(** 1205-1213: the time bases of an item, and the common one *)
Definition is_time (l : loc) : bool := match last l (Elem 0) with Child nm => str_eqb nm (strs "time") | Elem _ => false end.
Definition time_values (n : node) : result rexn (list flt) :=
  match n with NLeaf (Some (VFltA [_] d)) => Ok d | _ => Err TypeErr end.
Definition time_bases (m : meta) (n : node) : result rexn (list (list flt)) :=
  rmap (fun x => time_values (snd x)) (filter (fun x => is_time (fst x)) (tree_iter true false false m n)).
Definition common_time_base (m : meta) (n : node) : result rexn (list flt) :=
  do l <- time_bases m n; Ok (np_unique (concat l)).

Section Interp.
(** numpy.interp strictly between two points: slope * (t - x0) + y0 *)
Variable lin : flt -> flt -> flt -> flt -> flt -> flt.

(** interp1d(x, y, "previous" | "linear", bounds_error=False, fill_value=(y[0], y[-1]), assume_sorted=True)(t), x and y not empty *)
Definition interp_previous (x : list flt) (y : list Z) (t : flt) : Z :=
  if flt_lt t (hd 0%Z x) then hd 0%Z y
  else if flt_lt (last x 0%Z) t then last y 0%Z
  else nth (clip 1 (length x) (count_le x t) - 1) y 0%Z.
Definition interp_linear (x y : list flt) (t : flt) : flt :=
  if flt_lt t (hd 0%Z x) then hd 0%Z y
  else if flt_lt (last x 0%Z) t then last y 0%Z
  else let j := count_le x t - 1 in
       if Nat.eqb j (length x - 1) then nth j y 0%Z
       else if fle t (nth j x 0%Z) then nth j y 0%Z
       else lin (nth j x 0%Z) (nth (S j) x 0%Z) (nth j y 0%Z) (nth (S j) y 0%Z) t.

(** 1232-1251 for a 1D quantity with a time coordinate; [time]: the values of its time base *)
Definition resample_callback (timebase time : list flt) (v : value) : result rexn value :=
  match v with
  | VIntA [_] d => if Nat.eqb (length d) (length time) then Ok (VIntA [length timebase] (map (interp_previous time d) timebase)) else Err LengthErr
  | VFltA [_] d => if Nat.eqb (length d) (length time) then Ok (VFltA [length timebase] (map (interp_linear time d) timebase)) else Err LengthErr
  | _ => Err TypeErr
  end.
End Interp.
