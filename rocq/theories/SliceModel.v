(** Model of put_slice on an Access Layer backend: imas/db_entry.py:647-690, imas/backends/imas_core/db_entry_al.py:276-347,
    db_entry_helpers.py:142-196 with is_slice, al_context.py:78-104, 126-147.

    The calls that are made are those of StoreModel.  What the backend (the C++ Access Layer) does with them in a slice action is not
    part of the repository; it is represented by the documented behaviour (db_entry.py:651-668: put_slice appends, time slices that
    are stored are not modified): data with a time base are appended along their last dimension, elements of an array of structures
    with a time base are appended to the stored ones, data without time base replace what is stored. *)
From Verif Require Import Base TreeModel VmapModel StoreModel.

(** * Appending arrays along the last dimension *)
(** the rows of two arrays (row-major, r rows of n1 and of n2 numbers), one after the other *)
Fixpoint join_rows {A} (r n1 n2 : nat) (d1 d2 : list A) : list A :=
  match r with
  | O => []
  | S r => firstn n1 d1 ++ firstn n2 d2 ++ join_rows r n1 n2 (skipn n1 d1) (skipn n2 d2)
  end.
Definition join_arrays {A} (sh1 : list nat) (d1 : list A) (sh2 : list nat) (d2 : list A) : option (list nat * list A) :=
  if Nat.eqb (length sh1) (length sh2) && list_eqb Nat.eqb (removelast sh1) (removelast sh2) then
    Some (removelast sh1 ++ [last sh1 0 + last sh2 0], join_rows (prod (removelast sh1)) (last sh1 0) (last sh2 0) d1 d2)
  else None.
(** None: an error of the backend *)
Definition append (v w : value) : option value :=
  match v, w with
  | VStrs a, VStrs b => Some (VStrs (a ++ b))
  | VIntA s1 d1, VIntA s2 d2 => option_map (fun x => VIntA (fst x) (snd x)) (join_arrays s1 d1 s2 d2)
  | VFltA s1 d1, VFltA s2 d2 => option_map (fun x => VFltA (fst x) (snd x)) (join_arrays s1 d1 s2 d2)
  | VCpxA s1 d1, VCpxA s2 d2 => option_map (fun x => VCpxA (fst x) (snd x)) (join_arrays s1 d1 s2 d2)
  | _, _ => None
  end.

(** * The calls in a slice action *)
(** the place has a time base *)
Definition timed (pl : place) : bool := negb (str_eqb (snd pl) []).
Definition stored_size (s : store) (k : key) : nat := match s_size s k with Some n => n | None => 0 end.

(** Where the contexts of the call are in the data that were stored before (s): element i of an array of structures with a time base
    is appended behind the stored elements. *)
Fixpoint shift (s : store) (pre c : ctx) : ctx :=
  match c with
  | [] => pre
  | (pl, i) :: t => shift s (pre ++ [(pl, if timed pl then stored_size s (pre, pl) + i else i)]) t
  end.
Definition shift_key (s : store) (k : key) : key := (shift s [] (fst k), snd k).

Section Slice.
(** the size of an array of structures without time base, when it is stored with a elements and opened with b elements *)
Variable resize : nat -> nat -> nat.

Definition set_data (s : store) (k : key) (v : value) : store :=
  {| s_data := fun k' => if key_eqb k k' then Some v else s_data s k'; s_size := s_size s |}.
Definition set_size (s : store) (k : key) (n : nat) : store :=
  {| s_data := s_data s; s_size := fun k' => if key_eqb k k' then Some n else s_size s k' |}.

(** write_data and arraystruct_action of a slice action; s0: what was stored when the action began *)
Definition apply_slice (s0 s : store) (c : call) : result exn store :=
  match c with
  | Write k v =>
    let k' := shift_key s0 k in
    match s_data s k' with
    | Some u => if timed (snd k') then match append u v with Some w => Ok (set_data s k' w) | None => Err Lowlevel end
                else Ok (set_data s k' v)
    | None => Ok (set_data s k' v)
    end
  | Begin k n =>
    let k' := shift_key s0 k in
    Ok (set_size s k' (match s_size s k' with
                       | Some j => if timed (snd k') then j + n else resize j n
                       | None => n
                       end))
  end.
Fixpoint apply_slices (s0 s : store) (l : list call) : result exn store :=
  match l with
  | [] => Ok s
  | c :: t => do s' <- apply_slice s0 s c; apply_slices s0 s' t
  end.

Section Put.
Variable dynamic : list str -> bool.
Variable xml_tbp : list str -> str.
Variable maxoccur : list str -> option nat.
Variable nbc : option nmap.
Variable verify : bool.
Variable edyn : list str -> bool.   (* the entry's dictionary *)
Variable em : meta.

(** put_slice of an IDS with homogeneous_time = mode (db_entry_al.py:276-347): the first one stores everything, like put *)
Definition put_slice (mode : Z) (s : store) (m : meta) (n : node) : result exn store :=
  do r <- al_put_calls dynamic xml_tbp maxoccur nbc mode verify edyn em true s m n;
  match r with
  | (_, _, (_, Some e)) => Err e
  | (false, s, (calls, None)) => Ok (apply_all s calls)
  | (true, s, (calls, None)) => apply_slices s s calls
  end.
Fixpoint put_slices (mode : Z) (s : store) (m : meta) (l : list node) : result exn store :=
  match l with
  | [] => Ok s
  | n :: t => do s' <- put_slice mode s m n; put_slices mode s' m t
  end.
End Put.
End Slice.
