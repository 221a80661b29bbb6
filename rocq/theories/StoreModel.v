(** Model of writing an IDS to and reading it from an Access Layer backend: imas/backends/imas_core/db_entry_helpers.py, the methods get
    and put of imas/backends/imas_core/db_entry_al.py and the metadata they use (imas/ids_metadata.py:149-206, 246-253).

    The backend itself (the C++ Access Layer) is not part of the repository.  It is represented by an ideal store: what is written at a
    position is read back at the same position.  A position consists of the open contexts (path, time base and index of each array of
    structures), the path relative to the innermost one, and the time base. *)
From Verif Require Import Base TreeModel VmapModel.
From Verif Require PrimModel.

(** path and time base, as passed to arraystruct_action, read_data and write_data (al_context.py:126-179) *)
Definition place := (str * str)%type.
Definition ctx := list (place * nat).
Definition key := (ctx * place)%type.

Definition place_eqb (a b : place) : bool := str_eqb (fst a) (fst b) && str_eqb (snd a) (snd b).
Definition key_eqb (a b : key) : bool :=
  list_eqb (fun x y => place_eqb (fst x) (fst y) && Nat.eqb (snd x) (snd y)) (fst a) (fst b) && place_eqb (snd a) (snd b).

(** * The ideal store (one occurrence of one IDS) *)
Record store := { s_data : key -> option value; s_size : key -> option nat }.
Definition empty_store : store := {| s_data := fun _ => None; s_size := fun _ => None |}.

(** what is requested from the backend during a put: write_data, and arraystruct_action with the size of the array *)
Inductive call := Write (k : key) (v : value) | Begin (k : key) (n : nat).
Definition apply (s : store) (c : call) : store :=
  match c with
  | Write k v => {| s_data := fun k' => if key_eqb k k' then Some v else s_data s k'; s_size := s_size s |}
  | Begin k n => {| s_data := s_data s; s_size := fun k' => if key_eqb k k' then Some n else s_size s k' |}
  end.
Definition apply_all (s : store) (l : list call) : store := fold_left apply l s.

(** delete_data(path) in the context of the whole IDS (al_context.py:107-109): everything at or inside path goes *)
Definition under (path : str) (k : key) : bool :=
  match fst k with
  | [] => str_eqb path (fst (snd k))
  | (p, _) :: _ => str_eqb path (fst p)
  end.
Definition delete (path : str) (s : store) : store :=
  {| s_data := fun k => if under path k then None else s_data s k; s_size := fun k => if under path k then None else s_size s k |}.

(** read_data: the value; a scalar without value reads as the empty value, an array without value as None; a value of another type
    or rank is an error of the backend *)
Definition typed (dt : dtype) (nd : nat) (v : value) : bool :=
  match dt, v with
  | STR, VStr _ => Nat.eqb nd 0
  | STR, VStrs _ => Nat.eqb nd 1
  | INT, VInt _ => Nat.eqb nd 0
  | INT, VIntA sh _ => Nat.eqb nd (length sh)
  | FLT, VFlt _ => Nat.eqb nd 0
  | FLT, VFltA sh _ => Nat.eqb nd (length sh)
  | CPX, VCpx _ _ => Nat.eqb nd 0
  | CPX, VCpxA sh _ => Nat.eqb nd (length sh)
  | _, _ => false
  end.

Inductive exn := Lowlevel          (* LowlevelError *)
               | NoContext         (* KeyError: an entry of the map without context path or time base *)
               | TooMany           (* RuntimeError: maxoccur exceeded *)
               | TimeMode          (* homogeneous_time is not one of the modes *)
               | TimeModeChanged.  (* DataEntryException of put_slice *)

Definition read (s : store) (k : key) (dt : dtype) (nd : nat) : result exn (option value) :=
  match s_data s k with
  | Some v => if typed dt nd v then Ok (Some v) else Err Lowlevel
  | None => Ok (match nd with O => Some (default_value dt 0) | S _ => None end)
  end.

(** time modes, imas/ids_defs.py *)
Definition HOMOGENEOUS : Z := 1%Z.
Definition INDEPENDENT : Z := 2%Z.

Section Transfer.
(** attributes of a node of the data dictionary, by its path from the IDS: type is "dynamic"; timebasepath; maxoccur *)
Variable dynamic : list str -> bool.
Variable xml_tbp : list str -> str.
Variable maxoccur : list str -> option nat.

(** path_string *)
Definition path_of (names : list str) : str := join_with "/"%char names.

(** A node of the metadata in its context: path from the IDS, [_ctx_path] for the children, [_is_dynamic]. *)
Record pos := { p_names : list str; p_ctx : str; p_dyn : bool }.
Definition top : pos := {| p_names := []; p_ctx := []; p_dyn := false |}.
(** ids_metadata.py:149-155: [_ctx_path] of the child called nm *)
Definition ctx_path (p : pos) (nm : str) : str := match p_ctx p with [] => nm | c => c ++ "/"%char :: nm end.
(** the child as a context for its own children, 204-206 and 247 *)
Definition below (p : pos) (m : meta) : pos :=
  let names := p_names p ++ [mname m] in
  {| p_names := names; p_ctx := match mkind m with KAoS => [] | _ => ctx_path p (mname m) end; p_dyn := dynamic names || p_dyn p |}.
(** 192-203: [timebasepath] *)
Definition timebasepath (p : pos) (m : meta) : str :=
  let names := p_names p ++ [mname m] in
  match mkind m with
  | KAoS => if dynamic names then ctx_path p (mname m) ++ strs "/time" else []
  | _ => if negb (dynamic names) || p_dyn p then [] else xml_tbp names
  end.

(** [nbc_map] and time mode *)
Variable nbc : option nmap.
Variable mode : Z.

(** db_entry_helpers.py:38-51, 94-107, 158-172: where the child is in the backend; None: it is skipped *)
Definition locate (p : pos) (m : meta) : result exn (option place) :=
  let own := Ok (Some (ctx_path p (mname m), timebasepath p m)) in
  do r <- match nbc with
          | None => own
          | Some mp =>
            let path := path_of (p_names p ++ [mname m]) in
            match alookup path (m_path mp) with
            | Some None => Ok None
            | Some (Some _) => match alookup path (m_ctx mp), alookup path (m_tbp mp) with
                               | Some c, Some t => Ok (Some (c, t))
                               | _, _ => Err NoContext
                               end
            | None => if has path (m_type mp) then Ok None else own
            end
          end;
  Ok (match r with
      | Some (c, t) => Some (c, match t with [] => [] | _ => if (mode =? HOMOGENEOUS)%Z then strs "/time" else t end)
      | None => None
      end).
(** 32-33, 86-87, 155-156 *)
Definition omitted (p : pos) (m : meta) : bool := (mode =? INDEPENDENT)%Z && dynamic (p_names p ++ [mname m]).

(** ** put_children (142-196): the calls made, and the exception that ended it, if any *)
Variable is_slice verify : bool.
Definition out := (list call * option exn)%type.
Definition done : out := ([], None).
Definition seq_out (a b : out) : out := match snd a with Some _ => a | None => (fst a ++ fst b, snd b) end.
Definition seq_all {A} (f : A -> out) (l : list A) : out := fold_right (fun x r => seq_out (f x) r) done l.

Fixpoint put_node (m : meta) (n : node) (p : pos) (c : ctx) {struct m} : out :=
  match m with
  | Meta nm k cs =>
    let m := Meta nm k cs in
    let put_struct (fs : TreeModel.fields) (q : pos) (c : ctx) : out :=
      seq_all (fun d => match alookup (mname d) fs with
                        | Some ch => if has_value d ch then put_node d ch q c else done
                        | None => done
                        end) cs in
    if omitted p m then done else
    match locate p m with
    | Err e => ([], Some e)
    | Ok None => done
    | Ok (Some pl) =>
      match k, n with
      | KAoS, NAoS els =>
        if verify && match maxoccur (p_names p ++ [nm]) with Some (S x) => S x <? length els | _ => false end then ([], Some TooMany) else
        seq_out ([Begin (c, pl) (length els)], None)
          (seq_all (fun ie => put_struct (node_fields (snd ie)) (below p m) (c ++ [(pl, fst ie)])) (enum els))
      | KStruct, NStruct fs => put_struct fs (below p m) c
      | KLeaf _ _, NLeaf (Some v) =>
        if is_slice && negb (dynamic (p_names p ++ [nm])) then done else ([Write (c, pl) v], None)
      | _, _ => done
      end
    end
  end.
Definition put_fields (cs : list meta) (fs : TreeModel.fields) (p : pos) (c : ctx) : out :=
  seq_all (fun d => match alookup (mname d) fs with
                    | Some ch => if has_value d ch then put_node d ch p c else done
                    | None => done
                    end) cs.
Definition put_children (m : meta) (n : node) : out := put_fields (mchildren m) (node_fields n) top [].

(** ** get_children (21-77) into a new structure: [None] if the child is not created *)
Variable s : store.
Definition rmap {A B} (f : A -> result exn B) : list A -> result exn (list B) :=
  fix go l := match l with [] => Ok [] | x :: t => do y <- f x; do r <- go t; Ok (y :: r) end.
(** the children that were created, by name *)
Definition gather (cs : list meta) (f : meta -> result exn (option node)) : result exn TreeModel.fields :=
  (fix go l := match l with
               | [] => Ok []
               | d :: t => do x <- f d; do r <- go t; Ok (match x with Some n => (mname d, n) :: r | None => r end)
               end) cs.

Fixpoint get_node (m : meta) (p : pos) (c : ctx) {struct m} : result exn (option node) :=
  match m with
  | Meta nm k cs =>
    let m := Meta nm k cs in
    if omitted p m then Ok None else
    do r <- locate p m;
    match r with
    | None => Ok None
    | Some pl =>
      match k with
      | KAoS =>
        match s_size s (c, pl) with
        | None | Some O => Ok None
        | Some n =>
          do els <- rmap (fun i => do fs <- gather cs (fun d => get_node d (below p m) (c ++ [(pl, i)])); Ok (NStruct fs)) (seq 0 n);
          Ok (Some (NAoS els))
        end
      | KStruct => do fs <- gather cs (fun d => get_node d (below p m) c); Ok (Some (NStruct fs))
      | KLeaf dt nd =>
        do v <- read s (c, pl) dt nd;
        Ok (match v with
            | None => None
            | Some v => if (nd =? 0) && PrimModel.is_empty dt v then None else Some (NLeaf (Some v))
            end)
      end
    end
  end.
Definition get_children (m : meta) : result exn node :=
  do fs <- gather (mchildren m) (fun d => get_node d top []); Ok (NStruct fs).
End Transfer.

(** delete_children (133-139), for the metadata of the entry's own version *)
Fixpoint delete_node (dynamic : list str -> bool) (m : meta) (p : pos) (s : store) {struct m} : store :=
  match m with
  | Meta nm k cs =>
    match k with
    | KStruct => fold_left (fun s d => delete_node dynamic d (below dynamic p (Meta nm k cs)) s) cs s
    | _ => delete (ctx_path p nm) s
    end
  end.
Definition delete_children (dynamic : list str -> bool) (m : meta) (s : store) : store :=
  fold_left (fun s d => delete_node dynamic d top s) (mchildren m) s.

(** * get and put of the entry *)

(** position of ids_properties/homogeneous_time, read with time base "" (db_entry_al.py:204-205, 304-307) *)
Definition mode_key : key := ([], (strs "ids_properties/homogeneous_time", [])).
Definition read_mode (s : store) : result exn Z :=
  do v <- read s mode_key INT 0; Ok (match v with Some (VInt z) => z | _ => EMPTY_INT end).
Definition is_mode (z : Z) : bool := ((z =? 0) || (z =? 1) || (z =? 2))%Z.

(** db_entry_al.py:179-248 (not lazy, whole IDS) *)
Definition al_get (dynamic : list str -> bool) (xml_tbp : list str -> str) (nbc : option nmap) (s : store) (m : meta) : result exn node :=
  do mode <- read_mode s;
  if is_mode mode then get_children dynamic xml_tbp nbc mode s m else Err TimeMode.

(** db_entry_al.py:273-331.  [m] is the metadata of the IDS, [em] the metadata of the same IDS in the version of the entry (with its
    [edyn]); [mode] is the IDS's own homogeneous_time (checked by DBEntry._put, see DBEntryModel).  What put_slice does to the stored
    arrays is the backend's affair: the calls are the result, together with the store before them. *)
Definition al_put_calls (dynamic : list str -> bool) (xml_tbp : list str -> str) (maxoccur : list str -> option nat) (nbc : option nmap)
    (mode : Z) (verify : bool) (edyn : list str -> bool) (em : meta) (slice : bool) (s : store) (m : meta) (n : node)
    : result exn (bool * store * out) :=
  do slice <- (if slice then
                 do dbm <- read_mode s;
                 if (dbm =? EMPTY_INT)%Z then Ok false else if (dbm =? mode)%Z then Ok true else Err TimeModeChanged
               else Ok false);
  let s := if slice then s else delete_children edyn em s in
  Ok (slice, s, put_children dynamic xml_tbp maxoccur nbc mode slice verify m n).
(** put: everything is written *)
Definition al_put dynamic xml_tbp maxoccur nbc mode verify edyn em (s : store) (m : meta) (n : node) : store * option exn :=
  match al_put_calls dynamic xml_tbp maxoccur nbc mode verify edyn em false s m n with
  | Ok (_, s, (calls, e)) => (apply_all s calls, e)
  | Err e => (s, Some e)
  end.
