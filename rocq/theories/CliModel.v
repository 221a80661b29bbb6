(** Model of the command "imas convert": imas/command/cli.py:112-222, with the get and put of imas/db_entry.py (549-629 with autoconvert=False,
    692-742) and of imas/backends/imas_core/db_entry_al.py (179-275).

    Both entries are Access Layer entries (StoreModel.v: one ideal store per occurrence), which list exactly the occurrences that were put into them.
    The steps are those of StoreModel.v (reading and writing) and EndModel.v (convert_ids).
    Simplified: the progress bar and the timer are left out; a dictionary version is what EndModel.v needs of it; that the definition found for a
    version reports that version is C55. *)
From Verif Require Import Base TreeModel PrimModel ConvModel EndModel StoreModel.
From Verif Require StoreProps2 SerModel ValModel.

(** occurrences of IDSs *)
Definition entry := list ((str * Z) * store).
Definition same_key (a b : str * Z) : bool := str_eqb (fst a) (fst b) && (snd a =? snd b)%Z.
Fixpoint find_store (e : entry) (k : str * Z) : option store :=
  match e with [] => None | (k', s) :: t => if same_key k k' then Some s else find_store t k end.
Fixpoint set_store (e : entry) (k : str * Z) (s : store) : entry :=
  match e with [] => [(k, s)] | (k', s') :: t => if same_key k k' then (k', s) :: t else (k', s') :: set_store t k s end.
Definition stored (e : entry) (k : str * Z) : store := match find_store e k with Some s => s | None => empty_store end.
(** list_all_occurrences, db_entry_al.py:349-358 *)
Definition occurrences (e : entry) (name : str) : list Z := map (fun x => snd (fst x)) (filter (fun x => str_eqb name (fst (fst x))) e).

Inductive cli_exn :=
| UnknownVersion        (* UnknownDDVersion *)
| OutputExists          (* LowlevelError of opening with mode "x" *)
| NoIds                 (* IDSNameError *)
| EmptyIds              (* DataEntryException *)
| NotValid              (* ValidationError of put *)
| BadTimeMode           (* ValueError of put *)
| NoAttribute           (* AttributeError: version_put without one of its children *)
| Backend (e : exn)
| Conversion (e : end_exn).
Definition backend {A} (r : result exn A) : result cli_exn A := match r with Ok x => Ok x | Err e => Err (Backend e) end.

(** position of ids_properties/version_put/data_dictionary (db_entry_al.py:264-265) *)
Definition version_key : key := ([], (strs "ids_properties/version_put/data_dictionary", [])).
Definition read_version (s : store) : result exn str := do v <- read s version_key STR 0; Ok (match v with Some (VStr x) => x | _ => [] end).

(** metadata at a path of names *)
Fixpoint meta_at (m : meta) (p : list str) : option meta :=
  match p with
  | [] => Some m
  | x :: t => match mkind m with KStruct => match List.find (fun c => str_eqb x (mname c)) (mchildren m) with Some c => meta_at c t | None => None end | _ => None end
  end.
(** node.a.b = value, for a data node *)
Fixpoint set_field (p : list str) (v : value) (n : node) : node :=
  match p with
  | [] => NLeaf (Some v)
  | x :: t => NStruct (aset x (set_field t v (match alookup x (node_fields n) with Some c => c | None => NStruct [] end)) (node_fields n))
  end.
Definition time_path : list str := [strs "ids_properties"; strs "homogeneous_time"].
Definition version_path : list str := [strs "ids_properties"; strs "version_put"].

(** an IDS: the dictionary, its definition and the data *)
Definition ids := (dictionary * ids_def * node)%type.

Section Command.
(** as in EndModel.v *)
Variable order : list str -> list str.
Variable flips : str -> list str.
Variable dd341 : dictionary.
Variables (rank340 rank341 : Z).
Variable library_version : str.
Variable str_of : pyval -> str.
Variable parse_float : str -> option flt.
Variable parse_cpx : str -> option (flt * flt).
Variable flt_of_int : Z -> option flt.
Variable np_cast : dtype -> pyval -> result pexn value.
Variable array_items : value -> list pyval.
Variable close : pyval -> pyval -> bool.
Variable np_int32 : flt -> result pexn Z.
Variable enum_of : list str -> option (Z -> option (str * str)).
Variable at_ : list str -> ValModel.attrs.
Variable lin : flt -> flt -> flt -> flt -> flt -> flt.
(** dictionaries: dd_xml_versions(); IDSFactory(), which the input entry has; the definition in the file with this name, if it exists *)
Variable released : list (str * dictionary).
Variable own : dictionary.
Variable custom : str -> option dictionary.
(** the attribute maxoccur; the type of the IDS is constant; the IDS passes validation, or validation is switched off *)
Variable maxoccur : dictionary -> str -> list str -> option nat.
Variable constant : dictionary -> str -> bool.
Variable valid : dictionary -> str -> node -> bool.
(** the output has the mdsplus backend; versions of the Access Layer and of this library as put stores them *)
Variable verify : bool.
Variables (access_layer language : str).
(** time of the conversion *)
Variable now : str.

(** DBEntry.get(name, occurrence, autoconvert=False) of the input entry: db_entry.py:549-629, db_entry_al.py:179-271 *)
Definition get_ids (input : entry) (name : str) (occ : Z) : result cli_exn ids :=
  match alookup name (d_ids own) with
  | None => Err NoIds
  | Some _ =>
    let s := stored input (name, occ) in
    do mode <- backend (read_mode s);
    do v <- backend (read_version s);
    if negb (is_mode mode) then Err EmptyIds else
    do d <- match v with
            | [] => Ok own
            | _ => match alookup v released with Some d => Ok d | None => Err UnknownVersion end
            end;
    match alookup name (d_ids d) with
    | None => Err NoIds
    | Some i => do n <- backend (al_get (StoreProps2.xml_dynamic (i_fields i)) (StoreProps2.xml_timebase (i_fields i)) None s (i_meta i)); Ok (d, i, n)
    end
  end.
(** cli.py:199-210 *)
Definition convert_one (target : dictionary) (uri : str) (name : str) (x : ids) : result cli_exn ids :=
  let '(d, i, n) := x in
  if str_eqb (d_text d) (d_text target) then Ok x else
  match convert_ids order flips dd341 rank340 rank341 library_version str_of parse_float parse_cpx flt_of_int np_cast array_items close np_int32 enum_of at_ lin
          false name d target (i_meta i) n None false uri now, alookup name (d_ids target) with
  | Ok st, Some j => Ok (target, j, c_tree st)
  | Ok _, None => Err NoIds
  | Err e, _ => Err (Conversion e)
  end.
(** what put assigns before it writes, db_entry.py:720-740 *)
Definition stamp (target : dictionary) (name : str) (x : ids) : result cli_exn node :=
  let '(d, i, n) := x in
  let n := if constant d name then set_field time_path (VInt 2) n else n in
  match meta_at (i_meta i) version_path with
  | None => Ok n
  | Some _ =>
    if forallb (fun y => match meta_at (i_meta i) (version_path ++ [strs y]) with Some _ => true | None => false end) ["data_dictionary"; "access_layer"; "access_layer_language"]%string
    then Ok (set_field (version_path ++ [strs "access_layer_language"]) (VStr language)
              (set_field (version_path ++ [strs "access_layer"]) (VStr access_layer)
                (set_field (version_path ++ [strs "data_dictionary"]) (VStr (d_text target)) n)))
    else Err NoAttribute
  end.
(** DBEntry.put of an entry of the dictionary [target], db_entry.py:692-742, db_entry_al.py:273-331; the IDS has the version of the entry *)
Definition put_ids (target : dictionary) (name : str) (x : ids) (s : store) : store * option cli_exn :=
  let '(d, i, n) := x in
  if negb (valid d name n) then (s, Some NotValid)
  else if negb (is_mode (SerModel.time_mode n)) then (s, Some BadTimeMode)
  else match stamp target name x with
       | Err e => (s, Some e)
       | Ok n' =>
         match alookup name (d_ids target) with
         | None => (s, Some NoIds)
         | Some j =>
           match al_put (StoreProps2.xml_dynamic (i_fields i)) (StoreProps2.xml_timebase (i_fields i)) (maxoccur d name) None (SerModel.time_mode n') verify
                   (StoreProps2.xml_dynamic (i_fields j)) (i_meta j) s (i_meta i) n' with
           | (s', None) => (s', None)
           | (s', Some e) => (s', Some (Backend e))
           end
         end
       end.

(** 149-155 *)
Definition find_version (version : str) : result cli_exn dictionary :=
  match alookup version released with
  | Some d => Ok d
  | None => match custom version with Some d => Ok d | None => Err UnknownVersion end
  end.
(** 166-175: option --ids (None: "*"), option --occurrence *)
Definition todo (target : dictionary) (input : entry) (name : option str) (occ : Z) : list (str * Z) :=
  let names := match name with Some x => [x] | None => map fst (d_ids target) end in
  flat_map (fun x => if (occ =? -1)%Z then map (fun o => (x, o)) (occurrences input x) else [(x, occ)]) names.
(** 190-218: the entry so far, and the exception that ends the command *)
Fixpoint convert_all (target : dictionary) (uri : str) (input : entry) (l : list (str * Z)) (out : entry) : entry * option cli_exn :=
  match l with
  | [] => (out, None)
  | (name, o) :: t =>
    match (do x <- get_ids input name o; convert_one target uri name x) with
    | Err e => (out, Some e)
    | Ok x => match put_ids target name x (stored out (name, o)) with
              | (s, None) => convert_all target uri input t (set_store out (name, o) s)
              | (s, Some (Backend e)) => (set_store out (name, o) s, Some (Backend e))
              | (_, Some e) => (out, Some e)
              end
    end
  end.
(** 130-222.  [uri]: uri_in, or empty with --no-provenance; [exists_]: there is an entry at uri_out *)
Definition convert_command (uri : str) (exists_ : bool) (input : entry) (version : str) (name : option str) (occ : Z) : entry * option cli_exn :=
  match find_version version with
  | Err e => ([], Some e)
  | Ok target => if exists_ then ([], Some OutputExists) else convert_all target uri input (todo target input name occ) []
  end.
End Command.
