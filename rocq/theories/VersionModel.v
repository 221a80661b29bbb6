(** Model of how a definition of the data dictionary is chosen, loaded and kept: imas/dd_zip.py:41-109, imas/ids_factory.py:32-62, and which
    definitions and which map a read uses: imas/db_entry.py:549-629, imas/ids_convert.py:509-524, imas/backends/netcdf/db_entry_nc.py:42-135.

    Simplifications: the package imas_data_dictionaries is a list of versions with their XML, oldest first; a parsed XML is its version
    element and its IDSs; versions are compared by their rank; None, "" and a missing argument are distinguished as in Python;
    logging is left out. *)
From Verif Require Import Base TreeModel.
From Verif Require VmapModel EndModel.

Record xml := { x_version : option str; x_ids : list (str * EndModel.ids_def) }.
(** an object of class IDSFactory: [f_obj] is its identity *)
Record factory := { f_version : str; f_xml : xml; f_path : option str; f_obj : nat }.

Inductive vexn :=
| VArgs            (* ValueError: version and xml_path *)
| VUnknown         (* UnknownDDVersion *)
| VFile            (* the file cannot be read or parsed *)
| VMismatch        (* RuntimeError: not the requested version *)
| VNone            (* IndexError: no version is available *)
| VName            (* IDSNameError *)
| VMajor           (* RuntimeError: other major version *)
| VParse           (* InvalidVersion *)
| VType            (* TypeError: factories cannot be compared *)
| VMap (e : EndModel.end_exn).

Inductive file := Missing | Broken | Good (x : xml).
(** The environment variables IMAS_VERSION and IMAS_PREFIX, and the files. *)
Record world := { w_version : option str; w_prefix : option str; w_file : str -> file }.
Record parsed := { p_rank : Z; p_major : Z; p_minor : Z }.

Definition truthy (o : option str) : bool := match o with None | Some [] => false | _ => true end.
Definition key : Type := option str * option str.
Definition opt_eqb (a b : option str) : bool := match a, b with None, None => true | Some x, Some y => str_eqb x y | _, _ => false end.
Definition key_eqb (a b : key) : bool := opt_eqb (fst a) (fst b) && opt_eqb (snd a) (snd b).
(** What is kept between calls: the cache of _load_etree, most recent first, and the number of factories made. *)
Record mem := { m_cache : list (key * xml); m_next : nat }.

Section Versions.
Variable bundled : list (str * xml).            (* imas_data_dictionaries *)
Variable idsdef : str -> str.                   (* the resolved path of include/IDSDef.xml in the prefix, dd_zip.py:65-66 *)
Variable parse : str -> option parsed.          (* parse_dd_version *)
Variable xml_major : str -> option Z.           (* the first number of the text of the version element *)
Variable order : list str -> list str.
Variable flips : str -> list str.
Variable dd341 : EndModel.dictionary.
Variable rank341 : Z.

Definition known (v : str) : bool := existsb (str_eqb v) (akeys bundled).

(** dd_zip.py:57-79: the arguments of _load_etree *)
Definition select (w : world) (version path : option str) : result vexn key :=
  if truthy version && truthy path then Err VArgs else
  let r := if negb (truthy version) && negb (truthy path) then
             match w_version w with
             | Some iv => if known iv then (Some iv, path)
                          else match w_prefix w with
                               | Some pre => match w_file w (idsdef pre) with Missing => (version, path) | _ => (version, Some (idsdef pre)) end
                               | None => (version, path)
                               end
             | None => (version, path)
             end
           else (version, path) in
  if negb (truthy (fst r)) && negb (truthy (snd r)) then
    match rev bundled with (v, _) :: _ => Ok (Some v, snd r) | [] => Err VNone end
  else Ok r.
(** dd_zip.py:84-92, without the cache *)
Definition load (w : world) (k : key) : result vexn xml :=
  if truthy (snd k) then match snd k with Some p => match w_file w p with Good x => Ok x | _ => Err VFile end | None => Err VFile end
  else match fst k with Some v => match alookup v bundled with Some x => Ok x | None => Err VUnknown end | None => Err VUnknown end.
(** functools.lru_cache(8): the last used entry is the first *)
Fixpoint cache_get (c : list (key * xml)) (k : key) : option xml :=
  match c with [] => None | (k', x) :: t => if key_eqb k' k then Some x else cache_get t k end.
Definition cache_drop (c : list (key * xml)) (k : key) : list (key * xml) := filter (fun e => negb (key_eqb (fst e) k)) c.
Definition cached_load (w : world) (k : key) (s : mem) : result vexn xml * mem :=
  match cache_get (m_cache s) k with
  | Some x => (Ok x, {| m_cache := (k, x) :: cache_drop (m_cache s) k; m_next := m_next s |})
  | None => match load w k with
            | Ok x => (Ok x, {| m_cache := firstn 8 ((k, x) :: m_cache s); m_next := m_next s |})
            | Err e => (Err e, s)
            end
  end.
(** dd_etree, dd_zip.py:41-81 *)
Definition dd_etree (w : world) (version path : option str) (s : mem) : result vexn xml * mem :=
  match select w version path with Err e => (Err e, s) | Ok k => cached_load w k s end.
(** ids_factory.py:44-62: the version of a factory *)
Definition version_of (x : xml) (version : option str) : result vexn str :=
  let v := match x_version x with
           | Some v => v
           | None => if truthy version then match version with Some v => v | None => [] end else strs "-1"
           end in
  if truthy version && negb (opt_eqb version (Some v)) then Err VMismatch else Ok v.
(** IDSFactory(version, xml_path) *)
Definition make (w : world) (version path : option str) (s : mem) : result vexn factory * mem :=
  match dd_etree w version path s with
  | (Err e, s) => (Err e, s)
  | (Ok x, s) => match version_of x version with
                 | Err e => (Err e, s)
                 | Ok v => (Ok {| f_version := v; f_xml := x; f_path := path; f_obj := m_next s |}, {| m_cache := m_cache s; m_next := S (m_next s) |})
                 end
  end.

(** The definition of a factory as the map sees it. *)
Definition dict (f : factory) (p : parsed) : EndModel.dictionary :=
  {| EndModel.d_rank := p_rank p; EndModel.d_major := p_major p; EndModel.d_minor := p_minor p; EndModel.d_text := f_version f;
     EndModel.d_xml_major := match x_version (f_xml f) with Some v => xml_major v | None => None end; EndModel.d_ids := x_ids (f_xml f) |}.
(** dd_version_map_from_factories, ids_convert.py:509-524.  [min] compares the versions, and then the factories, which is only possible
    if they are the same object. *)
Definition map_from_factories (name : str) (f1 f2 : factory) : result vexn (VmapModel.maps * bool) :=
  match parse (f_version f1), parse (f_version f2) with
  | Some p1, Some p2 =>
    let build o n := match EndModel.dd_version_map order flips dd341 rank341 name o n with Ok s => Ok s | Err e => Err (VMap e) end in
    if (p_rank p2 <? p_rank p1)%Z then do s <- build (dict f2 p2) (dict f1 p1); Ok (s, false)
    else if (p_rank p1 <? p_rank p2)%Z then do s <- build (dict f1 p1) (dict f2 p2); Ok (s, true)
    else if f_obj f1 =? f_obj f2 then do s <- build (dict f1 p1) (dict f2 p2); Ok (s, true)
    else Err VType
  | _, _ => Err VParse
  end.

Definition has_ids (f : factory) (name : str) : bool := existsb (str_eqb name) (akeys (x_ids (f_xml f))).
Definition major (v : str) : str := hd [] (split_on "."%char v).
(** db_entry.py:568-591: the version the data is taken to have *)
Definition disk_version (fe : factory) (ignore : bool) (stored : str) : result vexn (option str) :=
  match stored with
  | [] => Ok None
  | _ => if negb (str_eqb stored (f_version fe)) && negb (known stored) then (if ignore then Ok None else Err VUnknown) else Ok (Some stored)
  end.
(** db_entry.py:563-619: the dictionary of the IDS that is filled, and the map *)
Definition choose (w : world) (fe : factory) (name : str) (dest : option factory) (auto ignore : bool) (stored : str) (s : mem)
  : result vexn (factory * option VmapModel.nmap) * mem :=
  if negb (has_ids fe name) then (Err VName, s) else
  match disk_version fe ignore stored with
  | Err e => (Err e, s)
  | Ok dd =>
    let (rd, s) := match dest, dd with
                   | Some d, _ => (Ok d, s)
                   | None, None => (Ok fe, s)
                   | None, Some v => if auto then (Ok fe, s)
                                     else match make w (Some v) None s with
                                          | (Ok f, s) => (if has_ids f name then Ok f else Err VName, s)
                                          | (Err e, s) => (Err e, s)
                                          end
                   end in
    match rd, dd with
    | Err e, _ => (Err e, s)
    | Ok d, None => (Ok (d, None), s)
    | Ok d, Some v =>
      if str_eqb v (f_version d) then (Ok (d, None), s)
      else if negb (str_eqb (major v) (major (f_version d))) then (Err VMajor, s)
      else match make w (Some v) None s with
           | (Err e, s) => (Err e, s)
           | (Ok f, s) => match map_from_factories name f fe with
                          | Err e => (Err e, s)
                          | Ok (mp, older) => (Ok (d, Some (if older then VmapModel.n2o mp else VmapModel.o2n mp)), s)
                          end
           end
    end
  end.

(** db_entry_nc.py:42-81: the dictionary of a file that has data *)
Definition nc_open (w : world) (fe : factory) (stored : str) (s : mem) : result vexn factory * mem :=
  if str_eqb stored (f_version fe) then (Ok fe, s) else make w (Some stored) None s.
(** db_entry_nc.py:120-135: [None]: the file is read with the dictionary of the IDS; otherwise with its own and the map *)
Definition nc_map (name : str) (ds fe d : factory) : result vexn (option VmapModel.nmap) :=
  if str_eqb (f_version ds) (f_version d) then Ok None
  else do r <- map_from_factories name ds fe; Ok (Some (if snd r then VmapModel.o2n (fst r) else VmapModel.n2o (fst r))).
(** DBEntry.get of a netCDF file, until the file is read; read_dd_version is db_entry_nc.py:137-138 *)
Definition nc_choose (w : world) (fe ds : factory) (name : str) (dest : option factory) (auto ignore : bool) (s : mem)
  : result vexn (factory * option VmapModel.nmap) * mem :=
  match choose w fe name dest auto ignore (f_version ds) s with
  | (Err e, s) => (Err e, s)
  | (Ok (d, _), s) => match nc_map name ds fe d with Err e => (Err e, s) | Ok m => (Ok (d, m), s) end
  end.
End Versions.

(** Histories: the environment and the files change, and factories are made. *)
Inductive event := ESet (w : world) | EMake (version path : option str).
Section Run.
Variables (bundled : list (str * xml)) (idsdef : str -> str).
Fixpoint run (w : world) (s : mem) (l : list event) : list (world * option str * option str * result vexn factory) * mem :=
  match l with
  | [] => ([], s)
  | ESet w' :: t => run w' s t
  | EMake v p :: t => let (r, s) := make bundled idsdef w v p s in let (o, s) := run w s t in ((w, v, p, r) :: o, s)
  end.
End Run.
Definition fresh : mem := {| m_cache := []; m_next := 0 |}.
