(** Model of how a data entry is opened: imas/db_entry.py:30-42 (_get_uri_mode, _get_legacy_params), 134-198 (DBEntry.__init__,
    _select_implementation), 233-303 (create, open, _open_pulse); imas/backends/imas_core/db_entry_al.py:63-158 (ALDBEntryImpl: __init__,
    from_uri, from_pulse_run, _setup_backend) and 360-382 (the option cache_mode); imas/backends/netcdf/db_entry_nc.py:29-55, 83-85.

    The Python library is modelled where the code depends on it: how arguments are bound to parameters, urllib.parse.urlparse, re.split
    with a set of characters, str.partition.  Not in the repository, and parameters here: the Access Layer (begin_dataentry_action,
    build_uri_from_legacy_parameters), netCDF4.Dataset, the factory (C55), mdsplus_model_dir (C40), extract_idsdef (C41), getpass.getuser.
    Simplified: strings are byte strings; a host in square brackets in a URI is a parameter; messages of exceptions and logging are left out. *)
From Verif Require Import Base.

(** ** Binding arguments to parameters (Python) *)
Section Bind.
Context {A : Type}.
(** parameters: name and default value; None: required.  None: TypeError *)
Definition param := (str * option A)%type.
Fixpoint fill (ps : list param) (kw : list (str * A)) : option (list A) :=
  match ps with
  | [] => Some []
  | (n, d) :: ps => match (match alookup n kw with Some v => Some v | None => d end), fill ps kw with
                    | Some v, Some l => Some (v :: l)
                    | _, _ => None
                    end
  end.
Definition bind (ps : list param) (args : list A) (kw : list (str * A)) : option (list A) :=
  if length ps <? length args then None                                             (* too many positional arguments *)
  else if negb (forallb (fun k => existsb (str_eqb (fst k)) (map fst (skipn (length args) ps))) kw) then None  (* unexpected, or given twice *)
  else option_map (app args) (fill (skipn (length args) ps) kw).
End Bind.

(** Argument values: text, numbers, None, pathlib paths *)
Inductive arg := AText (s : str) | ANum (z : Z) | ANone | APath (s : str).

Inductive oexn := ArgType | ArgValue                    (* TypeError, ValueError of the constructor *)
| BadMode | BadUri                                      (* ValueError of from_uri, of urlparse *)
| NoCore | NoNetcdf                                     (* RuntimeError: the library is not available *)
| EnvType                                               (* TypeError of os.environ *)
| Factory | Extract | MdsModel | LowLevel | Dataset.    (* of the other modules *)

(** db_entry.py:30-42 *)
Definition uri_mode : list (@param arg) := [(strs "uri", None); (strs "mode", None)].
Definition legacy_params : list (@param arg) :=
  [(strs "backend_id", None); (strs "db_name", None); (strs "pulse", None); (strs "run", None); (strs "user_name", Some ANone); (strs "data_version", Some ANone)].
(** what the constructor understands, db_entry.py:146-168; without dd_version and xml_path, which it takes itself *)
Inductive call := ByUri (uri mode : arg) | Legacy (values : list arg).
Definition parse_args (args : list arg) (kw : list (str * arg)) : result oexn call :=
  match bind uri_mode args kw with
  | Some [u; m] => Ok (ByUri u m)
  | Some _ => Err ArgType
  | None =>
    do kw <- match alookup (strs "shot") kw with
             | None => Ok kw
             | Some v => match alookup (strs "pulse") kw with
                         | Some _ => Err ArgValue
                         | None => Ok (filter (fun k => negb (str_eqb (fst k) (strs "shot"))) kw ++ [(strs "pulse", v)])
                         end
             end;
    match bind legacy_params args kw with Some l => Ok (Legacy l) | None => Err ArgType end
  end.

(** ** urllib.parse *)
Fixpoint dropwhile (f : ascii -> bool) (s : str) : str := match s with c :: t => if f c then dropwhile f t else s | [] => [] end.
Definition code (c : ascii) : N := N_of_ascii c.
(** lower case letters for capital ones *)
Definition lower_chr (c : ascii) : ascii := if ((65 <=? code c) && (code c <=? 90))%N then ascii_of_N (code c + 32) else c.
Definition is_alpha (c : ascii) : bool := is_lower (lower_chr c).
Definition scheme_char (c : ascii) : bool := is_alpha c || is_digit c || existsb (Ascii.eqb c) ["+"; "-"; "."]%char.
(** [s.split(c, 1)]: before and after the first [c] *)
Fixpoint cut_at (f : ascii -> bool) (s : str) : str * option str :=
  match s with
  | [] => ([], None)
  | c :: t => if f c then ([], Some t) else let (a, b) := cut_at f t in (c :: a, b)
  end.
Definition eqc (c d : ascii) : bool := Ascii.eqb c d.
Definition starts (p s : str) : bool := str_eqb p (firstn (length p) s).
Definition ends (p s : str) : bool := str_eqb p (skipn (length s - length p) s) && (length p <=? length s).
(** up to the first of the characters, which stays *)
Fixpoint until (f : ascii -> bool) (s : str) : str * str :=
  match s with [] => ([], []) | c :: t => if f c then ([], s) else let (a, b) := until f t in (c :: a, b) end.

Section Parse.
Variable bracket_ok : str -> bool.                      (* a host in square brackets is an IPv6 address *)
(** urlparse: path and query; the parameters after ";" are part of the path unless the scheme is known to have them ([""]: no scheme) *)
Definition uses_params : list str :=
  map strs [""; "ftp"; "hdl"; "prospero"; "http"; "imap"; "https"; "shttp"; "rtsp"; "rtsps"; "rtspu"; "sip"; "sips"; "mms"; "sftp"; "tel"]%string.
Definition strip_params (p : str) : str :=              (* _splitparams: from the first ";" after the last "/" *)
  let i := length p - length (hd [] (rev (split_on "/" p))) in
  firstn i p ++ fst (cut_at (eqc ";") (skipn i p)).
Definition urlparse (url : str) : result oexn (str * str) :=
  let url := dropwhile (fun c => (code c <=? 32)%N) url in
  let url := filter (fun c => negb (existsb (eqc c) ["009"; "010"; "013"]%char)) url in
  let (scheme, url) := match cut_at (eqc ":") url with
                       | ((c :: _) as s, Some rest) => if is_alpha c && forallb scheme_char s then (map lower_chr s, rest) else ([], url)
                       | _ => ([], url)
                       end in
  do url <- (if starts (strs "//") url then
               let (netloc, rest) := until (fun c => existsb (eqc c) ["/"; "?"; "#"]%char) (skipn 2 url) in
               let l := existsb (eqc "[") netloc in let r := existsb (eqc "]") netloc in
               if xorb l r then Err BadUri else if l && negb (bracket_ok netloc) then Err BadUri else Ok rest
             else Ok url);
  let url := fst (cut_at (eqc "#") url) in
  let (path, query) := cut_at (eqc "?") url in
  Ok (if existsb (str_eqb scheme) uses_params then strip_params path else path, match query with Some q => q | None => [] end).

(** db_entry_al.py:68 *)
Definition backend_of (uri : str) : result oexn str :=
  do pq <- urlparse uri; Ok (dropwhile (eqc "/") (map lower_chr (fst pq))).
(** 80-85 *)
Fixpoint split_any (f : ascii -> bool) (s : str) : list str :=
  match s with
  | [] => [[]]
  | c :: t => if f c then [] :: split_any f t else match split_any f t with p :: l => (c :: p) :: l | [] => [[c]] end
  end.
Definition option_of (o : str) : str * str := match cut_at (eqc "=") o with (n, v) => (n, match v with Some v => v | None => [] end) end.
Definition separator (c : ascii) : bool := existsb (eqc c) ["&"; ";"; "?"]%char.
Definition querydict (query : str) : list (str * str) :=
  fold_left (fun d o => aset (fst (option_of o)) (snd (option_of o)) d) (split_any separator query) [].

(** ** Opening *)
(** OPEN_PULSE, FORCE_OPEN_PULSE, CREATE_PULSE, FORCE_CREATE_PULSE, another number *)
Inductive pmode := Open | ForceOpen | Create | ForceCreate | OtherMode (z : Z).
Definition pmode_eqb (a b : pmode) : bool :=
  match a, b with Open, Open | ForceOpen, ForceOpen | Create, Create | ForceCreate, ForceCreate => true | OtherMode x, OtherMode y => (x =? y)%Z | _, _ => false end.
(** 44-49 *)
Definition open_modes : list (str * pmode) := [(strs "r", Open); (strs "a", ForceOpen); (strs "w", ForceCreate); (strs "x", Create)].
Inductive event := EBegin (uri : str) (mode : pmode) | EDataset (name mode : str) (clobber : bool).
(** os.environ and the calls that were made *)
Record world := { environ : list (str * str); calls : list event }.
Definition setenv (n v : str) (w : world) : world := {| environ := aset n v (environ w); calls := calls w |}.
Definition emit (e : event) (w : world) : world := {| environ := environ w; calls := calls w ++ [e] |}.
(** the factory: its version and the argument xml_path *)
Record factory := { f_version : str; f_xml : option arg }.
Inductive impl := ImplAL (uri backend : str) (options : list (str * str)) | ImplNC (name : str).

Variables (has_imas has_netcdf : bool).
Variable file_version : str -> option str.              (* get_dd_version_from_idsdef_xml *)
Variable extract_idsdef : str -> option str.            (* None: an exception *)
Variable mds_dir : factory -> option (option str).      (* mdsplus_model_dir; None: an exception *)
Variable begin_ok : str -> pmode -> bool.               (* status 0 *)
Variable dataset_ok : str -> str -> bool -> bool.
Variable legacy_uri : list arg -> arg -> option str.    (* build_uri_from_legacy_parameters, with the options *)
Variable user : str.
Variable str_of : arg -> str.                           (* str() *)

(** os.environ[n] = v *)
Definition put_env (n : str) (v : arg) (w : world) : world * result oexn unit :=
  match v with AText s => (setenv n s w, Ok tt) | _ => (w, Err EnvType) end.
(** 123-157 *)
Definition setup_backend (backend : str) (mode : pmode) (f : factory) (w : world) : world * result oexn unit :=
  if str_eqb backend (strs "mdsplus") then
    if pmode_eqb mode Open then (w, Ok tt) else
    match mds_dir f with
    | None => (w, Err MdsModel)
    | Some (Some ((_ :: _) as d)) => put_env (strs "ids_path") (AText d) w
    | Some _ => (w, Ok tt)
    end
  else if str_eqb backend (strs "uda") then
    let path := match f_xml f with
                | Some p => Some p
                | None => match alookup (strs "IMAS_PREFIX") (environ w) with
                          | Some pre => let p := pre ++ strs "/include/IDSDef.xml" in
                                        match file_version p with Some v => if str_eqb v (f_version f) then Some (AText p) else None | None => None end
                          | None => None
                          end
                end in
    match path with
    | Some p => put_env (strs "IDSDEF_PATH") p w
    | None => match extract_idsdef (f_version f) with Some p => put_env (strs "IDSDEF_PATH") (AText p) w | None => (w, Err Extract) end
    end
  else (w, Ok tt).
(** 66-85 *)
Definition init_al (uri : str) (mode : pmode) (f : factory) (w : world) : world * result oexn impl :=
  match backend_of uri with
  | Err e => (w, Err e)
  | Ok backend =>
    match setup_backend backend mode f w with
    | (w, Err e) => (w, Err e)
    | (w, Ok _) =>
      let w := emit (EBegin uri mode) w in
      if begin_ok uri mode then (w, do pq <- urlparse uri; Ok (ImplAL uri backend (querydict (snd pq)))) else (w, Err LowLevel)
    end
  end.
(** 87-93 *)
Definition al_from_uri (uri : str) (mode : arg) (f : factory) (w : world) : world * result oexn impl :=
  if negb has_imas then (w, Err NoCore) else
  match mode with
  | AText m => match alookup m open_modes with Some pm => init_al uri pm f w | None => (w, Err BadMode) end
  | _ => (w, Err BadMode)
  end.
(** 95-121; [x or y] *)
Definition truthy (a : arg) : bool := match a with AText [] | ANone => false | ANum z => negb (z =? 0)%Z | _ => true end.
Definition or_ (a b : arg) : arg := if truthy a then a else b.
Definition al_from_pulse_run (values : list arg) (mode : pmode) (options : arg) (f : factory) (w : world) : world * result oexn impl :=
  if negb has_imas then (w, Err NoCore) else
  let values := match values with
                | [b; d; p; r; u; v] => [b; d; p; r; or_ u (AText user); or_ v (AText (f_version f))]
                | _ => values
                end in
  match legacy_uri values (or_ options (AText [])) with
  | None => (w, Err LowLevel)
  | Some uri => init_al uri mode f w
  end.
(** db_entry_nc.py:29-55; [mode]: netCDF4 refuses what it does not know *)
Definition nc_from_uri (name : str) (mode : arg) (w : world) : world * result oexn impl :=
  if negb has_netcdf then (w, Err NoNetcdf) else
  let m := str_of mode in
  let (m, clobber) := if str_eqb m (strs "x") then (strs "w", false) else (m, true) in
  let w := emit (EDataset name m clobber) w in
  if dataset_ok name m clobber then (w, Ok (ImplNC name)) else (w, Err Dataset).

(** db_entry.py:190-198 *)
Definition is_nc (uri : str) : bool := ends (strs ".nc") uri && negb (starts (strs "imas:") uri).
(** DBEntry; [d_uri]: the attribute uri; [d_values]: the attributes of the legacy parameters *)
Record entry := { d_uri : option str; d_values : list arg; d_factory : factory; d_impl : option impl }.
Definition init (args : list arg) (kw : list (str * arg)) (fac : option factory) (w : world) : world * result oexn entry :=
  match parse_args args kw with
  | Err e => (w, Err e)
  | Ok c =>
    match fac, c with
    | None, _ => (w, Err Factory)
    | Some f, Legacy l => (w, Ok {| d_uri := None; d_values := l; d_factory := f; d_impl := None |})
    | Some f, ByUri u m =>
      let uri := str_of u in
      let (w, r) := if is_nc uri then nc_from_uri uri m w else al_from_uri uri m f w in
      (w, do i <- r; Ok {| d_uri := Some uri; d_values := []; d_factory := f; d_impl := Some i |})
    end
  end.
(** _open_pulse for an entry made with legacy parameters that is not open (C30 has the other cases), 294-303 *)
Definition open_pulse (e : entry) (mode : pmode) (options : arg) (w : world) : world * result oexn entry :=
  let (w, r) := al_from_pulse_run (d_values e) mode options (d_factory e) w in
  (w, do i <- r; Ok {| d_uri := d_uri e; d_values := d_values e; d_factory := d_factory e; d_impl := Some i |}).
(** create, 233-253; open, 255-280 *)
Definition create (force : bool) := fun e => open_pulse e (if force then ForceCreate else Create).
Definition open_ (mode : pmode) (force : bool) := fun e => open_pulse e (if force then ForceOpen else mode).
End Parse.
