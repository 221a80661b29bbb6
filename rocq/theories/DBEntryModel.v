(** Model of the data entry object: imas/db_entry.py:134-802.  The backend ([DBEntryImpl]) is an oracle: every call of it is recorded
    in a log and its outcome is part of the operation.  Not modelled: the data itself (see the models of the backends), logging,
    the processing of constructor arguments, and options passed on unchanged to the backend. *)
From Verif Require Import Base.

Inductive exn :=
| NotOpen        (* RuntimeError "Database entry is not open." *)
| AlreadyOpen    (* RuntimeError "This DBEntry is already open" *)
| UriOnly        (* RuntimeError "This DBEntry was opened using an URI" *)
| LazyDestination | UnknownIDS | UnknownVersion | OtherMajor | LazyPut | NotValid | TimeModeInvalid | SliceIndependent
| SameVersions   (* TypeError of dd_version_map_from_factories for equal versions, imas/ids_convert.py:509-524 *)
| BackendErr.

(** Calls of the backend implementation object [i]. *)
Inductive kind := KVersion | KGet | KPut | KAlVersion | KDelete | KList.
Inductive event := EOpen (i : nat) | EClose (i : nat) (ok : bool) | ECall (i : nat) (k : kind).

(** The attributes [_dbe_impl], [uri is not None], [_ids_factory.version]; the log of backend calls, oldest first, and the number of
    implementation objects created so far. *)
Record entry := { impl : option nat; by_uri : bool; ver : str; next : nat; log : list event }.
Definition set_impl (e : entry) (o : option nat) : entry := {| impl := o; by_uri := by_uri e; ver := ver e; next := next e; log := log e |}.
Definition emit (e : entry) (ev : event) : entry :=
  {| impl := impl e; by_uri := by_uri e; ver := ver e; next := next e; log := log e ++ [ev] |}.

Section DBEntry.
(** Versions in [dd_xml_versions()]. *)
Variable known : list str.

(** A new implementation object: [from_uri] / [from_pulse_run] returned normally. *)
Definition fresh (e : entry) : entry :=
  {| impl := Some (next e); by_uri := by_uri e; ver := ver e; next := S (next e); log := log e ++ [EOpen (next e)] |}.

(** [DBEntry.__init__], db_entry.py:167-189.  With an URI the entry is opened at once; when that raises there is no entry. *)
Definition construct (uri : bool) (v : str) (ok : bool) : option entry :=
  let e := {| impl := None; by_uri := uri; ver := v; next := 0; log := [] |} in
  if uri then (if ok then Some (fresh e) else None) else Some e.

(** [_open_pulse], db_entry.py:282-303; called by [open] and [create], db_entry.py:233-280.  [ok]: [from_pulse_run] does not raise. *)
Definition open_pulse (e : entry) (ok : bool) : entry * result exn unit :=
  match impl e with
  | Some _ => (e, Err AlreadyOpen)
  | None => if by_uri e then (e, Err UriOnly) else if ok then (fresh e, Ok tt) else (e, Err BackendErr)
  end.

(** [close], db_entry.py:221-231. *)
Definition close (e : entry) (ok : bool) : entry * result exn unit :=
  match impl e with
  | None => (e, Ok tt)
  | Some i => let e := emit e (EClose i ok) in if ok then (set_impl e None, Ok tt) else (e, Err BackendErr)
  end.

(** [__enter__] and [__exit__], db_entry.py:200-209. *)
Definition enter (e : entry) (ok : bool) : entry * result exn unit :=
  match impl e with None => open_pulse e ok | Some _ => (e, Ok tt) end.
Definition exit_ (e : entry) (ok : bool) : entry * result exn unit := close e ok.

(** Arguments of [_get] that matter here: lazy, version of the destination (None: no destination), whether the IDS name exists,
    autoconvert, ignore_unknown_dd_version. *)
Record get_args := { g_lazy : bool; g_dest : option str; g_exists : bool; g_auto : bool; g_ignore : bool }.
(** Outcome of read_dd_version and of the final [get]. *)
Record get_oracle := { o_version : option str; o_get : bool }.

Definition major (v : str) : str := hd [] (split_on "."%char v).
(** Version of the IDS that is filled, db_entry.py:594-601. *)
Definition target_version (e : entry) (a : get_args) (dd : option str) : str :=
  match g_dest a with
  | Some d => d
  | None => match dd with Some v => if g_auto a then ver e else v | None => ver e end
  end.
(** Checks of the stored version, db_entry.py:568-619: error, or whether a conversion map is used. *)
Definition check_version (e : entry) (a : get_args) (v : str) : result exn (option str) :=
  match v with
  | [] => Ok None
  | _ => if negb (str_eqb v (ver e)) && negb (existsb (str_eqb v) known)
         then (if g_ignore a then Ok None else Err UnknownVersion) else Ok (Some v)
  end.
Definition check_target (e : entry) (a : get_args) (dd : option str) : result exn bool :=
  match dd with
  | None => Ok false
  | Some v => let t := target_version e a dd in
      if str_eqb v t then Ok false
      else if negb (str_eqb (major v) (major t)) then Err OtherMajor
      else if str_eqb v (ver e) then Err SameVersions else Ok true
  end.
(** [_get], db_entry.py:549-629. *)
Definition get (e : entry) (a : get_args) (o : get_oracle) : entry * result exn unit :=
  match impl e with
  | None => (e, Err NotOpen)
  | Some i =>
    if g_lazy a && match g_dest a with Some _ => true | None => false end then (e, Err LazyDestination)
    else if negb (g_exists a) then (e, Err UnknownIDS) else
    let e1 := emit e (ECall i KVersion) in
    match o_version o with
    | None => (e1, Err BackendErr)
    | Some v => match check_version e a v with
                | Err x => (e1, Err x)
                | Ok dd => match check_target e a dd with
                           | Err x => (e1, Err x)
                           | Ok _ => (emit e1 (ECall i KGet), if o_get o then Ok tt else Err BackendErr)
                           end
                end
    end
  end.

(** What [_put] looks at in an IDS: lazy, whether [validate] passes or is switched off, homogeneous_time, constant IDS,
    version_put/data_dictionary (None: the dictionary has no version_put). *)
Record ids := { i_lazy : bool; i_valid : bool; i_mode : Z; i_const : bool; i_put : option str }.
Definition set_mode (x : ids) (m : Z) : ids := {| i_lazy := i_lazy x; i_valid := i_valid x; i_mode := m; i_const := i_const x; i_put := i_put x |}.
Definition set_put (x : ids) (v : str) : ids :=
  {| i_lazy := i_lazy x; i_valid := i_valid x; i_mode := i_mode x; i_const := i_const x; i_put := match i_put x with None => None | _ => Some v end |}.
Definition time_modes : list Z := [0; 1; 2]%Z.
(** [_put], db_entry.py:692-739: the entry and the IDS afterwards.  [homogeneous_time] is compared as a node, so that line 727 sees
    the value assigned at line 726. *)
Definition put (e : entry) (x : ids) (slice : bool) (ok : bool) : entry * ids * result exn unit :=
  match impl e with
  | None => (e, x, Err NotOpen)
  | Some i =>
    if i_lazy x then (e, x, Err LazyPut)
    else if negb (i_valid x) then (e, x, Err NotValid)
    else if negb (existsb (Z.eqb (i_mode x)) time_modes) then (e, x, Err TimeModeInvalid)
    else let x1 := if i_const x && negb (i_mode x =? 2)%Z then set_mode x 2 else x in
    if slice && (i_mode x1 =? 2)%Z then (e, x1, Err SliceIndependent)
    else let e1 := match i_put x1 with Some _ => emit e (ECall i KAlVersion) | None => e end in
    let x2 := set_put x1 (ver e) in
    (emit e1 (ECall i KPut), x2, if ok then Ok tt else Err BackendErr)
  end.

(** [delete_data], db_entry.py:741-751. *)
Definition delete_data (e : entry) (ok : bool) : entry * result exn unit :=
  match impl e with None => (e, Err NotOpen) | Some i => (emit e (ECall i KDelete), if ok then Ok tt else Err BackendErr) end.

(** [list_all_occurrences], db_entry.py:762-802: with a node path one lazy [get] per occurrence. *)
Fixpoint get_all (e : entry) (ex : bool) (os : list get_oracle) : entry * result exn unit :=
  match os with
  | [] => (e, Ok tt)
  | o :: os => match get e {| g_lazy := true; g_dest := None; g_exists := ex; g_auto := true; g_ignore := false |} o with
               | (e, Ok _) => get_all e ex os
               | (e, Err x) => (e, Err x)
               end
  end.
Definition list_all (e : entry) (ok : bool) (path : option (bool * list get_oracle)) : entry * result exn unit :=
  match impl e with
  | None => (e, Err NotOpen)
  | Some i => let e := emit e (ECall i KList) in
              if negb ok then (e, Err BackendErr) else match path with None => (e, Ok tt) | Some (ex, os) => get_all e ex os end
  end.

Inductive op :=
| OOpen (ok : bool) | OClose (ok : bool) | OEnter (ok : bool) | OExit (ok : bool)
| OGet (a : get_args) (o : get_oracle) | OPut (x : ids) (slice ok : bool) | ODelete (ok : bool)
| OList (ok : bool) (path : option (bool * list get_oracle)).
Definition step (e : entry) (o : op) : entry * result exn unit :=
  match o with
  | OOpen ok => open_pulse e ok | OClose ok => close e ok | OEnter ok => enter e ok | OExit ok => exit_ e ok
  | OGet a r => get e a r | OPut x s ok => let '(e, _, r) := put e x s ok in (e, r)
  | ODelete ok => delete_data e ok | OList ok p => list_all e ok p
  end.
Fixpoint run (e : entry) (os : list op) : entry * list (result exn unit) :=
  match os with [] => (e, []) | o :: os => let (e, r) := step e o in let (e, rs) := run e os in (e, r :: rs) end.
End DBEntry.
