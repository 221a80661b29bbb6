(** The interface to the Access Layer and what depends on which version of it there is: imas/backends/imas_core/imas_interface.py:67-180,
    imas/ids_defs.py:161-171, imas/command/helpers.py:32-45, imas/backends/imas_core/db_entry_al.py:336-347 and 360-383,
    imas/ids_toplevel.py:292-361. *)
From Verif Require Import Base NcEntryModel.

(** ** Versions
    [packaging.version.Version] of final releases (no epoch, no pre-, post- or development release): the numbers; they are compared
    without the zeros at the end, as tuples. *)
Definition version := list nat.
Fixpoint strip (v : version) : version :=
  match v with [] => [] | a :: v => match strip v with [] => if a =? 0 then [] else [a] | w => a :: w end end.
Fixpoint tuple_le (v w : list nat) : bool :=
  match v, w with
  | [], _ => true
  | _ :: _, [] => false
  | a :: v, b :: w => if a =? b then tuple_le v w else a <? b
  end.
Definition at_least (v w : version) : bool := tuple_le (strip w) (strip v).      (* v >= w *)

(** ** LowlevelInterface *)
Section Interface.
Variable F : Type.                       (* functions of the module _al_lowlevel *)
Variable parse : str -> option version.  (* Version(s); None: InvalidVersion *)
(** What our own methods do (106-180): an exception that says that they are not implemented, one that names the version that is needed, or
    give the version *)
Inductive behaviour := NotImplemented | Needs (v : str) | GiveVersion.
(** The public methods, 106-180 *)
Definition own : list (str * behaviour) :=
  map (fun p => (strs (fst p), snd p))
  [("close_pulse", NotImplemented); ("begin_global_action", NotImplemented); ("begin_slice_action", NotImplemented);
   ("end_action", NotImplemented); ("write_data", NotImplemented); ("read_data", NotImplemented); ("delete_data", NotImplemented);
   ("begin_arraystruct_action", NotImplemented); ("iterate_over_arraystruct", NotImplemented);
   ("build_uri_from_legacy_parameters", Needs "5.0"); ("begin_dataentry_action", Needs "5.0"); ("register_plugin", Needs "5.0");
   ("unregister_plugin", Needs "5.0"); ("bind_plugin", Needs "5.0"); ("unbind_plugin", Needs "5.0");
   ("bind_readback_plugins", Needs "5.0"); ("unbind_readback_plugins", Needs "5.0"); ("write_plugins_metadata", Needs "5.0");
   ("setvalue_parameter_plugin", Needs "5.0"); ("get_occurrences", Needs "5.1"); ("get_al_version", GiveVersion);
   ("begin_timerange_action", Needs "5.4")]%string.
(** The module: what get_al_version gives, when it has it, and its other attributes; an attribute may be None *)
Record module := { al_version : option str; attrs : list (str * option F) }.
Inductive binding := NotAvailable | Native (f : F) | Ours (b : behaviour).
(** The object after __init__ *)
Record interface := { version_str : str; al : option version; methods : list (str * binding) }.
(** 67-93; [None]: InvalidVersion leaves __init__ *)
Definition init (low : option module) : option interface :=
  match low with
  | None => Some {| version_str := []; al := None; methods := map (fun p => (fst p, NotAvailable)) own |}
  | Some l =>
    let vs := match al_version l with Some s => s | None => strs "5.0.0" end in
    match parse vs with
    | None => None
    | Some v =>
      Some {| version_str := vs; al := Some v;
              methods := map (fun p => (fst p, match alookup (strs "al_" ++ fst p) (attrs l) with
                                               | Some (Some f) => Native f
                                               | _ => Ours (snd p)
                                               end)) own |}
    end
  end.
Inductive outcome :=
| Calls (f : F)              (* the function of the module is called *)
| RuntimeErr                 (* _imas_not_available, 95-98 *)
| LLErr (message : str)      (* LLInterfaceError *)
| Gives (s : str)
| AttributeErr.
(** the error of 100-104 and that of 106-131, whose text has the name of the Python module *)
Definition minimal_version (i : interface) (v : str) : str :=
  (strs "This function requires at least Access Layer version " ++ v ++ strs ", but the current version is " ++ version_str i)%list.
Definition not_implemented : str := strs "imas.backends.imas_core.imas_interface is not implemented".
(** [ll_interface.m(...)] *)
Definition call (i : interface) (m : str) : outcome :=
  match alookup m (methods i) with
  | None => AttributeErr
  | Some NotAvailable => RuntimeErr
  | Some (Native f) => Calls f
  | Some (Ours NotImplemented) => LLErr not_implemented
  | Some (Ours (Needs v)) => LLErr (minimal_version i v)
  | Some (Ours GiveVersion) => Gives (version_str i)
  end.

(** [min_version_guard], helpers.py:32-45: true when it returns, false when it ends the program.  [not used_version] never holds of a
    Version object, which has neither __bool__ nor __len__. *)
Definition guard (i : interface) (needed : version) : bool :=
  match al i with Some used => at_least used needed | None => false end.

(** [_check_uda_warnings], db_entry_al.py:360-383; [None]: TypeError, None is compared with a version *)
Inductive warning := SlowLazy (hint : bool) | OldCore (used : version).
Definition uda_warnings (i : interface) (cache_mode : option str) (lazy : bool) : option (list warning) :=
  let none := match cache_mode with Some c => str_eqb c (strs "none") | None => false end in
  let first := if lazy && negb none
               then match al i with Some v => Some [SlowLazy (at_least v [5; 5; 1])] | None => None end
               else Some [] in
  match first with
  | None => None
  | Some w => if none
              then match al i with Some v => Some (w ++ if negb (at_least v [5; 5; 1]) then [OldCore v] else []) | None => None end
              else Some w
  end.
End Interface.
Arguments call {F}. Arguments init {F}. Arguments guard {F}. Arguments uda_warnings {F}.
Arguments version_str {F}. Arguments al {F}. Arguments methods {F}. Arguments al_version {F}. Arguments attrs {F}.
Arguments Calls {F}. Arguments RuntimeErr {F}. Arguments LLErr {F}. Arguments Gives {F}. Arguments AttributeErr {F}.

(** ** Methods of IDSs for compatibility, ids_toplevel.py:292-361 *)
Section Compat.
Variables (I T : Type).                  (* IDSs; times *)
Variable name_of : I -> str.             (* metadata.name *)
(** a parameter ids_name: a string, or (in deleteData) an IDS *)
Inductive name := NStr (s : str) | NIds (i : I).
(** the calls of methods of DBEntry: db_entry.py:305, 366, 631, 653, 741; options that are not given have their defaults *)
Inductive ecall :=
| EGet (ids_name : name) (occurrence : Z) (destination : option I)
| EGetSlice (ids_name : name) (time : T) (interp : Z) (occurrence : Z) (destination : option I)
| EPut (ids : I) (occurrence : Z)
| EPutSlice (ids : I) (occurrence : Z)
| EDelete (ids_name : name) (occurrence : Z).
Inductive method := MGet (occ : Z) | MGetSlice (t : T) (interp occ : Z) | MPutSlice (occ : Z) | MDeleteData (occ : Z) | MPut (occ : Z).
Inductive cexn := CRuntime (* not available *) | CNotImplemented.
(** [needs_imas], ids_defs.py:161-171, around the methods; [entry]: whether db_entry is given *)
Definition compat (has_imas entry : bool) (self : I) (m : method) : result cexn ecall :=
  if negb has_imas then Err CRuntime
  else if negb entry then Err CNotImplemented
  else Ok match m with
          | MGet occ => EGet (NStr (name_of self)) occ (Some self)
          | MGetSlice t interp occ => EGetSlice (NStr (name_of self)) t interp occ (Some self)
          | MPutSlice occ => EPutSlice self occ
          | MDeleteData occ => EDelete (NIds self) occ
          | MPut occ => EPut self occ
          end.

(** [delete_data], db_entry.py:748-750 and db_entry_al.py:336-347, up to the begin of the action.  An IDS has no [__add__], and no hash because
    IDSStructure defines [__eq__] only (ids_structure.py:161): [ll_path += ...] and [ids_name not in self._ids_elements] raise TypeError. *)
Inductive dexn := DNotOpen | DType | DName.
Inductive dres := DBegin (path : str) | DErr (e : dexn).
Record dstate := { is_open : bool; lazy_ctxs : nat }.
Definition delete_data (known : list str) (s : dstate) (n : name) (occ : Z) : dstate * dres :=
  if negb (is_open s) then (s, DErr DNotOpen)
  else let s := {| is_open := true; lazy_ctxs := 0 |} in
    match (if (occ =? 0)%Z then Ok n
           else match n with NStr p => Ok (NStr (p ++ "/"%char :: show_Z occ)%list) | NIds _ => Err DType end) with
    | Err e => (s, DErr e)
    | Ok p =>
      match n with
      | NIds _ => (s, DErr DType)
      | NStr t => if existsb (str_eqb t) known then (s, match p with NStr q => DBegin q | NIds _ => DErr DType end) else (s, DErr DName)
      end
    end.
(** deleteData on an Access Layer entry: what the call of [compat] then does *)
Definition run_delete (known : list str) (s : dstate) (r : result cexn ecall) : option (dstate * dres) :=
  match r with Ok (EDelete n occ) => Some (delete_data known s n occ) | _ => None end.
End Compat.
Arguments compat {I T}. Arguments delete_data {I}. Arguments run_delete {I T}. Arguments NStr {I}. Arguments NIds {I}.
