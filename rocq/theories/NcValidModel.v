(** Model of the check of a whole netCDF file: imas/backends/netcdf/nc_validate.py:7-55, with imas/backends/netcdf/db_entry_nc.py:61-81 (opening)
    and 173-185 (list_all_occurrences), and of reading one occurrence of it (db_entry_nc.py:112-122).

    A file is its groups with the groups inside them; the variables of an occurrence are a group of NcFileModel.v.
    Simplified: groups inside the group of an occurrence are left out, as nothing looks at them; the factory of a version is a parameter, and
    the file is read with the version it was written with (NcConvModel.v for others); closing the file is left out; put sets
    ids_properties.version_put.data_dictionary, which is taken to be set in the IDS already. *)
From Verif Require Import Base TreeModel NcMetaModel NcFileModel.
From Verif Require NcEntryModel.

(** one IDS of a data dictionary *)
Record definition := { d_meta : meta; d_attrs : path -> nattr; d_units : path -> str }.
(** [ig_own]: the group itself has variables or dimensions *)
Record ids_group := { ig_own : bool; ig_occ : list (str * group) }.
Record ncfile := { nf_own : bool; nf_version : option str; nf_groups : list (str * ids_group) }.

Inductive vexn :=
| VInvalid          (* InvalidNetCDFEntry *)
| VVersion          (* an exception of IDSFactory(version) *)
| VMissing          (* the exception of netCDF4 (or DataEntryException, db_entry_nc.py:116-122) for an absent group *)
| VMeta (e : nexn)  (* an exception of NCMetadata *)
| VOther (e : fexn).  (* any other exception while reading or checking the variables *)

Definition ends_with (suffix s : str) : bool := str_eqb (skipn (length s - length suffix) s) suffix.
Fixpoint each {E A} (f : A -> result E unit) (l : list A) : result E unit :=
  match l with [] => Ok tt | x :: t => do _ <- f x; each f t end.

Section File.
Variable factory : str -> option (list (str * definition)).   (* IDSFactory(version): the IDSs of a version *)
Variable fuel : nat.                                          (* the recursion limit of Python *)
Variable disabled : bool.                                     (* IMAS_DISABLE_NC_VALIDATE is set, nc2ids.py:176-182 *)

Definition is_nil {A} (l : list A) : bool := match l with [] => true | _ => false end.
(** db_entry_nc.py:61-81 with mode "r" *)
Definition open_file (f : ncfile) : result vexn (list (str * definition)) :=
  if negb (nf_own f) && is_nil (nf_groups f) then Err VInvalid
  else match nf_version f with
       | None => Err VInvalid
       | Some v => match factory v with Some d => Ok d | None => Err VVersion end
       end.
(** db_entry_nc.py:173-185 *)
Definition groups_of (f : ncfile) (name : str) : list (str * group) := match alookup name (nf_groups f) with Some g => ig_occ g | None => [] end.
Definition occurrences (f : ncfile) (name : str) : list Z := NcEntryModel.zsort (NcEntryModel.filter_map (fun g => NcEntryModel.py_int (fst g)) (groups_of f name)).

(** NC2IDS(group, ids, ids.metadata, None) and validate_variables *)
Definition check_variables (d : definition) (g : group) : result vexn unit :=
  match nc_metadata (d_attrs d) fuel (d_meta d) with
  | Err e => Err (VMeta e)
  | Ok r => match (do h <- read_homogeneous (d_meta d) r (d_units d) g;
                   if disabled then Ok tt else validate_variables (d_meta d) r (d_units d) g h) with
            | Ok _ => Ok tt
            | Err FInvalid => Err VInvalid
            | Err e => Err (VOther e)
            end
  end.
(** nc_validate.py:26-44 *)
Definition check_group (defs : list (str * definition)) (x : str * ids_group) : result vexn unit :=
  if ig_own (snd x) then Err VInvalid
  else if negb (existsb (str_eqb (fst x)) (akeys defs)) then Err VInvalid
  else each (fun o => match NcEntryModel.py_int (fst o) with Some _ => Ok tt | None => Err VInvalid end) (ig_occ (snd x)).
(** nc_validate.py:46-55 *)
Definition check_occurrence (f : ncfile) (d : str * definition) (z : Z) : result vexn unit :=
  match alookup (NcEntryModel.show_Z z) (groups_of f (fst d)) with
  | None => Err VMissing
  | Some g => check_variables (snd d) g
  end.
(** nc_validate.py:7-55 *)
Definition validate_file (fname : str) (f : ncfile) : result vexn unit :=
  if negb (ends_with (strs ".nc") fname) then Err VInvalid else
  do defs <- open_file f;
  if nf_own f then Err VInvalid else
  do _ <- each (check_group defs) (nf_groups f);
  each (fun d => each (check_occurrence f d) (occurrences f (fst d))) defs.

(** db_entry_nc.py:112-122: reading an occurrence *)
Definition read_group (d : definition) (g : group) : result vexn node :=
  match nc_metadata (d_attrs d) fuel (d_meta d) with
  | Err e => Err (VMeta e)
  | Ok r => match (do h <- read_homogeneous (d_meta d) r (d_units d) g;
                   do _ <- (if disabled then Ok tt else validate_variables (d_meta d) r (d_units d) g h);
                   do fs <- read_vars (d_meta d) r g h (sorted_vars g) [];
                   Ok (NStruct fs)) with
            | Ok n => Ok n
            | Err FInvalid => Err VInvalid
            | Err e => Err (VOther e)
            end
  end.
Definition read_occurrence (f : ncfile) (name : str) (z : Z) : result vexn node :=
  do defs <- open_file f;
  match alookup name defs with
  | None => Err VMissing
  | Some d => match alookup (NcEntryModel.show_Z z) (groups_of f name) with None => Err VMissing | Some g => read_group d g end
  end.

(** ** Writing: db_entry_nc.py:142-165, into a file that is open.  None: an exception; then the file is not as it was. *)
Definition put_occurrence (defs : list (str * definition)) (f : ncfile) (name : str) (z : Z) (n : node) : option ncfile :=
  match alookup name defs with
  | None => None
  | Some d =>
    match nc_metadata (d_attrs d) fuel (d_meta d) with
    | Err _ => None
    | Ok r =>
      match alookup (NcEntryModel.show_Z z) (groups_of f name), put (d_meta d) r (d_units d) n with
      | None, Ok g => Some {| nf_own := nf_own f; nf_version := nf_version f;
                              nf_groups := aset name {| ig_own := match alookup name (nf_groups f) with Some x => ig_own x | None => false end;
                                                        ig_occ := groups_of f name ++ [(NcEntryModel.show_Z z, g)] |} (nf_groups f) |}
      | _, _ => None
      end
    end
  end.
Fixpoint put_all (defs : list (str * definition)) (f : ncfile) (l : list (str * Z * node)) : option ncfile :=
  match l with
  | [] => Some f
  | (name, z, n) :: t => match put_occurrence defs f name z n with Some f' => put_all defs f' t | None => None end
  end.
(** a new file, db_entry_nc.py:80-81 *)
Definition new_file (version : str) : ncfile := {| nf_own := false; nf_version := Some version; nf_groups := [] |}.
End File.
