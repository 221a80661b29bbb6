(** Model of the netCDF data entry as a store of occurrences: imas/backends/netcdf/db_entry_nc.py:95-185. *)
From Verif Require Import Base IdentModel.

Section NcEntry.
(** Contents of an IDS (what the reader returns for a completely written group). *)
Variable C : Type.

(** [str(occurrence)], and [int(name)] (decimal: surrounding white space, sign, digits with single underscores). *)
Definition show_Z (z : Z) : str := if (z <? 0)%Z then "-"%char :: show_N (Z.abs_N z) else show_N (Z.abs_N z).
Fixpoint int_digits (s : str) : option str :=
  match s with
  | [] => None
  | c :: t => if is_digit c then
                match t with
                | [] => Some [c]
                | u :: t' => if Ascii.eqb u "_"%char then option_map (cons c) (int_digits t') else option_map (cons c) (int_digits t)
                end
              else None
  end.
Definition int_unsigned (s : str) : option Z := option_map (fun d => Z.of_N (dec_value d)) (int_digits s).
Definition py_int (s : str) : option Z :=
  match strip s with
  | c :: t => if Ascii.eqb c "-"%char then option_map Z.opp (int_unsigned t)
              else if Ascii.eqb c "+"%char then int_unsigned t else int_unsigned (c :: t)
  | [] => None
  end.

(** The open file: DD version of the data and, per IDS name, the groups of the occurrences.  [None]: the writer raised an exception
    and the group is incomplete. *)
Record dataset := { ds_version : str; ds_groups : list (str * list (str * option C)) }.

Inductive nc_exn := RuntimeErr | WriterErr | DataEntryExc | InvalidEntry.

Definition name_groups (d : dataset) (name : str) : list (str * option C) :=
  match alookup name (ds_groups d) with Some g => g | None => [] end.

(** [put], db_entry_nc.py:141-165; [writer_ok] tells whether IDS2NC(...).run() succeeds (line 165).  The IDS name contains no "/". *)
Definition put (d : dataset) (name : str) (occ : Z) (version : str) (c : C) (writer_ok : bool) : dataset * result nc_exn unit :=
  if negb (str_eqb (ds_version d) version) then (d, Err RuntimeErr) else
  match alookup (show_Z occ) (name_groups d name) with
  | Some _ => (d, Err RuntimeErr)
  | None =>
    let g := name_groups d name ++ [(show_Z occ, if writer_ok then Some c else None)] in
    ({| ds_version := ds_version d; ds_groups := aset name g (ds_groups d) |}, if writer_ok then Ok tt else Err WriterErr)
  end.

(** [get], db_entry_nc.py:112-118 (lookup of the group only; reading an incomplete group is an error here). *)
Definition get (d : dataset) (name : str) (occ : Z) : result nc_exn C :=
  match alookup (show_Z occ) (name_groups d name) with
  | Some (Some c) => Ok c
  | Some None => Err InvalidEntry
  | None => Err DataEntryExc
  end.

(** [list.sort()] on integers. *)
Fixpoint zinsert (x : Z) (l : list Z) : list Z :=
  match l with [] => [x] | y :: t => if (x <=? y)%Z then x :: l else y :: zinsert x t end.
Fixpoint zsort (l : list Z) : list Z := match l with [] => [] | x :: t => zinsert x (zsort t) end.

Fixpoint filter_map {A B} (f : A -> option B) (l : list A) : list B :=
  match l with [] => [] | a :: t => match f a with Some b => b :: filter_map f t | None => filter_map f t end end.

(** [list_all_occurrences], db_entry_nc.py:173-185. *)
Definition list_all_occurrences (d : dataset) (name : str) : list Z :=
  zsort (filter_map (fun g => py_int (fst g)) (name_groups d name)).

(** Calls on an open data entry. *)
Record call := { p_name : str; p_occ : Z; p_version : str; p_content : C; p_writer_ok : bool }.
Definition do_put (d : dataset) (p : call) : dataset * result nc_exn unit :=
  put d (p_name p) (p_occ p) (p_version p) (p_content p) (p_writer_ok p).
Definition run (d : dataset) (ps : list call) : dataset := fold_left (fun d p => fst (do_put d p)) ps d.

End NcEntry.
Arguments ds_version {C} d. Arguments ds_groups {C} d. Arguments Build_dataset {C}.
