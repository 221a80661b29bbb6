(** Model of the conversion of an IDS as a whole: imas/ids_convert.py:127-148 (DDVersionMap), 330-336 (when the rules for DD 3 to 4 apply),
    396-405 (when the map of DD 3.41.0 is used) and 527-629 (convert_ids).

    The steps are those of VmapModel.v (the map), ConvModel.v (_copy_structure), PulseModel.v (pulse_schedule), EqModel.v (the callback of
    equilibrium) and ProvModel.v (the provenance entry).  The target is the state.
    A version is a rank (the order of imas/dd_zip.py parse_dd_version), its major and minor number and its text.
    Simplified: finding the dictionary of the target (IDSFactory(version, xml_path), 577) is not part of it: the dictionary is given;
    log messages are left out. *)
From Verif Require Import Base PathModel TreeModel PrimModel ConvModel.
From Verif Require VmapModel PulseModel EqModel ProvModel ValModel.
Import VmapModel(handler(..), nmap).

Record ids_def := { i_fields : VmapModel.fields; i_meta : meta }.
Record dictionary := { d_rank : Z; d_major : Z; d_minor : Z; d_text : str; d_xml_major : option Z; d_ids : list (str * ids_def) }.

(** NotImplementedError, RuntimeError, ValueError, an exception while the map is built, an exception of the conversion *)
Inductive end_exn := EndLazy | EndNoIds | EndNoDefinition | EndMap (e : VmapModel.vm_exn) | EndConv (e : cexn).

Section Convert.
Variable order : list str -> list str.                          (* order of the elements of a set *)
Variable flips : str -> list str.                               (* _3to4_sign_flip_paths, by IDS name *)
Variable dd341 : dictionary.                                    (* imas.IDSFactory("3.41.0") *)
Variables (rank340 rank341 : Z).                                (* Version("3.40.0"), Version("3.41.0") *)
Variable library_version : str.                                 (* imas.__version__ *)
Variable str_of : pyval -> str.
Variable parse_float : str -> option flt.
Variable parse_cpx : str -> option (flt * flt).
Variable flt_of_int : Z -> option flt.
Variable np_cast : dtype -> pyval -> result pexn value.
Variable array_items : value -> list pyval.
Variable close : pyval -> pyval -> bool.
Variable np_int32 : flt -> result pexn Z.
Variable enum_of : list str -> option (Z -> option (str * str)).
Variable at_ : list str -> ValModel.attrs.                      (* coordinates of the source, by path *)
Variable lin : flt -> flt -> flt -> flt -> flt -> flt.          (* linear interpolation *)

(** 335 *)
Definition is_3to4 (old_major : Z) (new : dictionary) : bool :=
  (old_major =? 3)%Z && match d_xml_major new with Some m => (m =? 4)%Z | None => false end.
(** The map from DD 3.41.0 (400-407); its own old version is not later than 3.41, so that it does not need another one. *)
Definition map341 (name : str) (new : dictionary) (new_fields : VmapModel.fields) : result VmapModel.vm_exn (option (list (str * option str))) :=
  match alookup name (d_ids dd341) with
  | None => Ok None
  | Some d => do s <- VmapModel.version_map order name (i_fields d) new_fields rank341 (is_3to4 3 new) (flips name) None;
              Ok (Some (VmapModel.m_path (VmapModel.o2n s)))
  end.
(** DDVersionMap(ids_name, old, new, version_old), 127-148 *)
Definition dd_version_map (name : str) (old new : dictionary) : result end_exn VmapModel.maps :=
  match alookup name (d_ids old), alookup name (d_ids new) with
  | Some o, Some n =>
    let r := do m <- (if is_3to4 (d_major old) new && (42 <=? d_minor old)%Z then map341 name new (i_fields n) else Ok None);
             VmapModel.version_map order name (i_fields o) (i_fields n) (d_rank old) (is_3to4 (d_major old) new) (flips name) m in
    match r with Ok s => Ok s | Err e => Err (EndMap e) end
  | _, _ => Err EndNoDefinition
  end.
(** 598-606: the map to use *)
Definition rename_map (name : str) (source target : dictionary) : result end_exn nmap :=
  if (d_rank source >? d_rank target)%Z then do s <- dd_version_map name target source; Ok (VmapModel.n2o s)
  else do s <- dd_version_map name source target; Ok (VmapModel.o2n s).

(** [toplevel.ids_properties.homogeneous_time == IDS_TIME_MODE_HETEROGENEOUS], 610 *)
Definition heterogeneous (sm : meta) (src : node) : CM bool :=
  match source_at sm src [Child (strs "ids_properties"); Child (strs "homogeneous_time")] with
  | Some (m, NLeaf o) => cret (match leaf_value m (NLeaf o) with VInt z => (z =? 0)%Z | _ => false end)
  | _ => cfail CAttribute
  end.
(** 609-620 *)
Definition copy_all (name : str) (source target : dictionary) (sm tm : meta) (src : node) (deepcopy : bool) (rm : nmap) : CM unit :=
  doc special <- (if str_eqb name (strs "pulse_schedule") then
                    doc h <- heterogeneous sm src; cret (h && (d_rank source <? rank340)%Z && (rank340 <=? d_rank target)%Z)
                  else cret false);
  if special : bool
  then PulseModel.pulse_3to4 sm tm src rm deepcopy str_of parse_float parse_cpx flt_of_int np_cast array_items close np_int32 enum_of at_ lin
  else copy_toplevel sm tm src rm deepcopy str_of parse_float parse_cpx flt_of_int np_cast array_items close np_int32 enum_of.
(** 623-624; only one such callback exists *)
Definition callback (sm tm : meta) (src : node) (deepcopy : bool) (h : handler) : CM unit :=
  match h with
  | H_equilibrium_boundary => EqModel.boundary_3to4 sm tm src deepcopy str_of parse_float parse_cpx flt_of_int np_cast array_items
  | _ => cfail CType
  end.
(** 609-628 *)
Definition convert_data (name : str) (source target : dictionary) (sm tm : meta) (src : node) (deepcopy : bool) (rm : nmap) (uri stamp : str) : CM unit :=
  doc _ <- copy_all name source target sm tm src deepcopy rm;
  doc _ <- citer (callback sm tm src deepcopy) (VmapModel.m_post_ids rm);
  match uri with
  | [] => cret tt
  | _ => ProvModel.add_provenance tm str_of parse_float parse_cpx flt_of_int np_cast array_items
           (ProvModel.source_text uri (d_text source) (d_text target) library_version) stamp
  end.

(** convert_ids, 527-629.  [given]: the argument [target], which may hold data already; without it a new one is made (574-583). *)
Definition convert_ids (lazy : bool) (name : str) (source target : dictionary) (sm : meta) (src : node) (given : option (meta * cst))
    (deepcopy : bool) (uri stamp : str) : result end_exn cst :=
  if lazy then Err EndLazy else
  do t <- match given with
          | Some t => Ok t
          | None => match alookup name (d_ids target) with
                    | Some d => Ok (i_meta d, {| c_tree := NStruct []; c_shared := [] |})
                    | None => Err EndNoIds
                    end
          end;
  do rm <- rename_map name source target;
  match convert_data name source target sm (fst t) src deepcopy rm uri stamp (snd t) with
  | (st, Ok _) => Ok st
  | (_, Err e) => Err (EndConv e)
  end.
End Convert.
