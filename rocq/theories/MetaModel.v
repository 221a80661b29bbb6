(** Model of imas/ids_metadata.py: the metadata of an IDS, built from its XML definition, and of what ids_convert.py reads from the same
    definition (207-260, 364).

    Simplified: the mapping and the attributes of an XML element are association lists (first entry counts), dictionaries keep the place of
    their first insertion; the classes of the nodes are names; objects (IDSPath, IDSCoordinate) are their contents (the caches are the
    subject of C04); the parent reference is the metadata of the parent without its children. *)
From Verif Require Import Base DataTypeModel PathModel TreeModel ValModel.
From Verif Require NcEntryModel VmapModel.

(** ** XML elements: tag, attributes, child elements *)
Inductive xml := Xml (tag : str) (attrib : list (str * str)) (children : list xml).
Definition xtag (x : xml) : str := match x with Xml t _ _ => t end.
Definition xattrib (x : xml) : list (str * str) := match x with Xml _ a _ => a end.
Definition xchildren (x : xml) : list xml := match x with Xml _ _ c => c end.
Definition att (k : string) (a : list (str * str)) : option str := alookup (strs k) a.
Definition att_or (k : string) (d : str) (a : list (str * str)) : str := match att k a with Some s => s | None => d end.

(** ids_metadata.py:20-50 [IDSType] *)
Inductive ids_type := TNone | TDynamic | TConstant | TStatic.
Definition is_dynamic (t : ids_type) : bool := match t with TDynamic => true | _ => false end.
Definition type_of_value (s : option str) : option ids_type :=
  match s with
  | None => Some TNone
  | Some s => if str_eqb s (strs "dynamic") then Some TDynamic
              else if str_eqb s (strs "constant") then Some TConstant
              else if str_eqb s (strs "static") then Some TStatic else None
  end.

(** 84-113 [_type_map] *)
Inductive cls := IDSToplevel | IDSStructure | IDSStructArray | IDSString0D | IDSString1D | IDSInt0D | IDSFloat0D | IDSComplex0D | IDSNumericArray.
Definition type_map (t : option ids_dtype) (ndim : N) : option cls :=
  match t, ndim with
  | None, 0%N => Some IDSToplevel
  | Some T_STRUCTURE, 0%N => Some IDSStructure
  | Some T_STRUCT_ARRAY, 1%N => Some IDSStructArray
  | Some T_STR, 0%N => Some IDSString0D
  | Some T_STR, 1%N => Some IDSString1D
  | Some T_INT, 0%N => Some IDSInt0D
  | Some T_FLT, 0%N => Some IDSFloat0D
  | Some T_CPX, 0%N => Some IDSComplex0D
  | Some T_INT, n | Some T_FLT, n | Some T_CPX, n => if (n <=? 6)%N then Some IDSNumericArray else None
  | _, _ => None
  end.

(** The attributes of an IDSMetadata object, without its children (142-257) *)
Record minfo := { x_name : str; x_ctx : str; x_maxoccur : option Z; x_dtype : option ids_dtype; x_ndim : N; x_path_string : str; x_path : path;
  x_path_doc : str; x_type : ids_type; x_tbp : str; x_units : str; x_doc : option str; x_is_dynamic : bool; x_coords : list coord; x_same : list coord;
  x_alts : list path; x_rest : list (str * str); x_class : cls; x_al_ndim : N }.
Inductive mtree := MTree (i : minfo) (children : list (str * mtree)).
Definition tinfo (t : mtree) : minfo := match t with MTree i _ => i end.
Definition tchildren (t : mtree) : list (str * mtree) := match t with MTree _ c => c end.

(** KeyError (no name; no class for the type), ValueError (maxoccur, type), AttributeError (no parent), errors of the data type and of a path *)
Inductive me_exn := MeKey | MeValue | MeAttribute | MeDataType (e : dt_exn) | MePath (e : path_exn).

Definition rpath (s : str) : result me_exn path := match parse s with Ok p => Ok p | Err e => Err (MePath e) end.
Definition dim_name (i : nat) : str := strs "coordinate" ++ show_N (N.of_nat (S i)).
(** 218-231: the coordinate of each dimension *)
Definition coords_of (suffix : str) (a : list (str * str)) (ndim : N) : list coord :=
  map (fun i => match alookup (dim_name i ++ suffix) a with Some s => coord_of_spec s | None => no_coord end) (seq 0 (N.to_nat ndim)).
(** 241-244: the attributes that are not in [self.__dict__] yet *)
Definition own_names (ndim : N) : list str :=
  map strs ["_structure_xml"; "_parent"; "name"; "_ctx_path"; "maxoccur"; "data_type"; "ndim"; "path_string"; "path"; "path_doc"; "type"; "timebasepath";
    "units"; "documentation"; "_is_dynamic"; "coordinates"; "coordinates_same_as"; "alternative_coordinates"]%string
  ++ flat_map (fun i => [dim_name i; dim_name i ++ strs "_same_as"]) (seq 0 (N.to_nat ndim)).
Definition rest_of (a : list (str * str)) (ndim : N) : list (str * str) :=
  filter (fun kv => negb (existsb (str_eqb (fst kv)) (own_names ndim)) && negb (starts_with (strs "_") (fst kv))) a.

Definition is_array (t : option ids_dtype) : bool := match t with Some T_STRUCT_ARRAY => true | _ => false end.

(** 136-257 [IDSMetadata.__init__] up to the children; the class (256) is looked up after them *)
Definition init (a : list (str * str)) (context_path : str) (parent : option minfo) : result me_exn (minfo * option cls) :=
  do name <- match att "name" a with Some s => Ok s | None => Err MeKey end;
  let ctx := match parent with
             | None => []
             | Some _ => match context_path with [] => name | c => c ++ "/"%char :: name end
             end in
  let occ := att_or "maxoccur" (strs "unbounded") a in
  do maxoccur <- (if str_eqb occ (strs "unbounded") then Ok None
                  else match NcEntryModel.py_int occ with Some z => Ok (Some z) | None => Err MeValue end);
  do tn <- match dt_parse (att "data_type" a) with Ok r => Ok r | Err e => Err (MeDataType e) end;
  let path_string := att_or "path" [] a in
  do p <- rpath path_string;
  do ty <- match type_of_value (att "type" a) with Some t => Ok t | None => Err MeValue end;
  let units0 := att_or "units" [] a in
  let units := match parent with
               | Some pm => if str_eqb units0 (strs "as_parent") then x_units pm else units0
               | None => units0
               end in
  do tbp <- (if is_array (fst tn) then Ok (if is_dynamic ty then ctx ++ strs "/time" else [])
             else match att_or "timebasepath" [] a with
                  | [] => Ok []
                  | t => if negb (is_dynamic ty) then Ok []
                         else match parent with
                              | None => Err MeAttribute
                              | Some pm => Ok (if x_is_dynamic pm then [] else t)
                              end
                  end);
  do alts <- match att "alternative_coordinate1" a with
             | None => Ok []
             | Some s => rmap rpath (split_on ";"%char s)
             end;
  Ok ({| x_name := name; x_ctx := ctx; x_maxoccur := maxoccur; x_dtype := fst tn; x_ndim := snd tn; x_path_string := path_string; x_path := p;
         x_path_doc := att_or "path_doc" [] a; x_type := ty; x_tbp := tbp; x_units := units; x_doc := att "documentation" a;
         x_is_dynamic := match parent with None => false | Some pm => is_dynamic ty || x_is_dynamic pm end;
         x_coords := coords_of [] a (snd tn); x_same := coords_of (strs "_same_as") a (snd tn); x_alts := alts;
         x_rest := rest_of a (snd tn);
         x_class := match type_map (fst tn) (snd tn) with Some c => c | None => IDSToplevel end;
         x_al_ndim := (snd tn + match fst tn with Some T_STR => 1 | _ => 0 end)%N |}, type_map (fst tn) (snd tn)).

(** [IDSMetadata(structure_xml, context_path, parent_meta)] *)
Fixpoint build (x : xml) (context_path : str) (parent : option minfo) : result me_exn mtree :=
  match x with
  | Xml _ a cs =>
    do ic <- init a context_path parent;
    let '(i, c) := ic in
    let ctx := if is_array (x_dtype i) then [] else x_ctx i in
    do d <- (fix kids (l : list xml) (d : list (str * mtree)) : result me_exn (list (str * mtree)) :=
               match l with
               | [] => Ok d
               | y :: r => do t <- build y ctx (Some i); kids r (aset (x_name (tinfo t)) t d)
               end) cs [];
    match c with Some _ => Ok (MTree i d) | None => Err MeKey end
  end.
(** 60-77 [get_toplevel_metadata], without the cache and the attribute guard (MetaThreads.v) *)
Definition toplevel_metadata (x : xml) : result me_exn mtree := build x [] None.

(** 279-289 [__getitem__]; [None]: KeyError.  [re.split("[./]", path)] *)
Definition is_sep (c : ascii) : bool := Ascii.eqb c "."%char || Ascii.eqb c "/"%char.
Fixpoint split_seps (s : str) : list str :=
  match s with
  | [] => [[]]
  | c :: t => if is_sep c then [] :: split_seps t
              else match split_seps t with [] => [[c]] | h :: r => (c :: h) :: r end
  end.
Fixpoint descend (t : mtree) (p : list str) : option mtree :=
  match p with
  | [] => Some t
  | n :: r => match alookup n (tchildren t) with Some c => descend c r | None => None end
  end.
Definition getitem (t : mtree) (s : str) : option mtree := descend t (split_seps s).

(** ** The other models' view of the metadata *)
Definition kind_of (t : option ids_dtype) (ndim : N) : kind :=
  match t with
  | None | Some T_STRUCTURE => KStruct
  | Some T_STRUCT_ARRAY => KAoS
  | Some T_STR => KLeaf STR (N.to_nat ndim)
  | Some T_INT => KLeaf INT (N.to_nat ndim)
  | Some T_FLT => KLeaf FLT (N.to_nat ndim)
  | Some T_CPX => KLeaf CPX (N.to_nat ndim)
  end.
(** the tree of TreeModel.v *)
Fixpoint erase (t : mtree) : meta :=
  match t with MTree i cs => Meta (x_name i) (kind_of (x_dtype i) (x_ndim i)) ((fix go l := match l with [] => [] | (_, c) :: r => erase c :: go r end) cs) end.
(** the attributes of ValModel.v *)
Definition val_attrs (i : minfo) : attrs := {| a_dynamic := is_dynamic (x_type i); a_coords := x_coords i; a_same := x_same i; a_alts := x_alts i |}.

(** ** What ids_convert.py reads *)
Section Convert.
Variable version : str -> option Z.        (* packaging.version.Version: the rank of a valid version *)

Fixpoint all_versions (l : list str) : option (list Z) :=
  match l with
  | [] => Some []
  | s :: r => match version s, all_versions r with Some z, Some t => Some (z :: t) | _, _ => None end
  end.
(** 239-260, 364 *)
Definition elem_of (a : list (str * str)) : VmapModel.elem :=
  {| VmapModel.e_path := att_or "path" [] a;
     VmapModel.e_type := att "data_type" a;
     VmapModel.e_ident := match att "doc_identifier" a with Some (_ :: _) => true | _ => false end;
     VmapModel.e_dynamic := match att "type" a with Some s => str_eqb s (strs "dynamic") | None => false end;
     VmapModel.e_tbp := att_or "timebasepath" [] a;
     VmapModel.e_psi := match att "cocos_label_transformation" a with Some s => str_eqb s (strs "psi_like") || str_eqb s (strs "dodpsi_like") | None => false end;
     VmapModel.e_nbc := match att "change_nbc_description" a with
                        | None => None
                        | Some d => Some {| VmapModel.n_desc := d;
                                            VmapModel.n_versions := match att "change_nbc_version" a with
                                                                    | None => VmapModel.NoVersion
                                                                    | Some s => match all_versions (split_on ","%char s) with
                                                                                | Some l => VmapModel.Versions l
                                                                                | None => VmapModel.BadVersion
                                                                                end
                                                                    end;
                                            VmapModel.n_prev := option_map (split_on ","%char) (att "change_nbc_previous_name" a) |}
                        end |}.
(** [iterfind(".//field")]: the descendants with this tag, in document order *)
Fixpoint descendants (x : xml) : list xml :=
  match x with Xml _ _ cs => (fix go l := match l with [] => [] | y :: r => y :: descendants y ++ go r end) cs end.
Definition fields_of (x : xml) : VmapModel.fields :=
  map (fun y => elem_of (xattrib y)) (filter (fun y => str_eqb (xtag y) (strs "field")) (descendants x)).
End Convert.
