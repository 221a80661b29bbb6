(** Model of reading a netCDF file that was written with another version of the data dictionary: imas/backends/netcdf/nc2ids.py:31-172 with
    nbc_map, imas/backends/netcdf/iterators.py:12-88 and imas/backends/netcdf/db_entry_nc.py:120-135.

    The file is validated with the metadata of the version it was written with; then the value of each variable is stored at the path
    that the map between the versions gives for it.
    Simplifications, next to those of NcFileModel.v:
    - The setter of data nodes (ids_primitive.py:171-194) is a parameter.  As in NcFileModel.v, that it makes 0D values equal to the
      default unset is left out.
    - Iterating over the children of a structure as if it were an array of structures, resizing data nodes, and assigning the
      attribute value of structures and arrays of structures are errors.
    - For variables with the attribute "sparse", an index with another number of elements than the file has is an error. *)
From Verif Require Import Base TreeModel NcMetaModel NcFileModel.
From Verif Require VmapModel.
Import VmapModel(nmap, m_path, m_type).

Definition slash_path (p : path) : str := join_with "/"%char p.

(** iterators.py:12-28 [_split_on_aos]: which of the nodes on the way to path p are arrays of structures *)
Fixpoint aos_flags (m : meta) (p : path) : list bool :=
  match p with
  | [] => []
  | nm :: t => match List.find (fun d => str_eqb (mname d) nm) (mchildren m) with
               | Some d => (match mkind d with KAoS => true | _ => false end) :: aos_flags d t
               | None => map (fun _ => false) p
               end
  end.
(** iterators.py:64-88: every node with the path, together with its index, is replaced by f; [true]: the node is an array of structures
    according to the metadata that the path is taken from *)
Fixpoint update_split (cs : list meta) (fs : fields) (p : list (str * bool)) (idx : list nat)
                      (f : list nat -> meta -> node -> result fexn node) {struct p} : result fexn fields :=
  match p with
  | [] => Ok fs
  | (nm, b) :: r =>
    match List.find (fun d => str_eqb (mname d) nm) cs with
    | None => Err FAttr
    | Some c =>
      let ch := match alookup nm fs with Some ch => ch | None => new_node c end in
      do ch' <- match r with
                | [] => f idx c ch
                | _ :: _ =>
                  match b, ch with
                  | false, NStruct fs' => do fs'' <- update_split (mchildren c) fs' r idx f; Ok (NStruct fs'')
                  | true, NAoS els =>
                    do els' <- map_index (fun i e => do fs'' <- update_split (mchildren c) (node_fields e) r (idx ++ [i]) f; Ok (NStruct fs'')) 0 els;
                    Ok (NAoS els')
                  | _, _ => Err FAttr
                  end
                end;
      Ok (aset nm ch' fs)
    end
  end.

Section Conv.
Variable m : meta.                  (* the data dictionary of the file *)
Variable r : ncmeta.                (* NCMetadata(ids_metadata) *)
Variable units : path -> str.
Variable m' : meta.                 (* the data dictionary of the IDS *)
Variable units' : path -> str.
Variable rm : nmap.                 (* nbc_map *)
Variable cast : meta -> value -> result fexn value.   (* what is stored by the setter of a data node *)
Variable g : group.
Variable h : bool.

(** 97-123: the target of path p, and which of its ancestors are arrays of structures; None: not loaded *)
Definition target_of (p : path) : result fexn (option (list (str * bool))) :=
  match alookup (slash_path p) (m_path rm) with
  | Some None => Ok None
  | Some (Some s) => let q := split_on "/"%char s in
                     match meta_at m' q with Some _ => Ok (Some (combine q (aos_flags m' q))) | None => Err FKey end
  | None => match alookup (slash_path p) (m_type rm) with
            | Some _ => Ok None
            | None => Ok (Some (combine p (aos_flags m p)))
            end
  end.

(** data[index], data[index + slices] *)
Definition conv_value (v : ncvar) (dt : dtype) (nd : nat) (idx : list nat) : result fexn (option value) :=
  if length idx =? length (v_dims v) - nd then leaf_value g v dt nd idx
  else if v_sparse v then Err FIndex
  else do sh <- var_sizes g v;
       let rest := skipn (length idx) sh in
       if index_ok sh idx then Ok (Some (build dt (length rest) rest (fun ix => v_data v (idx ++ ix)))) else Err FIndex.
(** 130-144, 150-161, 169-172: c is the metadata of the file, c' that of the node *)
Definition conv_node (v : ncvar) (p : path) (c : meta) (idx : list nat) (c' : meta) (n : node) : result fexn node :=
  match mkind c with
  | KStruct => Ok n
  | KAoS => match mkind c' with
            | KAoS => do k <- aos_size r g h v p idx; Ok (NAoS (repeat (NStruct []) k))
            | _ => Err FAttr
            end
  | KLeaf dt nd => do x <- conv_value v dt nd idx;
                   Ok (match x, n with Some y, NLeaf _ => NLeaf (Some y) | _, _ => n end)
  end.
(** 163-167 *)
Definition set_node (v : ncvar) (dt : dtype) (nd : nat) (idx : list nat) (c' : meta) (n : node) : result fexn node :=
  do x <- conv_value v dt nd idx;
  match x, n with
  | Some y, NLeaf _ => do z <- cast c' y; Ok (NLeaf (Some z))
  | None, _ => Ok n
  | _, _ => Err FAttr
  end.
(** 90-172, one variable *)
Definition conv_var (v : ncvar) (fs : fields) : result fexn fields :=
  match var_meta m (v_name v) with
  | None => Err FKey
  | Some (p, c) =>
    match mkind c with
    | KStruct => Ok fs
    | _ => do t <- target_of p;
           match t with
           | None => Ok fs
           | Some q =>
             match mkind c, v_sparse v, pget p (nc_aos r) with
             | KLeaf dt nd, false, None => update_split (mchildren m') fs (map (fun x => (fst x, false)) q) [] (set_node v dt nd)
             | _, _, _ => update_split (mchildren m') fs q [] (conv_node v p c)
             end
           end
    end
  end.
Fixpoint conv_vars (l : list ncvar) (fs : fields) : result fexn fields :=
  match l with [] => Ok fs | v :: t => do fs' <- conv_var v fs; conv_vars t fs' end.
End Conv.
(** db_entry_nc.py:123-135, nc2ids.py:66-172 without [lazy]; line 75 takes the metadata of the time mode from the IDS *)
Definition get_conv (m : meta) (r : ncmeta) (units : path -> str) (m' : meta) (units' : path -> str) (rm : nmap)
                    (cast : meta -> value -> result fexn value) (g : group) : result fexn node :=
  do h <- read_homogeneous m' r units' g;
  do _ <- validate_variables m r units g h;
  do fs <- conv_vars m r m' rm cast g h (sorted_vars g) [];
  Ok (NStruct fs).
