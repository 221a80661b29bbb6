(** Model of imas.util.to_xarray: imas/_to_xarray.py, with the parts of imas/backends/netcdf/ids_tensorizer.py that it uses
    (the others are in NcFileModel.v).

    Simplifications:
    - Paths are lists of names; the separators "/" and "." do not occur in names.
    - xarray.Dataset(data_vars, coords) keeps what it is given.  Its own checks are not modelled.
    - The attribute "coordinates" is kept as a list; documentation is left out.
    - Lazy loaded IDSs are not modelled here (NcLazyModel.v and LazyModel.v give the data they show). *)
From Verif Require Import Base TreeModel NcMetaModel NcFileModel.

Inductive xexn := XExn (e : fexn) | XFuel (* the search for coordinates is not finished: never happens, C38_terminates *).
Definition lift_exn {A} (x : result fexn A) : result xexn A := match x with Ok a => Ok a | Err e => Err (XExn e) end.

(** One variable of the dataset *)
Record xvar := { x_name : str; x_dims : list str; x_shape : list nat; x_units : option str; x_coords : list str; x_data : list nat -> cell }.
Record dataset := { ds_vars : list xvar; ds_coords : list xvar }.

(** _to_xarray.py:10-15 [fillvals] *)
Definition NAN : flt := 9221120237041090560%Z.
Definition missing_cell (dt : dtype) : cell :=
  match dt with INT => CInt (-2147483647) | STR => CStr [] | FLT => CFlt NAN | CPX => CCpx NAN NAN end.

Section Search.
Variable r : ncmeta.
Variable h : bool.

(** ids_tensorizer.py:61-66: the paths that rpartition gives *)
Fixpoint parents (k : nat) (p : path) : list path := match k with 0 => [] | S k => firstn k p :: parents k p end.
Definition aos_parents (p : path) : list path :=
  filter (fun q => match get_dimensions r h q with [] => false | _ => true end) (parents (length p) p).
Definition start (paths : list path) : list path := paths ++ flat_map aos_parents paths.
(** 74-75 *)
Definition next (p : path) : list path := map (split_on "."%char) (get_coordinates r h p).
(** 68-75: queue, paths_to_tensorize *)
Fixpoint search (fuel : nat) (queue found : list path) : option (list path) :=
  match queue with
  | [] => Some found
  | p :: t =>
    match fuel with
    | 0 => None
    | S fuel => if in_dec path_dec p found then search fuel t found else search fuel (t ++ next p) (found ++ [p])
    end
  end.
(** 57-75 *)
Definition include_coordinate_paths (fuel : nat) (paths : list path) : option (list path) := search fuel (start paths) [].
End Search.

(** iterators.py:31-86 [indexed_tree_iter] with metadata, [_tree_iter], filtered by has_value (ids_tensorizer.py:91): index and contents of
    the nodes with this path.  Children that do not exist are created, empty. *)
Definition content_at (n : node) : content := match n with NStruct _ => FStruct | NAoS els => FAoS (length els) | NLeaf (Some v) => FLeaf v | NLeaf None => FStruct end.
Fixpoint path_iter (c : meta) (n : node) (p : path) (idx : list nat) {struct p} : list (list nat * content) :=
  match p with
  | [] => if has_value c n then [(idx, content_at n)] else []
  | nm :: t =>
    let into fs idx :=
      match List.find (fun d => str_eqb (mname d) nm) (mchildren c) with
      | None => []
      | Some d => path_iter d (match alookup nm fs with Some ch => ch | None => new_node d end) t idx
      end in
    match n with
    | NStruct fs => into fs idx
    | NAoS els => flat_map (fun ie => into (node_fields (snd ie)) (idx ++ [fst ie])) (enum els)
    | NLeaf _ => []
    end
  end.

Section Xarray.
Variable m : meta.
Variable r : ncmeta.
Variable units : path -> str.

(** ids_tensorizer.py:83-96 *)
Fixpoint collect (n : node) (paths : list path) : result fexn (list entry) :=
  match paths with
  | [] => Ok []
  | p :: t =>
    match p, meta_at m p with
    | _ :: _, Some _ => do y <- collect n t; Ok (map (fun x => (p, fst x, snd x)) (path_iter m n p []) ++ y)
    | _, _ => Err FKey
    end
  end.
Definition collected (n : node) (paths : list path) : result fexn (list entry) :=
  match paths with [] => Ok (filled_iter m n [] []) | _ => collect n paths end.

Section Tensorize.
Variable h : bool.
Variable items : list entry.
(** ids_tensorizer.py:116-161 *)
Definition shapes_found (p : path) : result fexn unit :=
  match meta_at m p with
  | None => Err FKey
  | Some c => match mkind c with KStruct => Ok tt | _ => do _ <- sparsity_of m r h items p; Ok tt end
  end.
(** 171-205 with the fill values of to_xarray: the cell at ix of the array for path p *)
Definition xtensor (dt : dtype) (p : path) (ix : list nat) : cell :=
  let na := length (dims_of r h p) - ndim_of m p in
  match iget (firstn na ix) (data_of items p) with
  | Some (FLeaf v) => if in_range (value_shape v) (skipn na ix) then value_cell v (skipn na ix) else missing_cell dt
  | _ => missing_cell dt
  end.
(** the assignments of 195-203 are possible; numpy stores integers in 64 bits *)
Definition cell_ok64 (c : cell) : bool := match c with CInt z => ((-9223372036854775808 <=? z) && (z <? 9223372036854775808))%Z | _ => true end.
Definition xassignable (sp : sparsity) (full : list nat) (x : content) : result fexn unit :=
  match x with
  | FLeaf v =>
    if negb (forallb cell_ok64 (value_cells v)) then Err FOverflow
    else if (match sp with Shapes _ => fits_in (value_shape v) full | _ => list_eqb (value_shape v) full end) then Ok tt else Err FBroadcast
  | _ => Ok tt
  end.
(** _to_xarray.py:50-68 *)
Definition make_var (p : path) : result fexn (list xvar) :=
  match meta_at m p with
  | None => Err FKey
  | Some c =>
    match mkind c with
    | KLeaf dt nd =>
      do sp <- sparsity_of m r h items p;
      do shape <- sizes FKey (dim_sizes m r h items) (dims_of r h p);
      do full <- sizes FKey (dim_sizes m r h items) (skipn (length (dims_of r h p) - nd) (dims_of r h p));
      do _ <- all_ok (fun x => xassignable sp full (snd x)) (data_of items p);
      Ok [{| x_name := dotted p; x_dims := dims_of r h p; x_shape := shape;
             x_units := match units p with [] => None | u => Some u end;
             x_coords := filter_coordinates r h items p;
             x_data := xtensor dt p |}]
    | _ => Ok []
    end
  end.
Fixpoint make_vars (l : list path) : result fexn (list xvar) :=
  match l with [] => Ok [] | p :: t => do v <- make_var p; do vs <- make_vars t; Ok (v ++ vs) end.
(** 70-75 *)
Definition has_name (l : list str) (v : xvar) : bool := if in_dec str_dec (x_name v) l then true else false.
Definition split_coords (vs : list xvar) : result fexn dataset :=
  let names := flat_map x_coords vs in
  do _ <- all_ok (fun c => if in_dec str_dec c (map x_name vs) then Ok tt else Err FKey) names;
  Ok {| ds_vars := filter (fun v => negb (has_name names v)) vs; ds_coords := filter (has_name names) vs |}.
Definition make_dataset : result fexn dataset :=
  do _ <- all_ok shapes_found (filled_paths r items);
  do vs <- make_vars (filled_paths r items);
  split_coords vs.
End Tensorize.

(** _to_xarray.py:18-73 *)
Definition valid_path (p : path) : bool := match p with [] => false | _ => is_some (meta_at m p) end.
Definition to_xarray (fuel : nat) (n : node) (paths : list path) : result xexn dataset :=
  if forallb valid_path paths then
    match include_coordinate_paths r (homogeneous_of n) fuel paths with
    | None => Err XFuel
    | Some l => lift_exn (do items <- collected n l; make_dataset (homogeneous_of n) items)
    end
  else Err (XExn FValue).
End Xarray.
