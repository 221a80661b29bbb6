(** Model of the netCDF backend: imas/backends/netcdf/ids_tensorizer.py, iterators.py, ids2nc.py, nc2ids.py.

    A netCDF group is the list of its variables with their attributes, dimensions and contents.  Contents are functions from an index
    (one number per dimension) to a cell.  Reading outside the size of the dimensions is an error, as with numpy.
    Simplifications:
    - The variables whose name ends in ":shape" are kept in a list of their own, by the name without this suffix.
    - Attributes that are lists of names separated by spaces are kept as lists; documentation, compression and the text of the attribute
      "sparse" are left out.
    - netCDF stores numbers and strings unchanged; int32 numbers outside of the range are an error.
    - Assigning an array to a part of an array of another shape (numpy: broadcast or error) is an error.
    - The on-disk and the in-memory version of the data dictionary are the same (nbc_map is None). *)
From Verif Require Import Base TreeModel NcMetaModel.
From Verif Require HashModel.

Inductive fexn :=
| FKey | FIndex | FAttr          (* KeyError, IndexError, AttributeError *)
| FValue                         (* ValueError *)
| FOverflow                      (* number does not fit in int32 *)
| FBroadcast                     (* assignment of another shape *)
| FInvalid                       (* InvalidNetCDFEntry *).

(** * Arrays *)
Inductive cell := CStr (s : str) | CInt (z : Z) | CFlt (f : flt) | CCpx (re im : flt).
Definition cell_str (c : cell) : str := match c with CStr s => s | _ => [] end.
Definition cell_int (c : cell) : Z := match c with CInt z => z | _ => 0%Z end.
Definition cell_flt (c : cell) : flt := match c with CFlt f => f | _ => 0%Z end.
Definition cell_cpx (c : cell) : flt * flt := match c with CCpx a b => (a, b) | _ => (0%Z, 0%Z) end.

(** ids_primitive.py:95-106 [shape] *)
Definition value_shape (v : value) : list nat :=
  match v with
  | VStr _ | VInt _ | VFlt _ | VCpx _ _ => []
  | VStrs l => [length l]
  | VIntA sh _ | VFltA sh _ | VCpxA sh _ => sh
  end.
Definition value_cells (v : value) : list cell :=
  match v with
  | VStr s => [CStr s] | VInt z => [CInt z] | VFlt f => [CFlt f] | VCpx a b => [CCpx a b]
  | VStrs l => map CStr l
  | VIntA _ d => map CInt d | VFltA _ d => map CFlt d | VCpxA _ d => map (fun x => CCpx (fst x) (snd x)) d
  end.
(** Position of an element in the memory of an array (row-major order), and all indices in this order *)
Fixpoint ravel (sh ix : list nat) : nat :=
  match sh, ix with _ :: sh', i :: ix' => i * prod sh' + ravel sh' ix' | _, _ => 0 end.
Fixpoint indices (sh : list nat) : list (list nat) :=
  match sh with [] => [[]] | n :: t => flat_map (fun i => map (cons i) (indices t)) (seq 0 n) end.
(** value[ix] *)
Definition value_cell (v : value) (ix : list nat) : cell := nth (ravel (value_shape v) ix) (value_cells v) (CInt 0).
(** The array of this shape with these elements *)
Definition build (dt : dtype) (nd : nat) (sh : list nat) (f : list nat -> cell) : value :=
  match nd with
  | 0 => match dt with
         | STR => VStr (cell_str (f [])) | INT => VInt (cell_int (f [])) | FLT => VFlt (cell_flt (f []))
         | CPX => VCpx (fst (cell_cpx (f []))) (snd (cell_cpx (f [])))
         end
  | S _ => match dt with
           | STR => VStrs (map (fun ix => cell_str (f ix)) (indices sh)) | INT => VIntA sh (map (fun ix => cell_int (f ix)) (indices sh))
           | FLT => VFltA sh (map (fun ix => cell_flt (f ix)) (indices sh)) | CPX => VCpxA sh (map (fun ix => cell_cpx (f ix)) (indices sh))
           end
  end.
Fixpoint list_eqb (a b : list nat) : bool :=
  match a, b with [], [] => true | x :: a', y :: b' => (x =? y) && list_eqb a' b' | _, _ => false end.
(** ix is an index of an array of shape sh *)
Fixpoint in_range (sh ix : list nat) : bool :=
  match sh, ix with [], [] => true | n :: sh', i :: ix' => (i <? n) && in_range sh' ix' | _, _ => false end.
(** an array of shape a fits in one of shape b *)
Fixpoint fits_in (a b : list nat) : bool :=
  match a, b with [], [] => true | x :: a', y :: b' => (x <=? y) && fits_in a' b' | _, _ => false end.

(** ids2nc.py:13-18, netCDF4.default_fillvals: i4 -2147483647, f8 9.969209968386869e+36 *)
Definition FILL_INT : Z := (-2147483647)%Z.
Definition FILL_FLT : flt := 5160562223013167104%Z.
Definition fill_cell (dt : dtype) : cell :=
  match dt with STR => CStr [] | INT => CInt FILL_INT | FLT => CFlt FILL_FLT | CPX => CCpx FILL_FLT FILL_FLT end.

(** * The tree of an IDS by path and index *)
(** iterators.py:89-98 [_full_tree_iter]: path, index in the arrays of structures around it, contents *)
Inductive content := FStruct | FAoS (k : nat) | FLeaf (v : value).
Definition entry := (path * list nat * content)%type.
Fixpoint filled_iter (m : meta) (n : node) (names : path) (idx : list nat) {struct m} : list entry :=
  match m with
  | Meta _ k cs =>
    let of_fields (fs : fields) (idx : list nat) :=
      flat_map (fun c =>
        match alookup (mname c) fs with
        | None => []
        | Some ch =>
          if has_value c ch then
            match ch with
            | NLeaf (Some v) => [(names ++ [mname c], idx, FLeaf v)]
            | NLeaf None => []                                     (* has no value *)
            | NStruct _ => (names ++ [mname c], idx, FStruct) :: filled_iter c ch (names ++ [mname c]) idx
            | NAoS els => (names ++ [mname c], idx, FAoS (length els)) :: filled_iter c ch (names ++ [mname c]) idx
            end
          else []
        end) cs in
    match k, n with
    | KStruct, NStruct fs => of_fields fs idx
    | KAoS, NAoS els => flat_map (fun ie => of_fields (node_fields (snd ie)) (idx ++ [fst ie])) (enum els)
    | _, _ => []
    end
  end.

(** iterators.py:31-88 [indexed_tree_iter] with a path, [_split_on_aos], [_tree_iter]: every node with this path, together with its
    index, is replaced by f.  Children on the way are created if they do not exist yet. *)
Section Update.
Context {E : Type}.
Fixpoint map_index {A} (f : nat -> A -> result E A) (i : nat) (l : list A) : result E (list A) :=
  match l with [] => Ok [] | x :: t => do y <- f i x; do r <- map_index f (S i) t; Ok (y :: r) end.
Fixpoint update_at (cs : list meta) (fs : fields) (p : path) (idx : list nat) (keyerr : E)
                   (f : list nat -> meta -> node -> result E node) {struct p} : result E fields :=
  match p with
  | [] => Ok fs
  | nm :: r =>
    match List.find (fun d => str_eqb (mname d) nm) cs with
    | None => Err keyerr
    | Some c =>
      let ch := match alookup nm fs with Some ch => ch | None => new_node c end in
      do ch' <- match r with
                | [] => f idx c ch
                | _ :: _ =>
                  match ch with
                  | NStruct fs' => do fs'' <- update_at (mchildren c) fs' r idx keyerr f; Ok (NStruct fs'')
                  | NAoS els =>
                    do els' <- map_index (fun i e => do fs'' <- update_at (mchildren c) (node_fields e) r (idx ++ [i]) keyerr f; Ok (NStruct fs'')) 0 els;
                    Ok (NAoS els')
                  | NLeaf _ => Err keyerr
                  end
                end;
      Ok (aset nm ch' fs)
    end
  end.
End Update.

(** * The file *)
Record ncvar := {
  v_name : str; v_type : option dtype;      (* None: S1 *)
  v_dims : list str; v_fill : option cell; v_units : option str; v_anc : option (list str); v_coords : option (list str);
  v_sparse : bool; v_extra : list str;      (* names of other attributes *)
  v_data : list nat -> cell }.
(** the variable "<name>:shape"; s_data ix: the numbers [ix, :] *)
Record shvar := { s_name : str; s_dims : list str; s_integer : bool; s_data : list nat -> list Z }.
Record group := { g_sizes : list (str * nat); g_vars : list ncvar; g_shapes : list shvar }.

Fixpoint sizes {E} (keyerr : E) (ds : list (str * nat)) (dims : list str) : result E (list nat) :=
  match dims with
  | [] => Ok []
  | d :: t => match sget d ds with None => Err keyerr | Some k => do r <- sizes keyerr ds t; Ok (k :: r) end
  end.

(** data types whose node is stored with data *)
Definition leaf_type (c : meta) : option dtype := match mkind c with KLeaf dt _ => Some dt | _ => None end.

Section File.
Variable m : meta.                  (* the data dictionary *)
Variable r : ncmeta.                (* NCMetadata(metadata) *)
Variable units : path -> str.       (* metadata.units *)

(** ** ids_tensorizer.py *)
Definition ndim_of (p : path) : nat := match meta_at m p with Some c => ndim c | None => 0 end.
(** dimensions[-ndim:] *)
Definition own_dims (nd : nat) (dims : list str) : list str := match nd with 0 => dims | _ => skipn (length dims - nd) dims end.
Definition content_shape (x : content) : list nat := match x with FStruct => [] | FAoS k => [k] | FLeaf v => value_shape v end.

Section Tensorize.
Variable h : bool.                  (* homogeneous_time *)
Variable items : list entry.        (* filled nodes *)
Definition dims_of (p : path) : list str := get_dimensions r h p.

(** 77-114: filled_data[path], by index *)
Definition data_of (p : path) : list (list nat * content) :=
  flat_map (fun x => if path_dec (fst (fst x)) p then [(snd (fst x), snd x)] else []) items.
Definition ix_dec : forall a b : list nat, {a = b} + {a <> b} := list_eq_dec Nat.eq_dec.
Definition iget (ix : list nat) (l : list (list nat * content)) : option content := dget ix_dec ix l.
Definition add_size (ds : list (str * nat)) (x : str * nat) : list (str * nat) :=
  sset (fst x) (max (match sget (fst x) ds with Some k => k | None => 0 end) (snd x)) ds.
(** 99-108 *)
Definition own_sizes (x : entry) : list (str * nat) :=
  let nd := ndim_of (fst (fst x)) in
  match nd with 0 => [] | _ => combine (own_dims nd (dims_of (fst (fst x)))) (content_shape (snd x)) end.
Definition dim_sizes : list (str * nat) := fold_left add_size (flat_map own_sizes items) [].
Definition is_filled (p : path) : bool := match data_of p with [] => false | _ => true end.
(** 111-112 *)
Definition filled_paths : list path := filter is_filled (nc_paths r).
Definition filled_variables : list str := map dotted filled_paths.

(** 116-161.  [Dense]: not in self.shapes; [Filled]: self.shapes[path] = None; [Shapes f]: f ix = shapes[ix] *)
Inductive sparsity := Dense | Filled | Shapes (f : list nat -> list nat).
Definition shape_at (p : path) (ix : list nat) : list nat :=
  match iget ix (data_of p) with Some x => content_shape x | None => repeat 0 (ndim_of p) end.
Definition sparsity_of (p : path) : result fexn sparsity :=
  let nd := ndim_of p in
  let dims := dims_of p in
  do full <- sizes FKey dim_sizes (own_dims nd dims);
  if length dims =? nd then
    match iget [] (data_of p) with
    | None => Err FKey
    | Some x => Ok (if list_eqb (content_shape x) full then Dense else Shapes (fun _ => content_shape x))
    end
  else
    match pget p (nc_aos r) with
    | None => Err FKey
    | Some q =>
      do aos <- sizes FKey dim_sizes (dims_of q);
      if forallb (fun x => in_range aos (fst x)) (data_of p) then
        match nd with
        | 0 => Ok (if forallb (fun ix => is_some (iget ix (data_of p))) (indices aos) then Dense else Filled)
        | _ => Ok (if forallb (fun ix => list_eqb (shape_at p ix) full) (indices aos) then Dense else Shapes (shape_at p))
        end
      else Err FIndex
    end.
(** the pseudo-dimension of a shapes variable (161, ids2nc.py:113); data types have at most 6 dimensions *)
Definition digit (n : nat) : ascii := ascii_of_nat (48 + n).
Definition pseudo (nd : nat) : str := [digit nd; "D"%char].

(** 163-169 *)
Definition filter_coordinates (p : path) : list str :=
  filter (fun c => if in_dec str_dec c filled_variables then true else false) (get_coordinates r h p).

(** 171-205: the cell at ix of the array for path p; ids2nc.py:145-164 for quantities that are not tensorized *)
Definition tensor (dt : dtype) (p : path) (ix : list nat) : cell :=
  let na := length (dims_of p) - ndim_of p in
  match iget (firstn na ix) (data_of p) with
  | Some (FLeaf v) => if in_range (value_shape v) (skipn na ix) then value_cell v (skipn na ix) else fill_cell dt
  | _ => fill_cell dt
  end.
(** the assignments of 195-203 and ids2nc.py:148-160 are possible *)
Definition cell_ok (c : cell) : bool := match c with CInt z => ((-2147483648 <=? z) && (z <? 2147483648))%Z | _ => true end.
Definition assignable (sp : sparsity) (full : list nat) (x : content) : result fexn unit :=
  match x with
  | FLeaf v =>
    if negb (forallb cell_ok (value_cells v)) then Err FOverflow
    else if (match sp with Shapes _ => fits_in (value_shape v) full | _ => list_eqb (value_shape v) full end) then Ok tt else Err FBroadcast
  | _ => Ok tt
  end.
Fixpoint all_ok {A} (f : A -> result fexn unit) (l : list A) : result fexn unit :=
  match l with [] => Ok tt | x :: t => do _ <- f x; all_ok f t end.

(** ** ids2nc.py:48-164, one path *)
Definition default_fill (dt : dtype) : option cell := match dt with CPX => None | _ => Some (fill_cell dt) end.
Definition some_list {A} (l : list A) : option (list A) := match l with [] => None | _ => Some l end.
Definition upper : str := strs "_error_upper".
Definition lower : str := strs "_error_lower".
Definition write_path (p : path) : result fexn (ncvar * list (shvar * nat)) :=
  match meta_at m p with
  | None => Err FKey
  | Some c =>
    do sp <- match mkind c with KStruct => Ok Dense | _ => sparsity_of p end;
    do full <- match mkind c with KLeaf _ nd => sizes FKey dim_sizes (skipn (length (dims_of p) - nd) (dims_of p)) | _ => Ok [] end;
    do _ <- match mkind c with KLeaf _ _ => all_ok (fun x => assignable sp full (snd x)) (data_of p) | _ => Ok tt end;
    Ok ({| v_name := dotted p; v_type := leaf_type c;
           v_dims := match mkind c with KLeaf _ _ => dims_of p | _ => [] end;
           v_fill := match mkind c with KLeaf dt _ => default_fill dt | _ => None end;
           v_units := match units p with [] => None | u => Some u end;
           v_anc := some_list (filter (fun x => if in_dec str_dec x filled_variables then true else false) [dotted p ++ upper; dotted p ++ lower]);
           v_coords := match mkind c with KAoS => None | _ => some_list (filter_coordinates p) end;
           v_sparse := match sp with Dense => false | _ => true end;
           v_extra := [];
           v_data := match mkind c with KLeaf dt _ => tensor dt p | _ => fun _ => CStr [] end |},
        match sp with
        | Shapes f => [({| s_name := dotted p;
                           s_dims := (match pget p (nc_aos r) with Some q => dims_of q | None => [] end) ++ [pseudo (ndim c)];
                           s_integer := true; s_data := fun ix => map Z.of_nat (f ix) |}, ndim c)]
        | _ => []
        end)
  end.
Fixpoint write_paths (l : list path) : result fexn (list ncvar * list (shvar * nat)) :=
  match l with
  | [] => Ok ([], [])
  | p :: t => do x <- write_path p; do y <- write_paths t; Ok (fst x :: fst y, snd x ++ snd y)
  end.
(** 159-161: the pseudo-dimensions, after those of the data *)
Definition all_sizes (sh : list (shvar * nat)) : list (str * nat) := fold_left (fun ds s => sset (pseudo (snd s)) (snd s) ds) sh dim_sizes.
(** 35-41 *)
Definition write_group : result fexn group :=
  do x <- write_paths filled_paths;
  Ok {| g_sizes := all_sizes (snd x); g_vars := fst x; g_shapes := map fst (snd x) |}.
End Tensorize.

(** ids_tensorizer.py:50-52, db_entry_nc.py:164-165 *)
Definition homogeneous_of (n : node) : bool :=
  match alookup (strs "ids_properties") (node_fields n) with
  | Some (NStruct fs) => match alookup (strs "homogeneous_time") fs with Some (NLeaf (Some (VInt z))) => (z =? 1)%Z | _ => false end
  | _ => false
  end.
Definition put (n : node) : result fexn group := write_group (homogeneous_of n) (filled_iter m n [] []).

(** ** nc2ids.py *)
Section Read.
Variable g : group.
Definition get_var (nm : str) : option ncvar := List.find (fun v => str_eqb (v_name v) nm) (g_vars g).
Definition get_shape (nm : str) : option shvar := List.find (fun v => str_eqb (s_name v) nm) (g_shapes g).
(** ids_metadata.py:278-288 *)
Definition var_meta (nm : str) : option (path * meta) :=
  let p := split_on "."%char nm in option_map (fun c => (p, c)) (meta_at m p).

(** 276-311 *)
Definition aos_dims (h : bool) (p : path) : list str := match pget p (nc_aos r) with Some q => get_dimensions r h q | None => [] end.
Definition dims_dec : forall a b : list str, {a = b} + {a <> b} := list_eq_dec str_dec.
Definition validate_sparsity (h : bool) (v : ncvar) (p : path) (c : meta) : result fexn unit :=
  match ndim c with
  | 0 => Ok tt
  | nd => match get_shape (v_name v) with
          | None => Err FAttr
          | Some s =>
            match rev (s_dims s) with
            | [] => Err FInvalid
            | d :: t =>
              if dims_dec (rev t) (aos_dims h p) then
                match sget d (g_sizes g) with
                | None => Err FKey
                | Some k => if (k =? nd) then (if s_integer s then Ok tt else Err FInvalid) else Err FInvalid
                end
              else Err FInvalid
            end
          end
  end.
(** 214-274 *)
Definition subset (a b : list str) : bool := forallb (fun x => if in_dec str_dec x b then true else false) a.
Definition dtype_dec : forall a b : dtype, {a = b} + {a <> b}. Proof. decide equality. Defined.
Definition validate_variable (h : bool) (v : ncvar) (p : path) (c : meta) : result fexn unit :=
  do _ <- match mkind c with
          | KLeaf dt _ =>
            match v_type v with
            | None => Err FInvalid
            | Some t =>
              if dtype_dec t dt then
                if dims_dec (v_dims v) (get_dimensions r h p) then
                  if subset (match v_coords v with Some l => l | None => [] end) (get_coordinates r h p) then
                    if subset (match v_anc v with Some l => l | None => [] end) [v_name v ++ upper; v_name v ++ lower] then Ok tt else Err FInvalid
                  else Err FInvalid
                else Err FInvalid
              else Err FInvalid
            end
          | _ => Ok tt
          end;
  do _ <- match units p, v_units v with
          | [], _ => Ok tt
          | u, Some w => if str_eqb u w then Ok tt else Err FInvalid
          | _, None => Err FInvalid
          end;
  do _ <- (if v_sparse v then validate_sparsity h v p c else Ok tt);
  match mkind c, v_coords v, v_anc v, v_extra v with
  | KLeaf _ _, _, _, [] => Ok tt
  | KLeaf _ _, _, _, _ => Err FInvalid
  | _, None, None, [] => Ok tt
  | _, _, _, _ => Err FInvalid
  end.
(** 174-212 *)
Definition validate_shape (s : shvar) : result fexn unit :=
  match get_var (s_name s) with None => Err FInvalid | Some v => if v_sparse v then Ok tt else Err FInvalid end.
Definition validate_var (h : bool) (v : ncvar) : result fexn unit :=
  match var_meta (v_name v) with None => Err FInvalid | Some (p, c) => validate_variable h v p c end.
Definition validate_variables (h : bool) : result fexn unit :=
  do _ <- all_ok validate_shape (g_shapes g); all_ok (validate_var h) (g_vars g).

(** 66-81 *)
Definition HOMOGENEOUS_TIME : path := [strs "ids_properties"; strs "homogeneous_time"].
Definition read_homogeneous : result fexn bool :=
  match get_var (dotted HOMOGENEOUS_TIME) with
  | None => Err FInvalid
  | Some v =>
    match meta_at m HOMOGENEOUS_TIME with
    | None => Err FKey
    | Some c =>
      do _ <- validate_variable true v HOMOGENEOUS_TIME c;
      match v_data v [] with
      | CInt z => if ((z =? 0) || (z =? 1) || (z =? 2))%Z then Ok (z =? 1)%Z else Err FInvalid
      | _ => Err FInvalid
      end
    end
  end.

(** slice(z) of an axis with n elements *)
Definition slice_len (z : Z) (n : nat) : nat := if (z <? 0)%Z then Z.to_nat (Z.of_nat n + z) else min (Z.to_nat z) n.
Fixpoint slice_lens (zs : list Z) (sh : list nat) : list nat :=
  match zs, sh with z :: zs', n :: sh' => slice_len z n :: slice_lens zs' sh' | _, _ => sh end.
Definition var_sizes (v : ncvar) : result fexn (list nat) := sizes FKey (g_sizes g) (v_dims v).
(** data[index] with index a tuple of natural numbers *)
Definition index_ok (sh idx : list nat) : bool := in_range (firstn (length idx) sh) idx.
(** shapes[index] *)
Definition shapes_at (nm : str) (idx : list nat) : result fexn (list Z) :=
  match get_shape nm with
  | None => Err FIndex
  | Some s => do sh <- sizes FKey (g_sizes g) (s_dims s); if index_ok sh idx then Ok (s_data s idx) else Err FIndex
  end.
(** value != _FillValue *)
Definition cell_ne (a : cell) (b : option cell) : bool :=
  match a, b with
  | _, None => true
  | CFlt x, Some (CFlt y) => negb (feq x y)
  | CInt x, Some (CInt y) => negb (Z.eqb x y)
  | CStr x, Some (CStr y) => negb (str_eqb x y)
  | CCpx a b, Some (CCpx c d) => negb (feq a c && feq b d)
  | _, _ => true
  end.

(** 125-172: the value of one node.  None: it is left as it is *)
Definition aos_size (h : bool) (v : ncvar) (p : path) (idx : list nat) : result fexn nat :=
  if v_sparse v then
    do zs <- shapes_at (v_name v) idx;
    match zs with [] => Err FIndex | z :: _ => if (z <? 0)%Z then Err FValue else Ok (Z.to_nat z) end
  else match rev (get_dimensions r h p) with
       | [] => Err FIndex
       | d :: _ => match sget d (g_sizes g) with None => Err FKey | Some k => Ok k end
       end.
Definition leaf_value (v : ncvar) (dt : dtype) (nd : nat) (idx : list nat) : result fexn (option value) :=
  do sh <- var_sizes v;
  if v_sparse v then
    match nd with
    | S _ =>
      do zs <- shapes_at (v_name v) idx;
      if forallb (fun z => negb (Z.eqb z 0)) zs then
        if index_ok sh idx then Ok (Some (build dt nd (slice_lens zs (skipn (length idx) sh)) (fun ix => v_data v (idx ++ ix)))) else Err FIndex
      else Ok None
    | 0 => if index_ok sh idx then
             if cell_ne (v_data v idx) (v_fill v) then Ok (Some (build dt 0 [] (fun ix => v_data v (idx ++ ix)))) else Ok None
           else Err FIndex
    end
  else if index_ok sh idx then Ok (Some (build dt nd (skipn (length idx) sh) (fun ix => v_data v (idx ++ ix)))) else Err FIndex.

(** 89-172, one variable.  163-167 (quantities outside of arrays of structures) is the same as 169-172 for the empty index. *)
Definition read_node (h : bool) (v : ncvar) (p : path) (idx : list nat) (c : meta) (n : node) : result fexn node :=
  match mkind c with
  | KStruct => Ok n
  | KAoS => do k <- aos_size h v p idx; Ok (NAoS (repeat (NStruct []) k))
  | KLeaf dt nd => do x <- leaf_value v dt nd idx; Ok (match x with Some y => NLeaf (Some y) | None => n end)
  end.
Definition read_var (h : bool) (v : ncvar) (fs : fields) : result fexn fields :=
  match var_meta (v_name v) with
  | None => Err FKey
  | Some (p, c) => match mkind c with KStruct => Ok fs | _ => update_at (mchildren m) fs p [] FKey (read_node h v p) end
  end.
Fixpoint read_vars (h : bool) (l : list ncvar) (fs : fields) : result fexn fields :=
  match l with [] => Ok fs | v :: t => do fs' <- read_var h v fs; read_vars h t fs' end.
(** 85: sorted by name *)
Definition sorted_vars : list ncvar := map snd (HashModel.isort (map (fun v => (v_name v, v)) (g_vars g))).
(** db_entry_nc.py:120-122, nc2ids.py:83-172 without [lazy] *)
Definition get : result fexn node :=
  do h <- read_homogeneous;
  do _ <- validate_variables h;
  do fs <- read_vars h sorted_vars [];
  Ok (NStruct fs).
End Read.
End File.
