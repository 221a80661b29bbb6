(** When the numbers in a netCDF file fit together, what a file contains at a place, and what an acceptable file is. *)
From Verif Require Import Base TreeModel TreeSpec ConvSpec NcMetaModel NcMetaSpec NcFileModel NcValidModel.
From Verif Require NcEntryModel.

Definition size_of (g : group) (d : str) (k : nat) : Prop := sget d (g_sizes g) = Some k.
(** the cell is of the type of the variable *)
Definition typed (t : dtype) (c : cell) : Prop :=
  match t, c with STR, CStr _ | INT, CInt _ | FLT, CFlt _ | CPX, CCpx _ _ => True | _, _ => False end.
(** what netCDF guarantees: names of variables are different, their dimensions exist, data has the type of the variable, the shape arrays are arrays *)
Record netcdf (g : group) : Prop := {
  n_names : NoDup (map v_name (g_vars g));
  n_shape_names : NoDup (map s_name (g_shapes g));
  n_dims : forall v d, In v (g_vars g) -> In d (v_dims v) -> exists k, size_of g d k;
  n_cells : forall v t ix, In v (g_vars g) -> v_type v = Some t -> typed t (v_data v ix);
  n_shapes : forall s d, In s (g_shapes g) -> In d (s_dims s) -> exists k, size_of g d k;
  n_rows : forall s ds d k ix, In s (g_shapes g) -> s_dims s = ds ++ [d] -> size_of g d k -> length (s_data s ix) = k }.

(** an index of an array with these dimensions; of the first of these dimensions *)
Definition within (g : group) (dims : list str) (ix : list nat) : Prop := Forall2 (fun d i => exists k, size_of g d k /\ i < k) dims ix.
Definition index_in (g : group) (dims : list str) (ix : list nat) : Prop := within g (firstn (length ix) dims) ix.
(** The sizes of the arrays of structures are known, and not larger than their dimension. *)
Definition fitting_sizes (m : meta) (r : ncmeta) (h : bool) (g : group) : Prop :=
  forall p c a n v, in_ids m p c a n -> mkind c = KAoS -> In v (g_vars g) -> v_name v = dotted p ->
    exists outer d k, get_dimensions r h p = outer ++ [d] /\ size_of g d k /\
      (v_sparse v = true -> forall s ix z, In s (g_shapes g) -> s_name s = dotted p -> within g outer ix -> In z (s_data s ix) -> (0 <= z <= Z.of_nat k)%Z).

(** ** Contents *)
(** a[:z] along an axis of n elements has k elements *)
Definition prefix_len (z : Z) (n k : nat) : Prop := ((0 <= z -> Z.of_nat k = Z.min z (Z.of_nat n)) /\ (z < 0 -> Z.of_nat k = Z.max 0 (Z.of_nat n + z)))%Z.
Inductive sliced : list Z -> list nat -> list nat -> Prop :=
| sl_nil : sliced [] [] []
| sl_cons : forall z n k zs ns ks, prefix_len z n k -> sliced zs ns ks -> sliced (z :: zs) (n :: ns) (k :: ks).
(** not equal for numpy *)
Definition differs (a b : cell) : Prop :=
  match a, b with CFlt x, CFlt y => feq x y = false | CCpx x x', CCpx y y' => feq x y = false \/ feq x' y' = false | _, _ => a <> b end.
(** the array of structures p at index ix has k elements *)
Definition file_size (r : ncmeta) (h : bool) (g : group) (p : path) (ix : list nat) (k : nat) : Prop :=
  exists v, In v (g_vars g) /\ v_name v = dotted p /\
    if v_sparse v then exists s t, In s (g_shapes g) /\ s_name s = dotted p /\ index_in g (s_dims s) ix /\ s_data s ix = Z.of_nat k :: t
    else exists outer d, get_dimensions r h p = outer ++ [d] /\ size_of g d k.
(** quantity p (type dt, nd dimensions) at index ix has the value x *)
Definition file_value (g : group) (p : path) (dt : dtype) (nd : nat) (ix : list nat) (x : value) : Prop :=
  exists v full, In v (g_vars g) /\ v_name v = dotted p /\ index_in g (v_dims v) ix /\ Forall2 (size_of g) (skipn (length ix) (v_dims v)) full /\
    val_ok dt nd x /\ (forall jx, in_range (value_shape x) jx = true -> value_cell x jx = v_data v (ix ++ jx)) /\
    if v_sparse v then
      match nd with
      | 0 => forall f, v_fill v = Some f -> differs (v_data v ix) f
      | _ => exists s, In s (g_shapes g) /\ s_name s = dotted p /\ index_in g (s_dims s) ix /\ sliced (s_data s ix) full (value_shape x)
      end
    else value_shape x = full.
(** the elements on the way exist *)
Definition elements_exist (r : ncmeta) (h : bool) (g : group) (l : loc) : Prop :=
  forall a i b, l = a ++ Elem i :: b -> exists k, file_size r h g (loc_names a) (loc_idx a) k /\ i < k.
(** the file has a value, or elements, for the node at l *)
Definition file_leaf (m : meta) (r : ncmeta) (h : bool) (g : group) (l : loc) (v : value) : Prop :=
  exists c dt nd, loc_ok m l c /\ mkind c = KLeaf dt nd /\ elements_exist r h g l /\ file_value g (loc_names l) dt nd (loc_idx l) v /\ filled_value v.
Definition file_aos (m : meta) (r : ncmeta) (h : bool) (g : group) (l : loc) (k : nat) : Prop :=
  exists c, loc_ok m l c /\ mkind c = KAoS /\ elements_exist r h g l /\ file_size r h g (loc_names l) (loc_idx l) k /\ k > 0.

(** ** Acceptable files *)
Section Valid.
Variables (m : meta) (r : ncmeta) (units : path -> str) (g : group).
Definition valid_attributes (h : bool) (v : ncvar) (p : path) (c : meta) : Prop :=
  match mkind c with
  | KLeaf dt _ => v_type v = Some dt /\ v_dims v = get_dimensions r h p /\
      (forall l x, v_coords v = Some l -> In x l -> In x (get_coordinates r h p)) /\
      (forall l x, v_anc v = Some l -> In x l -> x = v_name v ++ strs "_error_upper" \/ x = v_name v ++ strs "_error_lower")
  | _ => v_coords v = None /\ v_anc v = None
  end.
Definition valid_shape (h : bool) (v : ncvar) (a : option path) (c : meta) : Prop :=
  exists s d, In s (g_shapes g) /\ s_name s = v_name v /\ s_integer s = true /\ size_of g d (ndim c) /\
    s_dims s = (match a with Some q => get_dimensions r h q | None => [] end) ++ [d].
Definition valid_variable (h : bool) (v : ncvar) (p : path) (c : meta) (a : option path) : Prop :=
  valid_attributes h v p c /\ v_extra v = [] /\ (units p = [] \/ v_units v = Some (units p)) /\ (v_sparse v = true -> ndim c > 0 -> valid_shape h v a c).
Definition mode_path : path := [strs "ids_properties"; strs "homogeneous_time"].
Definition valid_mode (h : bool) : Prop :=
  exists v c a n z, In v (g_vars g) /\ v_name v = dotted mode_path /\ in_ids m mode_path c a n /\ valid_variable true v mode_path c a /\
    v_data v [] = CInt z /\ (z = 0 \/ z = 1 \/ z = 2)%Z /\ (h = true <-> z = 1%Z).
Definition valid_contents (h : bool) : Prop :=
  (forall s, In s (g_shapes g) -> exists v, In v (g_vars g) /\ v_name v = s_name s /\ v_sparse v = true) /\
  (forall v, In v (g_vars g) -> exists p c a n, in_ids m p c a n /\ v_name v = dotted p /\ valid_variable h v p c a).
End Valid.

Section File.
Variable factory : str -> option (list (str * definition)).
Variable fuel : nat.
Definition valid_occurrence (d : definition) (g : group) : Prop :=
  exists r h, nc_metadata (d_attrs d) fuel (d_meta d) = Ok r /\ valid_mode (d_meta d) r (d_units d) g h /\ valid_contents (d_meta d) r (d_units d) g h.
(** the groups below an IDS name *)
Definition subgroup (f : ncfile) (name o : str) (g : group) : Prop := exists ig, In (name, ig) (nf_groups f) /\ In (o, g) (ig_occ ig).
Definition valid_file (fname : str) (f : ncfile) : Prop :=
  (exists b, fname = b ++ strs ".nc") /\ nf_own f = false /\ nf_groups f <> [] /\
  exists v defs, nf_version f = Some v /\ factory v = Some defs /\
    (forall name ig, In (name, ig) (nf_groups f) -> ig_own ig = false /\ In name (akeys defs)) /\
    (forall name o g, subgroup f name o g -> exists z, NcEntryModel.py_int o = Some z) /\
    (forall name d o g z, In (name, d) defs -> subgroup f name o g -> NcEntryModel.py_int o = Some z ->
       exists g', subgroup f name (NcEntryModel.show_Z z) g' /\ valid_occurrence d g').
(** names of groups beside each other are different *)
Definition distinct_groups (f : ncfile) : Prop := NoDup (akeys (nf_groups f)) /\ forall name ig, In (name, ig) (nf_groups f) -> NoDup (akeys (ig_occ ig)).
End File.
