(** Model of IDS trees: metadata, nodes, emptiness, tree iteration, difference and equality.
    Sources: imas/ids_structure.py, imas/ids_struct_array.py, imas/ids_primitive.py, imas/util.py. *)
From Verif Require Import Base.

(** ** Values *)
Inductive dtype := STR | INT | FLT | CPX.

(** A float is its IEEE 754 binary64 bit pattern, 0 <= b < 2^64. *)
Definition flt := Z.
Definition f_mag (b : flt) : Z := Z.land b (Z.ones 63).
Definition f_neg (b : flt) : bool := Z.testbit b 63.
Definition f_exp (b : flt) : Z := Z.land (Z.shiftr b 52) (Z.ones 11).
Definition f_man (b : flt) : Z := Z.land b (Z.ones 52).
Definition is_nan (b : flt) : bool := (f_exp b =? 2047)%Z && negb (f_man b =? 0)%Z.
(** Order-preserving key of non-NaN floats: both zeros have key 0. *)
Definition f_key (b : flt) : Z := if f_neg b then (- f_mag b)%Z else f_mag b.
(** IEEE equality *)
Definition feq (a b : flt) : bool := negb (is_nan a) && negb (is_nan b) && (f_key a =? f_key b)%Z.

(** imas/ids_defs.py:148-150 *)
Definition EMPTY_FLOAT : flt := 14443193296295420957%Z.   (* bit pattern of -9e40 *)
Definition EMPTY_INT : Z := (-999999999)%Z.

(** Values of data nodes.  Arrays: shape and flattened data (numpy arrays). *)
Inductive value :=
| VStr (s : str) | VInt (z : Z) | VFlt (f : flt) | VCpx (re im : flt)
| VStrs (l : list str)
| VIntA (shape : list nat) (d : list Z)
| VFltA (shape : list nat) (d : list flt)
| VCpxA (shape : list nat) (d : list (flt * flt)).

Definition prod (l : list nat) : nat := fold_right Nat.mul 1 l.

(** ** Metadata (the parts of imas/ids_metadata.py:IDSMetadata used for trees) *)
Inductive kind := KStruct | KAoS | KLeaf (dt : dtype) (ndim : nat).
Inductive meta := Meta (name : str) (k : kind) (children : list meta).
Definition mname (m : meta) : str := match m with Meta n _ _ => n end.
Definition mkind (m : meta) : kind := match m with Meta _ k _ => k end.
Definition mchildren (m : meta) : list meta := match m with Meta _ _ c => c end.

(** ** Nodes
    - [NStruct fields]: an IDSStructure; [fields] are the children present in [__dict__] (already accessed or set);
    - [NAoS elems]: an IDSStructArray; its elements are IDSStructures with the same metadata as the array;
    - [NLeaf v]: an IDSPrimitive; None = not set. *)
Inductive node := NStruct (fields : list (str * node)) | NAoS (elems : list node) | NLeaf (v : option value).
Definition fields := list (str * node).

Definition node_fields (n : node) : fields := match n with NStruct f => f | _ => [] end.
Definition node_elems (n : node) : list node := match n with NAoS l => l | _ => [] end.

(** Freshly created node, ids_structure.py:57-68 with the __init__ of the three classes. *)
Definition new_node (m : meta) : node :=
  match mkind m with KStruct => NStruct [] | KAoS => NAoS [] | KLeaf _ _ => NLeaf None end.

(** ids_primitive.py:108-123 [size] *)
Definition value_len (v : value) : nat :=
  match v with
  | VStr s => length s
  | VStrs l => length l
  | VIntA sh _ | VFltA sh _ | VCpxA sh _ => prod sh
  | VInt _ | VFlt _ | VCpx _ _ => 1
  end.
Definition leaf_size (ndim : nat) (v : option value) : nat :=
  match ndim with
  | O => 1
  | S _ => match v with None => 0 | Some v => value_len v end
  end.
(** ids_primitive.py:125-130 [has_value] *)
Definition leaf_has_value (ndim : nat) (v : option value) : bool :=
  match v with None => false | Some _ => 0 <? leaf_size ndim v end.

(** [has_value] of the three node classes: ids_primitive.py:125-130, ids_struct_array.py:209-213,
    ids_structure.py:185-194 with [iter_nonempty_] (ids_structure.py:196-266): children are visited in metadata order,
    only those present in [__dict__]. *)
Fixpoint has_value (m : meta) (n : node) {struct m} : bool :=
  match m with
  | Meta _ k cs =>
    match k, n with
    | KLeaf _ nd, NLeaf v => leaf_has_value nd v
    | KAoS, NAoS els => 0 <? length els
    | KStruct, NStruct fs =>
      existsb (fun c => match alookup (mname c) fs with Some ch => has_value c ch | None => false end) cs
    | _, _ => false                                    (* a node always has the class given by its metadata *)
    end
  end.

(** ids_structure.py:196-266 [iter_nonempty_] (not lazy) *)
Definition iter_nonempty (cs : list meta) (fs : fields) : list (meta * node) :=
  flat_map (fun c => match alookup (mname c) fs with
                     | Some ch => if has_value c ch then [(c, ch)] else []
                     | None => []
                     end) cs.

(** ** Locations of nodes in a tree *)
Inductive step := Child (name : str) | Elem (i : nat).
Definition loc := list step.

(** ** util.py:73-133 [tree_iter] / [_tree_iter]
    Yields locations relative to the start node together with the node.  With [visit_empty] iterating over a structure
    creates all missing children (ids_structure.py:268-270). *)
Definition enum {A} (l : list A) : list (nat * A) := combine (seq 0 (length l)) l.
Definition prefix_items {A} (s : step) (l : list (loc * A)) : list (loc * A) :=
  map (fun x => (s :: fst x, snd x)) l.

Fixpoint tree_iter_below (leaf_only visit_empty : bool) (m : meta) (n : node) {struct m} : list (loc * node) :=
  match m with
  | Meta _ k cs =>
    let below_struct (fs : fields) :=
      flat_map (fun c =>
        let visit ch :=
          prefix_items (Child (mname c))
            (match mkind c with
             | KLeaf _ _ => [([], ch)]
             | _ => (if leaf_only then [] else [([], ch)]) ++ tree_iter_below leaf_only visit_empty c ch
             end) in
        match alookup (mname c) fs with
        | Some ch => if visit_empty || has_value c ch then visit ch else []
        | None => if visit_empty then visit (new_node c) else []
        end) cs in
    match k, n with
    | KStruct, NStruct fs => below_struct fs
    | KAoS, NAoS els =>
      flat_map (fun ie => prefix_items (Elem (fst ie))
                  ((if leaf_only then [] else [([], snd ie)]) ++ below_struct (node_fields (snd ie)))) (enum els)
    | _, _ => []
    end
  end.

Definition tree_iter (leaf_only visit_empty include_node : bool) (m : meta) (n : node) : list (loc * node) :=
  match mkind m with
  | KLeaf _ _ => if include_node then [([], n)] else []
  | _ => (if include_node && negb leaf_only then [([], n)] else []) ++ tree_iter_below leaf_only visit_empty m n
  end.

(** ** Comparison of leaf values: numpy.array_equal, then numpy.array_equal(equal_nan=True) (util.py:213-221).
    numpy strings ignore trailing NUL characters.  Different element types are promoted as numpy does; integers are
    compared exactly (true for integers below 2^53). *)
Fixpoint strip_nul (s : str) : str :=
  match s with
  | [] => []
  | x :: t => match strip_nul t with
              | [] => if Ascii.eqb x zero then [] else [x]
              | r => x :: r
              end
  end.
Definition np_str_eq (a b : str) : bool := str_eqb (strip_nul a) (strip_nul b).

Definition f_frac (b : flt) : Z :=    (* integer significand *)
  let s := if (f_exp b =? 0)%Z then f_man b else (f_man b + 2 ^ 52)%Z in if f_neg b then (- s)%Z else s.
Definition f_pow (b : flt) : Z := ((if (f_exp b =? 0)%Z then 1 else f_exp b) - 1075)%Z.
Definition feqz (b : flt) (z : Z) : bool :=
  negb (f_exp b =? 2047)%Z &&
  (if (0 <=? f_pow b)%Z then (f_frac b * 2 ^ f_pow b =? z)%Z else (f_frac b =? z * 2 ^ (- f_pow b))%Z).
Definition f_zero (b : flt) : bool := (f_mag b =? 0)%Z.

Inductive scalar := SInt (z : Z) | SFlt (f : flt) | SCpx (re im : flt) | SStr (s : str).

(** equality of elements; [nan] = equal_nan *)
Definition scalar_nan (s : scalar) : bool :=
  match s with SFlt f => is_nan f | SCpx r i => is_nan r || is_nan i | _ => false end.
Definition scalar_eq (a b : scalar) : bool :=
  match a, b with
  | SInt x, SInt y => (x =? y)%Z
  | SFlt x, SFlt y => feq x y
  | SCpx r i, SCpx r' i' => feq r r' && feq i i'
  | SStr x, SStr y => np_str_eq x y
  | SInt z, SFlt f | SFlt f, SInt z => feqz f z
  | SInt z, SCpx r i | SCpx r i, SInt z => feqz r z && f_zero i
  | SFlt f, SCpx r i | SCpx r i, SFlt f => feq f r && f_zero i
  | _, _ => false
  end.
Definition scalar_eq_nan (a b : scalar) : bool :=
  if scalar_nan a || scalar_nan b then scalar_nan a && scalar_nan b else scalar_eq a b.

Definition value_shape (v : value) : list nat :=
  match v with
  | VStrs l => [length l]
  | VIntA sh _ | VFltA sh _ | VCpxA sh _ => sh
  | _ => []
  end.
Definition value_data (v : value) : list scalar :=
  match v with
  | VStr s => [SStr s] | VInt z => [SInt z] | VFlt f => [SFlt f] | VCpx r i => [SCpx r i]
  | VStrs l => map SStr l
  | VIntA _ d => map SInt d | VFltA _ d => map SFlt d | VCpxA _ d => map (fun x => SCpx (fst x) (snd x)) d
  end.

Fixpoint list_eqb {A} (eqb : A -> A -> bool) (a b : list A) : bool :=
  match a, b with
  | [], [] => true
  | x :: a', y :: b' => eqb x y && list_eqb eqb a' b'
  | _, _ => false
  end.
Definition array_equal (eq : scalar -> scalar -> bool) (a b : value) : bool :=
  list_eqb Nat.eqb (value_shape a) (value_shape b) && list_eqb eq (value_data a) (value_data b).

(** [isnan] is not supported for strings: TypeError, hence [eq = False] (util.py:216-219) *)
Definition leaf_eq (a b : value) : bool :=
  array_equal scalar_eq a b || array_equal scalar_eq_nan a b.

(** Value returned by the [value] getter, ids_primitive.py:159-169 and [_default], 139-146 *)
Definition default_value (dt : dtype) (nd : nat) : value :=
  match nd with
  | O => match dt with STR => VStr [] | INT => VInt EMPTY_INT | FLT => VFlt EMPTY_FLOAT
                     | CPX => VCpx EMPTY_FLOAT EMPTY_FLOAT end
  | S _ => match dt with STR => VStrs [] | INT => VIntA (repeat 0 nd) [] | FLT => VFltA (repeat 0 nd) []
                       | CPX => VCpxA (repeat 0 nd) [] end
  end.
Definition leaf_value (m : meta) (n : node) : value :=
  match mkind m, n with
  | KLeaf dt nd, NLeaf None => default_value dt nd
  | _, NLeaf (Some v) => v
  | _, _ => VStr []
  end.

(** ** Differences, util.py:151-246 *)
Inductive diff :=
| DVersion | DName | DPath                                   (* 176-191 *)
| DNode (path : list str) (left right : option node)         (* path_string, node1, node2 *)
| DTypes (path : list str) (left right : node).              (* "Incompatible types for ..." *)

Definition loc_names (l : loc) : list str := flat_map (fun s => match s with Child n => [n] | Elem _ => [] end) l.

(** A child only present on one side, 203-208 and 239-244: for a structure its filled leaves, otherwise the node. *)
Definition only_on_one_side (side : option node -> option node -> list str -> diff) (pre : list str) (c : meta) (n : node)
  : list diff :=
  match mkind c with
  | KStruct => map (fun x => side (Some (snd x)) None (pre ++ mname c :: loc_names (fst x))) (tree_iter true false false c n)
  | _ => [side (Some n) None (pre ++ [mname c])]
  end.
Definition left_side (a b : option node) (p : list str) : diff := DNode p a b.
Definition right_side (a b : option node) (p : list str) : diff := DNode p b a.

Fixpoint find_child (name : str) (l : list (meta * node)) : option (meta * node) :=
  match l with
  | [] => None
  | (m, n) :: t => if str_eqb name (mname m) then Some (m, n) else find_child name t
  end.

(** [_idsdiffgen] for a pair of children (209-237): [pre] is the path of the parent structure *)
Fixpoint diff_child (pre : list str) (c1 : meta) (n1 : node) (c2 : meta) (n2 : node) {struct c1} : list diff :=
  match c1 with
  | Meta name k1 cs1 =>
    let pre' := pre ++ [name] in
    let diff_struct (f1 : fields) (cs2 : list meta) (f2 : fields) :=
      let children1 := iter_nonempty cs1 f1 in
      let children2 := iter_nonempty cs2 f2 in
      flat_map (fun c =>
        match alookup (mname c) f1 with
        | None => []
        | Some ch =>
          if has_value c ch then
            match find_child (mname c) children2 with
            | None => only_on_one_side left_side pre' c ch
            | Some (c2', ch2) => diff_child pre' c ch c2' ch2
            end
          else []
        end) cs1
      ++ flat_map (fun cn => match find_child (mname (fst cn)) children1 with
                             | Some _ => []                    (* popped from children2, 201 *)
                             | None => only_on_one_side right_side pre' (fst cn) (snd cn)
                             end) children2 in
    match k1, n1, mkind c2, n2 with
    | KLeaf _ _, NLeaf _, KLeaf _ _, NLeaf _ =>
      if leaf_eq (leaf_value c1 n1) (leaf_value c2 n2) then [] else [DNode pre' (Some n1) (Some n2)]
    | KStruct, NStruct f1, KStruct, NStruct f2 => diff_struct f1 (mchildren c2) f2
    | KAoS, NAoS e1, KAoS, NAoS e2 =>
      (if length e1 =? length e2 then [] else [DNode pre' (Some n1) (Some n2)])
      ++ flat_map (fun p => diff_struct (node_fields (fst p)) (mchildren c2) (node_fields (snd p))) (combine e1 e2)
    | _, _, _, _ => [DTypes pre' n1 n2]
    end
  end.

(** A structure inside some IDS: data dictionary version, IDS name, metadata path, metadata and fields. *)
Record handle := { h_version : str; h_ids : str; h_path : list str; h_meta : meta; h_node : node }.

(** [_idsdiffgen(struct1, struct2)] for two structures: same as the structure case of [diff_child] with the two
    structures taken as children of a structure with path [h_path] minus its last name.  Paths inside an IDS do not start
    with the name of the IDS. *)
Definition drop_ids_name (d : diff) : diff :=
  match d with DNode (_ :: p) a b => DNode p a b | DTypes (_ :: p) a b => DTypes p a b | d => d end.
Definition idsdiff_struct (path : list str) (c1 : meta) (n1 : node) (c2 : meta) (n2 : node) : list diff :=
  let as_struct c := Meta (mname c) KStruct (mchildren c) in
  let ds := diff_child (removelast path) (as_struct c1) n1 (as_struct c2) n2 in
  match path with [] => map drop_ids_name ds | _ => ds end.

Definition idsdiffgen (a b : handle) : list diff :=
  (if str_eqb (h_version a) (h_version b) then [] else [DVersion])
  ++ (if str_eqb (h_ids a) (h_ids b) then [] else [DName])
  ++ (if list_eqb str_eqb (h_path a) (h_path b) then [] else [DPath])
  ++ idsdiff_struct (h_path a) (h_meta a) (h_node a) (h_meta b) (h_node b).

(** ids_structure.py:161-170 [__eq__] (for two different objects) *)
Definition ids_eq (a b : handle) : bool := match idsdiffgen a b with [] => true | _ => false end.

(** ** Reading a node: ids_structure.py:57-68 [__getattr__] creates a missing child; ids_primitive.py:159-169 stores the
    default of an unset 1+D data node when its value is read.  Unknown names (AttributeError) and indices out of range
    (IndexError) leave the tree as created so far. *)
Definition child_meta (name : str) (cs : list meta) : option meta := find (fun c => str_eqb name (mname c)) cs.
Fixpoint list_set {A} (i : nat) (x : A) (l : list A) : list A :=
  match l, i with
  | [], _ => []
  | _ :: t, O => x :: t
  | y :: t, S j => y :: list_set j x t
  end.
Fixpoint access (m : meta) (n : node) (l : loc) {struct l} : node :=
  match l with
  | [] => match mkind m, n with
          | KLeaf dt (S nd), NLeaf None => NLeaf (Some (default_value dt (S nd)))
          | _, _ => n
          end
  | Child name :: l' =>
    match mkind m, n, child_meta name (mchildren m) with
    | KStruct, NStruct fs, Some c =>
      let ch := match alookup name fs with Some ch => ch | None => new_node c end in
      NStruct (aset name (access c ch l') fs)
    | _, _, _ => n
    end
  | Elem i :: l' =>
    match mkind m, n with
    | KAoS, NAoS els =>
      match nth_error els i with
      | Some e => NAoS (list_set i (access (Meta (mname m) KStruct (mchildren m)) e l') els)
      | None => n
      end
    | _, _ => n
    end
  end.
