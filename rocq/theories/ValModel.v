(** Model of coordinates and validation.
    Sources: imas/ids_coordinates.py, imas/ids_toplevel.py:216-290, imas/ids_base.py:116-131, imas/ids_structure.py:307-313,
    imas/ids_struct_array.py:220-227, imas/ids_primitive.py:247-252, imas/ids_path.py:170-224 (goto).

    The tree is that of TreeModel.v; nodes are addressed by their location.  Everything that is read changes the tree as in
    the code (children are created, defaults of 1+D data nodes are stored), so all functions here take the tree and return it.
    The attributes of a metadata node are given by a function of its path (any data dictionary).

    Simplified: an attribute of a data node or array of structures that is not a child in the data dictionary (such as
    [shape] or [value] used as names in a coordinate path) does not exist; indexing something that is not an array of
    structures is an error of the ignored kind; numpy arrays made from ragged data raise (numpy >= 1.24); log messages and
    the text of error messages are left out; the lazy case (only loaded data is validated) is left out. *)
From Verif Require Import Base PathModel TreeModel.
From Verif Require NcEntryModel.

(** ** Coordinate specifications *)

(** [IDSCoordinate], ids_coordinates.py:24-99: exact size and references *)
Record coord := { c_size : option Z; c_refs : list path }.

(** [s.split(" OR ")] *)
Fixpoint split_sub (sep : str) (skip : nat) (cur s : str) : list str :=
  match s with
  | [] => [cur]
  | x :: t =>
    match skip with
    | S k => split_sub sep k cur t
    | O => if str_eqb sep (firstn (length sep) s) then cur :: split_sub sep (length sep - 1) [] t
           else split_sub sep 0 (cur ++ [x]) t
    end
  end.
Definition starts_with (p s : str) : bool := str_eqb p (firstn (length p) s).

(** [__init__], ids_coordinates.py:57-86.  A specification that cannot be parsed is ignored. *)
Definition add_spec (c : coord) (spec : str) : coord :=
  if starts_with (strs "1...") spec then
    if str_eqb spec (strs "1...N") then c
    else match NcEntryModel.py_int (skipn 4 spec) with
         | Some z => {| c_size := Some z; c_refs := c_refs c |}
         | None => c
         end
  else if starts_with (strs "IDS:") spec then c
  else match spec with
       | [] => c
       | _ => match parse spec with
              | Ok p => {| c_size := c_size c; c_refs := c_refs c ++ [p] |}
              | Err _ => c
              end
       end.
Definition coord_of_spec (s : str) : coord :=
  fold_left add_spec (split_sub (strs " OR ") 0 [] s) {| c_size := None; c_refs := [] |}.

(** ids_coordinates.py:88-94 and ids_path.py:144 *)
Definition num_rules (c : coord) : nat := length (c_refs c) + match c_size c with Some _ => 1 | None => 0 end.
Definition has_validation (c : coord) : bool := 0 <? num_rules c.
Definition has_alternatives (c : coord) : bool := 1 <? num_rules c.
Definition is_time_path (p : path) : bool :=
  match rev (fst p) with x :: _ => str_eqb x (strs "time") | [] => false end.
Definition is_time (c : coord) : bool := existsb is_time_path (c_refs c).

(** Attributes of a metadata node used here, ids_metadata.py:205-239 *)
Record attrs := { a_dynamic : bool; a_coords : list coord; a_same : list coord; a_alts : list path }.
Definition no_coord : coord := {| c_size := None; c_refs := [] |}.

(** ** Reading the tree *)

(** What can be seen of the node at a location; a child that was never accessed is seen as an empty node. *)
Inductive info := IStruct (cs : list meta) | IAoS (k : nat) | ILeaf (nd : nat) (v : value).
Definition child_or_new (c : meta) (fs : fields) : node :=
  match alookup (mname c) fs with Some ch => ch | None => new_node c end.
Fixpoint look (m : meta) (n : node) (l : loc) {struct l} : option (meta * node) :=
  match l with
  | [] => Some (m, n)
  | Child name :: l' =>
    match mkind m, n, child_meta name (mchildren m) with
    | KStruct, NStruct fs, Some c => look c (child_or_new c fs) l'
    | _, _, _ => None
    end
  | Elem i :: l' =>
    match mkind m, n with
    | KAoS, NAoS els =>
      match nth_error els i with
      | Some e => look (Meta (mname m) KStruct (mchildren m)) e l'
      | None => None
      end
    | _, _ => None
    end
  end.
Definition info_of (m : meta) (n : node) : option info :=
  match mkind m, n with
  | KStruct, NStruct _ => Some (IStruct (mchildren m))
  | KAoS, NAoS els => Some (IAoS (length els))
  | KLeaf _ nd, NLeaf _ => Some (ILeaf nd (leaf_value m n))
  | _, _ => None
  end.
Definition info_at (m : meta) (n : node) (l : loc) : option info :=
  match look m n l with Some (m', n') => info_of m' n' | None => None end.
Definition filled_at (m : meta) (n : node) (l : loc) : bool :=
  match look m n l with Some (m', n') => has_value m' n' | None => false end.

(** Exceptions during a lookup: IndexError, CoordinateLookupError, any other *)
Inductive lexn := EIndex | ELookup | EOther.
(** Exceptions that leave validate: ValidationError (and its subclass CoordinateError), any other *)
Inductive vexn := VInvalid | VUncaught.

(** Computations that read (and so may touch) the tree *)
Definition M (E A : Type) := node -> node * result E A.
Definition ret {E A} (a : A) : M E A := fun n => (n, Ok a).
Definition fail {E A} (e : E) : M E A := fun n => (n, Err e).
Definition bind {E A B} (c : M E A) (f : A -> M E B) : M E B :=
  fun n => let (n', r) := c n in match r with Ok a => f a n' | Err e => (n', Err e) end.
Notation "'dom' x <- c ; k" := (bind c (fun x => k)) (at level 200, x pattern, c at level 100, k at level 200).
Fixpoint mapM {E A B} (f : A -> M E B) (l : list A) : M E (list B) :=
  match l with [] => ret [] | x :: t => dom y <- f x; dom ys <- mapM f t; ret (y :: ys) end.
Definition iterM {E A} (f : A -> M E unit) : list A -> M E unit :=
  fix go (l : list A) : M E unit := match l with [] => ret tt | x :: t => dom _ <- f x; go t end.

Section Val.
Variable m : meta.                      (* the IDS *)
Variable at_ : list str -> attrs.       (* attributes of its metadata, by path *)

(** a node is created by attribute access; the extra step makes [access] stop before it reads the value of a data node *)
Definition touch {E} (l : loc) : M E unit := fun n => (access m n (l ++ [Elem 0]), Ok tt).
Definition view {E} (e : E) (l : loc) : M E info :=
  fun n => (n, match info_at m n l with Some i => Ok i | None => Err e end).
(** the attribute [value] of a data node: stores the default *)
Definition read (l : loc) : M lexn value :=
  fun n => let n' := access m n l in
           (n', match info_at m n' l with Some (ILeaf _ v) => Ok v | _ => Err EOther end).

(** ids_path.py:195-224.  [getattr(element, part)] *)
Definition getattr_ (l : loc) (part : str) : M lexn loc :=
  dom i <- view EOther l;
  match i with
  | IStruct cs => match child_meta part cs with
                  | Some _ => dom _ <- touch (l ++ [Child part]); ret (l ++ [Child part])
                  | None => fail EOther
                  end
  | _ => fail EOther
  end.
(** [element[index]] *)
Definition py_idx (z : Z) (k : nat) : option nat :=
  if (0 <=? z)%Z && (z <? Z.of_nat k)%Z then Some (Z.to_nat z)
  else if (- Z.of_nat k <=? z)%Z && (z <? 0)%Z then Some (Z.to_nat (z + Z.of_nat k)) else None.
Definition getitem (l : loc) (z : Z) : M lexn loc :=
  dom i <- view EOther l;
  match i with
  | IAoS k => match py_idx z k with Some j => ret (l ++ [Elem j]) | None => fail EIndex end
  | _ => fail EOther
  end.

(** The ancestor of a location whose metadata path has k names ([_dd_parent] repeated, ids_base.py:42-53): from inside an
    array of structures one gets to the element, not to the array. *)
Fixpoint upto (k : nat) (l : loc) : loc :=
  match l with
  | [] => []
  | Elem i :: t => Elem i :: upto k t
  | Child c :: t => match k with O => [] | S j => Child c :: upto j t end
  end.

Definition goto_steps (nested : index -> M lexn Z) (from : loc)
  : list index -> list str -> nat -> option loc -> M lexn loc :=
  fix loop (ix : list index) (ps : list str) (i : nat) (elt : option loc) {struct ix} : M lexn loc :=
    match ix, ps with
    | idx :: ix', part :: ps' =>
      match idx with
      | ISlice _ _ => fail EOther
      | _ =>
        if match elt, nth_error (loc_names from) i with None, Some q => str_eqb part q | _, _ => false end
        then loop ix' ps' (S i) None
        else
          dom c <- getattr_ (match elt with Some e => e | None => upto i from end) part;
          match idx with
          | INone => loop ix' ps' (S i) (Some c)
          | INum z => dom c2 <- getitem c z; loop ix' ps' (S i) (Some c2)
          | IPath _ _ => dom z <- nested idx; dom c2 <- getitem c (z - 1); loop ix' ps' (S i) (Some c2)
          | _ => fail EOther
          end
      end
    | _, _ => ret (match elt with Some e => e | None => upto i from end)
    end.
(** [index.goto(from_element).value], which must be an int *)
Definition as_int (v : value) : M lexn Z := match v with VInt z => ret z | _ => fail EOther end.
Fixpoint goto_index (from : loc) (p : index) {struct p} : M lexn Z :=
  match p with
  | IPath ps ix => dom q <- goto_steps (goto_index from) from ix ps 0 None; dom v <- read q; as_int v
  | _ => fail EOther
  end.
(** [IDSPath.goto(from_element)] from the root *)
Definition goto (from : loc) (p : path) : M lexn loc := goto_steps (goto_index from) from (snd p) (fst p) 0 None.

(** [_time_mode], ids_toplevel.py:93-95 *)
Definition time_mode : M lexn Z :=
  dom a <- getattr_ [] (strs "ids_properties"); dom b <- getattr_ a (strs "homogeneous_time"); dom v <- read b; as_int v.

(** [shape] (ids_primitive.py:88-100, ids_struct_array.py:147-155) and [len()] (ids_primitive.py:132-137) *)
Definition shape_of (i : info) : option (list nat) :=
  match i with
  | IStruct _ => None
  | IAoS k => Some [k]
  | ILeaf nd v => Some (match nd with O => [] | _ => value_shape v end)
  end.
Definition shape (l : loc) : M lexn (list nat) :=
  dom i <- view EOther l; match shape_of i with Some s => ret s | None => fail EOther end.
Definition len_of (i : info) : option nat :=
  match i with
  | IAoS k => Some k
  | ILeaf (S _) v => match value_shape v with k :: _ => Some k | [] => None end
  | _ => None
  end.
Definition len (l : loc) : M lexn nat :=
  dom i <- view EOther l; match len_of i with Some k => ret k | None => fail EOther end.
(** [len(ref.value)]: strings have a length as well *)
Definition value_length (i : info) : option nat :=
  match i with
  | ILeaf O (VStr s) => Some (length s)
  | i => len_of i
  end.
Definition len_value (l : loc) : M lexn nat :=
  dom i <- view EOther l;
  match i with
  | ILeaf _ _ => dom _ <- read l; dom j <- view EOther l; match value_length j with Some k => ret k | None => fail EOther end
  | i => match value_length i with Some k => ret k | None => fail EOther end
  end.

(** ** Lookup of coordinates, [IDSCoordinates.__getitem__], ids_coordinates.py:171-267 *)
Inductive cres :=
| CNode (l : loc)                (* a node *)
| CRange (k : nat)               (* numpy.arange *)
| CData (vs : list value).       (* numpy array of the values of all elements of the array of structures *)

Definition time_path : path := ([strs "time"], [INone]).
(** 185-201 *)
Definition choose_path (c : coord) : M lexn (option path) :=
  if is_time c then
    dom t <- time_mode;
    if (t =? 1)%Z then ret (Some time_path)
    else if (t =? 0)%Z then ret (hd_error (c_refs c))
    else fail EOther
  else if has_alternatives c then ret None else ret (hd_error (c_refs c)).

(** [np.array(data)]: all elements of the same shape *)
Definition regular (vs : list value) : bool :=
  match vs with [] => true | v :: t => forallb (fun w => list_eqb Nat.eqb (value_shape v) (value_shape w)) t end.
Definition own_data (l : loc) (p : path) (k : nat) : M lexn cres :=
  dom vs <- mapM (fun i => dom q <- goto (l ++ [Elem i]) p; read q) (seq 0 k);
  if regular vs then ret (CData vs) else fail EOther.

Fixpoint zip {A B} (a : list A) (b : list B) : list (A * B) :=
  match a, b with x :: a', y :: b' => (x, y) :: zip a' b' | _, _ => [] end.
Definition all_equal (l : list nat) : bool := match l with [] => true | x :: t => forallb (Nat.eqb x) t end.
(** 211-236: alternative coordinates of the referred node *)
Definition choose_alternative (cn : loc) (alts : list path) : M lexn cres :=
  dom k <- len cn;
  dom rest <- mapM (fun a => dom q <- goto cn a; dom j <- len q; ret (q, j)) alts;
  let nz := filter (fun x => 0 <? snd x) ((cn, k) :: rest) in
  match nz with
  | [] => ret (CNode cn)
  | (q, _) :: _ => if all_equal (map snd nz) then ret (CNode q) else fail ELookup
  end.
(** 240-267: alternatives in the coordinate itself *)
Definition choose_reference (l : loc) (dim : nat) (c : coord) : M lexn cres :=
  dom rs <- mapM (goto l) (c_refs c);
  dom ks <- mapM len_value rs;
  match filter (fun x => 0 <? snd x) (zip rs ks) with
  | [] => match c_size c with
          | Some _ => dom s <- shape l; ret (CRange (nth dim s 0))
          | None => fail ELookup
          end
  | [(q, _)] => ret (CNode q)
  | _ => fail ELookup
  end.

Definition lookup (l : loc) (dim : nat) : M lexn cres :=
  let c := nth dim (a_coords (at_ (loc_names l))) no_coord in
  match c_refs c with
  | [] => dom s <- shape l; ret (CRange (nth dim s 0))
  | _ =>
    dom p <- choose_path c;
    match p with
    | Some p =>
      dom i <- view EOther l;
      match i with
      | IAoS k =>
        if is_ancestor_of (loc_names l, []) p then own_data l p k
        else dom cn <- goto l p;
             match a_alts (at_ (loc_names cn)) with [] => ret (CNode cn) | alts => choose_alternative cn alts end
      | _ => dom cn <- goto l p;
             match a_alts (at_ (loc_names cn)) with [] => ret (CNode cn) | alts => choose_alternative cn alts end
      end
    | None => choose_reference l dim c
    end
  end.

(** ** Validation *)

(** [_capture_goto_errors], ids_coordinates.py:344-392: None when the error is ignored *)
Definition capture {A} (c : M lexn A) : M vexn (option A) :=
  fun n => let (n', r) := c n in
           (n', match r with
                | Ok a => Ok (Some a)
                | Err ELookup | Err EIndex => Err VInvalid
                | Err EOther => Ok None
                end).
(** an error outside of it *)
Definition uncaught {A} (c : M lexn A) : M vexn A :=
  fun n => let (n', r) := c n in (n', match r with Ok a => Ok a | Err _ => Err VUncaught end).

(** [EMPTY_FLOAT in array] *)
Definition has_empty (vs : list value) : bool :=
  existsb (fun v => existsb (fun s => scalar_eq s (SFlt EMPTY_FLOAT)) (value_data v)) vs.
Definition one_dim (vs : list value) : bool := forallb (fun v => match value_shape v with [] => true | _ => false end) vs.

(** first size of what was found, in a capture block (316-319) *)
Definition expected (r : cres) : M lexn nat :=
  match r with
  | CNode q => dom s <- shape q; match s with k :: _ => ret k | [] => fail EIndex end
  | CRange k => ret k
  | CData vs => ret (length vs)
  end.
Definition truthy (z : option Z) : bool := match z with Some z => negb (z =? 0)%Z | None => false end.

(** [_validate], 281-326, one dimension.  [k] is the size of the node in this dimension. *)
Definition check_coord (l : loc) (dim k : nat) : M vexn unit :=
  let c := nth dim (a_coords (at_ (loc_names l))) no_coord in
  if negb (has_validation c) then ret tt else
  if truthy (c_size c) && match c_size c with Some z => (Z.of_nat k =? z)%Z | None => false end then ret tt else
  if truthy (c_size c) && negb (has_alternatives c) then fail VInvalid else
  match c_refs c with
  | [] => fail VUncaught                                      (* assert coordinate.references *)
  | _ =>
    dom r <- capture (lookup l dim);
    match r with
    | None => ret tt
    | Some r =>
      dom _ <- match r with
         | CNode _ => ret tt
         | CRange _ => if truthy (c_size c) then fail VInvalid else ret tt
         | CData vs => if truthy (c_size c) then fail VInvalid
                       else if has_empty vs then fail (if one_dim vs then VInvalid else VUncaught) else ret tt
         end;
      dom e <- capture (expected r);
      match e with
      | None => ret tt
      | Some e => if k =? e then ret tt
                  else match r with CNode _ => fail VInvalid | _ => fail VUncaught end
      end
    end
  end.
(** 328-342 *)
Definition check_same (l : loc) (dim k : nat) : M vexn unit :=
  let c := nth dim (a_same (at_ (loc_names l))) no_coord in
  if negb (has_validation c) then ret tt else
  match c_refs c with
  | [p] =>
    dom q <- capture (goto l p);
    match q with
    | None => ret tt
    | Some q => dom s <- uncaught (shape q);
                match nth_error s dim with
                | None => fail VUncaught
                | Some e => if k =? e then ret tt else fail VInvalid
                end
    end
  | _ => fail VUncaught                                       (* assert len(same_as.references) == 1 *)
  end.
Definition check_coords (l : loc) : M vexn unit :=
  dom s <- uncaught (shape l);
  dom _ <- iterM (fun d => check_coord l (fst d) (snd d)) (enum s);
  iterM (fun d => check_same l (fst d) (snd d)) (enum s).

(** ids_base.py:116-131 *)
Definition filled (l : loc) : M vexn bool := fun n => (n, Ok (filled_at m n l)).
Definition check_dynamic (l : loc) : M vexn unit :=
  if a_dynamic (at_ (loc_names l)) then
    dom f <- filled l;
    if f then dom t <- uncaught time_mode; if (t =? 2)%Z then fail VInvalid else ret tt else ret tt
  else ret tt.

(** children that are present and have a value, ids_structure.py:196-266 *)
Definition present_at (l : loc) (c : meta) : M vexn bool := filled (l ++ [Child (mname c)]).

Fixpoint validate_node (c : meta) (l : loc) {struct c} : M vexn unit :=
  match c with
  | Meta _ k cs =>
    let children (l : loc) :=
      iterM (fun d => dom f <- present_at l d; if f then validate_node d (l ++ [Child (mname d)]) else ret tt) cs in
    match k with
    | KStruct => dom _ <- check_dynamic l; children l
    | KAoS =>
      dom _ <- check_dynamic l;
      dom f <- filled l;
      if f then
        dom _ <- check_coords l;
        dom i <- view VUncaught l;
        iterM (fun j => dom _ <- check_dynamic (l ++ [Elem j]); children (l ++ [Elem j]))
              (seq 0 (match i with IAoS k => k | _ => 0 end))
      else ret tt
    | KLeaf _ nd =>
      dom _ <- check_dynamic l;
      dom f <- filled l;
      match nd with O => ret tt | _ => if f then check_coords l else ret tt end
    end
  end.

(** ids_toplevel.py:261-290; [const]: the IDS is constant *)
Definition validate (const : bool) : M vexn unit :=
  dom t <- uncaught time_mode;
  if negb (existsb (Z.eqb t) [0; 1; 2]%Z) then fail VInvalid else
  if const && negb (t =? 2)%Z then fail VInvalid else
  iterM (fun d => dom f <- present_at [] d; if f then validate_node d [Child (mname d)] else ret tt) (mchildren m).

End Val.
