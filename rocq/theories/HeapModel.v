(** Model of IDS nodes as mutable objects: identities, parent pointers, shared arrays.
    Sources: imas/ids_structure.py, imas/ids_struct_array.py, imas/ids_primitive.py, imas/ids_base.py, imas/ids_path.py.
    Not modelled here: lazy loading ([_lazy] is False) and identifier assignment. *)
From Verif Require Import Base TreeModel PathModel.

Definition oid := nat.

(** Value of a data node: an immutable Python object (0D) or a reference to a mutable list or numpy array (1+D). *)
Inductive stored := SImm (v : value) | SBuf (b : nat).
(** [__dict__] restricted to child nodes / [value] of an array of structures / [__value] of a data node *)
Inductive body := BStruct (fs : list (str * oid)) | BAoS (els : list oid) | BPrim (v : option stored).
(** [_parent] (None for a toplevel, whose parent is an IDSFactory), [metadata.path], [metadata] *)
Record obj := { o_parent : option oid; o_path : list str; o_meta : meta; o_body : body }.
Record heap := { h_objs : list obj; h_bufs : list value }.

Inductive exn := EAttribute | EType | EValue | EIndex | ENotImplemented.

Definition get (h : heap) (x : oid) : option obj := nth_error (h_objs h) x.
Definition put (h : heap) (x : oid) (ob : obj) : heap :=
  {| h_objs := list_set x ob (h_objs h); h_bufs := h_bufs h |}.
Definition set_body (h : heap) (x : oid) (b : body) : heap :=
  match get h x with
  | Some ob => put h x {| o_parent := o_parent ob; o_path := o_path ob; o_meta := o_meta ob; o_body := b |}
  | None => h
  end.
Definition set_parent (h : heap) (x p : oid) : heap :=
  match get h x with
  | Some ob => put h x {| o_parent := Some p; o_path := o_path ob; o_meta := o_meta ob; o_body := o_body ob |}
  | None => h
  end.
Definition alloc (h : heap) (ob : obj) : heap * oid :=
  ({| h_objs := h_objs h ++ [ob]; h_bufs := h_bufs h |}, length (h_objs h)).
Definition alloc_buf (h : heap) (v : value) : heap * nat :=
  ({| h_objs := h_objs h; h_bufs := h_bufs h ++ [v] |}, length (h_bufs h)).
Definition set_buf (h : heap) (b : nat) (v : value) : heap :=
  {| h_objs := h_objs h; h_bufs := list_set b v (h_bufs h) |}.

(** Empty node of the class given by the metadata (the three [__init__] methods, [IDSMetadata._node_type]) *)
Definition new_body (m : meta) : body :=
  match mkind m with KStruct => BStruct [] | KAoS => BAoS [] | KLeaf _ _ => BPrim None end.
Definition new_child (p : oid) (path : list str) (c : meta) : obj :=
  {| o_parent := Some p; o_path := path ++ [mname c]; o_meta := c; o_body := new_body c |}.
(** [IDSStructure(self, self.metadata)]: an element has the metadata of its array *)
Definition new_elem (a : oid) (path : list str) (m : meta) : obj :=
  {| o_parent := Some a; o_path := path; o_meta := m; o_body := BStruct [] |}.

(** ids_structure.py:57-68 [__getattr__] (and the attribute lookup in [__dict__] before it).  Attributes that are not child
    nodes are not modelled. *)
Definition getattr (h : heap) (o : oid) (name : str) : heap * result exn oid :=
  match get h o with
  | Some ob =>
    match o_body ob with
    | BStruct fs =>
      match alookup name fs with
      | Some c => (h, Ok c)
      | None =>
        match child_meta name (mchildren (o_meta ob)) with
        | None => (h, Err EAttribute)
        | Some cm => let (h1, x) := alloc h (new_child o (o_path ob) cm) in
                     (set_body h1 o (BStruct (aset name x fs)), Ok x)
        end
      end
    | _ => (h, Err EAttribute)
    end
  | None => (h, Err EAttribute)
  end.

(** Python list index: negative indices count from the end *)
Definition py_index (n : nat) (i : Z) : option nat :=
  (if (0 <=? i) && (i <? Z.of_nat n) then Some (Z.to_nat i)
   else if (- Z.of_nat n <=? i) && (i <? 0) then Some (Z.to_nat (i + Z.of_nat n))
   else None)%Z.

(** ids_struct_array.py:123-129 [__getitem__] *)
Definition aos_getitem (h : heap) (a : oid) (i : Z) : heap * result exn oid :=
  match get h a with
  | Some ob =>
    match o_body ob with
    | BAoS els => match py_index (length els) i with
                  | Some k => (h, match nth_error els k with Some e => Ok e | None => Err EIndex end)
                  | None => (h, Err EIndex)
                  end
    | BStruct _ => (h, Err EValue)      (* ids_structure.py:275-284: str(i) is not a valid path *)
    | BPrim _ => (h, Err EType)         (* the result is not a node *)
    end
  | None => (h, Err EAttribute)
  end.

(** ids_struct_array.py:131-140 [__setitem__] with a node; [_parent] of the value is left as it is *)
Definition aos_setitem (h : heap) (a : oid) (i : Z) (v : oid) : heap * result exn unit :=
  match get h a with
  | Some ob =>
    match o_body ob with
    | BAoS els => match py_index (length els) i with
                  | Some k => (set_body h a (BAoS (list_set k v els)), Ok tt)
                  | None => (h, Err EIndex)
                  end
    | _ => (h, Err EType)
    end
  | None => (h, Err EAttribute)
  end.

(** ids_struct_array.py:142-145 [__len__] *)
Definition aos_len (h : heap) (a : oid) : option nat :=
  match get h a with
  | Some ob => match o_body ob with BAoS els => Some (length els) | _ => None end
  | None => None
  end.

(** ids_struct_array.py:157-173 [append] *)
Fixpoint append (h : heap) (a : oid) (vs : list oid) : heap * result exn unit :=
  match vs with
  | [] => (h, Ok tt)
  | v :: t =>
    match get h a with
    | Some ob =>
      match o_body ob with
      | BAoS els => append (set_body (set_parent h v a) a (BAoS (els ++ [v]))) a t
      | _ => (h, Err EAttribute)
      end
    | None => (h, Err EAttribute)
    end
  end.

(** ids_struct_array.py:199 [IDSStructure(self, self.metadata) for _ in range(k)] *)
Fixpoint alloc_elems (h : heap) (a : oid) (path : list str) (m : meta) (k : nat) : heap * list oid :=
  match k with
  | O => (h, [])
  | S j => let (h1, x) := alloc h (new_elem a path m) in
           let (h2, l) := alloc_elems h1 a path m j in (h2, x :: l)
  end.
(** ids_struct_array.py:178-207 [resize] *)
Definition resize (h : heap) (a : oid) (n : Z) (keep : bool) : heap * result exn unit :=
  if (n <? 0)%Z then (h, Err EValue) else
  match get h a with
  | Some ob =>
    match o_body ob with
    | BAoS els0 =>
      let els := if keep then els0 else [] in
      let cur := length els in
      let k := Z.to_nat n in
      if cur <? k then
        let (h1, new) := alloc_elems h a (o_path ob) (o_meta ob) (k - cur) in
        (set_body h1 a (BAoS (els ++ new)), Ok tt)
      else if k <? cur then (set_body h a (BAoS (firstn k els)), Ok tt)
      else (set_body h a (BAoS els), Ok tt)
    | _ => (h, Err EAttribute)
    end
  | None => (h, Err EAttribute)
  end.

(** ids_primitive.py:159-169, getter of [value] *)
Definition prim_value (h : heap) (p : oid) : heap * result exn stored :=
  match get h p with
  | Some ob =>
    match o_body ob, mkind (o_meta ob) with
    | BPrim (Some s), _ => (h, Ok s)
    | BPrim None, KLeaf dt O => (h, Ok (SImm (default_value dt 0)))
    | BPrim None, KLeaf dt (S nd) =>
      let (h1, b) := alloc_buf h (default_value dt (S nd)) in
      (set_body h1 p (BPrim (Some (SBuf b))), Ok (SBuf b))
    | _, _ => (h, Err EAttribute)
    end
  | None => (h, Err EAttribute)
  end.
Definition deref (h : heap) (s : stored) : option value :=
  match s with SImm v => Some v | SBuf b => nth_error (h_bufs h) b end.

(** What is assigned to a data node: a Python value that is not a numpy array or a list owned by somebody else, a numpy
    array (buffer), or another node. *)
Inductive arg := AVal (v : value) | ABuf (b : nat) | ANode (q : oid).

(** [type(self)] of data nodes: IDSMetadata._node_type, one class for all numeric arrays *)
Definition same_class (dt : dtype) (nd : nat) (dt' : dtype) (nd' : nat) : bool :=
  match nd, nd' with
  | O, O => match dt, dt' with STR, STR | INT, INT | FLT, FLT | CPX, CPX => true | _, _ => false end
  | S _, S _ => match dt, dt' with
                | STR, STR => true
                | STR, _ | _, STR => false
                | _, _ => true
                end
  | _, _ => false
  end.
Definition dtype_eqb (a b : dtype) : bool :=
  match a, b with STR, STR | INT, INT | FLT, FLT | CPX, CPX => true | _, _ => false end.
(** numpy array of the given element type *)
Definition is_array (dt : dtype) (v : value) : bool :=
  match dt, v with INT, VIntA _ _ | FLT, VFltA _ _ | CPX, VCpxA _ _ => true | _, _ => false end.
(** equality with the default of a 0D data node, ids_primitive.py:191 *)
Definition is_default (dt : dtype) (v : value) : bool :=
  match dt, v with
  | STR, VStr s => match s with [] => true | _ => false end
  | INT, VInt z => (z =? EMPTY_INT)%Z
  | FLT, VFlt f => feq f EMPTY_FLOAT
  | CPX, VCpx r i => feq r EMPTY_FLOAT && feq i EMPTY_FLOAT
  | _, _ => false
  end.

Section Cast.
(** [_cast_value] on contents (ids_primitive.py:314-322, 343-350, 479-490); see PrimModel for scalars *)
Variable cast : dtype -> nat -> value -> result exn value.

Definition store (h : heap) (nd : nat) (v : value) : heap * stored :=
  match nd with
  | O => (h, SImm v)
  | S _ => let (h1, b) := alloc_buf h v in (h1, SBuf b)
  end.
(** [_cast_value] of the object behind a reference: a numpy array of the right type is used as it is (numpy.asarray does
    not copy) *)
Definition cast_stored (h : heap) (dt : dtype) (nd : nat) (s : stored) : heap * result exn stored :=
  match deref h s with
  | None => (h, Err EAttribute)
  | Some v =>
    match nd, s with
    | S _, SBuf b =>
      if is_array dt v then if length (value_shape v) =? nd then (h, Ok (SBuf b)) else (h, Err EValue)
      else match cast dt nd v with
           | Ok w => let (h1, s1) := store h nd w in (h1, Ok s1)
           | Err e => (h, Err e)
           end
    | _, _ => match cast dt nd v with
              | Ok w => let (h1, s1) := store h nd w in (h1, Ok s1)
              | Err e => (h, Err e)
              end
    end
  end.
(** the value computed by the setter, ids_primitive.py:171-189 *)
Definition setter_value (h : heap) (dt : dtype) (nd : nat) (a : arg) : heap * result exn stored :=
  match a with
  | AVal v => match cast dt nd v with
              | Ok w => let (h1, s) := store h nd w in (h1, Ok s)
              | Err e => (h, Err e)
              end
  | ABuf b => cast_stored h dt nd (SBuf b)
  | ANode q =>
    match get h q with
    | None => (h, Err EType)
    | Some qo =>
      match o_body qo, mkind (o_meta qo) with
      | BPrim _, KLeaf dt' nd' =>
        let (h1, r) := prim_value h q in
        match r with
        | Err e => (h1, Err e)
        | Ok s =>
          if same_class dt nd dt' nd' && dtype_eqb dt dt' && (nd =? nd')
          then (h1, Ok s)                                   (* 184: the value object is shared *)
          else cast_stored h1 dt nd s                       (* 187 and 189 *)
        end
      | _, _ => (h, Err EType)
      end
    end
  end.
(** ids_primitive.py:171-193, setter of [value] *)
Definition prim_set (h : heap) (p : oid) (a : arg) : heap * result exn unit :=
  match get h p with
  | Some ob =>
    match o_body ob, mkind (o_meta ob) with
    | BPrim _, KLeaf dt nd =>
      let (h1, r) := setter_value h dt nd a in
      match r with
      | Err e => (h1, Err e)
      | Ok s =>
        let unset := match nd, s with O, SImm v => is_default dt v | _, _ => false end in
        (set_body h1 p (BPrim (if unset then None else Some s)), Ok tt)
      end
    | _, _ => (h, Err EAttribute)
    end
  | None => (h, Err EAttribute)
  end.

Fixpoint strs_eqb (a b : list str) : bool :=
  match a, b with
  | [], [] => true
  | x :: a', y :: b' => str_eqb x y && strs_eqb a' b'
  | _, _ => false
  end.
(** ids_structure.py:98-142 [__setattr__] for a child node *)
Definition setattr (h : heap) (o : oid) (key : str) (a : arg) : heap * result exn unit :=
  let (h1, r) := getattr h o key in
  match r with
  | Err e => (h1, Err e)
  | Ok x =>
    match get h1 x with
    | None => (h1, Err EAttribute)
    | Some at_ =>
      let replace (v : oid) (vo : obj) :=
        if strs_eqb (o_path vo) (o_path at_) then
          match get h1 o with
          | Some ob => match o_body ob with
                       | BStruct fs => (set_parent (set_body h1 o (BStruct (aset key v fs))) v o, Ok tt)
                       | _ => (h1, Err EAttribute)
                       end
          | None => (h1, Err EAttribute)
          end
        else (h1, Err EValue) in
      match o_body at_ with
      | BPrim _ => prim_set h1 x a
      | BStruct _ => match a with
                     | ANode v => match get h1 v with
                                  | Some vo => match o_body vo with BStruct _ => replace v vo | _ => (h1, Err EType) end
                                  | None => (h1, Err EType)
                                  end
                     | _ => (h1, Err EType)
                     end
      | BAoS _ => match a with
                  | ANode v => match get h1 v with
                               | Some vo => match o_body vo with BAoS _ => replace v vo | _ => (h1, Err EType) end
                               | None => (h1, Err EType)
                               end
                  | _ => (h1, Err EType)
                  end
      end
    end
  end.
End Cast.

(** ** Deep copies: ids_structure.py:144-157, ids_struct_array.py:56-62, ids_primitive.py:88-93 under [copy.deepcopy], whose
    memo maps objects already copied to their copy.  None = recursion limit (out of fuel) or dangling reference.
    Simplification: the children of a copy are attached after all of them have been copied. *)
Record memo := { mo : list (nat * nat); mb : list (nat * nat) }.
Fixpoint nlookup (x : nat) (l : list (nat * nat)) : option nat :=
  match l with [] => None | (k, v) :: t => if x =? k then Some v else nlookup x t end.
Definition memo_obj (me : memo) (x y : nat) : memo := {| mo := (x, y) :: mo me; mb := mb me |}.
Definition memo_buf (me : memo) (x y : nat) : memo := {| mo := mo me; mb := (x, y) :: mb me |}.

(** copies of a list of nodes, each with its parent set to [p] *)
Fixpoint copy_list (rec : heap -> memo -> oid -> option (heap * memo * oid)) (p : oid) (h : heap) (me : memo) (xs : list oid)
  : option (heap * memo * list oid) :=
  match xs with
  | [] => Some (h, me, [])
  | x :: t =>
    match rec h me x with
    | None => None
    | Some (h1, me1, y) =>
      match copy_list rec p (set_parent h1 y p) me1 t with
      | None => None
      | Some (h2, me2, ys) => Some (h2, me2, y :: ys)
      end
    end
  end.
(** children in the order of the metadata (ids_structure.py:150) *)
Definition ordered_fields (m : meta) (fs : list (str * oid)) : list (str * oid) :=
  flat_map (fun c => match alookup (mname c) fs with Some x => [(mname c, x)] | None => [] end) (mchildren m).

Fixpoint deepcopy (fuel : nat) (h : heap) (me : memo) (x : oid) : option (heap * memo * oid) :=
  match fuel with
  | O => None
  | S f =>
    match nlookup x (mo me) with
    | Some y => Some (h, me, y)
    | None =>
      match get h x with
      | None => None
      | Some ob =>
        let blank b := {| o_parent := o_parent ob; o_path := o_path ob; o_meta := o_meta ob; o_body := b |} in
        match o_body ob with
        | BPrim (Some (SBuf b)) =>
          match nlookup b (mb me) with
          | Some b' => let (h1, y) := alloc h (blank (BPrim (Some (SBuf b')))) in Some (h1, memo_obj me x y, y)
          | None =>
            match nth_error (h_bufs h) b with
            | None => None
            | Some v => let (h1, b') := alloc_buf h v in
                        let (h2, y) := alloc h1 (blank (BPrim (Some (SBuf b')))) in
                        Some (h2, memo_obj (memo_buf me b b') x y, y)
            end
          end
        | BPrim s => let (h1, y) := alloc h (blank (BPrim s)) in Some (h1, memo_obj me x y, y)
        | BAoS els =>
          let (h1, y) := alloc h (blank (BAoS [])) in
          match copy_list (deepcopy f) y h1 me els with
          | None => None
          | Some (h2, me2, ys) => Some (set_body h2 y (BAoS ys), memo_obj me2 x y, y)
          end
        | BStruct fs =>
          let (h1, y) := alloc h (blank (BStruct [])) in
          let ofs := ordered_fields (o_meta ob) fs in
          match copy_list (deepcopy f) y h1 me (map snd ofs) with
          | None => None
          | Some (h2, me2, ys) => Some (set_body h2 y (BStruct (combine (map fst ofs) ys)), memo_obj me2 x y, y)
          end
        end
      end
    end
  end.
Definition empty_memo : memo := {| mo := []; mb := [] |}.

(** ** Paths: ids_base.py:55-94 [_path], ids_toplevel.py:64 (for objects without parent; NavModel.full_path stops at every IDSToplevel).
    None = recursion limit (cyclic parents). *)
Fixpoint index_of_oid (x : oid) (l : list oid) : option nat :=
  match l with [] => None | y :: t => if x =? y then Some 0 else option_map S (index_of_oid x t) end.
Fixpoint path_str (fuel : nat) (h : heap) (x : oid) : option str :=
  match fuel with
  | O => None
  | S f =>
    match get h x with
    | None => None
    | Some ob =>
      match o_parent ob with
      | None => Some []                                      (* toplevel *)
      | Some p =>
        match path_str f h p, get h p with
        | Some pp, Some po =>
          match o_body po with
          | BAoS els =>
            Some (pp ++ "["%char :: match index_of_oid x els with
                                    | Some i => show_N (N.of_nat i)
                                    | None => strs "?"
                                    end ++ ["]"%char])
          | _ => match pp with
                 | [] => Some (mname (o_meta ob))
                 | _ => Some (pp ++ "/"%char :: mname (o_meta ob))
                 end
          end
        | _, _ => None
        end
      end
    end
  end.

(** ids_base.py:43-54 and ids_structure.py:179-183 [_dd_parent] *)
Definition dd_parent (h : heap) (x : oid) : option oid :=
  match get h x with
  | None => None
  | Some ob =>
    match o_body ob, mkind (o_meta ob) with
    | BStruct _, KAoS => match o_parent ob with
                         | Some a => match get h a with Some ao => o_parent ao | None => None end
                         | None => None
                         end
    | _, _ => o_parent ob
    end
  end.
Fixpoint dd_ancestor (k : nat) (h : heap) (x : oid) : option oid :=
  match k with
  | O => Some x
  | S j => match dd_parent h x with Some p => dd_ancestor j h p | None => None end
  end.

(** the integer used as index: [index.goto(from_element).value - 1] (ids_path.py:214-217), without the - 1.  The attribute
    [value] of a structure is a child node of that name, that of an array of structures is a list; both cannot be used. *)
Definition node_int (h : heap) (q : oid) : heap * result exn Z :=
  match get h q with
  | Some qo =>
    match o_body qo with
    | BPrim _ => let (h1, s) := prim_value h q in
                 (h1, match s with
                      | Ok (SImm (VInt z)) => Ok z
                      | Ok _ => Err EValue
                      | Err x => Err x
                      end)
    | BAoS _ => (h, Err EValue)
    | BStruct _ => let (h1, c) := getattr h q (strs "value") in
                   (h1, match c with Ok _ => Err EValue | Err x => Err x end)
    end
  | None => (h, Err EAttribute)
  end.
Definition ancestor_or_error (k : nat) (h : heap) (x : oid) : result exn oid :=
  match dd_ancestor k h x with Some e => Ok e | None => Err EAttribute end.

(** ids_path.py:195-223, the loop of [goto].  [nested]: evaluation of an index that is a path; [elt]: None as long as the
    path coincides with the path [fp] of the starting node. *)
Definition goto_loop (nested : index -> heap -> heap * result exn oid) (from : oid) (fp : list str)
  : list index -> list str -> nat -> option oid -> heap -> heap * result exn oid :=
  fix loop (ix : list index) (ps : list str) (i : nat) (elt : option oid) (h : heap) {struct ix} :=
    match ix, ps with
    | idx :: ix', part :: ps' =>
      match idx with
      | ISlice _ _ => (h, Err ENotImplemented)
      | _ =>
        if match elt, nth_error fp i with None, Some q => str_eqb part q | _, _ => false end
        then loop ix' ps' (S i) None h
        else
          match match elt with Some e => Ok e | None => ancestor_or_error (length fp - i) h from end with
          | Err e => (h, Err e)
          | Ok e =>
            let (h1, r) := getattr h e part in
            match r with
            | Err x => (h1, Err x)
            | Ok c =>
              match idx with
              | INone => loop ix' ps' (S i) (Some c) h1
              | INum z => let (h2, r2) := aos_getitem h1 c z in
                          match r2 with Ok c2 => loop ix' ps' (S i) (Some c2) h2 | Err x => (h2, Err x) end
              | IPath _ _ =>
                let (h2, rq) := nested idx h1 in
                match rq with
                | Err x => (h2, Err x)
                | Ok q =>
                  let (h3, rv) := node_int h2 q in
                  match rv with
                  | Err x => (h3, Err x)
                  | Ok z => let (h4, r4) := aos_getitem h3 c (z - 1) in
                            match r4 with Ok c2 => loop ix' ps' (S i) (Some c2) h4 | Err x => (h4, Err x) end
                  end
                end
              | _ => (h1, Err EValue)                       (* IGen: "Unexpected index" *)
              end
            end
          end
      end
    | _, _ =>
      match elt with
      | Some e => (h, Ok e)
      | None => (h, ancestor_or_error (length fp - i) h from)
      end
    end.
(** ids_path.py:170-224 [goto]; the path is given as [IPath parts indices] *)
Fixpoint goto (p : index) (h : heap) (from : oid) (from_root : bool) {struct p} : heap * result exn oid :=
  match p with
  | IPath ps ix =>
    match get h from with
    | None => (h, Err EAttribute)
    | Some fo =>
      goto_loop (fun q h1 => goto q h1 from true) from (o_path fo) ix ps 0 (if from_root then None else Some from) h
    end
  | _ => (h, Err EValue)
  end.

(** [IDSPath(s).goto(from, from_root=...)] *)
Definition goto_str (s : str) (h : heap) (from : oid) (from_root : bool) : heap * result exn oid :=
  match parse s with
  | Ok (ps, ix) => goto (IPath ps ix) h from from_root
  | Err _ => (h, Err EValue)
  end.

(** ids_structure.py:275-284 [__getitem__] *)
Definition struct_getitem (h : heap) (o : oid) (key : str) : heap * result exn oid :=
  match get h o with
  | Some ob =>
    match child_meta key (mchildren (o_meta ob)) with
    | Some _ => getattr h o key
    | None => match parse key with
              | Err _ => (h, Err EValue)
              | Ok ([_], [INone]) => (h, Err EAttribute)
              | Ok (ps, ix) => goto (IPath ps ix) h o false
              end
    end
  | None => (h, Err EAttribute)
  end.

(** ids_structure.py:289-307 [__setitem__].  [int(name)] of a node name is a ValueError (an array of structures is the
    parent when an element is assigned); otherwise the parent is a structure and the key is one of its children. *)
Definition struct_setitem (cast : dtype -> nat -> value -> result exn value) (h : heap) (o : oid) (key : str) (a : arg)
  : heap * result exn unit :=
  match get h o with
  | Some ob =>
    match child_meta key (mchildren (o_meta ob)) with
    | Some _ => setattr cast h o key a
    | None => match parse key with
              | Err _ => (h, Err EValue)
              | Ok ([_], [INone]) => (h, Err EAttribute)
              | Ok (ps, ix) =>
                let (h1, r) := goto (IPath ps ix) h o false in
                match r with
                | Err e => (h1, Err e)
                | Ok x =>
                  match get h1 x with
                  | None => (h1, Err EAttribute)
                  | Some xo =>
                    match o_body xo with
                    | BPrim _ => prim_set cast h1 x a
                    | _ => match o_parent xo with
                           | None => (h1, Err EType)
                           | Some p => match get h1 p with
                                       | Some po => match o_body po with
                                                    | BAoS _ => (h1, Err EValue)
                                                    | BStruct _ => match ps with
                                                                   | [] => (h1, Err EIndex)      (* path.parts[-1] *)
                                                                   | _ => setattr cast h1 p (last ps []) a
                                                                   end
                                                    | BPrim _ => (h1, Err EType)
                                                    end
                                       | None => (h1, Err EType)
                                       end
                           end
                    end
                  end
                end
              end
    end
  | None => (h, Err EAttribute)
  end.
