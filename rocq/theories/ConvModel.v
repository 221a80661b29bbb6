(** Model of the conversion of an IDS to another version of the data dictionary: imas/ids_convert.py:527-1172.

    The source is a tree of TreeModel.v that is only read: reading it may create empty children (TreeModel.access), which is left
    out.  The target is the state; its nodes are addressed by their location, as in ValModel.v.  Besides the tree the state has the
    list of data nodes of the target that were given an array (or a view on an array) that belongs to the source.

    Simplified: assigning [value] of a node that is not a data node, and calling [resize] or reading [value] of a node that has no
    such attribute is an AttributeError also if the data dictionary has a child of that name, or if numpy has; log messages are
    left out.  Not modelled: lazy-loaded IDSs (NotImplementedError, 571-574), _add_provenance_entry, _pulse_schedule_3to4 (see
    PulseModel.v) and _equilibrium_boundary_3to4. *)
From Verif Require Import Base PathModel TreeModel ValModel PrimModel.
From Verif Require VmapModel.
Import VmapModel(handler(..), nmap).

(** Exceptions: while following a path, AttributeError, AssertionError, TypeError, ValueError of IDSPath, those of assignments. *)
Inductive cexn := CPath (e : lexn) | CAttribute | CAssertion | CType | CIndex | CBadPath | CPrim (e : pexn).

(** The target IDS, and which of its data nodes share memory with which data node of the source. *)
Record cst := { c_tree : node; c_shared : list (loc * loc) }.
Definition CM (A : Type) := cst -> cst * result cexn A.
Definition cret {A} (a : A) : CM A := fun s => (s, Ok a).
Definition cfail {A} (e : cexn) : CM A := fun s => (s, Err e).
Definition cbind {A B} (c : CM A) (f : A -> CM B) : CM B :=
  fun s => let (s', r) := c s in match r with Ok a => f a s' | Err e => (s', Err e) end.
Notation "'doc' x <- c ; k" := (cbind c (fun x => k)) (at level 200, x pattern, c at level 100, k at level 200).
Definition citer {A} (f : A -> CM unit) : list A -> CM unit :=
  fix go (l : list A) : CM unit := match l with [] => cret tt | x :: t => doc _ <- f x; go t end.
Definition lift {A} (c : M lexn A) : CM A :=
  fun s => let (n', r) := c (c_tree s) in
           ({| c_tree := n'; c_shared := c_shared s |}, match r with Ok a => Ok a | Err e => Err (CPath e) end).
Definition of_option {A} (e : cexn) (o : option A) : CM A := match o with Some a => cret a | None => cfail e end.

(** ** Operations on arrays (numpy; data in C order) *)

(** [v[:-1]] *)
Definition drop_rows {A} (sh : list nat) (d : list A) : list nat * list A :=
  match sh with
  | k :: r => ((k - 1) :: r, firstn ((k - 1) * prod r) d)
  | [] => (sh, d)
  end.
Definition drop_last (v : value) : option value :=
  match v with
  | VStr s => Some (VStr (removelast s))
  | VStrs l => Some (VStrs (removelast l))
  | VIntA (k :: r) d => let (s, d) := drop_rows (k :: r) d in Some (VIntA s d)
  | VFltA (k :: r) d => let (s, d) := drop_rows (k :: r) d in Some (VFltA s d)
  | VCpxA (k :: r) d => let (s, d) := drop_rows (k :: r) d in Some (VCpxA s d)
  | _ => None                                                   (* TypeError *)
  end.
(** [numpy.concatenate((v, [v[0]]))], [numpy.concatenate((v, [v[-1]]))]; None: an error *)
Definition first_row {A} (sh : list nat) (d : list A) : list nat * list A :=
  match sh with k :: r => (S k :: r, d ++ firstn (prod r) d) | [] => (sh, d) end.
Definition last_row {A} (sh : list nat) (d : list A) : list nat * list A :=
  match sh with k :: r => (S k :: r, d ++ skipn ((k - 1) * prod r) d) | [] => (sh, d) end.
Definition add_row (row : forall A, list nat -> list A -> list nat * list A) (v : value) : option value :=
  match v with
  | VStrs ((_ :: _) as l) => Some (VStrs (map strip_nul (snd (row str [length l] l))))
  | VIntA (S k :: r) d => let (s, d) := row Z (S k :: r) d in Some (VIntA s d)
  | VFltA (S k :: r) d => let (s, d) := row flt (S k :: r) d in Some (VFltA s d)
  | VCpxA (S k :: r) d => let (s, d) := row (flt * flt)%type (S k :: r) d in Some (VCpxA s d)
  | _ => None
  end.
Definition repeat_first (v : value) : option value := add_row (fun A => @first_row A) v.
Definition repeat_last (v : value) : option value := add_row (fun A => @last_row A) v.
(** [-v]; integer arrays have 32 bits *)
Definition wrap32 (z : Z) : Z := ((z + 2 ^ 31) mod 2 ^ 32 - 2 ^ 31)%Z.
Definition fneg (f : flt) : flt := Z.lxor f (2 ^ 63).
Definition negate (v : value) : option value :=
  match v with
  | VInt z => Some (VInt (- z))
  | VFlt f => Some (VFlt (fneg f))
  | VCpx r i => Some (VCpx (fneg r) (fneg i))
  | VIntA sh d => Some (VIntA sh (map (fun z => wrap32 (- z)) d))
  | VFltA sh d => Some (VFltA sh (map fneg d))
  | VCpxA sh d => Some (VCpxA sh (map (fun x => (fneg (fst x), fneg (snd x))) d))
  | VStr _ | VStrs _ => None
  end.
(** [v[:, ::2]] and [v[:, 1::2]] of a matrix with rows of even length: the difference (1147), and its opposite (1150-1156) *)
Fixpoint pairs_sub (d : list Z) : list Z := match d with a :: b :: t => wrap32 (a - b) :: pairs_sub t | _ => [] end.
Fixpoint split_sign (d : list Z) : list Z :=
  match d with a :: t => (if (a =? 1)%Z then 1 else 0)%Z :: (if (a =? -1)%Z then 1 else 0)%Z :: split_sign t | [] => [] end.
(** [v[0]] and [v[-1]] of a list or 1D array *)
Definition elems_of (v : value) : option (list pyval) :=
  match v with
  | VStrs l => Some (map PStr l)
  | VIntA [_] d => Some (map PInt d)
  | VFltA [_] d => Some (map PFlt d)
  | VCpxA [_] d => Some (map (fun x => PCpx (fst x) (snd x)) d)
  | _ => None
  end.
Definition is_array (v : value) : bool := match v with VIntA _ _ | VFltA _ _ | VCpxA _ _ => true | _ => false end.

(** change the node at a location; missing children are created *)
Fixpoint update (m : meta) (n : node) (l : loc) (f : node -> node) {struct l} : node :=
  match l with
  | [] => f n
  | Child name :: l' =>
    match mkind m, n, child_meta name (mchildren m) with
    | KStruct, NStruct fs, Some c => NStruct (aset name (update c (child_or_new c fs) l' f) fs)
    | _, _, _ => n
    end
  | Elem i :: l' =>
    match mkind m, n with
    | KAoS, NAoS els =>
      match nth_error els i with
      | Some e => NAoS (list_set i (update (Meta (mname m) KStruct (mchildren m)) e l' f) els)
      | None => n
      end
    | _, _ => n
    end
  end.

Definition path_string (l : loc) : str := join_with "/"%char (loc_names l).

Definition loc_eqb (a b : loc) : bool :=
  list_eqb (fun x y => match x, y with Child s, Child t => str_eqb s t | Elem i, Elem j => i =? j | _, _ => false end) a b.

Section Conv.
Variables (sm tm : meta).               (* the IDS in the two versions *)
Variable src : node.                    (* the source *)
Variable rm : nmap.                     (* rename map *)
Variable deepcopy : bool.
(* library functions, see PrimModel.v *)
Variable str_of : pyval -> str.
Variable parse_float : str -> option flt.
Variable parse_cpx : str -> option (flt * flt).
Variable flt_of_int : Z -> option flt.
Variable np_cast : dtype -> pyval -> result pexn value.
Variable array_items : value -> list pyval.
Variable close : pyval -> pyval -> bool.                                    (* numpy.isclose(a, b, rtol=1e-6, atol=0) *)
Variable np_int32 : flt -> result pexn Z.                                   (* numpy.int32(f) *)
Variable enum_of : list str -> option (Z -> option (str * str)).            (* identifier_enum: name and description of an index *)

Notation set_value := (set_value str_of parse_float parse_cpx flt_of_int np_cast array_items).

(** ** Operations on the target *)
Definition cview (l : loc) : CM info := lift (view tm EOther l).
Definition getattr (l : loc) (name : str) : CM loc :=
  doc i <- cview l;
  match i with
  | IStruct cs => match child_meta name cs with
                  | Some _ => doc _ <- lift (touch tm (l ++ [Child name])); cret (l ++ [Child name])
                  | None => cfail CAttribute
                  end
  | _ => cfail CAttribute
  end.
(** [node.value = x]; [from]: the data node of the source that [x] is the array of, if it is *)
Definition same_dtype (dt : dtype) (p : pyval) : bool :=
  match dt, p with INT, PArr (VIntA _ _) | FLT, PArr (VFltA _ _) | CPX, PArr (VCpxA _ _) => true | _, _ => false end.
Definition unshare (l : loc) (sh : list (loc * loc)) : list (loc * loc) := filter (fun x => negb (loc_eqb (fst x) l)) sh.
Definition assign (l : loc) (from : option loc) (p : pyval) : CM unit :=
  fun s =>
    match look tm (c_tree s) l with
    | Some (Meta _ (KLeaf dt nd) _, NLeaf old) =>
      let (v, r) := set_value false dt nd old p in
      match r with
      | Ok _ => ({| c_tree := update tm (c_tree s) l (fun _ => NLeaf v);
                    c_shared := match from with
                                | Some sl => if same_dtype dt p then (l, sl) :: unshare l (c_shared s) else unshare l (c_shared s)
                                | None => unshare l (c_shared s)
                                end |}, Ok tt)
      | Err e => (s, Err (CPrim e))
      end
    | _ => (s, Err CAttribute)
    end.
(** the value of a data node of the target *)
Definition target_value (l : loc) : CM value :=
  doc i <- cview l; match i with ILeaf _ _ => lift (read tm l) | _ => cfail CAttribute end.
(** assign a new array computed from that of the node itself; [keep]: it is a view on it *)
Definition reassign (keep : bool) (l : loc) (f : value -> option value) : CM unit :=
  doc v <- target_value l;
  doc w <- of_option CType (f v);
  fun s => let from := if keep then option_map snd (List.find (fun x => loc_eqb (fst x) l) (c_shared s)) else None in
           assign l from (of_value w) s.
(** [resize(k)] of an array of structures *)
Definition resize (l : loc) (k : nat) : CM unit :=
  fun s =>
    match look tm (c_tree s) l with
    | Some (Meta _ KAoS _, NAoS _) => ({| c_tree := update tm (c_tree s) l (fun _ => NAoS (repeat (NStruct []) k)); c_shared := c_shared s |}, Ok tt)
    | _ => (s, Err CAttribute)
    end.
(** [for child in node.iter_nonempty_()]: names of the children *)
Definition filled_children (l : loc) : CM (list str) :=
  fun s =>
    match look tm (c_tree s) l with
    | Some (Meta _ k cs, NStruct fs) => (s, Ok (map (fun x => mname (fst x)) (iter_nonempty cs fs)))
    | _ => (s, Err CAttribute)
    end.

(** ** Reading the source *)
Definition source_at (l : loc) : option (meta * node) := look sm src l.
Definition source_attr (l : loc) (name : str) : option loc :=
  match source_at l with
  | Some (Meta _ KStruct cs, _) => match child_meta name cs with Some _ => Some (l ++ [Child name]) | None => None end
  | _ => None
  end.
(** [bool(node)] of an integer data node: unset is not 0 *)
Definition truth (v : value) : CM bool := match v with VInt z => cret (negb (z =? 0)%Z) | _ => cfail CType end.
Definition source_truth (l : loc) : CM bool :=
  match source_at l with Some (m, NLeaf v) => truth (leaf_value m (NLeaf v)) | _ => cfail CAttribute end.

(** ** Type changes.  The source node is given by its metadata, value and location.  Result: None if everything was done, or the
    pair of nodes to copy (the metadata of the source node is the same). *)
Definition handled : CM (option (node * loc * loc)) := cret None.

(** 870-900 *)
Definition type_structure_aos (n : node) (sl tl : loc) : CM (option (node * loc * loc)) :=
  match n with
  | NStruct _ =>
    doc i <- cview tl;
    match i with
    | IAoS _ => doc _ <- resize tl 1; cret (Some (n, sl, tl ++ [Elem 0]))
    | _ => cfail CAssertion
    end
  | NAoS els =>
    doc i <- cview tl;
    match els, i with
    | [], _ => cfail CAssertion
    | [e], IStruct _ => cret (Some (e, sl ++ [Elem 0], tl))
    | _, IStruct _ => handled
    | _, _ => cfail CAssertion
    end
  | NLeaf _ => cfail CAssertion
  end.

(** 903-925 *)
Definition type_0d_1d (m : meta) (n : node) (sl tl : loc) : CM (option (node * loc * loc)) :=
  match mkind m with
  | KLeaf _ O => doc _ <- assign tl None (PList [of_value (leaf_value m n)]); handled
  | KLeaf _ (S _) =>
    match elems_of (leaf_value m n) with
    | Some [x] => doc _ <- assign tl None x; handled
    | _ => handled
    end
  | _ => cfail CType
  end.

(** 928-956 *)
Definition identifier (tl : loc) (enum : option (Z -> option (str * str))) (i : nat) (z : Z) : CM unit :=
  match match enum with Some f => f z | None => None end with
  | Some (nm, desc) =>                                          (* _assign_identifier, ids_structure.py:92-94 *)
    doc a <- getattr (tl ++ [Elem i]) (strs "name"); doc _ <- assign a None (PStr nm);
    doc b <- getattr (tl ++ [Elem i]) (strs "index"); doc _ <- assign b None (PInt z);
    doc c <- getattr (tl ++ [Elem i]) (strs "description"); assign c None (PStr desc)
  | None => doc b <- getattr (tl ++ [Elem i]) (strs "index"); assign b None (PInt z)
  end.
Definition index_of (cs : list meta) (e : node) : option Z :=
  match child_meta (strs "index") cs with
  | Some c => match leaf_value c (child_or_new c (node_fields e)) with VInt z => Some z | _ => None end
  | None => None
  end.
Definition all_some {A} (l : list (option A)) : option (list A) :=
  fold_right (fun x t => match x, t with Some a, Some b => Some (a :: b) | _, _ => None end) (Some []) l.
Definition type_to_identifier (m : meta) (n : node) (sl tl : loc) : CM (option (node * loc * loc)) :=
  match m, n with
  | Meta _ (KLeaf INT 1) _, NLeaf _ =>
    match leaf_value m n with
    | VIntA _ [] => handled
    | VIntA _ d => doc _ <- resize tl (length d);
                   doc _ <- citer (fun x => identifier tl (enum_of (loc_names tl)) (fst x) (snd x)) (enum d); handled
    | _ => cfail CType
    end
  | Meta _ KAoS cs, NAoS [] => handled
  | Meta _ KAoS cs, NAoS els =>
    doc is <- of_option CAttribute (all_some (map (index_of cs) els));
    doc _ <- assign tl None (PArr (VIntA [length is] is)); handled
  | _, _ => cfail CType
  end.

(** 959-983; comparison of an integer with a float as in TreeModel.v *)
Definition type_flt_int (m : meta) (n : node) (sl tl : loc) : CM (option (node * loc * loc)) :=
  match leaf_value m n with
  | VInt z => match flt_of_int z with
              | Some f => doc _ <- assign tl None (PFlt f); handled
              | None => cfail (CPrim OverflowErr)
              end
  | VFlt f => match np_int32 f with
              | Ok z => if feqz f z then doc _ <- assign tl None (PInt z); handled else handled
              | Err e => cfail (CPrim e)
              end
  | _ => cfail CType
  end.

(** the children of the source node, or of each of its elements, with the node of the target: 1033-1039, 1064-1070 *)
Definition pairs (n : node) (sl tl : loc) : CM (list (node * loc * loc)) :=
  match n with
  | NAoS els => doc _ <- resize tl (length els);
                cret (map (fun x => (snd x, sl ++ [Elem (fst x)], tl ++ [Elem (fst x)])) (enum els))
  | n => cret [(n, sl, tl)]
  end.
(** [target[name] = value]; [view]: the value is the array of the source or a view on it *)
Definition set_child (tl : loc) (name : str) (sl : loc) (v : value) : CM unit :=
  doc c <- getattr tl name; assign c (Some sl) (of_value v).

(** [closed] of the node or next to it *)
Definition closed_name : str := strs "closed".
Definition target_closed (tl : loc) : CM loc :=
  doc i <- cview tl;
  match i with
  | IStruct cs => match child_meta closed_name cs with Some _ => getattr tl closed_name | None => getattr (removelast tl) closed_name end
  | _ => getattr (removelast tl) closed_name
  end.
Definition source_closed (sl : loc) : CM loc :=
  match source_attr sl closed_name with
  | Some l => cret l
  | None => of_option CAttribute (source_attr (removelast sl) closed_name)
  end.
Definition is_num_array (m : meta) : bool := match mkind m with KLeaf STR _ => false | KLeaf _ (S _) => true | _ => false end.

(** 1004-1048 *)
Definition endpoints_close (m : meta) (n : node) : option bool :=
  match elems_of (leaf_value m n) with
  | Some (x :: t) => Some (close x (last t x))
  | _ => None                                                   (* TypeError, IndexError; arrays with 2 or more dimensions *)
  end.
Fixpoint all_close (l : list (meta * node)) : option bool :=
  match l with
  | [] => Some true
  | (m, n) :: t => if str_eqb (mname m) (strs "time") then all_close t
                   else match endpoints_close m n with Some true => all_close t | r => r end
  end.
Fixpoint contours_close (cs : list meta) (els : list node) : option bool :=
  match els with
  | [] => Some true
  | e :: t => match all_close (iter_nonempty cs (node_fields e)) with Some true => contours_close cs t | r => r end
  end.
Definition type_remove_last (m : meta) (n : node) (sl tl : loc) : CM (option (node * loc * loc)) :=
  doc cn <- target_closed tl;
  doc closed <- of_option CType (contours_close (mchildren m) (match n with NAoS els => els | n => [n] end));
  doc _ <- assign cn None (PInt (if closed : bool then 1 else 0));
  doc ps <- pairs n sl tl;
  doc _ <- citer (fun x => let '(e, l, t) := x in
     citer (fun y => let (c, ch) := y : meta * node in
       match mkind c with
       | KLeaf _ _ =>
         let v := leaf_value c ch in
         doc w <- (if closed && negb (str_eqb (mname c) (strs "time")) && is_num_array c then of_option CType (drop_last v) else cret v);
         set_child t (mname c) (l ++ [Child (mname c)]) w
       | _ => cfail CAttribute
       end) (iter_nonempty (mchildren m) (node_fields e))) ps;
  handled.

(** 1051-1082 *)
Definition type_repeat_first (m : meta) (n : node) (sl tl : loc) : CM (option (node * loc * loc)) :=
  doc cl <- source_closed sl;
  doc closed <- source_truth cl;
  doc ps <- pairs n sl tl;
  doc _ <- citer (fun x => let '(e, l, t) := x in
     citer (fun y => let (c, ch) := y : meta * node in
       if str_eqb (mname c) closed_name || VmapModel.ends_with (strs "_error_index") (mname c) then cret tt else
       match mkind c with
       | KLeaf _ _ =>
         let v := leaf_value c ch in
         if closed && negb (str_eqb (mname c) (strs "time")) && is_num_array c then
           doc w <- of_option CType (repeat_first v);
           doc a <- getattr t (mname c); assign a None (of_value w)
         else set_child t (mname c) (l ++ [Child (mname c)]) v
       | _ => cfail CAttribute
       end) (iter_nonempty (mchildren m) (node_fields e))) ps;
  handled.

(** 1085-1119 *)
Definition type_centreline (add : bool) (m : meta) (n : node) (sl tl : loc) : CM (option (node * loc * loc)) :=
  let v := leaf_value m n in
  if add then
    doc a <- getattr (removelast tl) (strs "centreline"); doc b <- getattr a closed_name;
    doc z <- target_value b; doc closed <- truth z;
    if closed : bool then doc _ <- assign tl (Some sl) (of_value v); handled
    else doc w <- of_option CType (repeat_last v); doc _ <- assign tl None (of_value w); handled
  else
    doc a <- of_option CAttribute (source_attr (removelast sl) (strs "centreline"));
    doc b <- of_option CAttribute (source_attr a closed_name);
    doc closed <- source_truth b;
    doc w <- (if closed : bool then cret v else of_option CType (drop_last v));
    doc _ <- assign tl (Some sl) (of_value w); handled.

(** 1159-1172 *)
Definition type_ids_source (m : meta) (n : node) (sl tl : loc) : CM (option (node * loc * loc)) :=
  doc a <- getattr tl (strs "node");
  doc i <- cview a;
  match i with
  | IAoS O =>
    doc _ <- resize a 1;
    doc b <- getattr (a ++ [Elem 0]) (strs "reference"); doc _ <- resize b 1;
    doc c <- getattr (b ++ [Elem 0]) (strs "name"); doc _ <- assign c None (of_value (leaf_value m n)); handled
  | IAoS _ => handled
  | _ => cfail CType
  end.

Definition type_change (h : handler) (m : meta) (n : node) (sl tl : loc) : CM (option (node * loc * loc)) :=
  match h with
  | H_structure_aos => type_structure_aos n sl tl
  | H_0d_1d => type_0d_1d m n sl tl
  | H_to_identifier => type_to_identifier m n sl tl
  | H_flt0d_int0d => type_flt_int m n sl tl
  | H_remove_last_cond => type_remove_last m n sl tl
  | H_repeat_first_cond => type_repeat_first m n sl tl
  | H_remove_last_centre => type_centreline false m n sl tl
  | H_repeat_last_centre => type_centreline true m n sl tl
  | H_ids_source => type_ids_source m n sl tl
  | _ => cfail CType                                            (* functions with one argument *)
  end.

(** ** Postprocessing *)
Definition each_child (l : loc) (f : loc -> CM unit) : CM unit :=
  doc names <- filled_children l; citer (fun nm => f (l ++ [Child nm])) names.
(** 1138-1156 *)
Definition connections_3to4 (v : value) : option value :=
  match v with
  | VIntA [a; b] d => Some (VIntA [a; b / 2] (pairs_sub d))
  | _ => None
  end.
Definition connections_4to3 (v : value) : option value :=
  match v with
  | VIntA [a; b] d => Some (VIntA [a; 2 * b] (split_sign d))
  | _ => None
  end.
Definition post_process (h : handler) (tl : loc) : CM unit :=
  match h with
  | H_remove_last => each_child tl (fun c => reassign true c drop_last)                        (* 986-992 *)
  | H_repeat_first => each_child tl (fun c => reassign false c repeat_first)                   (* 995-1001 *)
  | H_cocos =>                                                                                 (* 1122-1135 *)
    doc i <- cview tl;
    match i with
    | ILeaf _ _ => reassign false tl negate
    | _ => if str_eqb (path_string tl) (strs "flux_loop/flux")
           then doc d <- getattr tl (strs "data"); reassign false d negate else cret tt
    end
  | H_connections_3to4 =>
    doc v <- target_value tl;
    match value_shape v with
    | _ :: b :: _ => if Nat.odd b then cret tt else reassign false tl connections_3to4
    | _ => cfail CIndex
    end
  | H_connections_4to3 => reassign false tl connections_4to3
  | _ => cfail CType
  end.

(** ** Copying *)

(** 671-706 *)
Definition target_item (p name : str) (tl : loc) : CM (option loc) :=
  match alookup p (VmapModel.m_path rm) with
  | Some None => cret None
  | Some (Some q) => match parse q with
                     | Ok ip => doc t <- lift (goto tm tl ip); cret (Some t)
                     | Err _ => cfail CBadPath
                     end
  | None =>
    doc i <- cview tl;
    match i with
    | IStruct cs => match child_meta name cs with
                    | Some _ => doc t <- getattr tl name; cret (Some t)
                    | None => cret (Some tl)
                    end
    | _ => cfail CType
    end
  end.

(** one item of the loop of _copy_structure, 727-755: [c] and [n] its metadata and node, [sl] its location, [tl] the target structure *)
Fixpoint copy_item (c : meta) (n : node) (sl tl : loc) {struct c} : CM unit :=
  match c with
  | Meta name k cs =>
    let copy_structure (fs : fields) (sl tl : loc) : CM unit :=
      citer (fun d => match alookup (mname d) fs with
                      | Some ch => if has_value d ch then copy_item d ch (sl ++ [Child (mname d)]) tl else cret tt
                      | None => cret tt
                      end) cs in
    let p := path_string sl in
    doc t <- target_item p name tl;
    match t with
    | None => cret tt
    | Some tl1 =>
      doc r <- match alookup p (VmapModel.m_type rm) with
               | None => cret (Some (n, sl, tl1))
               | Some None => cfail CType                       (* None is not callable *)
               | Some (Some h) => type_change h c n sl tl1
               end;
      match r with
      | None => cret tt
      | Some (n2, sl2, tl2) =>
        doc _ <- match n2 with
          | NAoS els =>
            doc _ <- resize tl2 (length els);
            citer (fun x => copy_structure (node_fields (snd x)) (sl2 ++ [Elem (fst x)]) (tl2 ++ [Elem (fst x)])) (enum els)
          | NStruct fs => copy_structure fs sl2 tl2
          | NLeaf _ => assign tl2 (if deepcopy then None else Some sl2) (of_value (leaf_value c n2))
          end;
        match alookup p (VmapModel.m_post rm) with
        | Some h => post_process h tl2
        | None => cret tt
        end
      end
    end
  end.

(** _copy_structure(toplevel, target, ...), 620 *)
Definition copy_toplevel : CM unit :=
  citer (fun d => match alookup (mname d) (node_fields src) with
                  | Some ch => if has_value d ch then copy_item d ch [Child (mname d)] [] else cret tt
                  | None => cret tt
                  end) (mchildren sm).

End Conv.
