(** Model of the functions that print trees and differences.
    Sources: imas/_util.py 90-150 (print_tree, print_metadata_tree) and 215-260 (idsdiff), imas/ids_base.py 55-93 (_path).
    Simplified: colours and the layout of the terminal are left out, the numbers are printed as they are; not lazy loaded. *)
From Verif Require Import Base TreeModel.

(** What a line of a rich.tree.Tree shows *)
Inductive label :=
| LName (name : str)                          (* _util.py:106, the root *)
| LPath (path : str)                          (* _util.py:126, 148: a structure *)
| LNoElems (path : str)                       (* _util.py:130: path[] *)
| LValue (name : str) (v : option value)      (* _util.py:117-123: name and value, "-" if there is none *)
| LLeaf (path : str)                          (* _util.py:154: a data node of the metadata *)
| LHidden.                                    (* _util.py:152 *)

(** rich.tree.Tree: a label and the trees added to it, in the order in which they are added *)
Inductive rtree := T (l : label) (ts : list rtree).

(** ids_base.py:55-93 [_path] of a child and of an element of an array of structures, from the path of the parent *)
Definition child_path (p name : str) : str := match p with [] => name | _ => p ++ "/"%char :: name end.
Definition elem_path (p : str) (i : nat) : str := p ++ "["%char :: show_N (N.of_nat i) ++ ["]"%char].

(** _util.py:95-134 [_make_tree]: the trees added to [tree] for node n at path p.  The elements of an array of structures are
    added to the tree of the parent of the array (128). *)
Fixpoint make_rows (hide : bool) (p : str) (m : meta) (n : node) {struct m} : list rtree :=
  match m with
  | Meta _ k cs =>
    let of_struct (p : str) (fs : fields) :=
      flat_map (fun c =>
        let show ch :=
          match mkind c, ch with
          | KLeaf _ nd, NLeaf v => [T (LValue (mname c) (if leaf_has_value nd v then v else None)) []]
          | KStruct, _ => [T (LPath (child_path p (mname c))) (make_rows hide (child_path p (mname c)) c ch)]
          | KAoS, _ => (if has_value c ch then [] else [T (LNoElems (child_path p (mname c))) []])
                       ++ make_rows hide (child_path p (mname c)) c ch
          | _, _ => []
          end in
        match alookup (mname c) fs with
        | Some ch => if negb hide || has_value c ch then show ch else []      (* iter_nonempty_, ids_structure.py:252-266 *)
        | None => if negb hide then show (new_node c) else []                 (* __iter__, ids_structure.py:268-270 *)
        end) cs in
    match k, n with
    | KStruct, NStruct fs => of_struct p fs
    | KAoS, NAoS els => map (fun ie => T (LPath (elem_path p (fst ie))) (of_struct (elem_path p (fst ie)) (node_fields (snd ie))))
                            (enum els)
    | _, _ => []
    end
  end.
(** _util.py:90-109 [print_tree]; None = TypeError *)
Definition print_tree (hide : bool) (p : str) (m : meta) (n : node) : option rtree :=
  match mkind m with
  | KLeaf _ _ => None
  | _ => Some (T (LName (mname m)) (make_rows hide p m n))
  end.

(** ** print_metadata_tree, _util.py:137-160 *)
Inductive pmeta := PMeta (name path_doc : str) (composite : bool) (children : list pmeta).
Definition pm_name (m : pmeta) : str := match m with PMeta n _ _ _ => n end.
Definition pm_doc (m : pmeta) : str := match m with PMeta _ d _ _ => d end.
Definition pm_composite (m : pmeta) : bool := match m with PMeta _ _ b _ => b end.
Definition pm_children (m : pmeta) : list pmeta := match m with PMeta _ _ _ c => c end.

Fixpoint meta_rows (maxdepth : Z) (depth : Z) (m : pmeta) {struct m} : list rtree :=
  match m with
  | PMeta _ _ _ cs =>
    map (fun c =>
      if pm_composite c then
        T (LPath (pm_doc c))
          (if (maxdepth =? 0)%Z || (depth <? maxdepth)%Z then meta_rows maxdepth (depth + 1)%Z c else [T LHidden []])
      else T (LLeaf (pm_doc c)) []) cs
  end.
Definition print_metadata_tree (maxdepth : Z) (m : pmeta) : rtree := T (LName (pm_name m)) (meta_rows maxdepth 1 m).

(** ** idsdiff, _util.py:215-260 *)
(** a piece of text, highlighted or not (rich.text.Text) *)
Definition piece := (bool * str)%type.
(** difflib.Match: a, b, size *)
Record block := { b_a : nat; b_b : nat; b_size : nat }.
(** txt[i : j] *)
Definition cut (s : str) (i j : nat) : str := firstn (j - i) (skipn i s).

(** _util.py:233-244, the loop: [pa], [pb] are the ends of the previous match *)
Fixpoint mark (t1 t2 : str) (pa pb : nat) (bs : list block) : list piece * list piece :=
  match bs with
  | [] => ([(true, skipn pa t1)], [(true, skipn pb t2)])
  | b :: bs' =>
    let (o1, o2) := mark t1 t2 (b_a b + b_size b) (b_b b + b_size b) bs' in
    ((if pa <? b_a b then [(true, cut t1 pa (b_a b))] else []) ++ (false, cut t1 (b_a b) (b_a b + b_size b)) :: o1,
     (if pb <? b_b b then [(true, cut t2 pb (b_b b))] else []) ++ (false, cut t2 (b_b b) (b_b b + b_size b)) :: o2)
  end.

Section Diff.
  (** SequenceMatcher().get_matching_blocks() of two texts, repr of a node, the text of a path in the metadata *)
  Variable blocks : str -> str -> list block.
  Variable repr : node -> str.
  Variable path_text : list str -> str.

  (** _util.py:218-225 the two texts of a difference; the first three kinds come with the values of the two structures *)
  Definition described (what v : str) : str := what ++ ":"%char :: " "%char :: v.
  Definition side_text (n : option node) : str := match n with None => strs "-" | Some n => repr n end.
  Definition texts (a b : handle) (d : diff) : str * str :=
    match d with
    | DVersion => (described (strs "Data Dictionary version") (h_version a), described (strs "Data Dictionary version") (h_version b))
    | DName => (described (strs "IDS name") (h_ids a), described (strs "IDS name") (h_ids b))
    | DPath => (described (strs "Path in IDS") (path_text (h_path a)), described (strs "Path in IDS") (path_text (h_path b)))
    | DNode _ l r => (side_text l, side_text r)
    | DTypes _ l r => (side_text (Some l), side_text (Some r))
    end.
  Definition diff_row (a b : handle) (d : diff) : list piece * list piece :=
    let (t1, t2) := texts a b d in mark t1 t2 0 0 (blocks t1 t2).

  Inductive shown := Table (rows : list (list piece * list piece)) | Identical.
  (** _util.py:215-260 *)
  Definition idsdiff (a b : handle) : shown :=
    match map (diff_row a b) (idsdiffgen a b) with [] => Identical | rows => Table rows end.
End Diff.
