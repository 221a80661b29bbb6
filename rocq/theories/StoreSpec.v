(** Where the nodes of an IDS are stored: specification for StoreModel, by location instead of by recursion over the metadata. *)
From Verif Require Import Base TreeModel TreeSpec ConvSpec VmapModel StoreModel.
From Verif Require PrimModel.

(** Names of nodes are not empty and contain no slash. *)
Inductive named : meta -> Prop :=
| nmd : forall n k cs, n <> [] -> ~ In "/"%char n -> (forall c, In c cs -> named c) -> named (Meta n k cs).

(** no data node below m is a scalar with the empty value (assigning it makes the node unset: C11) *)
Definition settled (m : meta) (n : node) : Prop :=
  forall l m' v, node_at m n l m' (NLeaf (Some v)) -> forall dt, mkind m' = KLeaf dt 0 -> PrimModel.is_empty dt v = false.

Section Address.
Variable dynamic : list str -> bool.
Variable xml_tbp : list str -> str.
Variable nbc : option nmap.
Variable mode : Z.

(** some node above [names] is dynamic *)
Definition inside_dynamic (names : list str) : bool := existsb (fun i => dynamic (firstn i names)) (seq 1 (length names - 1)).

(** Time base of a node with path [names], which is at [rel] relative to the innermost array of structures around it. *)
Definition own_base (aos : bool) (names rel : list str) : str :=
  if aos then (if dynamic names then path_of rel ++ strs "/time" else [])
  else if dynamic names && negb (inside_dynamic names) then xml_tbp names else [].

(** The entry of the version map for a path: nothing, removed (or of another type), or the position in the other version. *)
Inductive target := Same | Gone | At (p : place) | Bad.
Definition target_of (names : list str) : target :=
  match nbc with
  | None => Same
  | Some mp =>
    match alookup (path_of names) (m_path mp) with
    | None => if has (path_of names) (m_type mp) then Gone else Same
    | Some None => Gone
    | Some (Some _) => match alookup (path_of names) (m_ctx mp), alookup (path_of names) (m_tbp mp) with
                       | Some c, Some t => At (c, t)
                       | _, _ => Bad
                       end
    end
  end.

(** Nodes that are neither written nor read. *)
Definition skipped (names : list str) : Prop := (mode = 2%Z /\ dynamic names = true) \/ target_of names = Gone.

(** In homogeneous mode, there is one time base. *)
Definition homogenised (p : place) : place :=
  (fst p, if str_eqb (snd p) [] then [] else if (mode =? 1)%Z then strs "/time" else snd p).
Inductive placed (aos : bool) (names rel : list str) : place -> Prop :=
| pl_same : target_of names = Same -> placed aos names rel (homogenised (path_of rel, own_base aos names rel))
| pl_at : forall p, target_of names = At p -> placed aos names rel (homogenised p).

(** [position aos names rel l k]: the node at l below the node with path [names] (relative path [rel]) has position k; [aos]: it is an
    array of structures.  The arrays of structures on the way give the contexts, with the index of the element. *)
Inductive position (aos : bool) : list str -> list str -> loc -> key -> Prop :=
| po_here : forall names rel p, placed aos names rel p -> position aos names rel [] ([], p)
| po_child : forall names rel nm l k, ~ skipped (names ++ [nm]) -> position aos (names ++ [nm]) (rel ++ [nm]) l k ->
    position aos names rel (Child nm :: l) k
| po_elem : forall names rel i l p c q, placed true names rel p -> position aos names [] l (c, q) ->
    position aos names rel (Elem i :: l) ((p, i) :: c, q).

(** position of a node of the IDS *)
Definition position_of (aos : bool) (l : loc) (k : key) : Prop := position aos [] [] l k.

(** each array of structures on the way to l is stored with enough elements *)
Definition covered (s : store) (l : loc) : Prop :=
  forall a i b, l = a ++ Elem i :: b -> exists k n, position_of true a k /\ s_size s k = Some n /\ i < n.
End Address.

(** What a put removes: everything at or inside a node of the data dictionary that is not a structure, and not inside an array of
    structures. *)
Definition erased (m : meta) (k : key) : Prop :=
  exists ns m', ns <> [] /\ loc_ok m (map Child ns) m' /\ mkind m' <> KStruct /\
    path_of ns = match fst k with [] => fst (snd k) | (p, _) :: _ => fst p end.
