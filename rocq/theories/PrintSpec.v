(** What the printing functions are expected to show, by locations in the tree. *)
From Verif Require Import Base TreeModel TreeSpec PrintModel.

(** The lines of a printed tree from top to bottom, each with the lines above it in the tree. *)
Fixpoint lines (t : rtree) : list (list label) :=
  match t with T l ts => [l] :: map (cons l) (flat_map lines ts) end.
Definition lines_below (ts : list rtree) : list (list label) := flat_map lines ts.

(** The path of a node that is at location l below a node with path p: names with "/" in front, indices in brackets. *)
Definition seg (s : step) : str :=
  match s with Child n => "/"%char :: n | Elem i => "["%char :: show_N (N.of_nat i) ++ ["]"%char] end.
Definition path_below (p : str) (l : loc) : str :=
  match p with [] => tl (flat_map seg l) | _ => p ++ flat_map seg l end.

(** The line of a node: a data node has its name and value, a structure its path, an array of structures has a line only if
    it is empty. *)
Inductive labelled (path : str) : meta -> node -> option label -> Prop :=
| lb_value : forall m v, is_leaf m -> filled_value v -> labelled path m (NLeaf (Some v)) (Some (LValue (mname m) (Some v)))
| lb_unset : forall m x, is_leaf m -> ~ nonempty m x -> labelled path m x (Some (LValue (mname m) None))
| lb_struct : forall m x, mkind m = KStruct -> labelled path m x (Some (LPath path))
| lb_no_elems : forall m, mkind m = KAoS -> labelled path m (NAoS []) (Some (LNoElems path))
| lb_elems : forall m e els, mkind m = KAoS -> labelled path m (NAoS (e :: els)) None.

Definition inits (l : loc) : list loc := map (fun k => firstn k l) (seq 1 (length l)).
Definition somes {A} (l : list (option A)) : list A := flat_map (fun o => match o with Some x => [x] | None => [] end) l.

(** The line of location l below node n (path p) with those of the nodes that contain it. *)
Definition line_of (p : str) (m : meta) (n : node) (l : loc) (r : list label) : Prop :=
  exists os, Forall2 (fun l' o => exists m' x, vnode_at m n l' m' x /\ labelled (path_below p l') m' x o) (inits l) os /\ r = somes os.

(** an array of structures with elements: it has no line of its own *)
Definition full_aos (m : meta) (x : node) : Prop := mkind m = KAoS /\ exists e els, x = NAoS (e :: els).

(** ** Metadata *)
(** [meta_at m l m']: m' is reached from m by the list of children l (from the top) *)
Inductive meta_at : pmeta -> list pmeta -> Prop :=
| ma_here : forall m, meta_at m []
| ma_child : forall m c l, In c (pm_children m) -> meta_at c l -> meta_at m (c :: l).
Definition meta_label (m : pmeta) : label := if pm_composite m then LPath (pm_doc m) else LLeaf (pm_doc m).
(** data nodes have no children *)
Inductive pm_ok : pmeta -> Prop :=
| pmo : forall n d b cs, (b = false -> cs = []) -> (forall c, In c cs -> pm_ok c) -> pm_ok (PMeta n d b cs).
(** order from top to bottom *)
Inductive pm_before : pmeta -> list pmeta -> list pmeta -> Prop :=
| pb_down : forall m c l, pm_before m [] (c :: l)
| pb_child : forall m a c1 b c2 d l1 l2, pm_children m = a ++ c1 :: b ++ c2 :: d -> pm_before m (c1 :: l1) (c2 :: l2)
| pb_in : forall m c l1 l2, In c (pm_children m) -> pm_before c l1 l2 -> pm_before m (c :: l1) (c :: l2).

(** ** Differences *)
(** what difflib documents of get_matching_blocks: the blocks are common to both texts, in order, and the last one is the
    pair of ends with length 0 *)
Inductive blocks_ok (t1 t2 : str) : nat -> nat -> list block -> Prop :=
| bo_last : forall i j, i <= length t1 -> j <= length t2 ->
    blocks_ok t1 t2 i j [{| b_a := length t1; b_b := length t2; b_size := 0 |}]
| bo_cons : forall i j b bs, i <= b_a b -> j <= b_b b -> b_a b + b_size b <= length t1 -> b_b b + b_size b <= length t2 ->
    cut t1 (b_a b) (b_a b + b_size b) = cut t2 (b_b b) (b_b b + b_size b) ->
    blocks_ok t1 t2 (b_a b + b_size b) (b_b b + b_size b) bs -> blocks_ok t1 t2 i j (b :: bs).
Definition text (l : list piece) : str := flat_map snd l.
Definition plain (l : list piece) : str := text (filter (fun x => negb (fst x)) l).
