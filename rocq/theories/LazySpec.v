(** What is seen through a fully loaded IDS: specification for LazyModel. *)
From Verif Require Import Base TreeModel TreeSpec VmapModel StoreModel LazyModel.

(** the child of a structure; a child that is absent is created when it is accessed, and empty *)
Definition field (d : meta) (fs : list (str * node)) : node := match alookup (mname d) fs with Some ch => ch | None => new_node d end.

(** [reach m e path l m' e']: in the fully loaded e, the expression path leads to the node e' at location l. *)
Inductive reach : meta -> node -> list acc -> loc -> meta -> node -> Prop :=
| re_here : forall m e, reach m e [] [] m e
| re_attr : forall nm cs fs d path l m' e', In d cs -> reach d (field d fs) path l m' e' ->
    reach (Meta nm KStruct cs) (NStruct fs) (Attr (mname d) :: path) (Child (mname d) :: l) m' e'
| re_pos : forall nm cs els i y path l m' e', nth_error els i = Some y -> reach (Meta nm KStruct cs) y path l m' e' ->
    reach (Meta nm KAoS cs) (NAoS els) (Item (Z.of_nat i) :: path) (Elem i :: l) m' e'
| re_neg : forall nm cs els i y path l m' e', nth_error els (length els - S i) = Some y -> S i <= length els ->
    reach (Meta nm KStruct cs) y path l m' e' ->
    reach (Meta nm KAoS cs) (NAoS els) (Item (- Z.of_nat (S i)) :: path) (Elem (length els - S i) :: l) m' e'.

(** an access to path goes through (or to) the node at l *)
Definition asked (m : meta) (e : node) (path : list acc) (l : loc) : Prop := exists p1 p2 m' e', path = p1 ++ p2 /\ reach m e p1 l m' e'.

(** what is seen there *)
Definition shown (e : node) (look : bool) : obs :=
  if look then match e with NLeaf v => OValue v | NStruct _ => ONode | NAoS els => OSize (length els) end else ONode.

(** [seen m e path look r]: the result of an access to a fully loaded IDS *)
Inductive seen (m : meta) (e : node) (path : list acc) (look : bool) : result lexn obs -> Prop :=
| seen_ok : forall l m' e', reach m e path l m' e' -> seen m e path look (Ok (shown e' look))
| seen_no_attr : forall p nm q l m' e', path = p ++ Attr nm :: q -> reach m e p l m' e' ->
    (forall fs, e' = NStruct fs -> ~ In nm (map mname (mchildren m'))) -> seen m e path look (Err NoAttribute)
| seen_no_elem : forall p i q l m' e', path = p ++ Item i :: q -> reach m e p l m' e' ->
    (forall els, e' = NAoS els -> (i < - Z.of_nat (length els) \/ Z.of_nat (length els) <= i)%Z) -> seen m e path look (Err NoElement).

(** What has been loaded into a lazy IDS: values of data nodes and sizes of (non-empty) arrays of structures. *)
Inductive loaded_value : lnode -> loc -> value -> Prop :=
| lv_here : forall v, loaded_value (LLeaf (Some v)) [] v
| lv_child : forall c fs nm ch l v, alookup nm fs = Some ch -> loaded_value ch l v -> loaded_value (LStruct c fs) (Child nm :: l) v
| lv_elem : forall c els i x l v, nth_error els i = Some (Some x) -> loaded_value x l v -> loaded_value (LAoS c (Some els)) (Elem i :: l) v.
Inductive loaded_size : lnode -> loc -> nat -> Prop :=
| ls_here : forall c els, length els > 0 -> loaded_size (LAoS c (Some els)) [] (length els)
| ls_child : forall c fs nm ch l v, alookup nm fs = Some ch -> loaded_size ch l v -> loaded_size (LStruct c fs) (Child nm :: l) v
| ls_elem : forall c els i x l v, nth_error els i = Some (Some x) -> loaded_size x l v -> loaded_size (LAoS c (Some els)) (Elem i :: l) v.
