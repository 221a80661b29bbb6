(** Specification vocabulary for IDS trees: which node is at which location, filled leaves, order of locations.
    Independent of the iteration, emptiness and difference functions of TreeModel. *)
From Verif Require Import Base TreeModel.

(** Children have distinct names; data nodes have no children. *)
Inductive wf_meta : meta -> Prop :=
| wfm : forall n k cs, NoDup (map mname cs) -> (forall c, In c cs -> wf_meta c) ->
        (forall dt nd, k = KLeaf dt nd -> cs = []) -> wf_meta (Meta n k cs).

(** A value of the right type and dimension. *)
Inductive val_ok : dtype -> nat -> value -> Prop :=
| vo_str : forall s, val_ok STR 0 (VStr s)
| vo_int : forall z, val_ok INT 0 (VInt z)
| vo_flt : forall f, val_ok FLT 0 (VFlt f)
| vo_cpx : forall r i, val_ok CPX 0 (VCpx r i)
| vo_strs : forall l, val_ok STR 1 (VStrs l)
| vo_inta : forall sh d, sh <> [] -> prod sh = length d -> val_ok INT (length sh) (VIntA sh d)
| vo_flta : forall sh d, sh <> [] -> prod sh = length d -> val_ok FLT (length sh) (VFltA sh d)
| vo_cpxa : forall sh d, sh <> [] -> prod sh = length d -> val_ok CPX (length sh) (VCpxA sh d).

(** A node of the class and contents required by its metadata. *)
Inductive conf : meta -> node -> Prop :=
| conf_none : forall n dt nd cs, conf (Meta n (KLeaf dt nd) cs) (NLeaf None)
| conf_leaf : forall n dt nd cs v, val_ok dt nd v -> conf (Meta n (KLeaf dt nd) cs) (NLeaf (Some v))
| conf_struct : forall n cs fs,
    (forall c ch, In c cs -> alookup (mname c) fs = Some ch -> conf c ch) ->
    (forall k, In k (akeys fs) -> In k (map mname cs)) -> NoDup (akeys fs) ->
    conf (Meta n KStruct cs) (NStruct fs)
| conf_aos : forall n cs els, (forall e, In e els -> conf (Meta n KStruct cs) e) -> conf (Meta n KAoS cs) (NAoS els).

(** [node_at m n l m' n']: at location l below node n (of metadata m) there is node n' (of metadata m'). *)
Inductive node_at : meta -> node -> loc -> meta -> node -> Prop :=
| na_here : forall m n, node_at m n [] m n
| na_child : forall nm cs fs c ch l m' n',
    In c cs -> alookup (mname c) fs = Some ch -> node_at c ch l m' n' ->
    node_at (Meta nm KStruct cs) (NStruct fs) (Child (mname c) :: l) m' n'
| na_elem : forall nm cs els i e l m' n',
    nth_error els i = Some e -> node_at (Meta nm KStruct cs) e l m' n' ->
    node_at (Meta nm KAoS cs) (NAoS els) (Elem i :: l) m' n'.

(** A value that counts as filled: any scalar, or a non-empty list or array. *)
Definition filled_value (v : value) : Prop :=
  match v with
  | VStr _ | VInt _ | VFlt _ | VCpx _ _ => True
  | VStrs l => l <> []
  | VIntA _ d => d <> []
  | VFltA _ d => d <> []
  | VCpxA _ d => d <> []
  end.

Definition is_leaf (m : meta) : Prop := exists dt nd, mkind m = KLeaf dt nd.

(** The data node at l holds the filled value v. *)
Definition leaf_at (m : meta) (n : node) (l : loc) (v : value) : Prop :=
  exists m', is_leaf m' /\ node_at m n l m' (NLeaf (Some v)) /\ filled_value v.

(** The array of structures at l has k elements, k > 0. *)
Definition aos_at (m : meta) (n : node) (l : loc) (k : nat) : Prop :=
  exists m' els, node_at m n l m' (NAoS els) /\ mkind m' = KAoS /\ length els = k /\ k > 0.

(** A node is non-empty iff it contains a filled data node or a non-empty array of structures. *)
Definition nonempty (m : meta) (n : node) : Prop :=
  exists l, (exists v, leaf_at m n l v) \/ (exists k, aos_at m n l k).

(** Document order: a node precedes its descendants, children follow the order of the data dictionary, elements follow
    their index. *)
Inductive before : meta -> loc -> loc -> Prop :=
| bf_down : forall m s l, before m [] (s :: l)
| bf_child : forall nm cs a c1 b c2 d l1 l2, cs = a ++ c1 :: b ++ c2 :: d ->
    before (Meta nm KStruct cs) (Child (mname c1) :: l1) (Child (mname c2) :: l2)
| bf_child_in : forall nm cs c l1 l2, In c cs -> before c l1 l2 ->
    before (Meta nm KStruct cs) (Child (mname c) :: l1) (Child (mname c) :: l2)
| bf_elem : forall nm cs i j l1 l2, i < j -> before (Meta nm KAoS cs) (Elem i :: l1) (Elem j :: l2)
| bf_elem_in : forall nm cs i l1 l2, before (Meta nm KStruct cs) l1 l2 ->
    before (Meta nm KAoS cs) (Elem i :: l1) (Elem i :: l2).

Inductive sorted_by {A} (R : A -> A -> Prop) : list A -> Prop :=
| sb_nil : sorted_by R []
| sb_cons : forall x l, (forall y, In y l -> R x y) -> sorted_by R l -> sorted_by R (x :: l).

(** The location is that of an element of an array of structures. *)
Definition is_elem (l : loc) : Prop := exists l' i, l = l' ++ [Elem i].

(** Like [node_at], but children never accessed before count as (empty) nodes. *)
Inductive vnode_at : meta -> node -> loc -> meta -> node -> Prop :=
| vna_here : forall m n, vnode_at m n [] m n
| vna_child : forall nm cs fs c ch l m' n',
    In c cs -> alookup (mname c) fs = Some ch \/ (alookup (mname c) fs = None /\ ch = new_node c) ->
    vnode_at c ch l m' n' ->
    vnode_at (Meta nm KStruct cs) (NStruct fs) (Child (mname c) :: l) m' n'
| vna_elem : forall nm cs els i e l m' n',
    nth_error els i = Some e -> vnode_at (Meta nm KStruct cs) e l m' n' ->
    vnode_at (Meta nm KAoS cs) (NAoS els) (Elem i :: l) m' n'.

(** [touched m n n']: n' is n after reading some children: structures may have gained fresh children, unset 1+D data nodes
    may have had their default value stored (ids_primitive.py:159-169). *)
Inductive touched : meta -> node -> node -> Prop :=
| tc_leaf : forall nm dt nd cs v, touched (Meta nm (KLeaf dt nd) cs) (NLeaf v) (NLeaf v)
| tc_default : forall nm dt nd cs, nd > 0 ->
    touched (Meta nm (KLeaf dt nd) cs) (NLeaf None) (NLeaf (Some (default_value dt nd)))
| tc_struct : forall nm cs fs fs',
    (forall c, In c cs -> forall ch, alookup (mname c) fs = Some ch ->
        exists ch', alookup (mname c) fs' = Some ch' /\ touched c ch ch') ->
    (forall c, In c cs -> forall ch', alookup (mname c) fs = None -> alookup (mname c) fs' = Some ch' ->
        touched c (new_node c) ch') ->
    touched (Meta nm KStruct cs) (NStruct fs) (NStruct fs')
| tc_aos : forall nm cs els els', Forall2 (touched (Meta nm KStruct cs)) els els' ->
    touched (Meta nm KAoS cs) (NAoS els) (NAoS els').

(** ** Equality of values as the user sees it: same type and shape, NaN equals NaN, strings up to trailing NUL characters
    (numpy string semantics). *)
Definition same_str (a b : str) : Prop := exists s i j, a = s ++ repeat zero i /\ b = s ++ repeat zero j.
Definition same_flt (a b : flt) : Prop :=
  (is_nan a = true /\ is_nan b = true) \/ (is_nan a = false /\ is_nan b = false /\ f_key a = f_key b).
Definition cpx_nan (a : flt * flt) : Prop := is_nan (fst a) = true \/ is_nan (snd a) = true.
Definition same_cpx (a b : flt * flt) : Prop :=
  (cpx_nan a /\ cpx_nan b) \/
  (~ cpx_nan a /\ ~ cpx_nan b /\ f_key (fst a) = f_key (fst b) /\ f_key (snd a) = f_key (snd b)).
Inductive same_value : value -> value -> Prop :=
| sv_str : forall a b, same_str a b -> same_value (VStr a) (VStr b)
| sv_int : forall a, same_value (VInt a) (VInt a)
| sv_flt : forall a b, same_flt a b -> same_value (VFlt a) (VFlt b)
| sv_cpx : forall a b c d, same_cpx (a, b) (c, d) -> same_value (VCpx a b) (VCpx c d)
| sv_strs : forall a b, Forall2 same_str a b -> same_value (VStrs a) (VStrs b)
| sv_inta : forall sh d, same_value (VIntA sh d) (VIntA sh d)
| sv_flta : forall sh a b, Forall2 same_flt a b -> same_value (VFltA sh a) (VFltA sh b)
| sv_cpxa : forall sh a b, Forall2 same_cpx a b -> same_value (VCpxA sh a) (VCpxA sh b).

(** All filled data nodes of n1 are present in n2 with the same value. *)
Definition leaves_in (m : meta) (n1 n2 : node) : Prop :=
  forall l v, leaf_at m n1 l v -> exists v', leaf_at m n2 l v' /\ same_value v v'.

(** The array of structures at l lies inside a sub-structure that holds something in n1 but nothing at all in n2. *)
Definition hidden (m : meta) (n1 n2 : node) (l : loc) : Prop :=
  exists p nm q mp np, l = p ++ Child nm :: q /\ q <> [] /\ node_at m n1 (p ++ [Child nm]) mp np /\ mkind mp = KStruct /\
    ~ (exists mp' np', node_at m n2 (p ++ [Child nm]) mp' np' /\ nonempty mp' np').

(** All non-empty arrays of structures of n1 have the same size in n2. *)
Definition sizes_in (m : meta) (n1 n2 : node) : Prop := forall l k, aos_at m n1 l k -> aos_at m n2 l k.
(** ... except the ones inside a sub-structure which is completely empty in n2. *)
Definition sizes_in_visible (m : meta) (n1 n2 : node) : Prop :=
  forall l k, aos_at m n1 l k -> aos_at m n2 l k \/ hidden m n1 n2 l.

(** Swap the two sides of a difference. *)
Definition flip (d : diff) : diff :=
  match d with
  | DNode p a b => DNode p b a
  | DTypes p a b => DTypes p b a
  | x => x
  end.

(** The nodes listed by an iteration without [visit_empty]: filled data nodes and, unless [leaf_only], the elements of
    arrays of structures and all non-empty structures and arrays. *)
Definition visible (leaf_only : bool) (m' : meta) (l : loc) (n' : node) : Prop :=
  (is_leaf m' /\ nonempty m' n') \/ (leaf_only = false /\ ~ is_leaf m' /\ (is_elem l \/ nonempty m' n')).

(** Something non-empty at location l *)
Definition present (m : meta) (n : node) (l : loc) : Prop := exists m' n', node_at m n l m' n' /\ nonempty m' n'.

(** What a reported difference at location l means *)
Definition real (m : meta) (n1 n2 : node) (pre : list str) (d : diff) : Prop :=
  exists l,
   (exists m' a b, d = DNode (pre ++ loc_names l) (Some a) (Some b) /\ node_at m n1 l m' a /\ node_at m n2 l m' b /\
       ((exists v w, a = NLeaf (Some v) /\ b = NLeaf (Some w) /\ is_leaf m' /\ filled_value v /\ filled_value w /\ ~ same_value v w)
        \/ (exists e1 e2, a = NAoS e1 /\ b = NAoS e2 /\ mkind m' = KAoS /\ length e1 <> length e2 /\ nonempty m' b /\ nonempty m' a))) \/
   (exists m' a, d = DNode (pre ++ loc_names l) (Some a) None /\ node_at m n1 l m' a /\ nonempty m' a /\
       mkind m' <> KStruct /\ ~ present m n2 l /\ (mkind m' = KAoS -> ~ hidden m n1 n2 l)) \/
   (exists m' b, d = DNode (pre ++ loc_names l) None (Some b) /\ node_at m n2 l m' b /\ nonempty m' b /\
       mkind m' <> KStruct /\ ~ present m n1 l /\ (mkind m' = KAoS -> ~ hidden m n2 n1 l)).

(** every difference is reported, at the node or at one of its ancestors *)
Definition reported (m : meta) (n1 n2 : node) (pre : list str) (l : loc) : Prop :=
  exists p q a b, l = p ++ q /\ In (DNode (pre ++ mname m :: loc_names p) a b) (diff_child pre m n1 m n2).

Definition differs (m : meta) (n1 n2 : node) (l : loc) : Prop :=
  (exists v, leaf_at m n1 l v /\ ~ exists w, leaf_at m n2 l w /\ same_value v w) \/
  (exists k, aos_at m n1 l k /\ ~ aos_at m n2 l k /\ ~ hidden m n1 n2 l).

(** A structure of some IDS is described by metadata from the data dictionary, which is determined by the version, the IDS
    and the path; an element of an array of structures shares the metadata of the array. *)
Definition struct_view (m : meta) : meta := Meta (mname m) KStruct (mchildren m).
Definition handle_ok (dd : str -> str -> list str -> meta) (h : handle) : Prop :=
  h_meta h = dd (h_version h) (h_ids h) (h_path h) /\ wf_meta (h_meta h) /\ conf (struct_view (h_meta h)) (h_node h) /\
  (h_path h = [] \/ exists p, h_path h = p ++ [mname (h_meta h)]).

(** Every sub-structure that holds anything holds a filled data node (not merely arrays of empty elements). *)
Definition solid (m : meta) (n : node) : Prop :=
  forall p nm mp np, node_at m n (p ++ [Child nm]) mp np -> mkind mp = KStruct -> nonempty mp np ->
    exists l v, leaf_at mp np l v.

(** String data nodes are scalars or lists (the data dictionary has STR_0D and STR_1D only). *)
Inductive str_ok : meta -> Prop :=
| stro : forall n k cs, (forall nd, k = KLeaf STR nd -> nd <= 1) -> (forall c, In c cs -> str_ok c) -> str_ok (Meta n k cs).

(** Same filled data, and the same sizes of all arrays of structures that are compared. *)
Definition agree (m : meta) (n1 n2 : node) : Prop :=
  leaves_in m n1 n2 /\ leaves_in m n2 n1 /\ sizes_in_visible m n1 n2 /\ sizes_in_visible m n2 n1.

(** Same version, IDS and path *)
Definition same_place (a b : handle) : Prop := h_version a = h_version b /\ h_ids a = h_ids b /\ h_path a = h_path b.
