(** Specification of coordinates and validity of an IDS.  Only the types of ValModel.v are used (coordinates, attributes,
    results and error kinds), none of its functions. *)
From Verif Require Import Base PathModel TreeModel TreeSpec ValModel.

Section Spec.
Variable m : meta.
Variable at_ : list str -> attrs.
Variable n : node.

(** ** The tree as seen by a reader: children never accessed count as empty nodes *)
Definition child_at (l : loc) (nm : str) : Prop :=
  exists m' n' c, vnode_at m n l m' n' /\ mkind m' = KStruct /\ In c (mchildren m') /\ mname c = nm.
Definition elems_at (l : loc) (k : nat) : Prop := exists m' els, vnode_at m n l m' (NAoS els) /\ mkind m' = KAoS /\ length els = k.
Definition value_at (l : loc) (v : value) : Prop :=
  exists m' x dt nd, vnode_at m n l m' (NLeaf x) /\ mkind m' = KLeaf dt nd /\
    v = match x with Some v => v | None => default_value dt nd end.
Definition dims_at (l : loc) (sh : list nat) : Prop :=
  (exists k, elems_at l k /\ sh = [k]) \/ (exists v, value_at l v /\ sh = value_shape v).
Definition nonempty_at (l : loc) : Prop := exists m' n', vnode_at m n l m' n' /\ nonempty m' n'.

(** ** Where a path leads, seen from a node *)

(** index z (0-based, negative from the end) of k elements is element j *)
Definition position (z : Z) (k j : nat) : Prop := j < k /\ (z = Z.of_nat j \/ z = Z.of_nat j - Z.of_nat k)%Z.

(** the ancestor (or self) of a node which has k names in its path; inside an array of structures, the element *)
Definition ancestor (from : loc) (k : nat) (l0 : loc) : Prop :=
  exists suf, from = l0 ++ suf /\ length (loc_names l0) = k /\ (suf = [] \/ exists c t, suf = Child c :: t).
Definition is_slice (i : index) : Prop := exists a b, i = ISlice a b.

Section From.
Variable from : loc.
(** [leads steps r]: the names which are also in the path of the node itself are taken from there (their indices are not
    looked at); the others are followed downwards.  EIndex: an index is out of range; EOther: there is no such path. *)
Inductive leads : list (str * index) -> result lexn loc -> Prop :=
| ld_follow : forall pre rest l0 r,
    length pre <= length (loc_names from) -> map fst pre = firstn (length pre) (loc_names from) ->
    (forall x t, rest = x :: t -> nth_error (loc_names from) (length pre) <> Some (fst x)) ->
    (forall x, In x pre -> ~ is_slice (snd x)) ->
    ancestor from (length pre) l0 -> follow l0 rest r -> leads (pre ++ rest) r
| ld_slice : forall pre x rest,
    length pre < length (loc_names from) -> map fst (pre ++ [x]) = firstn (S (length pre)) (loc_names from) ->
    is_slice (snd x) -> leads (pre ++ x :: rest) (Err EOther)
with follow : loc -> list (str * index) -> result lexn loc -> Prop :=
| fw_done : forall l, follow l [] (Ok l)
| fw_gen : forall l nm s rest, follow l ((nm, IGen s) :: rest) (Err EOther)
| fw_slice : forall l nm a b rest, follow l ((nm, ISlice a b) :: rest) (Err EOther)
| fw_missing : forall l nm i rest, ~ child_at l nm -> follow l ((nm, i) :: rest) (Err EOther)
| fw_child : forall l nm rest r, child_at l nm -> follow (l ++ [Child nm]) rest r -> follow l ((nm, INone) :: rest) r
| fw_elem : forall l nm i rest z k j r, child_at l nm -> number i (Ok z) -> elems_at (l ++ [Child nm]) k -> position z k j ->
    follow ((l ++ [Child nm]) ++ [Elem j]) rest r -> follow l ((nm, i) :: rest) r
| fw_range : forall l nm i rest z k, child_at l nm -> number i (Ok z) -> elems_at (l ++ [Child nm]) k ->
    (forall j, ~ position z k j) -> follow l ((nm, i) :: rest) (Err EIndex)
| fw_noaos : forall l nm i rest z, child_at l nm -> number i (Ok z) -> (forall k, ~ elems_at (l ++ [Child nm]) k) ->
    follow l ((nm, i) :: rest) (Err EOther)
| fw_number : forall l nm i rest e, child_at l nm -> number i (Err e) -> follow l ((nm, i) :: rest) (Err e)
(** the number given by an index; a nested path gives the (1-based) integer stored there *)
with number : index -> result lexn Z -> Prop :=
| nb_num : forall z, number (INum z) (Ok z)
| nb_path : forall ps ix q z, leads (combine ps ix) (Ok q) -> value_at q (VInt z) -> number (IPath ps ix) (Ok (z - 1)%Z)
| nb_noint : forall ps ix q, leads (combine ps ix) (Ok q) -> (forall z, ~ value_at q (VInt z)) -> number (IPath ps ix) (Err EOther)
| nb_err : forall ps ix e, leads (combine ps ix) (Err e) -> number (IPath ps ix) (Err e).
End From.
Definition resolves (from : loc) (p : path) (r : result lexn loc) : Prop := leads from (combine (fst p) (snd p)) r.

(** ** The coordinate of a dimension *)

(** do something for each in turn, until the first error *)
Inductive each {A B} (R : A -> result lexn B -> Prop) : list A -> result lexn (list B) -> Prop :=
| ea_nil : each R [] (Ok [])
| ea_cons : forall x y t ys, R x (Ok y) -> each R t (Ok ys) -> each R (x :: t) (Ok (y :: ys))
| ea_here : forall x t e, R x (Err e) -> each R (x :: t) (Err e)
| ea_later : forall x y t e, R x (Ok y) -> each R t (Err e) -> each R (x :: t) (Err e).

(** the path is that of something inside the elements of the array of structures at l *)
Definition inside (l : loc) (p : path) : Prop := (exists k, elems_at l k) /\ exists nm t, fst p = loc_names l ++ nm :: t.
Definition same_shapes (vs : list value) : Prop := forall v w, In v vs -> In w vs -> value_shape v = value_shape w.

(** value of the coordinate in one element *)
Inductive value_in (p : path) : loc -> result lexn value -> Prop :=
| vi_ok : forall l q v, resolves l p (Ok q) -> value_at q v -> value_in p l (Ok v)
| vi_none : forall l q, resolves l p (Ok q) -> (forall v, ~ value_at q v) -> value_in p l (Err EOther)
| vi_err : forall l e, resolves l p (Err e) -> value_in p l (Err e).

(** size of the first dimension of a node *)
Inductive size_of : loc -> result lexn nat -> Prop :=
| so_ok : forall q k sh, dims_at q (k :: sh) -> size_of q (Ok k)
| so_none : forall q, (forall k sh, ~ dims_at q (k :: sh)) -> size_of q (Err EOther).
(** number of items of a node; strings are counted as well *)
Inductive items_of : loc -> result lexn nat -> Prop :=
| io_ok : forall q k sh, dims_at q (k :: sh) -> items_of q (Ok k)
| io_str : forall q s, value_at q (VStr s) -> items_of q (Ok (length s))
| io_none : forall q, (forall k sh, ~ dims_at q (k :: sh)) -> (forall s, ~ value_at q (VStr s)) -> items_of q (Err EOther).

(** an alternative for the coordinate q *)
Inductive alternative (q : loc) : path -> result lexn (loc * nat) -> Prop :=
| al_ok : forall a q' k, resolves q a (Ok q') -> size_of q' (Ok k) -> alternative q a (Ok (q', k))
| al_size : forall a q' e, resolves q a (Ok q') -> size_of q' (Err e) -> alternative q a (Err e)
| al_err : forall a e, resolves q a (Err e) -> alternative q a (Err e).

(** the first filled one, provided all filled ones have the same size *)
Inductive choose (q : loc) : list (loc * nat) -> result lexn cres -> Prop :=
| ch_none : forall qs, (forall x, In x qs -> snd x = 0) -> choose q qs (Ok (CNode q))
| ch_first : forall a q' k b, (forall x, In x a -> snd x = 0) -> k > 0 -> (forall x, In x b -> snd x = 0 \/ snd x = k) ->
    choose q (a ++ (q', k) :: b) (Ok (CNode q'))
| ch_differ : forall qs x y, In x qs -> In y qs -> snd x > 0 -> snd y > 0 -> snd x <> snd y -> choose q qs (Err ELookup).

Inductive by_path (l : loc) (p : path) : result lexn cres -> Prop :=
| bp_values : forall k vs, inside l p -> elems_at l k ->
    each (value_in p) (map (fun i => l ++ [Elem i]) (seq 0 k)) (Ok vs) -> same_shapes vs -> by_path l p (Ok (CData vs))
| bp_ragged : forall k vs, inside l p -> elems_at l k ->
    each (value_in p) (map (fun i => l ++ [Elem i]) (seq 0 k)) (Ok vs) -> ~ same_shapes vs -> by_path l p (Err EOther)
| bp_values_err : forall k e, inside l p -> elems_at l k ->
    each (value_in p) (map (fun i => l ++ [Elem i]) (seq 0 k)) (Err e) -> by_path l p (Err e)
| bp_node : forall q, ~ inside l p -> resolves l p (Ok q) -> a_alts (at_ (loc_names q)) = [] -> by_path l p (Ok (CNode q))
| bp_node_err : forall e, ~ inside l p -> resolves l p (Err e) -> by_path l p (Err e)
| bp_size_err : forall q e, ~ inside l p -> resolves l p (Ok q) -> a_alts (at_ (loc_names q)) <> [] -> size_of q (Err e) ->
    by_path l p (Err e)
| bp_alts_err : forall q k e, ~ inside l p -> resolves l p (Ok q) -> a_alts (at_ (loc_names q)) <> [] -> size_of q (Ok k) ->
    each (alternative q) (a_alts (at_ (loc_names q))) (Err e) -> by_path l p (Err e)
| bp_alts : forall q k qs r, ~ inside l p -> resolves l p (Ok q) -> a_alts (at_ (loc_names q)) <> [] -> size_of q (Ok k) ->
    each (alternative q) (a_alts (at_ (loc_names q))) (Ok qs) -> choose q ((q, k) :: qs) r -> by_path l p r.

(** exactly one of the references is filled *)
Inductive one_of (l : loc) (dim : nat) (c : coord) : result lexn cres -> Prop :=
| oo_err : forall e, each (resolves l) (c_refs c) (Err e) -> one_of l dim c (Err e)
| oo_items_err : forall qs e, each (resolves l) (c_refs c) (Ok qs) -> each items_of qs (Err e) -> one_of l dim c (Err e)
| oo_one : forall qs ks i q, each (resolves l) (c_refs c) (Ok qs) -> each items_of qs (Ok ks) ->
    nth_error qs i = Some q -> (forall j k, nth_error ks j = Some k -> (k > 0 <-> j = i)) -> one_of l dim c (Ok (CNode q))
| oo_index : forall qs ks sh z, each (resolves l) (c_refs c) (Ok qs) -> each items_of qs (Ok ks) ->
    (forall k, In k ks -> k = 0) -> c_size c = Some z -> dims_at l sh -> one_of l dim c (Ok (CRange (nth dim sh 0)))
| oo_none : forall qs ks, each (resolves l) (c_refs c) (Ok qs) -> each items_of qs (Ok ks) ->
    (forall k, In k ks -> k = 0) -> c_size c = None -> one_of l dim c (Err ELookup)
| oo_several : forall qs ks i j ki kj, each (resolves l) (c_refs c) (Ok qs) -> each items_of qs (Ok ks) ->
    nth_error ks i = Some ki -> nth_error ks j = Some kj -> i <> j -> ki > 0 -> kj > 0 -> one_of l dim c (Err ELookup).

Definition time_coord (c : coord) : Prop := exists p a, In p (c_refs c) /\ fst p = a ++ [strs "time"].
Definition mode (t : Z) : Prop := value_at [Child (strs "ids_properties"); Child (strs "homogeneous_time")] (VInt t).
Definition toplevel_time : path := ([strs "time"], [INone]).

Inductive coordinate (l : loc) (dim : nat) (c : coord) : result lexn cres -> Prop :=
| co_index : forall sh, c_refs c = [] -> dims_at l sh -> coordinate l dim c (Ok (CRange (nth dim sh 0)))
| co_homogeneous : forall r, time_coord c -> mode 1 -> by_path l toplevel_time r -> coordinate l dim c r
| co_heterogeneous : forall p t r, time_coord c -> mode 0 -> c_refs c = p :: t -> by_path l p r -> coordinate l dim c r
| co_no_mode : time_coord c -> ~ mode 0 -> ~ mode 1 -> coordinate l dim c (Err EOther)
| co_single : forall p r, ~ time_coord c -> c_refs c = [p] -> c_size c = None -> by_path l p r -> coordinate l dim c r
| co_one_of : forall r, ~ time_coord c -> c_refs c <> [] -> (c_size c <> None \/ length (c_refs c) > 1) -> one_of l dim c r ->
    coordinate l dim c r.

(** ** Validity *)

(** the float value standing for "not set" *)
Definition unset_float (v : value) : Prop := exists s, In s (value_data v) /\ scalar_eq s (SFlt EMPTY_FLOAT) = true.
(** a fixed size (0 does not count) *)
Definition sized (c : coord) : Prop := exists z, c_size c = Some z /\ z <> 0%Z.

(** size k of the dimension is in accordance with what was found as its coordinate *)
Inductive accepts (c : coord) (k : nat) : result lexn cres -> Prop :=
| ac_ignored : accepts c k (Err EOther)
| ac_struct : forall q, (forall sh, ~ dims_at q sh) -> accepts c k (Ok (CNode q))
| ac_node : forall q sh, dims_at q (k :: sh) -> accepts c k (Ok (CNode q))
| ac_range : ~ sized c -> accepts c k (Ok (CRange k))
| ac_values : forall vs, ~ sized c -> (forall v, In v vs -> ~ unset_float v) -> length vs = k -> accepts c k (Ok (CData vs)).

Inductive dim_ok (l : loc) (dim k : nat) (c : coord) : Prop :=
| do_free : c_size c = None -> c_refs c = [] -> dim_ok l dim k c
| do_size : c_size c = Some (Z.of_nat k) -> k <> 0 -> dim_ok l dim k c
| do_coordinate : forall r, c_refs c <> [] -> coordinate l dim c r -> accepts c k r -> dim_ok l dim k c.
Inductive same_ok (l : loc) (dim k : nat) (c : coord) : Prop :=
| sk_free : c_size c = None -> c_refs c = [] -> same_ok l dim k c
| sk_ignored : forall p, c_refs c = [p] -> resolves l p (Err EOther) -> same_ok l dim k c
| sk_same : forall p q sh, c_refs c = [p] -> resolves l p (Ok q) -> dims_at q sh -> nth_error sh dim = Some k -> same_ok l dim k c.

Definition valid (const : bool) : Prop :=
  exists t, mode t /\ (t = 0 \/ t = 1 \/ t = 2)%Z /\ (const = true -> t = 2%Z) /\
  forall l, l <> [] -> nonempty_at l ->
    (a_dynamic (at_ (loc_names l)) = true -> t <> 2%Z) /\
    (forall sh dim k, dims_at l sh -> nth_error sh dim = Some k ->
       dim_ok l dim k (nth dim (a_coords (at_ (loc_names l))) no_coord) /\
       same_ok l dim k (nth dim (a_same (at_ (loc_names l))) no_coord)).
End Spec.
