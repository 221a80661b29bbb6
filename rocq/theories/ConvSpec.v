(** What the conversion of an IDS to another version of the data dictionary has to do, in terms of the filled data nodes of the two
    trees (TreeSpec.v) and the rename map.  No functions of ConvModel.v are used. *)
From Verif Require Import Base PathSpec TreeModel TreeSpec.
From Verif Require VmapModel PrimModel.
Import VmapModel(nmap).

(** the metadata of a path *)
Inductive at_path : meta -> list str -> meta -> Prop :=
| ap_here : forall m, at_path m [] m
| ap_child : forall m c p m', In c (mchildren m) -> at_path c p m' -> at_path m (mname c :: p) m'.

(** a location that fits the metadata: [loc_ok m l m'] *)
Inductive loc_ok : meta -> loc -> meta -> Prop :=
| lo_here : forall m, loc_ok m [] m
| lo_child : forall nm cs c l m', In c cs -> loc_ok c l m' -> loc_ok (Meta nm KStruct cs) (Child (mname c) :: l) m'
| lo_elem : forall nm cs i l m', loc_ok (Meta nm KStruct cs) l m' -> loc_ok (Meta nm KAoS cs) (Elem i :: l) m'.

(** the indices in a location *)
Definition loc_idx (l : loc) : list nat := flat_map (fun s => match s with Child _ => [] | Elem i => [i] end) l.

(** the arrays of structures that contain the path p (without p itself), outermost first *)
Fixpoint arrays (m : meta) (pre p : list str) : list (list str) :=
  match p with
  | [] | [_] => []
  | x :: t => match child_meta x (mchildren m) with
              | Some c => (match mkind c with KAoS => [pre ++ [x]] | _ => [] end) ++ arrays c (pre ++ [x]) t
              | None => []
              end
  end.

Definition slashed (p : list str) : str := join_with "/"%char p.
Definition within (a b : loc) : Prop := exists r, b = a ++ r.

Section Spec.
Variables (sm tm : meta).
Variable src : node.
Variable rm : nmap.

Definition entry (p : list str) : option (option str) := alookup (slashed p) (VmapModel.m_path rm).
(** path p of the source is path q of the target *)
Definition mapped (p q : list str) : Prop :=
  entry p = Some (Some (slashed q)) \/ (entry p = None /\ p = q).
(** a special rule applies to the path *)
Definition rule_at (p : list str) : Prop :=
  alookup (slashed p) (VmapModel.m_type rm) <> None \/ alookup (slashed p) (VmapModel.m_post rm) <> None.
(** the path is inside something that has no counterpart; or that a special rule applies to *)
Definition removed (p : list str) : Prop := exists a b, p = a ++ b /\ a <> [] /\ entry a = Some None.
Definition ruled (p : list str) : Prop := exists a b, p = a ++ b /\ a <> [] /\ rule_at a.

(** where the node at location s of the source goes: the path given by the map, with the same indices *)
Definition goes_to (s t : loc) : Prop :=
  mapped (loc_names s) (loc_names t) /\ loc_idx s = loc_idx t /\ ~ is_elem t /\ exists mt, loc_ok tm t mt.

(** what may be changed on behalf of a special rule for a node that goes to t: t, all that it contains, and [closed] next to it *)
Definition reach (t l : loc) : Prop := within t l \/ l = removelast t ++ [Child (strs "closed")].
(** l is within reach of a special rule for some filled node of the source *)
Definition by_rule (l : loc) : Prop :=
  exists s t m n, node_at sm src s m n /\ nonempty m n /\ s <> [] /\ ~ removed (loc_names s) /\
                  rule_at (loc_names s) /\ goes_to s t /\ reach t l.

(** The rename map fits the two data dictionaries.  All of this is about paths only. *)
Record fits : Prop := {
  (** names are names *)
  ft_names_s : forall p m', at_path sm p m' -> Forall is_name p;
  ft_names_t : forall p m', at_path tm p m' -> Forall is_name p;
  (** quantities, arrays, whatever is renamed and whatever has a special rule exist in the target, in the same arrays of structures;
      and have the same type unless there is a rule *)
  ft_target : forall p m', at_path sm p m' -> p <> [] -> ~ removed p ->
    (forall a b, p = a ++ b -> b <> [] -> a <> [] -> ~ rule_at a) ->
    mkind m' <> KStruct \/ rule_at p \/ entry p <> None ->
    exists q mt, mapped p q /\ q <> [] /\ at_path tm q mt /\ (~ rule_at p -> mkind mt = mkind m') /\ Forall2 mapped (arrays sm [] p) (arrays tm [] q);
  (** those that are not renamed are not inside something that is renamed *)
  ft_plain : forall p m', at_path sm p m' -> ~ removed p -> (forall a b, p = a ++ b -> b <> [] -> a <> [] -> ~ rule_at a) ->
    mkind m' <> KStruct \/ rule_at p -> entry p = None ->
    forall a b, p = a ++ b -> a <> [] -> entry a = None;
  (** different quantities or arrays have different targets *)
  ft_inj : forall p1 p2 m1 m2 q, at_path sm p1 m1 -> at_path sm p2 m2 -> mkind m1 <> KStruct -> mkind m2 <> KStruct ->
    ~ removed p1 -> ~ removed p2 -> ~ ruled p1 -> ~ ruled p2 -> mapped p1 q -> mapped p2 q -> p1 = p2;
  (** what is renamed inside something with a special rule stays inside it *)
  ft_inside : forall p0 r m' s q0 m0, at_path sm (p0 ++ r) m' -> p0 <> [] -> r <> [] -> rule_at p0 ->
    entry (p0 ++ r) = Some (Some s) -> mapped p0 q0 -> at_path tm q0 m0 -> exists q1, s = slashed (q0 ++ q1) /\ Forall is_name (q0 ++ q1)
}.
End Spec.

(** a numeric array of the type *)
Inductive typed_array : dtype -> value -> Prop :=
| ta_int : forall sh d, prod sh = length d -> typed_array INT (VIntA sh d)
| ta_flt : forall sh d, prod sh = length d -> typed_array FLT (VFltA sh d)
| ta_cpx : forall sh d, prod sh = length d -> typed_array CPX (VCpxA sh d).

(** ** Changes of representation *)

(** The array (sh', d') is (sh, d) with one more row at the end; that is the row [i] of (sh, d) again. *)
Definition with_row {A} (i : nat) (sh : list nat) (d : list A) (sh' : list nat) (d' : list A) : Prop :=
  exists k r, sh = k :: r /\ i < k /\ sh' = S k :: r /\ length d' = S k * prod r /\
    (forall j, j < k * prod r -> nth_error d' j = nth_error d j) /\
    (forall j, j < prod r -> nth_error d' (k * prod r + j) = nth_error d (i * prod r + j)).
(** one more point, the same as the first, or as the last *)
Inductive closed_up : value -> value -> Prop :=
| cu_int : forall sh d sh' d', with_row 0 sh d sh' d' -> closed_up (VIntA sh d) (VIntA sh' d')
| cu_flt : forall sh d sh' d', with_row 0 sh d sh' d' -> closed_up (VFltA sh d) (VFltA sh' d')
| cu_cpx : forall sh d sh' d', with_row 0 sh d sh' d' -> closed_up (VCpxA sh d) (VCpxA sh' d').
Inductive last_again : value -> value -> Prop :=
| la_int : forall k r d sh' d', with_row k (S k :: r) d sh' d' -> last_again (VIntA (S k :: r) d) (VIntA sh' d')
| la_flt : forall k r d sh' d', with_row k (S k :: r) d sh' d' -> last_again (VFltA (S k :: r) d) (VFltA sh' d')
| la_cpx : forall k r d sh' d', with_row k (S k :: r) d sh' d' -> last_again (VCpxA (S k :: r) d) (VCpxA sh' d').

(** the same number with the opposite sign; integers in arrays have 32 bits *)
Definition opp_flt (f g : flt) : Prop := f_neg g = negb (f_neg f) /\ f_exp g = f_exp f /\ f_man g = f_man f.
Definition opp_int (y z : Z) : Prop := (z = - y)%Z \/ (y = - 2 ^ 31 /\ z = y)%Z.
Inductive opposite : value -> value -> Prop :=
| op_int : forall z, opposite (VInt z) (VInt (- z))
| op_flt : forall f g, opp_flt f g -> opposite (VFlt f) (VFlt g)
| op_cpx : forall r i r' i', opp_flt r r' -> opp_flt i i' -> opposite (VCpx r i) (VCpx r' i')
| op_inta : forall sh d d', Forall2 opp_int d d' -> opposite (VIntA sh d) (VIntA sh d')
| op_flta : forall sh d d', Forall2 opp_flt d d' -> opposite (VFltA sh d) (VFltA sh d')
| op_cpxa : forall sh d d', Forall2 (fun x y => opp_flt (fst x) (fst y) /\ opp_flt (snd x) (snd y)) d d' -> opposite (VCpxA sh d) (VCpxA sh d').
Definition int32 (z : Z) : Prop := (- 2 ^ 31 <= z < 2 ^ 31)%Z.
Definition ints32 (v : value) : Prop := match v with VIntA _ d => Forall int32 d | _ => True end.

(** Connections of a circuit.  Before version 4 each supply or coil has two columns, one for each side, with 1 for the side that is
    connected; since then it has one, with 1 or -1. *)
Inductive sides : list Z -> list Z -> Prop :=
| sd_nil : sides [] []
| sd_none : forall l l', sides l l' -> sides (0 :: 0 :: l)%Z (0 :: l')%Z
| sd_pos : forall l l', sides l l' -> sides (1 :: 0 :: l)%Z (1 :: l')%Z
| sd_neg : forall l l', sides l l' -> sides (0 :: 1 :: l)%Z (-1 :: l')%Z.
Inductive connections : value -> value -> Prop :=
| cn : forall a b d d', length d' = a * b -> sides d d' -> connections (VIntA [a; 2 * b] d) (VIntA [a; b] d').

(** an array with one element, the scalar *)
Inductive one_of : value -> value -> Prop :=
| oo_str : forall s, one_of (VStr s) (VStrs [s])
| oo_int : forall z, int32 z -> one_of (VInt z) (VIntA [1] [z])
| oo_flt : forall f, one_of (VFlt f) (VFltA [1] [f])
| oo_cpx : forall r i, one_of (VCpx r i) (VCpxA [1] [(r, i)]).

(** The flag [closed] of the contour at l: a child of it, or next to it. *)
Inductive flag_at (m : meta) (n : node) (l : loc) (z : Z) : Prop :=
| fa_child : forall nm cs x y, vnode_at m n l (Meta nm KStruct cs) x -> In (strs "closed") (map mname cs) ->
    vnode_at m n (l ++ [Child (strs "closed")]) y (NLeaf (Some (VInt z))) -> flag_at m n l z
| fa_beside : forall nm k cs x y, vnode_at m n l (Meta nm k cs) x -> (k = KStruct -> ~ In (strs "closed") (map mname cs)) ->
    vnode_at m n (removelast l ++ [Child (strs "closed")]) y (NLeaf (Some (VInt z))) -> flag_at m n l z.
(** the first and last element of a 1D array *)
Inductive ends : value -> PrimModel.pyval -> PrimModel.pyval -> Prop :=
| en_int : forall k d a b, nth_error d 0 = Some a -> nth_error d (length d - 1) = Some b -> ends (VIntA [k] d) (PrimModel.PInt a) (PrimModel.PInt b)
| en_flt : forall k d a b, nth_error d 0 = Some a -> nth_error d (length d - 1) = Some b -> ends (VFltA [k] d) (PrimModel.PFlt a) (PrimModel.PFlt b)
| en_cpx : forall k d a b, nth_error d 0 = Some a -> nth_error d (length d - 1) = Some b -> ends (VCpxA [k] d) (PrimModel.PCpx (fst a) (snd a)) (PrimModel.PCpx (fst b) (snd b)).
