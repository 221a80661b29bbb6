(** Specification: conversions in which quantities change sign. *)
From Verif Require Import Base PathSpec TreeModel TreeSpec PrimModel PrimSpec ConvModel ConvSpec.
From Verif Require VmapModel.
Import VmapModel(handler(..), nmap).

(** The sign of the value can change: it is a number or an array of numbers, integers fit in 32 bits, and the opposite of a number does not
    stand for [no value]. *)
Definition can_flip (m : meta) (v : value) : Prop :=
  exists dt nd, mkind m = KLeaf dt nd /\ dt <> STR /\ ints32 v /\ (nd = 0 -> forall w, opposite v w -> ~ empty dt w).
(** that is so for all values at paths [fl] *)
Definition signs_ok (m : meta) (n : node) (fl : list str -> Prop) : Prop :=
  forall l m' v, node_at m n l m' (NLeaf (Some v)) -> filled_value v -> fl (loc_names l) -> can_flip m' v.
(** what a value of path p becomes *)
Definition arrives (fl : list str -> Prop) (p : list str) (v w : value) : Prop := (fl p -> opposite v w) /\ (~ fl p -> w = v).
(** where there are data, the map rm is rm0 with changes of sign of data nodes *)
Definition present (m : meta) (n : node) (s : loc) : Prop := (exists v, leaf_at m n s v) \/ (exists k, aos_at m n s k).
Definition signs_added (m : meta) (n : node) (rm0 rm : nmap) (fl : list str -> Prop) : Prop := forall s, present m n s -> forall a b, loc_names s = a ++ b -> a <> [] ->
  entry rm a = entry rm0 a /\ alookup (slashed a) (VmapModel.m_type rm) = None /\
  (fl a -> alookup (slashed a) (VmapModel.m_post rm) = Some H_cocos /\ b = [] /\ exists v, leaf_at m n s v) /\
  (~ fl a -> alookup (slashed a) (VmapModel.m_post rm) = None).
