(** Specification vocabulary for the netCDF file properties (C34, C35, C37). *)
From Verif Require Import Base TreeModel TreeSpec NcMetaModel NcMetaSpec.

(** Names in the data dictionary: not empty, without dots, not starting with a digit. *)
Definition name_ok (s : str) : Prop :=
  exists x t, s = x :: t /\ ~ In "."%char s /\ (nat_of_ascii x < 48 \/ 57 < nat_of_ascii x).
Definition names_ok (m : meta) : Prop := forall p c a n, in_ids m p c a n -> name_ok (mname c).
(** Data types of the data dictionary have at most 6 dimensions. *)
Definition small_dims (m : meta) : Prop := forall p c a n, in_ids m p c a n -> ndim c <= 6.
Definition is_data (c : meta) : Prop := exists dt nd, mkind c = KLeaf dt nd.
(** Structures and arrays of structures have no error bars. *)
Definition no_structure_errors (m : meta) : Prop :=
  forall p c a n q c' a' n', in_ids m p c a n -> ~ is_data c -> in_ids m q c' a' n' -> ~ error_bar q p.

(** the time mode is set, and valid *)
Definition time_mode (m : meta) (n : node) : Prop :=
  exists z, leaf_at m n [Child (strs "ids_properties"); Child (strs "homogeneous_time")] (VInt z) /\ (z = 0 \/ z = 1 \/ z = 2)%Z.

(** integers fit in 32 bits *)
Definition ints (v : value) : list Z := match v with VInt z => [z] | VIntA _ d => d | _ => [] end.
Definition int32 (m : meta) (n : node) : Prop :=
  forall l v z, leaf_at m n l v -> In z (ints v) -> (-2147483648 <= z < 2147483648)%Z.

(** Scalars inside arrays of structures that netCDF cannot tell from missing data: the fill values of netCDF
    (-2147483647 and 9.969209968386869e+36) and the empty string. *)
Definition inside_aos (l : loc) : Prop := exists i, In (Elem i) l.
Definition looks_unset (v : value) : Prop :=
  match v with VInt z => z = (-2147483647)%Z | VFlt f => feq f 5160562223013167104%Z = true | VStr s => s = [] | _ => False end.
(** Complex scalars inside arrays of structures: unset ones are read back as set. *)
Definition is_complex (v : value) : Prop := exists a b, v = VCpx a b.
