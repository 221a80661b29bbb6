(** Specification of a complete conversion, in terms of the two data dictionaries only. *)
From Verif Require Import Base DataTypeModel PathSpec TreeModel TreeSpec ConvSpec VmapModel VmapSpec.

(** ** The metadata of an IDS and the fields of its definition *)
Definition leaf_type (dt : dtype) : ids_dtype := match dt with STR => T_STR | INT => T_INT | FLT => T_FLT | CPX => T_CPX end.
Definition type_of (k : kind) : option ids_dtype * N :=
  match k with KStruct => (Some T_STRUCTURE, 0%N) | KAoS => (Some T_STRUCT_ARRAY, 1%N) | KLeaf dt nd => (Some (leaf_type dt), N.of_nat nd) end.
(** the fields are the paths of the metadata, with their types *)
Record described (m : meta) (f : fields) : Prop := {
  ds_names : forall p m', at_path m p m' -> Forall is_name p;
  ds_field : forall p m', at_path m p m' -> p <> [] -> exists e, In e f /\ e_path e = slashed p;
  ds_meta : forall e, In e f -> exists p m', p <> [] /\ at_path m p m' /\ e_path e = slashed p /\ dt_parse (e_type e) = Ok (type_of (mkind m')) }.

Section Pair.
Variables (old new : fields) (v : Z).
Notation origin := (origin old new v).
Notation moved := (moved old new v).

(** A name that both versions use, for a quantity that has not moved, stands for the same quantity. *)
Definition same_quantity : Prop := forall p, exists_in old p -> exists_in new p -> (forall q, ~ moved p q) -> origin p p false.
(** Inside something that is renamed, what keeps its name keeps its type. *)
Definition types_inside : Prop := forall p q r a b, moved p q -> In a old -> In b new -> e_path a = p ++ slash :: r -> e_path b = q ++ slash :: r -> same_type a b.

(** A rule other than a change of name applies to the element of the new version. *)
Definition special (e : elem) : Prop := exists n vs, e_nbc e = Some n /\ n_versions n = Versions vs /\ (v < last vs 0)%Z /\
  In (n_desc n) (map strs ["repeat_children_first_point"; "repeat_children_first_point_conditional"; "repeat_children_first_point_conditional_sibling";
    "repeat_children_first_point_conditional_sibling_dynamic"; "remove_last_point_if_open_annular_centreline"]%string).
(** something else than the path of the quantity changes *)
Definition changes_to (p q : str) : Prop := exists e b, In e new /\ e_path e = q /\ origin q p b /\ (special e \/ exists a, In a old /\ e_path a = p /\ ~ same_type a e).
Definition old_changes (p : str) : Prop := exists q, changes_to p q.
Definition new_changes (q : str) : Prop := exists p, changes_to p q.

(** the quantity p of the old version is the quantity q of the new version *)
Definition counterpart (p q : str) : Prop := exists_in old p /\ exists_in new q /\ exists b, origin q p b.
End Pair.
