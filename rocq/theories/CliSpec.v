(** Specification for the command "imas convert". *)
From Verif Require Import Base TreeModel TreeSpec ConvSpec StoreSpec EndModel CliModel.
From Verif Require StoreProps StoreProps2 PrimModel.

(** The occurrences that are to be converted: of every IDS of the target version, or of one IDS; all that exist, or one. *)
Definition selected (target : dictionary) (input : entry) (name : option str) (occ : Z) (k : str * Z) : Prop :=
  match name with Some x => fst k = x | None => exists i, In (fst k, i) (d_ids target) end /\
  (if (occ =? -1)%Z then exists s, In (k, s) input else snd k = occ).
(** an occurrence is there at most once *)
Definition unique (e : entry) : Prop := NoDup (map fst e).

(** What every IDS of a data dictionary has. *)
Record usual (i : ids_def) : Prop := {
  us_named : named (i_meta i);
  us_wf : wf_meta (i_meta i);
  us_kind : mkind (i_meta i) = KStruct;
  us_static : forall p, In p [[strs "ids_properties"]; [strs "ids_properties"; strs "homogeneous_time"]; [strs "ids_properties"; strs "version_put"];
    [strs "ids_properties"; strs "version_put"; strs "data_dictionary"]] -> StoreProps2.xml_dynamic (i_fields i) p = false;
  us_version : forall x, In x [strs "data_dictionary"; strs "access_layer"; strs "access_layer_language"] ->
    exists nm cs, loc_ok (i_meta i) [Child (strs "ids_properties"); Child (strs "version_put"); Child x] (Meta nm (KLeaf STR 0) cs) }.

(** What put sets: the time mode of an IDS that is constant, and the versions. *)
Definition assigned (const : bool) (text access_layer language : str) (l : loc) (v : value) : Prop :=
  (const = true /\ l = [Child (strs "ids_properties"); Child (strs "homogeneous_time")] /\ v = VInt 2) \/
  exists x, l = [Child (strs "ids_properties"); Child (strs "version_put"); Child (fst x)] /\ v = VStr (snd x) /\
    In x [(strs "data_dictionary", text); (strs "access_layer", access_layer); (strs "access_layer_language", language)].
Definition assigns (const : bool) (l : loc) : Prop := exists v, assigned const [] [] [] l v.
(** the leaves of the IDS as it is stored *)
Definition put_leaf (m : meta) (n : node) (const : bool) (text access_layer language : str) (l : loc) (v : value) : Prop :=
  assigned const text access_layer language l v \/ (~ assigns const l /\ leaf_at m n l v).
