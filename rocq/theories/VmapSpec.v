(** What a map between two versions of the data dictionary should contain, stated on the two versions only. *)
From Verif Require Import Base DataTypeModel VmapModel.
Local Open Scope Z_scope.

Definition slash : ascii := "/"%char.
Definition no_slash (n : str) : Prop := ~ In slash n.
(** [q] lies strictly inside [p]. *)
Definition inside (q p : str) : Prop := exists r, q = p ++ slash :: r.
Definition at_or_inside (q p : str) : Prop := q = p \/ inside q p.
(** A quantity of this version *)
Definition exists_in (f : fields) (p : str) : Prop := exists e, In e f /\ e_path e = p.
Definition struct_in (f : fields) (p : str) : Prop := exists e, In e f /\ e_path e = p /\ is_structure e = true.

(** A data dictionary: no path twice, no empty path, and every element comes after the structures that contain it. *)
Record wf_fields (f : fields) : Prop := {
  wf_nodup : NoDup (map e_path f);
  wf_nonempty : forall e, In e f -> e_path e <> [];
  wf_parents : forall f1 e f2, f = f1 ++ e :: f2 -> forall p, inside (e_path e) p -> struct_in f1 p }.

Section Origin.
Variables (old new : fields) (version_old : Z).

(** The definition of [q] says that it had the name [prev] in the old version: the previous name at the first renaming after it. *)
Definition rule (q prev : str) : Prop :=
  exists e n vs names i x, In e new /\ e_path e = q /\ e_nbc e = Some n
    /\ (n_desc n = strs "aos_renamed" \/ n_desc n = strs "leaf_renamed" \/ n_desc n = strs "structure_renamed")
    /\ n_versions n = Versions vs /\ n_prev n = Some names
    /\ nth_error vs i = Some x /\ version_old < x /\ (forall j y, (j < i)%nat -> nth_error vs j = Some y -> y <= version_old)
    /\ nth_error names i = Some prev.

(** [origin q p b]: the quantity [q] of the new version was [p] in the old one; [b]: it or a structure that contains it was renamed.
    A renaming to a quantity that the old version does not have is ignored. *)
Inductive origin : str -> str -> bool -> Prop :=
  | origin_kept : forall n, no_slash n -> (forall prev, rule n prev -> ~ exists_in old prev) -> origin n n false
  | origin_renamed : forall n prev, no_slash n -> rule n prev -> exists_in old prev -> origin n prev true
  | origin_inside : forall q p b n, origin q p b -> no_slash n ->
      (forall prev, rule (q ++ slash :: n) prev -> ~ exists_in old (p ++ slash :: prev)) -> origin (q ++ slash :: n) (p ++ slash :: n) b
  | origin_inside_renamed : forall q p b n prev, origin q p b -> no_slash n ->
      rule (q ++ slash :: n) prev -> exists_in old (p ++ slash :: prev) -> origin (q ++ slash :: n) (p ++ slash :: prev) true.

(** The old quantity [p] became the new quantity [q] and its path changed on the way. *)
Definition moved (p q : str) : Prop := exists_in old p /\ exists_in new q /\ origin q p true.

(** ** Conditions on the pair of versions *)

(** Previous names are names, not paths. *)
Definition plain_names : Prop := forall q prev, rule q prev -> no_slash prev.
(** Inside a renamed structure a name that both versions use stands for the same quantity. *)
Definition no_reuse : Prop := forall q p r, moved p q -> exists_in new (q ++ slash :: r) -> exists_in old (p ++ slash :: r) ->
  origin (q ++ slash :: r) (p ++ slash :: r) true.
(** No other path that starts with the same characters has a counterpart with the new name. *)
Definition no_sibling : Prop := forall q p c r, moved p q -> exists_in old (p ++ c :: r) -> c <> slash -> ~ exists_in new (q ++ c :: r).
(** An old quantity has one successor. *)
Definition one_successor : Prop := forall p q q', moved p q -> moved p q' -> q = q'.
(** A quantity that is renamed keeps its type or changes it in a supported way. *)
Definition same_type (a b : elem) : Prop := exists t, dt_parse (e_type a) = Ok t /\ dt_parse (e_type b) = Ok t.
Definition between (a b : string) (x y : str) : Prop := (x = strs a /\ y = strs b) \/ (x = strs b /\ y = strs a).
Definition supported (a b : elem) : Prop := exists x y, e_type a = Some x /\ e_type b = Some y /\
  (between "structure" "struct_array" x y \/ between "INT_0D" "INT_1D" x y \/ between "FLT_0D" "FLT_1D" x y \/ between "CPX_0D" "CPX_1D" x y
   \/ between "STR_0D" "STR_1D" x y \/ (x = strs "INT_1D" /\ e_ident b = true) \/ between "FLT_0D" "INT_0D" x y).
Definition supported_renames : Prop := forall a b, In a old -> In b new -> moved (e_path a) (e_path b) -> (exists prev, rule (e_path b) prev) ->
  same_type a b \/ supported a b.
(** A new name is not the name of an old quantity that stays, and an old name that is given up is not used by a quantity that stays. *)
Definition no_capture : Prop :=
  (forall p q, moved p q -> exists_in old q -> exists q', moved q q') /\ (forall p q, moved p q -> exists_in new p -> exists p', moved p' p).
End Origin.

(** ** Quantities without counterpart *)
Section Lost.
Variables (here there : fields).
(** [renamed p]: the quantity [p] of this version has another path in the other version. *)
Variable renamed : str -> Prop.
(** [p] does not exist in the other version, was not renamed, and contains nothing that was renamed. *)
Definition lost (p : str) : Prop := exists_in here p /\ ~ exists_in there p /\ ~ renamed p /\ (forall q, inside q p -> ~ renamed q).
(** the highest lost structure or quantity *)
Definition lost_top (p : str) : Prop := lost p /\ forall q, inside p q -> ~ lost q.
End Lost.
