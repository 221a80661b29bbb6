(** Vocabulary for the statements about identifiers. *)
From Verif Require Import Base IdentModel.

(** [a] is written in a comma-separated list, with optional white space around it. *)
Definition blank (s : str) : Prop := forall c, In c s -> is_space c = true.
Definition listed (attr a : str) : Prop :=
  exists pre sp1 sp2 post, attr = pre ++ sp1 ++ a ++ sp2 ++ post /\ blank sp1 /\ blank sp2 /\
    (pre = [] \/ exists p, pre = p ++ [","%char]) /\ (post = [] \/ exists p, post = ","%char :: p) /\
    ~ In ","%char (sp1 ++ a ++ sp2) /\
    a <> [] /\ (forall c t, a = c :: t -> is_space c = false) /\ (forall c t, a = t ++ [c] -> is_space c = false).

(** All names of the value defined by an element. *)
Definition names_of (e : int_element) : list str := ie_name e :: alias_list (ie_alias e).

(** No two elements share an index, no name or alias is written twice in the whole definition. *)
Definition distinct_defs (es : list int_element) : Prop :=
  NoDup (map ie_value es) /\ NoDup (concat (map names_of es)).

(** The argument of an assignment stands for the value defined by [e]. *)
Inductive designates (en : enum) (e : int_element) : ident_arg -> Prop :=
| des_index : designates en e (AInt (ie_value e))
| des_name : forall n, In n (names_of e) -> designates en e (AName n)
| des_member : forall m, In m (en_members en) -> mb_index m = ie_value e -> designates en e (AMember m).

(** A structure with the three children of an identifier. *)
Definition identifier_struct (s : struct) : Prop :=
  (exists n, alookup "name"%string s = Some (FStr n)) /\ (exists i, alookup "index"%string s = Some (FInt i)) /\
  (exists d, alookup "description"%string s = Some (FStr d)).

(** What a reader of the structure finds. *)
Definition reads (s : struct) (n : str) (i : Z) (d : str) : Prop :=
  alookup "name"%string s = Some (FStr n) /\ alookup "index"%string s = Some (FInt i) /\ alookup "description"%string s = Some (FStr d).
Definition others_same (s s' : struct) : Prop :=
  forall k, k <> strs "name"%string -> k <> strs "index"%string -> k <> strs "description"%string -> alookup k s' = alookup k s.
