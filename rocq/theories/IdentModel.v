(** Model of the identifier enumerations: imas/ids_identifiers.py and imas/ids_structure.py:70-96. *)
From Verif Require Import Base.

(** One <int> element of an identifier XML file: the text as an integer ([int(value)], :76 and :82, is not modelled: the number
    is given), the attributes name and description, and the raw attribute alias ("" when absent), ids_identifiers.py:74-80. *)
Record int_element := { ie_name : str; ie_value : Z; ie_descr : str; ie_alias : str }.

(** [str.strip()] (ASCII white space). *)
Definition is_space (c : ascii) : bool :=
  existsb (Ascii.eqb c) [" "%char; "009"%char; "010"%char; "011"%char; "012"%char; "013"%char; "028"%char; "029"%char; "030"%char; "031"%char].
Fixpoint lstrip (s : str) : str :=
  match s with [] => [] | c :: t => if is_space c then lstrip t else s end.
Definition strip (s : str) : str := rev (lstrip (rev (lstrip s))).

(** [[a.strip() for a in alias_attr.split(",") if a.strip()]], ids_identifiers.py:80. *)
Definition is_nil {A} (l : list A) : bool := match l with [] => true | _ => false end.
Definition alias_list (attr : str) : list str :=
  map strip (filter (fun a => negb (is_nil (strip a))) (split_on ","%char attr)).

(** A member of an enumeration.  [mb_key] is the object identity: members of one enumeration are numbered in the order of
    creation, ids_identifiers.py:18-29. *)
Record member := { mb_enum : nat; mb_key : nat; mb_name : str; mb_index : Z; mb_descr : str; mb_aliases : list str }.

(** [enum_values], a dictionary: insertion order is kept and setting an existing key keeps its place, ids_identifiers.py:71-85. *)
Definition add_element (d : list (str * (Z * str * list str))) (e : int_element) : list (str * (Z * str * list str)) :=
  let als := alias_list (ie_alias e) in
  let v := (ie_value e, ie_descr e, als) in
  fold_left (fun d a => aset a v d) als (aset (ie_name e) v d).
Definition enum_values (es : list int_element) : list (str * (Z * str * list str)) := fold_left add_element es [].

(** An enumeration: its members in definition order and [_member_map_] (name -> member). *)
Record enum := { en_id : nat; en_members : list member; en_map : list (str * member) }.

(** Creation of the members by [EnumMeta.__new__] (called at ids_identifiers.py:87-92): the first name with a new value creates
    a member, a later name with a value already present becomes another name of the same member. *)
Definition by_value (ms : list member) (z : Z) : option member := find (fun m => (mb_index m =? z)%Z) ms.
Definition add_name (en : enum) (kv : str * (Z * str * list str)) : enum :=
  let '(k, (z, d, al)) := kv in
  match by_value (en_members en) z with
  | Some m => {| en_id := en_id en; en_members := en_members en; en_map := en_map en ++ [(k, m)] |}
  | None =>
    let m := {| mb_enum := en_id en; mb_key := length (en_members en); mb_name := k; mb_index := z; mb_descr := d; mb_aliases := al |} in
    {| en_id := en_id en; en_members := en_members en ++ [m]; en_map := en_map en ++ [(k, m)] |}
  end.
Definition from_xml (id : nat) (es : list int_element) : enum :=
  fold_left add_name (enum_values es) {| en_id := id; en_members := []; en_map := [] |}.

(** Children of an identifier structure, with the values they return when read. *)
Inductive field := FStr (s : str) | FInt (z : Z) | FNode.
Definition struct := list (str * field).

(** Objects that can be compared with a member. *)
Inductive pyobj := OMember (m : member) | OStruct (s : struct) | OOther.

(** [self is other]: only members can be the same object as a member. *)
Definition same_object (a b : member) : bool := (mb_enum a =? mb_enum b)%nat && (mb_key a =? mb_key b)%nat.

(** Lines 34-41: [str(other.name)], [int(other.index)], [str(other.description)]; [None] when an attribute is missing or cannot be
    converted.  Only names and descriptions that are strings and integer indices convert here; [str()] of another node is not
    modelled (an identifier structure has none). *)
Definition view (o : pyobj) : option (str * Z * str) :=
  match o with
  | OMember m => Some (mb_name m, mb_index m, mb_descr m)
  | OStruct s => match alookup "name"%string s, alookup "index"%string s, alookup "description"%string s with
                 | Some (FStr n), Some (FInt i), Some (FStr d) => Some (n, i, d)
                 | _, _, _ => None
                 end
  | OOther => None
  end.

Definition str_in (x : str) (l : list str) : bool := existsb (str_eqb x) l.

(** [IDSIdentifier.__eq__], ids_identifiers.py:31-65; [None] is NotImplemented. *)
Definition ident_eq (self : member) (other : pyobj) : option bool :=
  if match other with OMember m => same_object self m | _ => false end then Some true else
  match view other with
  | None => None
  | Some (n, i, d) =>
    if (i =? mb_index self)%Z then
      if str_eqb n (mb_name self) || str_eqb n [] || str_in n (mb_aliases self) then Some true else Some false
    else Some false
  end.

(** [IDSStructure.__eq__] with a member on the right, ids_structure.py:161-165: a member is no IDSBase, so NotImplemented. *)
Definition other_eq (o : pyobj) (m : member) : option bool :=
  match o with OMember m' => ident_eq m' (OMember m) | OStruct _ => None | OOther => None end.

(** The operator [==]: the left operand is asked first, then the right one, and identity decides when both give NotImplemented. *)
Definition py_eq_left (m : member) (o : pyobj) : bool :=
  match ident_eq m o with Some b => b | None =>
  match other_eq o m with Some b => b | None => match o with OMember m' => same_object m m' | _ => false end end end.
Definition py_eq_right (o : pyobj) (m : member) : bool :=
  match other_eq o m with Some b => b | None =>
  match ident_eq m o with Some b => b | None => match o with OMember m' => same_object m' m | _ => false end end end.

(** Assigned values: a member, an int (also a bool) or a str. *)
Inductive ident_arg := AMember (m : member) | AInt (z : Z) | AName (s : str).
Inductive ident_exn := TypeErr | ValueErr | AttrErr.

(** [self.key = value] for a child that is a string or an integer leaf, ids_structure.py:98-143 and ids_primitive.py:163-187;
    [lazy]: the setter refuses, ids_primitive.py:166-167.  Conversions between strings and integers are not modelled (TypeErr). *)
Definition set_field (lazy : bool) (s : struct) (k : str) (v : field) : struct * result ident_exn unit :=
  match alookup k s with
  | None => (s, Err AttrErr)
  | Some old => if lazy then (s, Err ValueErr) else
                match old, v with
                | FStr _, FStr _ | FInt _, FInt _ => (aset k v s, Ok tt)
                | _, _ => (s, Err TypeErr)
                end
  end.

(** [isinstance(value, identifier_enum)]: the class of the member. *)
Definition lookup_arg (en : enum) (a : ident_arg) : result ident_exn member :=
  match a with
  | AMember m => if (mb_enum m =? en_id en)%nat then Ok m else Err TypeErr
  | AInt z => match by_value (en_members en) z with Some m => Ok m | None => Err ValueErr end
  | AName k => match alookup k (en_map en) with Some m => Ok m | None => Err ValueErr end
  end.

(** [IDSStructure._assign_identifier], ids_structure.py:70-96; [oen] is [metadata.identifier_enum]. *)
Definition assign_identifier (lazy : bool) (oen : option enum) (s : struct) (a : ident_arg) : struct * result ident_exn unit :=
  match oen with
  | None => (s, Err TypeErr)
  | Some en =>
    match lookup_arg en a with
    | Err e => (s, Err e)
    | Ok m =>
      match set_field lazy s "name"%string (FStr (mb_name m)) with
      | (s1, Err e) => (s1, Err e)
      | (s1, Ok _) =>
        match set_field lazy s1 "index"%string (FInt (mb_index m)) with
        | (s2, Err e) => (s2, Err e)
        | (s2, Ok _) => set_field lazy s2 "description"%string (FStr (mb_descr m))
        end
      end
    end
  end.
