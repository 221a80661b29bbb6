(** Names of IDSs and of identifiers: imas/ids_factory.py:46-111, imas/ids_identifiers.py:95-116, imas/ids_metadata.py:291-307. *)
From Verif Require Import Base HashModel.

Definition mem (n : str) (l : list str) : bool := existsb (str_eqb n) l.

(** ** IDSFactory *)
Section Factory.
Variable X : Type.                       (* XML elements *)
Variable own : list str.                 (* attributes of the object and its class, which Python finds before it calls __getattr__ *)
(** 46-48: the elements IDS of the definition with their names; a dictionary *)
Definition elements (root : list (str * X)) : list (str * X) := fold_left (fun d e => aset (fst e) (snd e) d) root [].
Inductive attr := Own (n : str) | Make (x : X) (* partial(IDSToplevel, self, x) *) | NoAttribute.
(** [factory.name], 73-77 *)
Definition attribute (root : list (str * X)) (n : str) : attr :=
  if mem n own then Own n else match alookup n (elements root) with Some x => Make x | None => NoAttribute end.
(** 79-85, 87-99 ([None]: IDSNameError), 101-103, 70-71 *)
Definition ids_names (root : list (str * X)) : list str := akeys (elements root).
Definition new (root : list (str * X)) (n : str) : option X := alookup n (elements root).
Definition exists_ (root : list (str * X)) (n : str) : bool := match alookup n (elements root) with Some _ => true | None => false end.
Fixpoint set_of (l : list str) : list str := match l with [] => [] | x :: t => if mem x t then set_of t else x :: set_of t end.
Definition dir (root : list (str * X)) : list str := map fst (isort (map (fun n => (n, tt)) (set_of (own ++ ids_names root)))).
End Factory.

(** ** _IDSIdentifiers *)
Section Identifiers.
Variable E : Type.                       (* contents of an enumeration *)
Variable own : list str.
Variable names : list str.               (* dd_identifiers() *)
Variable parse : str -> result nat E.    (* get_identifier_xml and IDSIdentifier._from_xml *)
(** The object: its instance attributes (name and object), the objects made so far, and the names that were parsed. *)
Record st := { cached : list (str * nat); made : list E; parsed : list str }.
Definition init : st := {| cached := []; made := []; parsed := [] |}.
Inductive op := GetAttr (n : str) | GetItem (n : str).
Inductive answer := Object (id : nat) | OwnAttribute (n : str) | AttributeErr | KeyErr | ParseErr (e : nat).
(** [identifiers.name], 98-104 *)
Definition get_attr (s : st) (n : str) : st * answer :=
  match alookup n (cached s) with
  | Some o => (s, Object o)
  | None =>
    if mem n own then (s, OwnAttribute n)
    else if negb (mem n names) then (s, AttributeErr)
    else match parse n with
         | Err e => ({| cached := cached s; made := made s; parsed := parsed s ++ [n] |}, ParseErr e)
         | Ok x => ({| cached := aset n (length (made s)) (cached s); made := made s ++ [x]; parsed := parsed s ++ [n] |}, Object (length (made s)))
         end
  end.
(** [identifiers[name]], 106-109 *)
Definition get_item (s : st) (n : str) : st * answer := if negb (mem n names) then (s, KeyErr) else get_attr s n.
Definition step (s : st) (o : op) : st * answer := match o with GetAttr n => get_attr s n | GetItem n => get_item s n end.
Fixpoint run (s : st) (l : list op) : st * list answer :=
  match l with [] => (s, []) | o :: l => let (s1, a) := step s o in let (s2, r) := run s1 l in (s2, a :: r) end.

(** [Path(doc).stem] of a POSIX path: the last part, without its last suffix *)
Fixpoint rfind_dot (s : str) : option nat :=
  match s with
  | [] => None
  | c :: t => match rfind_dot t with Some i => Some (S i) | None => if Ascii.eqb c "." then Some 0 else None end
  end.
Definition path_name (doc : str) : str :=
  last (filter (fun p => negb (str_eqb p []) && negb (str_eqb p "."%string)) (split_on "/"%char doc)) [].
Definition stem (doc : str) : str :=
  let n := path_name doc in
  match rfind_dot n with Some i => if (0 <? i)%nat && (i <? length n - 1)%nat then firstn i n else n | None => n end.
(** [identifier_enum], ids_metadata.py:291-307; [None]: the value None *)
Definition identifier_enum (s : st) (doc : option str) : st * option answer :=
  match doc with
  | None | Some [] => (s, None)
  | Some d => let (s, a) := get_item s (stem d) in (s, Some a)
  end.
End Identifiers.
