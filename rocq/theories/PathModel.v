(** Model of imas/ids_path.py: parsing of IDS paths and the path cache. *)
From Verif Require Import Base.

(** Exceptions raised by the functions of ids_path.py.  [OutOfFuel] is not a Python exception: it marks that the
    model ran out of fuel, and is proved unreachable. *)
Inductive path_exn :=
| UnmatchedParens       (* ids_path.py:32, 40  ValueError *)
| MixedStyle            (* ids_path.py:74      ValueError *)
| EmptyNodeName         (* ids_path.py:84      ValueError *)
| InvalidNodeName       (* ids_path.py:110     ValueError *)
| OutOfFuel.

(** [s.find(c, i)] (None = -1) *)
Fixpoint find0 (c : ascii) (s : str) : option nat :=
  match s with
  | [] => None
  | x :: t => if Ascii.eqb x c then Some 0 else option_map S (find0 c t)
  end.
Definition find (c : ascii) (s : str) (i : nat) : option nat := option_map (Nat.add i) (find0 c (skipn i s)).
(** [s[a:b]] for 0 <= a *)
Definition slice (s : str) (a b : nat) : str := firstn (b - a) (skipn a s).

(** ids_path.py:37-41, the inner while loop; returns the final [next_close]. *)
Fixpoint inner_loop (fuel : nat) (o c : ascii) (s : str) (next_open : option nat) (next_close : nat)
  : result path_exn nat :=
  match fuel with
  | O => Err OutOfFuel
  | S f =>
    match next_open with
    | None => Ok next_close
    | Some no =>
      if no <? next_close then
        match find c s (next_close + 1) with
        | None => Err UnmatchedParens
        | Some nc => inner_loop f o c s (find o s (no + 1)) nc
        end
      else Ok next_close
    end
  end.

(** ids_path.py:20-47 [_split_on_matching_parens] *)
Fixpoint split_loop (fuel : nat) (o c : ascii) (s : str) (cur : nat) : result path_exn (list str) :=
  match fuel with
  | O => Err OutOfFuel
  | S f =>
    let next_open := find o s cur in
    let next_close := find c s cur in
    match next_open with
    | Some no =>
      match next_close with
      | None => Err UnmatchedParens                       (* next_open > -1 *)
      | Some nc =>
        if nc <? no then Err UnmatchedParens else
        let before := slice s cur no in
        match inner_loop (S (length s)) o c s (find o s (no + 1)) nc with
        | Err e => Err e
        | Ok nc' =>
          match split_loop f o c s (nc' + 1) with
          | Err e => Err e
          | Ok r => Ok (before :: slice s (no + 1) nc' :: r)
          end
        end
      end
    | None => Ok [skipn cur s]
    end
  end.
Definition split_on_matching_parens (s : str) (o c : ascii) : result path_exn (list str) :=
  split_loop (S (length s)) o c s 0.

(** Regular expressions, ids_path.py:50-55, all used with [fullmatch]. *)
Definition re_number (s : str) : bool := match s with [] => false | _ => forallb is_digit s end.
(** [\d*:\d*] *)
Fixpoint re_slice (s : str) : bool :=
  match s with
  | [] => false
  | x :: t => if Ascii.eqb x ":" then forallb is_digit t else is_digit x && re_slice t
  end.
(** [itime|i\d] *)
Definition re_generic (s : str) : bool :=
  str_eqb s (strs "itime")
  || match s with [i; d] => Ascii.eqb i "i" && is_digit d | _ => false end.
(** [([a-z0-9]|_(?!_))*] *)
Fixpoint re_field_tail (s : str) : bool :=
  match s with
  | [] => true
  | x :: t =>
    if (is_lower x || is_digit x)%bool then re_field_tail t
    else if Ascii.eqb x "_" then
      match t with
      | [] => true
      | y :: _ => if Ascii.eqb y "_" then false else re_field_tail t
      end
    else false
  end.
Definition valid_field (s : str) : bool :=
  match s with [] => false | x :: t => is_lower x && re_field_tail t end.

(** Index of a path element, ids_path.py:16. *)
Inductive index :=
| INone                                        (* no index *)
| IGen (s : str)                               (* "itime" or "i1" *)
| INum (z : Z)                                 (* explicit index, 0-based *)
| ISlice (a b : option Z)
| IPath (parts : list str) (indices : list index).  (* another IDSPath *)

Definition path := (list str * list index)%type.

(** [int(s)] for a string of ASCII digits *)
Definition int_of (s : str) : Z := Z.of_N (dec_value s).

(** The two expressions [(part[1:] if part[0] == "/" else part).split("/")], ids_path.py:85 and 105, for a
    non-empty part. *)
Definition part_names (part : str) : list str :=
  split_on "/" (match part with x :: t => if Ascii.eqb x "/" then t else part | [] => part end).

(** ids_path.py:93-100: [index.split(":")] for an index matching [\d*:\d*] *)
Definition parse_slice (fortran : bool) (s : str) : index :=
  match split_on ":" s with
  | [start; stop] =>
    ISlice (match start with [] => None | _ => Some (int_of start - (if fortran then 1 else 0))%Z end)
           (match stop with [] => None | _ => Some (int_of stop) end)
  | _ => ISlice None None       (* unreachable: the regular expression has exactly one ':' *)
  end.

(** Objects of the IDSPath cache, ids_path.py:132-146.  An object is identified by a number; it is initialised iff
    its content is [Some]. *)
Record cache := { c_map : list (str * nat); c_obj : list (option path) }.
Definition empty_cache : cache := {| c_map := []; c_obj := [] |}.

Definition obj_content (ca : cache) (id : nat) : option path :=
  match nth_error (c_obj ca) id with Some x => x | None => None end.

Fixpoint set_nth {A} (n : nat) (x : A) (l : list A) : list A :=
  match l, n with
  | [], _ => []
  | _ :: t, O => x :: t
  | h :: t, S m => h :: set_nth m x t
  end.

(** [IDSPath.__new__], ids_path.py:134-137 *)
Definition path_new (ca : cache) (s : str) : cache * nat :=
  match alookup s (c_map ca) with
  | Some id => (ca, id)
  | None => ({| c_map := aset s (length (c_obj ca)) (c_map ca); c_obj := c_obj ca ++ [None] |}, length (c_obj ca))
  end.

(** Assignment of the parsed contents (ids_path.py:143, 146) *)
Definition path_store (ca : cache) (id : nat) (p : path) : cache :=
  {| c_map := c_map ca; c_obj := set_nth id (Some p) (c_obj ca) |}.

Definition contains (c : ascii) (s : str) : bool := existsb (Ascii.eqb c) s.

(** The loop over the pairs of the split path and the final part, ids_path.py:81-107; [mk] is the recursive
    construction of an IDSPath for an index, threading the cache. *)
Fixpoint parse_loop (mk : cache -> str -> cache * result path_exn path) (fortran : bool) (ca : cache)
         (pieces : list str) : cache * result path_exn path :=
  match pieces with
  | [] => (ca, Ok ([], []))                          (* not reached: the list has odd length *)
  | [last] =>
    match last with
    | [] => (ca, Ok ([], []))
    | _ => let parts := part_names last in (ca, Ok (parts, repeat INone (length parts)))
    end
  | part :: idx :: rest =>
    match part with
    | [] => (ca, Err EmptyNodeName)
    | _ =>
      let parts := part_names part in
      let '(ca1, ri) :=
        if re_generic idx then (ca, Ok (IGen idx))
        else if re_number idx then (ca, Ok (INum (int_of idx - (if fortran then 1 else 0))%Z))
        else if re_slice idx then (ca, Ok (parse_slice fortran idx))
        else match mk ca idx with
             | (ca', Ok (ps, ix)) => (ca', Ok (IPath ps ix))
             | (ca', Err e) => (ca', Err e)
             end in
      match ri with
      | Err e => (ca1, Err e)
      | Ok i =>
        match parse_loop mk fortran ca1 rest with
        | (ca2, Err e) => (ca2, Err e)
        | (ca2, Ok (ps, ix)) =>
          (ca2, Ok (parts ++ ps, repeat INone (length parts - 1) ++ [i] ++ ix))
        end
      end
    end
  end.

(** [_parse_path], ids_path.py:58-111, and [IDSPath(path)] (i.e. [__new__] followed by [__init__]), 134-146.
    The recursion is on the nesting of index paths; fuel = length of the string + 1. *)
Definition parse_path_body (mk : cache -> str -> cache * result path_exn path) (ca : cache) (s : str)
  : cache * result path_exn path :=
  let fortran := contains "(" s in
  if fortran && contains "[" s then (ca, Err MixedStyle)
  else
    match split_on_matching_parens s (if fortran then "(" else "[")%char (if fortran then ")" else "]")%char with
    | Err e => (ca, Err e)
    | Ok pieces =>
      match parse_loop mk fortran ca pieces with
      | (ca', Err e) => (ca', Err e)
      | (ca', Ok (ps, ix)) =>
        if forallb valid_field ps then (ca', Ok (ps, ix)) else (ca', Err InvalidNodeName)
      end
    end.

(** [IDSPath(s)]: cache lookup, then (only when not initialised yet) parsing.  Returns the object id as well. *)
Fixpoint mk_obj (fuel : nat) (ca : cache) (s : str) : cache * result path_exn (nat * path) :=
  match fuel with
  | O => (ca, Err OutOfFuel)
  | S f =>
    let '(ca1, id) := path_new ca s in
    match obj_content ca1 id with
    | Some p => (ca1, Ok (id, p))                    (* hasattr(self, "_init_done") *)
    | None =>
      let mk ca' s' := match mk_obj f ca' s' with
                       | (ca'', Ok (_, p)) => (ca'', Ok p)
                       | (ca'', Err e) => (ca'', Err e)
                       end in
      match parse_path_body mk ca1 s with
      | (ca2, Err e) => (ca2, Err e)                 (* object stays in the cache, uninitialised *)
      | (ca2, Ok p) => (path_store ca2 id p, Ok (id, p))
      end
    end
  end.

(** One construction [IDSPath(s)] in a given state of the cache. *)
Definition ids_path (ca : cache) (s : str) : cache * result path_exn (nat * path) := mk_obj (S (length s)) ca s.

(** The pure parse: a construction with a fresh cache. *)
Definition parse (s : str) : result path_exn path :=
  match ids_path empty_cache s with
  | (_, Ok (_, p)) => Ok p
  | (_, Err e) => Err e
  end.

(** [IDSPath.is_ancestor_of], ids_path.py:251-254 *)
Fixpoint list_str_eqb (a b : list str) : bool :=
  match a, b with
  | [], [] => true
  | x :: a', y :: b' => str_eqb x y && list_str_eqb a' b'
  | _, _ => false
  end.
Definition is_ancestor_of (p q : path) : bool :=
  (length (fst p) <? length (fst q)) && list_str_eqb (firstn (length (fst p)) (fst q)) (fst p).

Example parse_ex1 : parse (strs "a/b[3]/c") = Ok ([strs "a"; strs "b"; strs "c"], [INone; INum 3; INone]).
Proof. vm_compute. reflexivity. Qed.
Example parse_ex2 : parse (strs "a(itime)/b(2:3)/c(d(i1)/e)") =
  Ok ([strs "a"; strs "b"; strs "c"],
      [IGen (strs "itime"); ISlice (Some 1%Z) (Some 3%Z);
       IPath [strs "d"; strs "e"] [IGen (strs "i1"); INone]]).
Proof. vm_compute. reflexivity. Qed.
Example parse_ex3 : parse (strs "a[b[1]") = Err UnmatchedParens.
Proof. vm_compute. reflexivity. Qed.
Example parse_ex4 : parse (strs "a]b") = Err InvalidNodeName.
Proof. vm_compute. reflexivity. Qed.
