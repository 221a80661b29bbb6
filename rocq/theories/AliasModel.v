(** Model of data nodes with lists and arrays as objects that can be changed in place and shared: imas/ids_primitive.py:79-85 (deepcopy),
    129-189 (value and its setter), 216-227 (__setitem__, __getattr__), 246-256 (_cast_str), 281-317 (IDSString1D), 486-500
    (IDSNumericArray._cast_value); imas/ids_structure.py:129-156 (assignment to a data node, deepcopy).

    A Python program holds such objects through data nodes and through variables.  The objects are in a heap.
    Simplified: data nodes without dimensions are left out (numbers and strings cannot be changed in place, C11); the types of numpy
    arrays are the three of the data dictionary; views and subclasses of arrays are left out; logging is left out; a change in place is
    any new contents of the same kind of object. *)
From Verif Require Import Base.

Fixpoint replace_at {A} (i : nat) (x : A) (l : list A) : list A :=
  match l, i with [], _ => [] | _ :: t, O => x :: t | y :: t, S i => y :: replace_at i x t end.
Inductive num := NInt | NFlt | NCpx.
Definition num_eqb (a b : num) : bool := match a, b with NInt, NInt | NFlt, NFlt | NCpx, NCpx => true | _, _ => false end.
(** what a list of strings may hold: strings and other Python objects *)
Inductive item := IStr (s : str) | IOther (z : Z).
(** STR_1D, or INT_nD, FLT_nD, CPX_nD *)
Inductive ty := TStr | TNum (t : num) (nd : nat).
Definition ty_eqb (a b : ty) : bool := match a, b with TStr, TStr => true | TNum t n, TNum u m => num_eqb t u && (n =? m) | _, _ => false end.
Inductive holder := HNode (n : nat) | HVar (a : nat).
Definition holder_eqb (x y : holder) : bool := match x, y with HNode n, HNode m | HVar n, HVar m => n =? m | _, _ => false end.
Inductive exn := ReadOnly | WrongDim | NoVar | NotArray | NoMethod | NoIndex | NotLazyCopy.

Section Alias.
Variable elt : Type.
Inductive obj := OList (l : list item) | OArr (t : num) (shape : list nat) (data : list elt).
Definition same_kind (a b : obj) : bool := match a, b with OList _, OList _ => true | OArr t _ _, OArr u _ _ => num_eqb t u | _, _ => false end.
Variable tyof : nat -> ty.                                  (* of a node *)
Variable lazy : nat -> bool.                                (* part of a lazy loaded IDS *)
Variable str_of : Z -> str.                                 (* str() *)
Variable cast : num -> num -> elt -> elt.                   (* numpy cast *)
Variable items_of : num -> list nat -> list elt -> list item. (* iterating over an array *)
Variable array_of : list item -> num -> option (list nat * list elt). (* np.asarray(np.asanyarray(list), dtype) *)

Record state := { heap : list obj; env : holder -> option nat }.
Definition alloc (st : state) (o : obj) : state * nat := ({| heap := heap st ++ [o]; env := env st |}, length (heap st)).
Definition hold (st : state) (h : holder) (r : option nat) : state := {| heap := heap st; env := fun x => if holder_eqb x h then r else env st x |}.
Definition write (st : state) (r : nat) (o : obj) : state := {| heap := replace_at r o (heap st); env := env st |}.
Definition content (st : state) (r : nat) : obj := nth r (heap st) (OList []).

(** 137-145 *)
Definition default (n : nat) : obj := match tyof n with TStr => OList [] | TNum t nd => OArr t (repeat 0 nd) [] end.
(** 160-170: the default becomes the value before it is returned *)
Definition value (st : state) (n : nat) : state * nat :=
  match env st (HNode n) with
  | Some r => (st, r)
  | None => let x := alloc st (default n) in (hold (fst x) (HNode n) (Some (snd x)), snd x)
  end.
(** 246-256 *)
Definition cast_str (i : item) : item := match i with IStr s => IStr s | IOther z => IStr (str_of z) end.
(** 307-316, 486-500, of the object r *)
Definition cast_value (st : state) (n r : nat) : state * result exn nat :=
  match tyof n, content st r with
  | TStr, OList l => let x := alloc st (OList (map cast_str l)) in (fst x, Ok (snd x))
  | TStr, OArr t sh d => let x := alloc st (OList (map cast_str (items_of t sh d))) in (fst x, Ok (snd x))
  | TNum t nd, OArr u sh d =>
    let x := if num_eqb u t then (st, r) else alloc st (OArr t sh (map (cast u t) d)) in
    (fst x, if length sh =? nd then Ok (snd x) else Err WrongDim)
  | TNum t nd, OList l =>
    match array_of l t with
    | None => (st, Err NotArray)
    | Some (sh, d) => let x := alloc st (OArr t sh d) in (fst x, if length sh =? nd then Ok (snd x) else Err WrongDim)
    end
  end.
(** what is assigned: another data node, an object in a variable, a new object *)
Inductive source := FromNode (m : nat) | FromVar (a : nat) | FromNew (o : obj).
Definition assign (st : state) (n : nat) (x : state * result exn nat) : state * option exn :=
  match snd x with Ok r => (hold (fst x) (HNode n) (Some r), None) | Err e => (fst x, Some e) end.
(** 172-189 *)
Definition set (st : state) (n : nat) (s : source) : state * option exn :=
  if lazy n then (st, Some ReadOnly) else
  match s with
  | FromNode m => let x := value st m in
                  if ty_eqb (tyof n) (tyof m) then (hold (fst x) (HNode n) (Some (snd x)), None)
                  else assign st n (cast_value (fst x) n (snd x))
  | FromVar a => match env st (HVar a) with None => (st, Some NoVar) | Some r => assign st n (cast_value st n r) end
  | FromNew o => let x := alloc st o in assign st n (cast_value (fst x) n (snd x))
  end.
(** the object of a holder *)
Definition object (st : state) (h : holder) : state * option nat :=
  match h with HNode n => let x := value st n in (fst x, Some (snd x)) | HVar a => (st, env st h) end.
(** changes in place: ids.node[...] = x, ids.node.value.resize(...), methods of the list, the same through a variable *)
Definition mutate (st : state) (h : holder) (o : obj) : state * option exn :=
  match object st h with
  | (st, None) => (st, Some NoVar)
  | (st, Some r) => if same_kind (content st r) o then (write st r o, None) else (st, Some NoMethod)
  end.
(** 291-305: append, extend and __setitem__ of IDSString1D *)
Definition list_change (st : state) (n : nat) (f : list item -> option (list item)) : state * option exn :=
  let x := value st n in
  match content (fst x) (snd x) with
  | OList l => match f l with Some l => (write (fst x) (snd x) (OList l), None) | None => (fst x, Some NoIndex) end
  | _ => (fst x, Some NoMethod)
  end.
Definition append (l' : list item) (l : list item) : option (list item) := Some (l ++ map cast_str l').
Definition set_item (i : nat) (x : item) (l : list item) : option (list item) := if i <? length l then Some (replace_at i (cast_str x) l) else None.
(** deepcopy of nodes, 79-85 and ids_structure.py:144-156, with one memo *)
Fixpoint copy_nodes (st : state) (memo : list (nat * nat)) (ns : list (nat * nat)) : state :=
  match ns with
  | [] => st
  | (n, n') :: ns =>
    match env st (HNode n) with
    | None => copy_nodes (hold st (HNode n') None) memo ns
    | Some r => match List.find (fun p => fst p =? r) memo with
                | Some p => copy_nodes (hold st (HNode n') (Some (snd p))) memo ns
                | None => let x := alloc st (content st r) in copy_nodes (hold (fst x) (HNode n') (Some (snd x))) ((r, snd x) :: memo) ns
                end
    end
  end.
Inductive op :=
| Make (a : nat) (o : obj)            (* a = list(...), a = np.array(...) *)
| Same (a b : nat)                    (* a = b *)
| Get (a n : nat)                     (* a = node.value *)
| Load (n : nat) (o : obj)            (* get from a data entry: past the setter *)
| Set_ (n : nat) (s : source)         (* node = ... *)
| Extend (n : nat) (l : list item)    (* node.append, node.extend *)
| SetItem (n i : nat) (x : item)      (* node[i] = x *)
| Mutate (h : holder) (o : obj)
| Copy (ns : list (nat * nat)).       (* deepcopy: nodes and the new nodes *)
Definition step (st : state) (o : op) : state * option exn :=
  match o with
  | Make a o => let x := alloc st o in (hold (fst x) (HVar a) (Some (snd x)), None)
  | Same a b => match env st (HVar b) with None => (st, Some NoVar) | Some r => (hold st (HVar a) (Some r), None) end
  | Get a n => let x := value st n in (hold (fst x) (HVar a) (Some (snd x)), None)
  | Load n o => let x := alloc st o in (hold (fst x) (HNode n) (Some (snd x)), None)
  | Set_ n s => set st n s
  | Extend n l => list_change st n (append l)
  | SetItem n i x => list_change st n (set_item i x)
  | Mutate h o => mutate st h o
  | Copy ns => if existsb (fun p => lazy (fst p)) ns then (st, Some NotLazyCopy) else (copy_nodes st [] ns, None)
  end.
Fixpoint run (st : state) (l : list op) : state * list (option exn) :=
  match l with [] => (st, []) | o :: l => let x := step st o in let y := run (fst x) l in (fst y, snd x :: snd y) end.
Definition start : state := {| heap := []; env := fun _ => None |}.
(** what a node or a variable shows *)
Definition show (st : state) (h : holder) : option obj :=
  match env st h, h with
  | Some r, _ => Some (content st r)
  | None, HNode n => Some (default n)
  | None, HVar _ => None
  end.
End Alias.
