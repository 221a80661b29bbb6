(** Model of lazy loading from an Access Layer entry: imas/ids_structure.py:38-68, imas/ids_struct_array.py:30-150,
    imas/backends/imas_core/db_entry_helpers.py:80-130 (_get_child) and the lazy contexts of imas/backends/imas_core/al_context.py:221-404.

    Simplification: a lazy context is represented by the position it stands for (the open arrays of structures with their indices).
    That the chain of lazy contexts, with the cache of open contexts shared by all IDSs of the entry, leads to exactly these open contexts
    is the subject of CtxModel (C33_right_index, C33_right_array).  The store is the ideal one of StoreModel and does not change. *)
From Verif Require Import Base TreeModel VmapModel StoreModel.
From Verif Require PrimModel.

(** A node of a lazily loaded IDS.
    - [LLeaf v]: an IDSPrimitive;
    - [LStruct c fs]: an IDSStructure: [_lazy_context] (ids_structure.py:55) and the children in [__dict__];
    - [LAoS c v]: an IDSStructArray: [_lazy_ctx] (ids_struct_array.py:49) and [value], None until the size is loaded; an element is None
      until it is requested. *)
Inductive lnode :=
| LLeaf (v : option value)
| LStruct (c : option ctx) (fs : list (str * lnode))
| LAoS (c : option key) (v : option (list (option lnode))).

(** ids_structure.py:38-55, ids_struct_array.py:30-49 *)
Definition lnew (m : meta) : lnode :=
  match mkind m with KStruct => LStruct None [] | KAoS => LAoS None None | KLeaf _ _ => LLeaf None end.

Inductive lexn :=
| Unavailable          (* RuntimeError: the data entry is no longer available for reading, al_context.py:298-302 *)
| Failed (e : exn)     (* from the version map or the backend *)
| NoAttribute          (* AttributeError *)
| NoElement.           (* IndexError *)

Inductive obs := OValue (v : option value) | OSize (n : nat) | ONode.
(** an access: attribute, element (as in Python: negative indices count from the end) *)
Inductive acc := Attr (nm : str) | Item (i : Z).

Definition child_meta (m : meta) (nm : str) : option meta := List.find (fun d => str_eqb (mname d) nm) (mchildren m).
(** Python's list index *)
Definition index (i : Z) (n : nat) : option nat :=
  let j := if (i <? 0)%Z then (i + Z.of_nat n)%Z else i in
  if ((0 <=? j) && (j <? Z.of_nat n))%Z then Some (Z.to_nat j) else None.

Section Lazy.
Variable dynamic : list str -> bool.
Variable xml_tbp : list str -> str.
Variable nbc : option nmap.
Variable mode : Z.
Variable s : store.

(** ids_structure.py:62-68 with db_entry_helpers.py:80-130: the child as it is put in [__dict__], and the exception raised afterwards.
    [p], [c]: position and lazy context of the structure; [open]: the entry has not been closed. *)
Definition load_child (open : bool) (d : meta) (p : pos) (c : option ctx) : lnode * option lexn :=
  match c with
  | None => (lnew d, None)
  | Some c =>
    if omitted dynamic mode p d then (lnew d, None) else
    match locate dynamic xml_tbp nbc mode p d with
    | Err e => (lnew d, Some (Failed e))
    | Ok None => (lnew d, None)
    | Ok (Some pl) =>
      match mkind d with
      | KAoS => (LAoS (Some (c, pl)) None, None)
      | KStruct => (LStruct (Some c) [], None)
      | KLeaf dt nd =>
        if open then
          match read s (c, pl) dt nd with
          | Err e => (lnew d, Some (Failed e))
          | Ok None => (lnew d, None)
          | Ok (Some v) => (LLeaf (if (nd =? 0) && PrimModel.is_empty dt v then None else Some v), None)
          end
        else (lnew d, Some Unavailable)
      end
    end
  end.

(** ids_struct_array.py:79-105: the list after the size has been loaded *)
Definition load_size (open : bool) (c : option key) (v : option (list (option lnode))) : result lexn (list (option lnode)) :=
  match v with
  | Some els => Ok els
  | None =>
    match c with
    | None => Ok []
    | Some k => if open then Ok (repeat None (match s_size s k with Some n => n | None => 0 end)) else Err Unavailable
    end
  end.

(** Evaluation of an expression x.a.b[i].c ...: [m], [p] are the metadata and the position (as a parent) of x, [n] its state.
    [look]: at the end, the value of a data node or the length of an array of structures is requested.  The result is the new state
    together with what is seen, or the exception. *)
Fixpoint access (open : bool) (m : meta) (p : pos) (path : list acc) (look : bool) (n : lnode) {struct path} : lnode * result lexn obs :=
  match path with
  | [] =>
    if look then
      match n with
      | LLeaf v => (n, Ok (OValue v))
      | LStruct _ _ => (n, Ok ONode)
      | LAoS c v => match load_size open c v with
                    | Ok els => (LAoS c (Some els), Ok (OSize (length els)))
                    | Err e => (n, Err e)
                    end
      end
    else (n, Ok ONode)
  | Attr nm :: rest =>
    match n with
    | LStruct c fs =>
      match child_meta m nm with
      | None => (n, Err NoAttribute)
      | Some d =>
        match alookup nm fs with
        | Some ch => let r := access open d (below dynamic p d) rest look ch in (LStruct c (aset nm (fst r) fs), snd r)
        | None =>
          match load_child open d p c with
          | (ch, Some e) => (LStruct c (aset nm ch fs), Err e)
          | (ch, None) => let r := access open d (below dynamic p d) rest look ch in (LStruct c (aset nm (fst r) fs), snd r)
          end
        end
      end
    | _ => (n, Err NoAttribute)
    end
  | Item i :: rest =>
    match n with
    | LAoS c v =>
      match load_size open c v with
      | Err e => (n, Err e)
      | Ok els =>
        match index i (length els) with
        | None => (LAoS c (Some els), Err NoElement)
        | Some j =>
          let el := match nth_error els j with
                    | Some (Some e) => e
                    | _ => LStruct (option_map (fun k => fst k ++ [(snd k, j)]) c) []    (* 107-113 *)
                    end in
          let r := access open (Meta (mname m) KStruct (mchildren m)) p rest look el in (LAoS c (Some (list_set j (Some (fst r)) els)), snd r)
        end
      end
    | _ => (n, Err NoElement)
    end
  end.

(** * A lazily loaded IDS and its entry *)
Inductive lop := Access (path : list acc) (look : bool) | Close.
Record lstate := { l_open : bool; l_tree : lnode }.
(** db_entry_al.py:215-239 with [lazy]: the context of the whole IDS *)
Definition lget : lstate := {| l_open := true; l_tree := LStruct (Some []) [] |}.
Definition lstep (m : meta) (st : lstate) (op : lop) : lstate * option (result lexn obs) :=
  match op with
  | Access path look => let r := access (l_open st) m top path look (l_tree st) in ({| l_open := l_open st; l_tree := fst r |}, Some (snd r))
  | Close => ({| l_open := false; l_tree := l_tree st |}, None)
  end.
Fixpoint lrun (m : meta) (st : lstate) (ops : list lop) : lstate * list (option (result lexn obs)) :=
  match ops with
  | [] => (st, [])
  | op :: t => let r := lstep m st op in let q := lrun m (fst r) t in (fst q, snd r :: snd q)
  end.
End Lazy.
