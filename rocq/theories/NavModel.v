(** Model of the navigation upwards in an IDS: imas.util.get_parent, get_toplevel, get_time_mode and get_full_path, over the
    objects of HeapModel.  An object is an [IDSToplevel] if its path in the dictionary is empty: these three properties are
    found by the class of the object, not by whether it has a parent.  None = recursion limit (cyclic parents). *)
From Verif Require Import Base TreeModel PathModel HeapModel.

(** isinstance(node, IDSToplevel): only the root of a definition has an empty path (ids_metadata.py:170-173; HeapSpec.new_top) *)
Definition is_top (ob : obj) : bool := match o_path ob with [] => true | _ => false end.

(** util.py:410-437 [get_parent]: None for a toplevel, else [_parent] *)
Definition get_parent (h : heap) (x : oid) : option oid :=
  match get h x with
  | Some ob => if is_top ob then None else o_parent ob
  | None => None
  end.

(** ids_base.py:111-114 and ids_toplevel.py:368-372 [_toplevel] (util.py:462-479 get_toplevel) *)
Fixpoint get_toplevel (fuel : nat) (h : heap) (x : oid) : option oid :=
  match fuel with
  | O => None
  | S f => match get h x with
           | None => None
           | Some ob => if is_top ob then Some x
                        else match o_parent ob with Some p => get_toplevel f h p | None => None end
           end
  end.

(** ids_base.py:37-40 and ids_toplevel.py:92-95 [_time_mode] (util.py:440-459 get_time_mode): the two attributes are looked up
    as any others, and made when they do not exist yet. *)
Definition homogeneous (h : heap) (r : oid) : heap * result exn oid :=
  match getattr h r (strs "ids_properties") with
  | (h1, Ok p) => getattr h1 p (strs "homogeneous_time")
  | (h1, Err e) => (h1, Err e)
  end.
Fixpoint get_time_mode (fuel : nat) (h : heap) (x : oid) : option (heap * result exn oid) :=
  match fuel with
  | O => None
  | S f => match get h x with
           | None => None
           | Some ob => if is_top ob then Some (homogeneous h x)
                        else match o_parent ob with Some p => get_time_mode f h p | None => None end
           end
  end.

(** ids_base.py:55-94 and ids_toplevel.py:64 [_path] (util.py:491-508 get_full_path); as HeapModel.path_str, which only stops at
    objects without parent *)
Fixpoint full_path (fuel : nat) (h : heap) (x : oid) : option str :=
  match fuel with
  | O => None
  | S f =>
    match get h x with
    | None => None
    | Some ob =>
      if is_top ob then Some []
      else match o_parent ob with
           | None => None
           | Some p =>
             match full_path f h p, get h p with
             | Some pp, Some po =>
               match o_body po with
               | BAoS els =>
                 Some (pp ++ "["%char :: match index_of_oid x els with
                                         | Some i => show_N (N.of_nat i)
                                         | None => strs "?"
                                         end ++ ["]"%char])
               | _ => match pp with
                      | [] => Some (mname (o_meta ob))
                      | _ => Some (pp ++ "/"%char :: mname (o_meta ob))
                      end
               end
             | _, _ => None
             end
           end
    end
  end.
