(** What an occurrence contains after put_slice: specification for SliceModel, by location. *)
From Verif Require Import Base TreeModel TreeSpec StoreSpec.

(** The contents of an IDS: the filled data nodes and the sizes of the arrays of structures. *)
Record contents := { at_ : loc -> option value; size : loc -> nat }.

(** the node at a location *)
Fixpoint look (n : node) (l : loc) : option node :=
  match l, n with
  | [], _ => Some n
  | Child c :: t, NStruct fs => match alookup c fs with Some x => look x t | None => None end
  | Elem i :: t, NAoS els => match nth_error els i with Some x => look x t | None => None end
  | _, _ => None
  end.
Definition is_filled (v : value) : bool :=
  match v with VStrs [] | VIntA _ [] | VFltA _ [] | VCpxA _ [] => false | _ => true end.
Definition contents_of (n : node) : contents :=
  {| at_ := fun l => match look n l with Some (NLeaf (Some v)) => if is_filled v then Some v else None | _ => None end;
     size := fun l => match look n l with Some (NAoS els) => length els | _ => 0 end |}.

Section Slices.
Variable dynamic : list str -> bool.
Variable xml_tbp : list str -> str.
Variable append : value -> value -> option value.

(** The outermost array of structures with time dependent elements on the way to l: its location, the index of the element, the rest. *)
Fixpoint series (pre l : loc) : option (loc * nat * loc) :=
  match l with
  | [] => None
  | Child c :: t => series (pre ++ [Child c]) t
  | Elem i :: t => if dynamic (loc_names pre) then Some (pre, i, t) else series (pre ++ [Elem i]) t
  end.

(** The data node has a time dimension of its own. *)
Definition has_time (l : loc) : bool :=
  dynamic (loc_names l) && negb (inside_dynamic dynamic (loc_names l)) && negb (str_eqb (xml_tbp (loc_names l)) []).

Definition joined (a b : option value) : option value :=
  match a, b with
  | Some u, Some v => append u v
  | Some u, None => Some u
  | None, x => x
  end.
Definition newer (a b : option value) : option value := match b with Some v => Some v | None => a end.

(** What is there after appending b to a. *)
Definition extend (a b : contents) : contents :=
  {| at_ := fun l => match series [] l with
                     | Some (p, i, r) => if i <? size a p then at_ a l
                                         else if dynamic (loc_names l) then at_ b (p ++ Elem (i - size a p) :: r) else None
                     | None => if has_time l then joined (at_ a l) (at_ b l)
                               else if dynamic (loc_names l) then newer (at_ a l) (at_ b l) else at_ a l
                     end;
     size := fun l => match series [] l with
                      | Some (p, i, r) => if i <? size a p then size a l else size b (p ++ Elem (i - size a p) :: r)
                      | None => if dynamic (loc_names l) then size a l + size b l else if size a l =? 0 then size b l else size a l
                      end |}.

(** Arrays of structures that do not belong to time slices have the same size in a and b, if they have elements in both. *)
Definition same_sizes (a b : contents) : Prop :=
  forall l, series [] l = None -> dynamic (loc_names l) = false -> size a l <> 0 -> size b l <> 0 -> size a l = size b l.
End Slices.

(** * Arrays *)
Definition shape (v : value) : list nat :=
  match v with VStrs l => [length l] | VIntA sh _ | VFltA sh _ | VCpxA sh _ => sh | _ => [] end.
(** the number (or string) at a position of the array, row-major *)
Definition nth_item (v : value) (i : nat) : option value :=
  match v with
  | VStrs l => option_map VStr (nth_error l i)
  | VIntA _ d => option_map VInt (nth_error d i)
  | VFltA _ d => option_map VFlt (nth_error d i)
  | VCpxA _ d => option_map (fun z => VCpx (fst z) (snd z)) (nth_error d i)
  | _ => None
  end.
(** the number of rows, and the number of times (the last dimension) *)
Definition rows (v : value) : nat := prod (removelast (shape v)).
Definition times (c : contents) (l : loc) : nat := match at_ c l with Some v => last (shape v) 0 | None => 0 end.
