(** Specification of in-place changes (C61), without objects: every node and every variable has contents of its own, and a relation says
    which of them share.  A change in place changes exactly those that share with what is changed. *)
From Verif Require Import Base AliasModel.

Section Spec.
Variable elt : Type.
Variable tyof : nat -> ty.
Variable lazy : nat -> bool.
Variable str_of : Z -> str.
Variable cast : num -> num -> elt -> elt.
Variable items_of : num -> list nat -> list elt -> list item.
Variable array_of : list item -> num -> option (list nat * list elt).
Notation obj := (obj elt).

Record sstate := { val : holder -> option obj; share : holder -> holder -> bool }.
Definition is (x y : holder) : bool := holder_eqb x y.
(** h gets contents of its own *)
Definition own (s : sstate) (h : holder) (o : option obj) : sstate :=
  {| val := fun x => if is x h then o else val s x; share := fun x y => if is x h || is y h then is x y else share s x y |}.
(** h becomes another holder of what g holds *)
Definition join (s : sstate) (h g : holder) : sstate :=
  let r x := if is x h then g else x in {| val := fun x => val s (r x); share := fun x y => share s (r x) (r y) |}.
(** the contents of what h holds become o *)
Definition change (s : sstate) (h : holder) (o : obj) : sstate := {| val := fun x => if share s h x then Some o else val s x; share := share s |}.
(** n' gets the contents of n, for all pairs; copies share as the originals do, and with nothing else *)
Definition original (ns : list (nat * nat)) (x : holder) : option holder :=
  match x with HNode m => option_map (fun p => HNode (fst p)) (List.find (fun p => snd p =? m) ns) | HVar _ => None end.
Definition copied (s : sstate) (ns : list (nat * nat)) : sstate :=
  {| val := fun x => match original ns x with Some y => val s y | None => val s x end;
     share := fun x y => match original ns x, original ns y with
                         | Some x, Some y => share s x y
                         | None, None => share s x y
                         | _, _ => false
                         end |}.
(** text of an item *)
Definition text (i : item) : item := match i with IStr s => IStr s | IOther z => IStr (str_of z) end.
(** what contents o become in a node: taken as they are, new contents, or an error *)
Inductive taken := AsIs | New (o : obj) | Refused (e : exn).
Inductive takes : ty -> obj -> taken -> Prop :=
| takes_list : forall l, takes TStr (OList elt l) (New (OList elt (map text l)))
| takes_items : forall t sh d, takes TStr (OArr elt t sh d) (New (OList elt (map text (items_of t sh d))))
| takes_same : forall t sh d, takes (TNum t (length sh)) (OArr elt t sh d) AsIs
| takes_cast : forall t u sh d, t <> u -> takes (TNum t (length sh)) (OArr elt u sh d) (New (OArr elt t sh (map (cast u t) d)))
| takes_dim : forall t u nd sh d, nd <> length sh -> takes (TNum t nd) (OArr elt u sh d) (Refused WrongDim)
| takes_array : forall t l sh d, array_of l t = Some (sh, d) -> takes (TNum t (length sh)) (OList elt l) (New (OArr elt t sh d))
| takes_array_dim : forall t nd l sh d, array_of l t = Some (sh, d) -> nd <> length sh -> takes (TNum t nd) (OList elt l) (Refused WrongDim)
| takes_none : forall t nd l, array_of l t = None -> takes (TNum t nd) (OList elt l) (Refused NotArray).
(** assigning what g holds to the node n *)
Inductive sassign (s : sstate) (n : nat) (g : holder) : sstate -> option exn -> Prop :=
| sa_as_is : forall o, val s g = Some o -> takes (tyof n) o AsIs -> sassign s n g (join s (HNode n) g) None
| sa_new : forall o o', val s g = Some o -> takes (tyof n) o (New o') -> sassign s n g (own s (HNode n) (Some o')) None
| sa_refused : forall o e, val s g = Some o -> takes (tyof n) o (Refused e) -> sassign s n g s (Some e).
Notation Copy := (Copy elt).
Inductive sstep (s : sstate) : op elt -> sstate -> option exn -> Prop :=
| s_make : forall a o, sstep s (Make elt a o) (own s (HVar a) (Some o)) None
| s_same : forall a b o, val s (HVar b) = Some o -> sstep s (Same elt a b) (join s (HVar a) (HVar b)) None
| s_same_none : forall a b, val s (HVar b) = None -> sstep s (Same elt a b) s (Some NoVar)
| s_get : forall a n, sstep s (Get elt a n) (join s (HVar a) (HNode n)) None
| s_load : forall n o, sstep s (Load elt n o) (own s (HNode n) (Some o)) None
| s_lazy : forall n src, lazy n = true -> sstep s (Set_ elt n src) s (Some ReadOnly)
| s_set_same : forall n m, lazy n = false -> tyof n = tyof m -> sstep s (Set_ elt n (FromNode elt m)) (join s (HNode n) (HNode m)) None
| s_set_node : forall n m s' e, lazy n = false -> tyof n <> tyof m -> sassign s n (HNode m) s' e -> sstep s (Set_ elt n (FromNode elt m)) s' e
| s_set_var : forall n a s' e, lazy n = false -> sassign s n (HVar a) s' e -> sstep s (Set_ elt n (FromVar elt a)) s' e
| s_set_novar : forall n a, lazy n = false -> val s (HVar a) = None -> sstep s (Set_ elt n (FromVar elt a)) s (Some NoVar)
| s_set_as_is : forall n o, lazy n = false -> takes (tyof n) o AsIs -> sstep s (Set_ elt n (FromNew elt o)) (own s (HNode n) (Some o)) None
| s_set_new : forall n o o', lazy n = false -> takes (tyof n) o (New o') -> sstep s (Set_ elt n (FromNew elt o)) (own s (HNode n) (Some o')) None
| s_set_refused : forall n o e, lazy n = false -> takes (tyof n) o (Refused e) -> sstep s (Set_ elt n (FromNew elt o)) s (Some e)
| s_extend : forall n l l', val s (HNode n) = Some (OList elt l) -> sstep s (Extend elt n l') (change s (HNode n) (OList elt (l ++ map text l'))) None
| s_extend_arr : forall n l' t sh d, val s (HNode n) = Some (OArr elt t sh d) -> sstep s (Extend elt n l') s (Some NoMethod)
| s_item : forall n i x l1 y l2, val s (HNode n) = Some (OList elt (l1 ++ y :: l2)) -> length l1 = i ->
    sstep s (SetItem elt n i x) (change s (HNode n) (OList elt (l1 ++ text x :: l2))) None
| s_item_range : forall n i x l, val s (HNode n) = Some (OList elt l) -> length l <= i -> sstep s (SetItem elt n i x) s (Some NoIndex)
| s_item_arr : forall n i x t sh d, val s (HNode n) = Some (OArr elt t sh d) -> sstep s (SetItem elt n i x) s (Some NoMethod)
| s_mutate : forall h o o', val s h = Some o -> same_kind elt o o' = true -> sstep s (Mutate elt h o') (change s h o') None
| s_mutate_kind : forall h o o', val s h = Some o -> same_kind elt o o' = false -> sstep s (Mutate elt h o') s (Some NoMethod)
| s_mutate_none : forall h o', val s h = None -> sstep s (Mutate elt h o') s (Some NoVar)
| s_copy : forall ns, (forall p, In p ns -> lazy (fst p) = false) -> sstep s (Copy ns) (copied s ns) None
| s_copy_lazy : forall ns p, In p ns -> lazy (fst p) = true -> sstep s (Copy ns) s (Some NotLazyCopy).
Inductive sruns : sstate -> list (op elt) -> sstate -> list (option exn) -> Prop :=
| sr_nil : forall s, sruns s [] s []
| sr_cons : forall s o s' e l s'' es, sstep s o s' e -> sruns s' l s'' es -> sruns s (o :: l) s'' (e :: es).
(** at first every node is empty and nothing shares *)
Definition sstart : sstate :=
  {| val := fun h => match h with HNode n => Some (match tyof n with TStr => OList elt [] | TNum t nd => OArr elt t (repeat 0 nd) [] end) | HVar _ => None end; share := is |}.
(** the new nodes of a deep copy are new *)
Definition copy_ok (o : op elt) : Prop :=
  match o with AliasModel.Copy _ ns => NoDup (map fst ns) /\ NoDup (map snd ns) /\ (forall n, In n (map fst ns) -> ~ In n (map snd ns)) /\ forall p, In p ns -> tyof (snd p) = tyof (fst p) | _ => True end.
End Spec.
