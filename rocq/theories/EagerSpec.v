(** Specification for EagerModel: how the contexts of the Access Layer have to be used, where a call reads and writes, and an ideal
    database that answers by that.  Nothing here refers to the functions of EagerModel. *)
From Verif Require Import Base TreeModel VmapModel.
From Verif Require StoreModel EagerModel.
Import StoreModel (place, store, key, ctx, empty_store).
Import EagerModel (cid, action, AGlobal, ASlice, ARange, request, QBegin, QArray, QRead, QWrite, QDelete, QIter, QEnd, reply, r_ok, r_size, r_data, ev).

(** Open contexts, innermost first: the occurrence of an IDS, opened for reading or writing, or an array of structures with its size and
    the index of the current element. *)
Inductive frame := FIDS (c : cid) (a : action) (write : bool) | FArray (c : cid) (pl : place) (size idx : Z).
Definition fid (f : frame) : cid := match f with FIDS c _ _ | FArray c _ _ _ => c end.
Fixpoint writing (F : list frame) : bool := match F with [] => false | FIDS _ _ w :: _ => w | FArray _ _ _ _ :: F => writing F end.

(** [c] is the innermost context and, if it is an array, there is a current element *)
Definition usable (F : list frame) (c : cid) : bool :=
  match F with
  | FIDS d _ _ :: _ => Nat.eqb c d
  | FArray d _ n i :: _ => Nat.eqb c d && (0 <=? i)%Z && (i <? n)%Z
  | [] => false
  end.

(** The rules.  The occurrence of an IDS is opened when nothing is open; everything else is done with the innermost context, at an
    existing element; data are read while reading and written or deleted while writing; the index stays between 0 and the size; only the
    innermost context is ended.  A call that fails changes nothing. *)
Definition astep (F : list frame) (e : ev) : option (list frame) :=
  let (q, r) := e in
  match q with
  | QBegin new a w => match F with [] => Some (if r_ok r then [FIDS new a w] else []) | _ => None end
  | QArray c new pl n => if usable F c then Some (if r_ok r then FArray new pl (if writing F then n else r_size r) 0 :: F else F) else None
  | QRead c _ _ _ => if usable F c && negb (writing F) then Some F else None
  | QWrite c _ _ => if usable F c && writing F then Some F else None
  | QDelete c _ => match F with [FIDS d _ true] => if Nat.eqb c d then Some F else None | _ => None end
  | QIter c s => match F with
                 | FArray d pl n i :: F' =>
                     if Nat.eqb c d && (0 <=? i + s)%Z && (i + s <=? n)%Z then Some (if r_ok r then FArray d pl n (i + s) :: F' else F) else None
                 | _ => None
                 end
  | QEnd c => match F with f :: F' => if Nat.eqb c (fid f) then Some F' else None | [] => None end
  end.
Fixpoint arun (F : list frame) (l : list ev) : option (list frame) :=
  match l with [] => Some F | e :: l => match astep F e with Some F => arun F l | None => None end end.

(** What is opened and ended. *)
Definition opens (c : cid) (e : ev) : bool :=
  match e with (QBegin new _ _, r) | (QArray _ new _ _, r) => Nat.eqb c new && r_ok r | _ => false end.
Definition ends (c : cid) (e : ev) : bool := match e with (QEnd d, _) => Nat.eqb c d | _ => false end.
Definition count (f : ev -> bool) (l : list ev) : nat := length (filter f l).

(** ** What follows a failure *)
Definition is_end (e : ev) : bool := match e with (QEnd _, _) => true | _ => false end.
(** the call succeeded, or it is one whose status does not matter *)
Definition fine (e : ev) : bool := is_end e || r_ok (snd e).

(** ** Where a call reads and writes *)
(** path of the occurrence *)
Definition path_of_action (a : action) : str := match a with AGlobal p _ | ASlice p _ _ | ARange p _ _ _ _ => p end.
Fixpoint root (F : list frame) : str := match F with [] => [] | FIDS _ a _ :: _ => path_of_action a | FArray _ _ _ _ :: F => root F end.
(** the elements of arrays around it, outermost first *)
Fixpoint around (F : list frame) : ctx := match F with FArray _ pl _ i :: F => around F ++ [(pl, Z.to_nat i)] | _ => [] end.

(** The writes that are carried out, as in StoreModel. *)
Definition written (F : list frame) (e : ev) : list StoreModel.call :=
  match e with
  | (QWrite _ pl v, r) => if r_ok r then [StoreModel.Write (around F, pl) v] else []
  | (QArray _ _ pl n, r) => if writing F && r_ok r then [StoreModel.Begin (around F, pl) (Z.to_nat n)] else []
  | _ => []
  end.
Fixpoint written_all (F : list frame) (l : list ev) : list StoreModel.call :=
  match l with [] => [] | e :: l => written F e ++ match astep F e with Some F => written_all F l | None => [] end end.

(** ** The ideal database: a store (see StoreModel) for each occurrence of each IDS *)
Definition db := str -> store.
Definition dset (d : db) (p : str) (s : store) : db := fun q => if str_eqb p q then s else d q.
Definition dstep (d : db) (F : list frame) (e : ev) : db :=
  if r_ok (snd e) then
    match fst e with
    | QDelete _ path => dset d (root F) (StoreModel.delete path (d (root F)))
    | _ => dset d (root F) (StoreModel.apply_all (d (root F)) (written F e))
    end
  else d.
Fixpoint drun (d : db) (F : list frame) (l : list ev) : db :=
  match l with [] => d | e :: l => match astep F e with Some F' => drun (dstep d F e) F' l | None => d end end.

(** What is read with a context for a slice or a range of time is left open: [view] gives the store that is then seen. *)
Fixpoint seen (view : action -> store -> store) (F : list frame) (s : store) : store :=
  match F with
  | [] => s
  | FIDS _ (AGlobal _ _) _ :: _ => s
  | FIDS _ a _ :: _ => view a s
  | FArray _ _ _ _ :: F => seen view F s
  end.
(** Its replies.  Reading data of another type fails; an array that is not there has size 0. *)
Definition yes : reply := {| r_ok := true; r_size := 0; r_data := None |}.
Definition no : reply := {| r_ok := false; r_size := 0; r_data := None |}.
Definition ideal (view : action -> store -> store) (d0 : db) (t : list ev) (q : request) : reply :=
  match arun [] t with
  | None => no
  | Some F =>
    let s := seen view F (drun d0 [] t (root F)) in
    match q with
    | QRead _ pl dt nd => match StoreModel.read s (around F, pl) dt nd with
                          | Ok v => {| r_ok := true; r_size := 0; r_data := v |}
                          | Err _ => no
                          end
    | QArray _ _ pl _ => {| r_ok := true; r_size := match StoreModel.s_size s (around F, pl) with Some n => Z.of_nat n | None => 0 end; r_data := None |}
    | _ => yes
    end
  end.
