(** Model of lazy Access Layer contexts: imas/backends/imas_core/al_context.py:182-404 (ALArrayStructContext, LazyALContext and its
    subclasses), the context cache of imas/backends/imas_core/db_entry_al.py:160-177, and its users
    imas/backends/imas_core/db_entry_helpers.py:76-125 (_get_child), imas/ids_struct_array.py:78-113 (_load).
    The Access Layer library is an oracle that says which calls fail; every call is recorded in a trace.
    One open data entry (one ALDBEntryImpl object) is modelled; an entry that is opened again has a new implementation object. *)
From Verif Require Import Base.

(** Identities of lazy context objects and of real contexts (ALContext objects; 0 is the context of the data entry). *)
Definition lid := nat.
Definition cid := nat.

(** The lazy context objects: [LazyALContext(dbentry=...)]; made by global_action/slice_action/timerange_action with the path of the
    IDS; made by [arraystruct_action] with the path of the array; [LazyALArrayStructChildContext] with its index. *)
Inductive lkind := KRoot | KAction (path : str) | KAos (path : str) | KItem (i : Z).
(** [l_live]: whether the attribute [dbentry_ctx], taken from the data entry when the object is made (al_context.py:267), is the context
    of the open data entry (or None: made after the entry was closed). *)
Record lobj := { l_kind : lkind; l_parent : option lid; l_live : bool }.

(** Calls of the Access Layer. *)
Inductive ev :=
| EvOpen (parent new : cid) (path : str)   (* begin_*_action *)
| EvOpenFailed (parent : cid) (path : str)
| EvIter (c : cid) (step : Z) | EvIterFailed (c : cid) (step : Z)
| EvRead (c : cid) (path : str)
| EvEnd (c : cid)
| EvEager                                  (* all calls of an operation that uses contexts of its own, opened and closed by it *)
| EvClose (ok : bool).                     (* close_pulse and, if that succeeds, end_action of the data entry's context *)

(** [objs], [ctx_of] (the weak reference [context]), the cache with the most recent context first, [curindex], whether the data entry
    still has the context the lazy objects were made with, number of contexts made, trace (oldest first). *)
Record st := { objs : list lobj; ctx_of : lid -> option cid; cache : list cid; cur : cid -> Z; alive : bool; next : cid; trace : list ev }.

Inductive err := Gone | CallFailed | BadObject | Fuel.

Definition upd {A} (f : nat -> A) (k : nat) (v : A) : nat -> A := fun x => if Nat.eqb x k then v else f x.
Definition emit (s : st) (e : ev) : st :=
  {| objs := objs s; ctx_of := ctx_of s; cache := cache s; cur := cur s; alive := alive s; next := next s; trace := trace s ++ [e] |}.
Definition set_cache (s : st) (c : list cid) : st :=
  {| objs := objs s; ctx_of := ctx_of s; cache := c; cur := cur s; alive := alive s; next := next s; trace := trace s |}.

Section Oracles.
(** Whether a real context that is no longer in the cache is still referenced from elsewhere (for example a traceback), at a given
    time; whether the call made at a given time succeeds. *)
Variable lingers : nat -> cid -> bool.
Variable succeeds : nat -> bool.
Definition now (s : st) : nat := length (trace s).

(** [while cache and cache[-1] is not ctx: cache.pop().close()], al_context.py:309-310. *)
Fixpoint pop_to (c : cid) (l : list cid) : list cid * list ev :=
  match l with
  | [] => ([], [])
  | x :: t => if Nat.eqb x c then (l, []) else let (l', es) := pop_to c t in (l', EvEnd x :: es)
  end.
Definition pop_until (s : st) (c : cid) : st :=
  let (l, es) := pop_to c (cache s) in
  {| objs := objs s; ctx_of := ctx_of s; cache := l; cur := cur s; alive := alive s; next := next s; trace := trace s ++ es |}.
(** [_clear_lazy_ctx_cache], db_entry_al.py:174-177, and al_context.py:332-335. *)
Definition clear (s : st) : st :=
  {| objs := objs s; ctx_of := ctx_of s; cache := []; cur := cur s; alive := alive s; next := next s; trace := trace s ++ map EvEnd (cache s) |}.

(** The weak reference: al_context.py:305.  A context in the cache is referenced by it. *)
Definition deref (s : st) (o : lid) : option cid :=
  match ctx_of s o with
  | Some c => if existsb (Nat.eqb c) (cache s) || lingers (now s) c then Some c else None
  | None => None
  end.

(** [self.method(parent, *self.args)] and the new entry of the cache, al_context.py:322-327. *)
Definition open_ctx (s : st) (o : lid) (parent : cid) (path : str) : st * result err cid :=
  if succeeds (now s) then
    let c := next s in
    ({| objs := objs s; ctx_of := upd (ctx_of s) o (Some c); cache := c :: cache s; cur := upd (cur s) c 0%Z; alive := alive s;
        next := S (next s); trace := trace s ++ [EvOpen parent c path] |}, Ok c)
  else (emit s (EvOpenFailed parent path), Err CallFailed).

(** [iterate_to_index], al_context.py:211-218. *)
Definition iterate_to (s : st) (c : cid) (i : Z) : st * result err cid :=
  let step := (i - cur s c)%Z in
  if (step =? 0)%Z then (s, Ok c)
  else if succeeds (now s) then
    ({| objs := objs s; ctx_of := ctx_of s; cache := cache s; cur := upd (cur s) c i; alive := alive s; next := next s;
        trace := trace s ++ [EvIter c step] |}, Ok c)
  else (emit s (EvIterFailed c step), Err CallFailed).

(** [get_context]: al_context.py:296-336 and, for elements, 400-404. *)
Fixpoint get_context (fuel : nat) (s : st) (o : lid) : st * result err cid :=
  match fuel with
  | O => (s, Err Fuel)
  | S fuel =>
    match nth_error (objs s) o with
    | None => (s, Err BadObject)
    | Some ob =>
      match l_kind ob, l_parent ob with
      | KItem i, Some p =>
          match get_context fuel s p with
          | (s, Ok c) => iterate_to s c i
          | (s, Err e) => (s, Err e)
          end
      | KItem _, None => (s, Err BadObject)
      | k, p =>
          if negb (Bool.eqb (alive s) (l_live ob)) then (s, Err Gone) else
          let s1 := match deref s o with Some c => pop_until s c | None => s end in
          match deref s o, cache s1 with
          | Some c, _ :: _ => (s1, Ok c)
          | _, _ =>
              match p with
              | Some p => match get_context fuel s1 p with
                          | (s2, Ok pc) => open_ctx s2 o pc (match k with KAction path | KAos path => path | _ => [] end)
                          | (s2, Err e) => (s2, Err e)
                          end
              | None => (clear s1, Ok 0)
              end
          end
      end
    end
  end.
Definition context (s : st) (o : lid) : st * result err cid := get_context (S o) s o.

(** What programs can do.  [LRead]: read a data node of the structure whose lazy context is [o].  [LArray]: first access of an array
    of structures in that structure.  [LSize]: load the size of an array.  [LItem]: first access of an element.  [LGet]: a lazy get
    ([get] clears the cache and reads the time mode with a context of its own, db_entry_al.py:195-207).  [LEager]: any other operation of
    the data entry. *)
Inductive lop :=
| LGet (path : str) | LRead (o : lid) (path : str) | LArray (o : lid) (path : str) | LSize (o : lid) | LItem (o : lid) (i : Z)
| LEager | LClose.

Definition add_obj (s : st) (k : lkind) (p : option lid) : st :=
  {| objs := objs s ++ [{| l_kind := k; l_parent := p; l_live := alive s |}]; ctx_of := upd (ctx_of s) (length (objs s)) None; cache := cache s; cur := cur s;
     alive := alive s; next := next s; trace := trace s |}.
Definition kind_of (s : st) (o : lid) : option lkind := option_map l_kind (nth_error (objs s) o).

Definition step (s : st) (op : lop) : st * result err unit :=
  match op with
  | LGet path =>
      if negb (alive s) then (s, Err Gone) else
      let s := emit (clear s) EvEager in
      let r := length (objs s) in
      (add_obj (add_obj s KRoot None) (KAction path) (Some r), Ok tt)
  | LRead o path =>
      match kind_of s o with
      | Some (KAction _) | Some (KItem _) =>
          match context s o with
          | (s, Ok c) => let ok := succeeds (now s) in (emit s (EvRead c path), if ok then Ok tt else Err CallFailed)
          | (s, Err e) => (s, Err e)
          end
      | _ => (s, Err BadObject)
      end
  | LArray o path =>
      match kind_of s o with
      | Some (KAction _) | Some (KItem _) => (add_obj s (KAos path) (Some o), Ok tt)
      | _ => (s, Err BadObject)
      end
  | LSize o =>
      match kind_of s o with
      | Some (KAos _) => match context s o with (s, Ok _) => (s, Ok tt) | (s, Err e) => (s, Err e) end
      | _ => (s, Err BadObject)
      end
  | LItem o i =>
      match kind_of s o with
      | Some (KAos _) => (add_obj s (KItem i) (Some o), Ok tt)
      | _ => (s, Err BadObject)
      end
  | LEager => if negb (alive s) then (s, Err Gone) else (emit (clear s) EvEager, Ok tt)
  | LClose =>
      if negb (alive s) then (s, Ok tt) else
      let s := clear s in
      if succeeds (now s)
      then ({| objs := objs s; ctx_of := ctx_of s; cache := cache s; cur := cur s; alive := false; next := next s; trace := trace s ++ [EvClose true] |}, Ok tt)
      else (emit s (EvClose false), Err CallFailed)
  end.
Definition start : st := {| objs := []; ctx_of := fun _ => None; cache := []; cur := fun _ => 0%Z; alive := true; next := 1; trace := [] |}.
Fixpoint run (s : st) (ops : list lop) : st := match ops with [] => s | op :: ops => run (fst (step s op)) ops end.
End Oracles.
