(** Model of the calls of the Access Layer made by the operations of a data entry that are not lazy: get, get_slice, get_sample, put,
    put_slice, read_dd_version and delete_data of imas/backends/imas_core/db_entry_al.py:179-345, with get_children, delete_children and
    put_children of imas/backends/imas_core/db_entry_helpers.py and the wrappers of imas/backends/imas_core/al_context.py:37-219.

    Every call is recorded in a trace together with the reply of the Access Layer, which is an oracle of the whole history: any call can
    fail, arrays can have any size.  What exists without the calls (which child is at which path, in which order, what is skipped) is that
    of StoreModel. *)
From Verif Require Import Base TreeModel VmapModel.
From Verif Require PrimModel StoreModel NcEntryModel.
Import StoreModel (place, pos, top, below, locate, omitted, ctx_path, is_mode).

(** Identity of a context; 0 is the context of the data entry. *)
Definition cid := nat.

(** Interpolation methods (imas/ids_defs.py:101-126); [Unknown] stands for any other value. *)
Inductive interp := Undefined | Closest | Previous | Linear | Unknown.
(** global_action, slice_action ([None]: UNDEFINED_TIME), timerange_action: al_context.py:63-124; the first argument is the path of the
    occurrence of the IDS. *)
Inductive action :=
| AGlobal (path datapath : str)
| ASlice (path : str) (time : option flt) (method : interp)
| ARange (path : str) (tmin tmax : flt) (dtime : option value) (method : interp).

(** The calls (ll_interface.begin_*_action, read_data, write_data, delete_data, iterate_over_arraystruct, end_action).  [c] is the context
    the call is made with; [new] the context that is opened if the call succeeds. *)
Inductive request :=
| QBegin (new : cid) (a : action) (write : bool)
| QArray (c new : cid) (pl : place) (size : Z)
| QRead (c : cid) (pl : place) (dt : dtype) (nd : nat)
| QWrite (c : cid) (pl : place) (v : value)
| QDelete (c : cid) (path : str)
| QIter (c : cid) (step : Z)
| QEnd (c : cid).
Record reply := { r_ok : bool; r_size : Z; r_data : option value }.
Definition ev := (request * reply)%type.

Inductive exn :=
| Own (e : StoreModel.exn)     (* those of StoreModel; [Own Lowlevel]: a LowlevelError *)
| BadArguments                 (* TypeError *)
| NoData                       (* DataEntryException: the occurrence is empty *)
| BadMethod.                   (* ValueError: unknown interpolation method *)

Section Calls.
Variable answer : list ev -> request -> reply.

(** A computation that makes calls: the trace (oldest first) grows. *)
Definition M (A : Type) := list ev -> list ev * result exn A.
Definition ret {A} (x : A) : M A := fun t => (t, Ok x).
Definition fail {A} (e : exn) : M A := fun t => (t, Err e).
Definition mbind {A B} (x : M A) (f : A -> M B) : M B :=
  fun t => match x t with (t, Ok a) => f a t | (t, Err e) => (t, Err e) end.
Notation "'run' x <- r ; k" := (mbind r (fun x => k)) (at level 200, x pattern, r at level 100, k at level 200).

(** A call whose status is checked: [if status != 0: raise LowlevelError(...)]. *)
Definition call (e : exn) (q : request) : M reply :=
  fun t => let r := answer t q in (t ++ [(q, r)], if r_ok r then Ok r else Err e).
Definition lowlevel : exn := Own StoreModel.Lowlevel.
(** [end_action], whose status is not looked at: al_context.py:60-61. *)
Definition end_action (c : cid) (t : list ev) : list ev := t ++ [(QEnd c, answer t (QEnd c))].

(** [with ...action(...) as ctx: body]: __enter__ and __exit__, al_context.py:57-61 and 206-207.  The context is ended also when the
    body raises; not when opening it fails.  The identity of a new context is the number of calls made before, so all are different. *)
Definition with_ctx {A} (begin : cid -> request) (body : cid -> reply -> M A) : M A :=
  fun t => let c := S (length t) in
    match call lowlevel (begin c) t with
    | (t, Err e) => (t, Err e)
    | (t, Ok r) => let (t, x) := body c r t in (end_action c t, x)
    end.

(** [for item in element: body; new_ctx.iterate_over_arraystruct(1)]: al_context.py:209-214 *)
Fixpoint each {A B} (c : cid) (f : A -> M B) (l : list A) : M (list B) :=
  match l with
  | [] => ret []
  | x :: l => run y <- f x; run _ <- call lowlevel (QIter c 1); run ys <- each c f l; ret (y :: ys)
  end.
Definition all {A} (f : A -> M unit) : list A -> M unit :=
  fix go l := match l with [] => ret tt | x :: l => run _ <- f x; go l end.
Definition gather (cs : list meta) (f : meta -> M (option node)) : M TreeModel.fields :=
  (fix go l := match l with
               | [] => ret []
               | d :: l => run x <- f d; run r <- go l; ret (match x with Some n => (mname d, n) :: r | None => r end)
               end) cs.

Section Transfer.
(** as in StoreModel *)
Variable dynamic : list str -> bool.
Variable xml_tbp : list str -> str.
Variable maxoccur : list str -> option nat.
Variable nbc : option nmap.
Variable mode : Z.

(** get_children, db_entry_helpers.py:21-77, for one child [m] of the structure at [p]; [c] is the context. *)
Fixpoint get_node (m : meta) (p : pos) (c : cid) {struct m} : M (option node) :=
  match m with
  | Meta nm k cs =>
    let m := Meta nm k cs in
    if omitted dynamic mode p m then ret None else
    match locate dynamic xml_tbp nbc mode p m with
    | Err e => fail (Own e)
    | Ok None => ret None
    | Ok (Some pl) =>
      match k with
      | KAoS =>
        with_ctx (fun new => QArray c new pl 0) (fun new r =>
          if (0 <? r_size r)%Z then
            run els <- each new (fun _ => run fs <- gather cs (fun d => get_node d (below dynamic p m) new); ret (NStruct fs))
                         (repeat tt (Z.to_nat (r_size r)));
            ret (Some (NAoS els))
          else ret None)
      | KStruct => run fs <- gather cs (fun d => get_node d (below dynamic p m) c); ret (Some (NStruct fs))
      | KLeaf dt nd =>
        run r <- call lowlevel (QRead c pl dt nd);
        ret (match r_data r with
             | None => None
             | Some v => if (nd =? 0) && PrimModel.is_empty dt v then None else Some (NLeaf (Some v))
             end)
      end
    end
  end.
Definition get_children (m : meta) (c : cid) : M node := run fs <- gather (mchildren m) (fun d => get_node d top c); ret (NStruct fs).

(** put_children, db_entry_helpers.py:142-196; [write_data] raises LowlevelError with one argument of the two, which is a TypeError
    (al_context.py:165-169, imas/exception.py:54) *)
Variable is_slice verify : bool.
Fixpoint put_node (m : meta) (n : node) (p : pos) (c : cid) {struct m} : M unit :=
  match m with
  | Meta nm k cs =>
    let m := Meta nm k cs in
    let put_struct (fs : TreeModel.fields) (q : pos) (c : cid) : M unit :=
      all (fun d => match alookup (mname d) fs with
                    | Some ch => if has_value d ch then put_node d ch q c else ret tt
                    | None => ret tt
                    end) cs in
    if omitted dynamic mode p m then ret tt else
    match locate dynamic xml_tbp nbc mode p m with
    | Err e => fail (Own e)
    | Ok None => ret tt
    | Ok (Some pl) =>
      match k, n with
      | KAoS, NAoS els =>
        if verify && match maxoccur (StoreModel.p_names p ++ [nm]) with Some (S x) => S x <? length els | _ => false end
        then fail (Own StoreModel.TooMany) else
        with_ctx (fun new => QArray c new pl (Z.of_nat (length els))) (fun new _ =>
          run _ <- each new (fun e => put_struct (node_fields e) (below dynamic p m) new) els; ret tt)
      | KStruct, NStruct fs => put_struct fs (below dynamic p m) c
      | KLeaf _ _, NLeaf (Some v) =>
        if is_slice && negb (dynamic (StoreModel.p_names p ++ [nm])) then ret tt
        else run _ <- call BadArguments (QWrite c pl v); ret tt
      | _, _ => ret tt
      end
    end
  end.
Definition put_children (m : meta) (n : node) (c : cid) : M unit :=
  all (fun d => match alookup (mname d) (node_fields n) with
                | Some ch => if has_value d ch then put_node d ch top c else ret tt
                | None => ret tt
                end) (mchildren m).
End Transfer.

(** delete_children, db_entry_helpers.py:133-139 *)
Fixpoint delete_node (dynamic : list str -> bool) (c : cid) (m : meta) (p : pos) {struct m} : M unit :=
  match m with
  | Meta nm k cs =>
    match k with
    | KStruct => all (fun d => delete_node dynamic c d (below dynamic p (Meta nm k cs))) cs
    | _ => run _ <- call lowlevel (QDelete c (ctx_path p nm)); ret tt
    end
  end.
Definition delete_children (dynamic : list str -> bool) (c : cid) (m : meta) : M unit := all (fun d => delete_node dynamic c d top) (mchildren m).

(** [ll_path], db_entry_al.py:198-200, 256-258, 295-297, 341-343 *)
Definition ll_path (name : str) (occ : Z) : str := if (occ =? 0)%Z then name else name ++ "/"%char :: NcEntryModel.show_Z occ.

(** the value of ids_properties/homogeneous_time as the backend gives it (an int for INT_0D) *)
Definition mode_of (r : reply) : Z := match r_data r with Some (VInt z) => z | _ => EMPTY_INT end.
Definition mode_place : place := (strs "ids_properties/homogeneous_time", []).
Definition version_place : place := (strs "ids_properties/version_put/data_dictionary", []).
(** 202, 260: only the UDA backend gets a data path *)
Definition datapath (uda : bool) : str := if uda then strs "ids_properties" else [].

(** the parameters of get, get_slice and get_sample (imas/backends/db_entry_impl.py:15-37) *)
Inductive params := PAll | PSlice (time : flt) (method : interp) | PSample (tmin tmax : flt) (dtime : option value) (method : interp).
(** db_entry_al.py:215-234 with the check of al_context.py:95-99; [constant]: the type of the IDS *)
Definition manager (constant : bool) (ps : params) (path : str) : result exn action :=
  if constant then Ok (AGlobal path []) else
  match ps with
  | PAll => Ok (AGlobal path [])
  | PSlice t Unknown => Err BadMethod
  | PSlice t i => Ok (ASlice path (Some t) i)
  | PSample a b d i => Ok (ARange path a b d i)
  end.

Inductive outcome := Done | Got (n : node) | Version (v : option value).

(** The state of the process: the calls made and whether Python's garbage collector is enabled. *)
Record world := { tr : list ev; gc : bool }.

(** 179-248, not lazy; the time mode, and the metadata of the destination, come with the version map [nbc] chosen by DBEntry._get *)
Definition get_mode (uda : bool) (path : str) : M Z :=
  with_ctx (fun new => QBegin new (AGlobal path (datapath uda)) false) (fun c _ =>
    run r <- call lowlevel (QRead c mode_place INT 0);
    if is_mode (mode_of r) then ret (mode_of r) else fail (Own StoreModel.TimeMode)).
Definition al_get (uda : bool) (path : str) (constant : bool) (ps : params) (dynamic : list str -> bool) (xml_tbp : list str -> str)
    (nbc : option nmap) (m : meta) (w : world) : world * result exn outcome :=
  match get_mode uda path (tr w) with
  | (t, Err e) => ({| tr := t; gc := gc w |}, Err e)
  | (t, Ok mode) =>
    match manager constant ps path with
    | Err e => ({| tr := t; gc := gc w |}, Err e)
    | Ok a =>
      let c := S (length t) in
      match call lowlevel (QBegin c a false) t with
      | (t, Err e) => ({| tr := t; gc := gc w |}, Err e)
      | (t, Ok _) =>
        (* 241-246: gc.disable() before, gc.enable() after get_children unless that raises *)
        match get_children dynamic xml_tbp nbc mode m c t with
        | (t, Ok n) => ({| tr := end_action c t; gc := gc w |}, Ok (Got n))
        | (t, Err e) => ({| tr := end_action c t; gc := false |}, Err e)
        end
      end
    end
  end.

(** 250-271 *)
Definition read_dd_version (uda : bool) (path : str) : M outcome :=
  run (z, v) <- with_ctx (fun new => QBegin new (AGlobal path (datapath uda)) false) (fun c _ =>
    run r <- call lowlevel (QRead c mode_place INT 0);
    run d <- call lowlevel (QRead c version_place STR 0);
    ret (mode_of r, r_data d));
  if is_mode z then ret (Version v) else fail NoData.

(** 299-312: whether the put is (still) a put of a slice *)
Definition slice_mode (path : str) (slice : bool) (mode : Z) : M bool :=
  if slice then
    run z <- with_ctx (fun new => QBegin new (AGlobal path []) false) (fun c _ =>
      run r <- call lowlevel (QRead c mode_place INT 0); ret (mode_of r));
    if (z =? EMPTY_INT)%Z then ret false else if (z =? mode)%Z then ret true else fail (Own StoreModel.TimeModeChanged)
  else ret false.
Definition write_action (path : str) (slice : bool) : action := if slice then ASlice path None Undefined else AGlobal path [].
(** 273-331; arguments as in StoreModel.al_put_calls *)
Definition al_put (path : str) (slice : bool) (dynamic : list str -> bool) (xml_tbp : list str -> str) (maxoccur : list str -> option nat)
    (nbc : option nmap) (mode : Z) (verify : bool) (edyn : list str -> bool) (em m : meta) (n : node) : M outcome :=
  run slice <- slice_mode path slice mode;
  run _ <- (if slice then ret tt
            else with_ctx (fun new => QBegin new (AGlobal path []) true) (fun c _ => delete_children edyn c em));
  run _ <- with_ctx (fun new => QBegin new (write_action path slice) true)
             (fun c _ => put_children dynamic xml_tbp maxoccur nbc mode slice verify m n c);
  ret Done.

(** 336-346: [delete_children] takes two arguments and is called with three *)
Definition delete_data (path : str) : M outcome :=
  with_ctx (fun new => QBegin new (AGlobal path []) true) (fun _ _ => fail BadArguments).

(** The operations of an open data entry whose cache of lazy contexts is empty (it is emptied at the start of each, see CtxModel).  Each
    has the path of the occurrence, and the metadata it uses; [uda]: whether the backend is the UDA backend. *)
Inductive op :=
| OGet (path : str) (constant : bool) (ps : params) (dynamic : list str -> bool) (xml_tbp : list str -> str) (nbc : option nmap) (m : meta)
| OPut (path : str) (slice : bool) (dynamic : list str -> bool) (xml_tbp : list str -> str) (maxoccur : list str -> option nat)
    (nbc : option nmap) (mode : Z) (verify : bool) (edyn : list str -> bool) (em m : meta) (n : node)
| OVersion (path : str)
| ODelete (path : str).
Variable uda : bool.
Definition lift (x : M outcome) (w : world) : world * result exn outcome := let (t, r) := x (tr w) in ({| tr := t; gc := gc w |}, r).
Definition step (o : op) (w : world) : world * result exn outcome :=
  match o with
  | OGet path constant ps dynamic xml_tbp nbc m => al_get uda path constant ps dynamic xml_tbp nbc m w
  | OPut path slice dynamic xml_tbp maxoccur nbc mode verify edyn em m n =>
      lift (al_put path slice dynamic xml_tbp maxoccur nbc mode verify edyn em m n) w
  | OVersion path => lift (read_dd_version uda path) w
  | ODelete path => lift (delete_data path) w
  end.
Fixpoint steps (ops : list op) (w : world) : world := match ops with [] => w | o :: ops => steps ops (fst (step o w)) end.
Definition start : world := {| tr := []; gc := true |}.
End Calls.
