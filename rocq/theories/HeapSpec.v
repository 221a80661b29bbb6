(** Specification vocabulary for IDS nodes as objects: containment, locations, contents, operations and histories. *)
From Coq Require Import Permutation.
From Verif Require Import Base TreeModel TreeSpec PathModel HeapModel.
From Verif Require PathSpec.

Definition parent (h : heap) (x : oid) : option oid := match get h x with Some ob => o_parent ob | None => None end.

(** [slot h c s x]: container c holds x at place s. *)
Inductive slot (h : heap) (c : oid) : step -> oid -> Prop :=
| slot_field : forall ob fs k x, get h c = Some ob -> o_body ob = BStruct fs -> In (k, x) fs -> slot h c (Child k) x
| slot_elem : forall ob els i x, get h c = Some ob -> o_body ob = BAoS els -> nth_error els i = Some x -> slot h c (Elem i) x.
Definition contained (h : heap) (c x : oid) : Prop := exists s, slot h c s x.
(** x exists and is in no container *)
Definition detached (h : heap) (x : oid) : Prop := x < length (h_objs h) /\ forall c, ~ contained h c x.

(** Objects reachable from a node by containment *)
Inductive reach (h : heap) : oid -> oid -> Prop :=
| reach_here : forall x, reach h x x
| reach_step : forall x y z, contained h x y -> reach h y z -> reach h x z.

(** x is found from r by following the steps l *)
Inductive located (h : heap) : oid -> loc -> oid -> Prop :=
| loc_here : forall r, located h r [] r
| loc_step : forall r s y l x, slot h r s y -> located h y l x -> located h r (s :: l) x.

Definition is_struct (h : heap) (x : oid) : Prop := exists ob fs, get h x = Some ob /\ o_body ob = BStruct fs.

(** Every contained node exists, has its container as parent and is at one place only; names of fields are the names of the
    child nodes, elements of arrays are structures; no node contains itself. *)
Record tidy (h : heap) : Prop := {
  t_exists : forall c s x, slot h c s x -> x < length (h_objs h);
  t_parent : forall c s x, slot h c s x -> parent h x = Some c;
  t_once : forall c s s' x, slot h c s x -> slot h c s' x -> s = s';
  t_keys : forall c ob fs, get h c = Some ob -> o_body ob = BStruct fs -> NoDup (akeys fs);
  t_name : forall c k x xo, slot h c (Child k) x -> get h x = Some xo -> mname (o_meta xo) = k;
  t_elem : forall c i x, slot h c (Elem i) x -> is_struct h x;
  t_acyclic : forall c x, contained h c x -> ~ reach h x c }.

(** ** Operations of the public interface on nodes, and their effect *)
Inductive hnd := HO (x : oid) | HB (b : nat).
Inductive argr (R : Type) := RVal (v : value) | RRef (r : R).
Arguments RVal {R} v.
Arguments RRef {R} r.
Inductive op (R : Type) :=
| OGetAttr (o : R) (name : str)                 (* o.name *)
| OSetAttr (o : R) (key : str) (a : argr R)     (* o.key = a *)
| OGetItem (o : R) (i : Z)                      (* aos[i] *)
| OSetItem (o : R) (i : Z) (v : R)              (* aos[i] = v *)
| OAppend (o : R) (vs : list R)                 (* aos.append([...]) *)
| OResize (o : R) (n : Z) (keep : bool)         (* aos.resize(n, keep) *)
| ORead (p : R)                                 (* p.value *)
| OAssign (p : R) (a : argr R)                  (* p.value = a *)
| OWrite (b : R) (v : value)                    (* any in-place modification of an array or list *)
| ONewArray (v : value)                         (* a new numpy array or list *)
| ONewTop (m : meta)                            (* a new toplevel IDS *)
| OGetPath (o : R) (key : str)                  (* o["a[1]/b"] *)
| OSetPath (o : R) (key : str) (a : argr R)     (* o["a[1]/b"] = a *)
| OCopy (fuel : nat) (o : R).                   (* copy.deepcopy(o); [fuel]: recursion limit *)
Arguments OGetAttr {R}. Arguments OSetAttr {R}. Arguments OGetItem {R}. Arguments OSetItem {R}. Arguments OAppend {R}.
Arguments OResize {R}. Arguments ORead {R}. Arguments OAssign {R}. Arguments OWrite {R}. Arguments ONewArray {R}.
Arguments ONewTop {R}. Arguments OGetPath {R}. Arguments OSetPath {R}. Arguments OCopy {R}.

Definition new_top (m : meta) : obj := {| o_parent := None; o_path := []; o_meta := m; o_body := BStruct [] |}.

Section Exec.
Variable cast : dtype -> nat -> value -> result exn value.

Definition arg_of (a : argr hnd) : arg := match a with RVal v => AVal v | RRef (HB b) => ABuf b | RRef (HO x) => ANode x end.
Fixpoint oids (l : list hnd) : option (list oid) :=
  match l with
  | [] => Some []
  | HO x :: t => option_map (cons x) (oids t)
  | HB _ :: _ => None
  end.
Definition hret (p : heap * result exn oid) : heap * result exn (option hnd) :=
  (fst p, match snd p with Ok x => Ok (Some (HO x)) | Err e => Err e end).
Definition uret (p : heap * result exn unit) : heap * result exn (option hnd) :=
  (fst p, match snd p with Ok _ => Ok None | Err e => Err e end).
Definition bad (h : heap) : heap * result exn (option hnd) := (h, Err EType).

(** One operation: new heap, exception or resulting object (if any). *)
Definition exec (h : heap) (o : op hnd) : heap * result exn (option hnd) :=
  match o with
  | OGetAttr (HO x) name => hret (getattr h x name)
  | OSetAttr (HO x) key a => uret (setattr cast h x key (arg_of a))
  | OGetItem (HO x) i => hret (aos_getitem h x i)
  | OSetItem (HO x) i (HO v) => uret (aos_setitem h x i v)
  | OAppend (HO x) vs => match oids vs with Some l => uret (append h x l) | None => bad h end
  | OResize (HO x) n keep => uret (resize h x n keep)
  | ORead (HO p) => let (h1, r) := prim_value h p in
                    (h1, match r with Ok (SBuf b) => Ok (Some (HB b)) | Ok (SImm _) => Ok None | Err e => Err e end)
  | OAssign (HO p) a => uret (prim_set cast h p (arg_of a))
  | OWrite (HB b) v => (set_buf h b v, Ok None)
  | ONewArray v => let (h1, b) := alloc_buf h v in (h1, Ok (Some (HB b)))
  | ONewTop m => let (h1, x) := alloc h (new_top m) in (h1, Ok (Some (HO x)))
  | OGetPath (HO x) key => hret (struct_getitem h x key)
  | OSetPath (HO x) key a => uret (struct_setitem cast h x key (arg_of a))
  | OCopy fuel (HO x) => match deepcopy fuel h empty_memo x with
                         | Some (h1, _, y) => (h1, Ok (Some (HO y)))
                         | None => (h, Err EValue)          (* RecursionError *)
                         end
  | _ => bad h
  end.

(** A client program: operands are numbers of registers; every object returned goes into a new register; exceptions are
    caught.  [run] gives the final heap and registers. *)
Definition resolve_list (regs : list hnd) (l : list nat) : option (list hnd) :=
  fold_right (fun r acc => match nth_error regs r, acc with Some x, Some t => Some (x :: t) | _, _ => None end) (Some []) l.
Definition resolve_arg (regs : list hnd) (a : argr nat) : option (argr hnd) :=
  match a with RVal v => Some (RVal v) | RRef r => option_map RRef (nth_error regs r) end.
Definition resolve (regs : list hnd) (o : op nat) : option (op hnd) :=
  let reg r := nth_error regs r in
  match o with
  | OGetAttr r n => option_map (fun x => OGetAttr x n) (reg r)
  | OSetAttr r k a => match reg r, resolve_arg regs a with Some x, Some a' => Some (OSetAttr x k a') | _, _ => None end
  | OGetItem r i => option_map (fun x => OGetItem x i) (reg r)
  | OSetItem r i v => match reg r, reg v with Some x, Some y => Some (OSetItem x i y) | _, _ => None end
  | OAppend r vs => match reg r, resolve_list regs vs with Some x, Some l => Some (OAppend x l) | _, _ => None end
  | OResize r n k => option_map (fun x => OResize x n k) (reg r)
  | ORead r => option_map ORead (reg r)
  | OAssign r a => match reg r, resolve_arg regs a with Some x, Some a' => Some (OAssign x a') | _, _ => None end
  | OWrite r v => option_map (fun x => OWrite x v) (reg r)
  | ONewArray v => Some (ONewArray v)
  | ONewTop m => Some (ONewTop m)
  | OGetPath r k => option_map (fun x => OGetPath x k) (reg r)
  | OSetPath r k a => match reg r, resolve_arg regs a with Some x, Some a' => Some (OSetPath x k a') | _, _ => None end
  | OCopy f r => option_map (OCopy f) (reg r)
  end.
Fixpoint run (h : heap) (regs : list hnd) (prog : list (op nat)) : heap * list hnd :=
  match prog with
  | [] => (h, regs)
  | i :: t => match resolve regs i with
              | None => run h regs t
              | Some o => let (h1, r) := exec h o in
                          run h1 (match r with Ok (Some x) => regs ++ [x] | _ => regs end) t
              end
  end.

Definition is_data (h : heap) (x : oid) : Prop := exists ob v, get h x = Some ob /\ o_body ob = BPrim v.
(** Operations that insert nodes only insert nodes that are in no container yet, and not into themselves (assigning a data
    node only uses its value); arrays only get structures; [aos[i] = v] only with a v whose parent already is the array; metadata has distinct names. *)
Definition op_ok (h : heap) (o : op hnd) : Prop :=
  match o with
  | OSetAttr (HO x) key (RRef (HO v)) => is_data h v \/ detached h v /\ ~ reach h v x
  | OSetPath (HO x) key (RRef (HO v)) => is_data h v \/ detached h v /\ ~ reach h v x
  | OSetItem (HO x) i (HO v) => detached h v /\ ~ reach h v x /\ is_struct h v /\ parent h v = Some x
  | OAppend (HO x) vs => NoDup vs /\ forall v, In (HO v) vs -> detached h v /\ ~ reach h v x /\ is_struct h v
  | ONewTop m => wf_meta m
  | _ => True
  end.

(** All objects and arrays an operation refers to satisfy a predicate *)
Definition arg_all (A : hnd -> Prop) (a : argr hnd) : Prop := match a with RVal _ => True | RRef r => A r end.
Definition op_all (A : hnd -> Prop) (o : op hnd) : Prop :=
  match o with
  | OGetAttr x _ | OGetItem x _ | OResize x _ _ | ORead x | OWrite x _ | OGetPath x _ | OCopy _ x => A x
  | OSetAttr x _ a | OAssign x a | OSetPath x _ a => A x /\ arg_all A a
  | OSetItem x _ v => A x /\ A v
  | OAppend x vs => A x /\ Forall A vs
  | ONewArray _ | ONewTop _ => True
  end.
Definition exists_in (h : heap) (x : hnd) : Prop := match x with HO z => z < length (h_objs h) | HB b => b < length (h_bufs h) end.

(** Heaps obtained by any sequence of such operations *)
Inductive history : heap -> Prop :=
| hist_empty : history {| h_objs := []; h_bufs := [] |}
| hist_step : forall h o, history h -> op_ok h o -> op_all (exists_in h) o -> history (fst (exec h o)).
End Exec.

(** ** Contents of the object graph below a node, as a tree.  The order of children in [__dict__] is not observable. *)
Inductive abs (h : heap) : oid -> node -> Prop :=
| abs_struct : forall x ob fs fs' nfs, get h x = Some ob -> o_body ob = BStruct fs -> Permutation fs fs' ->
    abs_fs h fs' nfs -> abs h x (NStruct nfs)
| abs_aos : forall x ob els ns, get h x = Some ob -> o_body ob = BAoS els -> abs_els h els ns -> abs h x (NAoS ns)
| abs_unset : forall x ob, get h x = Some ob -> o_body ob = BPrim None -> abs h x (NLeaf None)
| abs_imm : forall x ob v, get h x = Some ob -> o_body ob = BPrim (Some (SImm v)) -> abs h x (NLeaf (Some v))
| abs_buf : forall x ob b v, get h x = Some ob -> o_body ob = BPrim (Some (SBuf b)) -> nth_error (h_bufs h) b = Some v ->
    abs h x (NLeaf (Some v))
with abs_fs (h : heap) : list (str * oid) -> fields -> Prop :=
| abs_fs_nil : abs_fs h [] []
| abs_fs_cons : forall k x n t nt, abs h x n -> abs_fs h t nt -> abs_fs h ((k, x) :: t) ((k, n) :: nt)
with abs_els (h : heap) : list oid -> list node -> Prop :=
| abs_els_nil : abs_els h [] []
| abs_els_cons : forall x n t nt, abs h x n -> abs_els h t nt -> abs_els h (x :: t) (n :: nt).

Scheme abs_ind3 := Minimality for abs Sort Prop
  with abs_fs_ind3 := Minimality for abs_fs Sort Prop
  with abs_els_ind3 := Minimality for abs_els Sort Prop.
Combined Scheme abs_mutind from abs_ind3, abs_fs_ind3, abs_els_ind3.

(** Arrays reachable from a node *)
Definition reach_buf (h : heap) (x : oid) (b : nat) : Prop :=
  exists p ob, reach h x p /\ get h p = Some ob /\ o_body ob = BPrim (Some (SBuf b)).

(** ** Arrays of structures as mathematical lists *)
Definition elems (h : heap) (a : oid) (l : list oid) : Prop := exists ob, get h a = Some ob /\ o_body ob = BAoS l.

Inductive list_op := LGet (i : Z) | LSet (i : Z) (v : oid) | LAppend (vs : list oid) | LResize (n : Z) (keep : bool).
(** What Python lists do.  [l_i] for -len <= i < len is element i modulo len.  Resizing: the elements that are kept, then
    new ones (the predicate [fresh]). *)
Inductive list_step (fresh : oid -> Prop) (l : list oid) : list_op -> list oid -> result exn (option hnd) -> Prop :=
| ls_get : forall i e, (- Z.of_nat (length l) <= i < Z.of_nat (length l))%Z ->
    nth_error l (Z.to_nat (i mod Z.of_nat (length l))) = Some e -> list_step fresh l (LGet i) l (Ok (Some (HO e)))
| ls_get_out : forall i, ~ (- Z.of_nat (length l) <= i < Z.of_nat (length l))%Z -> list_step fresh l (LGet i) l (Err EIndex)
| ls_set : forall i v l1 w l2, (- Z.of_nat (length l) <= i < Z.of_nat (length l))%Z -> l = l1 ++ w :: l2 ->
    length l1 = Z.to_nat (i mod Z.of_nat (length l)) -> list_step fresh l (LSet i v) (l1 ++ v :: l2) (Ok None)
| ls_set_out : forall i v, ~ (- Z.of_nat (length l) <= i < Z.of_nat (length l))%Z -> list_step fresh l (LSet i v) l (Err EIndex)
| ls_append : forall vs, list_step fresh l (LAppend vs) (l ++ vs) (Ok None)
| ls_resize_neg : forall n keep, (n < 0)%Z -> list_step fresh l (LResize n keep) l (Err EValue)
| ls_resize : forall n (keep : bool) kept new, (0 <= n)%Z -> kept = (if keep then firstn (Z.to_nat n) l else []) ->
    Forall fresh new -> NoDup new -> Z.of_nat (length (kept ++ new)) = n -> list_step fresh l (LResize n keep) (kept ++ new) (Ok None).

(** The list operation that an operation performs on array a, if any. *)
Definition on_array (a : oid) (o : op hnd) : option list_op :=
  match o with
  | OGetItem (HO x) i => if x =? a then Some (LGet i) else None
  | OSetItem (HO x) i (HO v) => if x =? a then Some (LSet i v) else None
  | OAppend (HO x) vs => if x =? a then option_map LAppend (oids vs) else None
  | OResize (HO x) n keep => if x =? a then Some (LResize n keep) else None
  | _ => None
  end.
(** A sequence of operations (on any nodes), with the results, and the list it makes of l. *)
Inductive list_run (cast : dtype -> nat -> value -> result exn value) (a : oid) : heap -> list oid -> list (op hnd) -> heap -> list oid -> Prop :=
| lr_nil : forall h l, list_run cast a h l [] h l
| lr_step : forall h l o l1 ops h' l', match on_array a o with
                                       | Some lo => list_step (fun e => length (h_objs h) <= e) l lo l1 (snd (exec cast h o))
                                       | None => l1 = l
                                       end ->
    list_run cast a (fst (exec cast h o)) l1 ops h' l' -> list_run cast a h l (o :: ops) h' l'.

(** ** Locations named by paths *)
(** A root: an IDS (no parent node, empty path in the data dictionary). *)
Definition toplevel (h : heap) (r : oid) : Prop :=
  exists ob fs, get h r = Some ob /\ o_parent ob = None /\ o_path ob = [] /\ o_body ob = BStruct fs.
(** Node names in the dictionary are data dictionary names. *)
Definition names_ok (h : heap) : Prop :=
  forall x ob c, get h x = Some ob -> In c (mchildren (o_meta ob)) -> PathSpec.is_name (mname c).
(** The place meant by a sequence of names with optional 0-based indices *)
Definition steps_loc (st : list PathSpec.step) : loc :=
  flat_map (fun s => Child (fst s) :: match snd s with Some i => [Elem (N.to_nat i)] | None => [] end) st.
