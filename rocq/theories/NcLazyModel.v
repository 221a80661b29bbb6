(** Model of lazy loading from a netCDF file: imas/backends/netcdf/nc2ids.py:83-130 (run with lazy), 314-420 (LazyContext,
    LazyArrayStructContext), imas/ids_structure.py:57-68 and imas/ids_struct_array.py:72-131.

    Simplification: the on-disk and the in-memory version of the data dictionary are the same (nbc_map is None). *)
From Verif Require Import Base TreeModel NcMetaModel NcFileModel LazyModel.

(** A node of a lazily loaded IDS.  A LazyContext is its index; a LazyArrayStructContext is an index and the size. *)
Inductive qnode :=
| QLeaf (v : option value)
| QStruct (c : option (list nat)) (fs : list (str * qnode))
| QAoS (c : option (list nat * nat)) (v : option (list (option qnode))).
Definition qnew (m : meta) : qnode :=
  match mkind m with KStruct => QStruct None [] | KAoS => QAoS None None | KLeaf _ _ => QLeaf None end.

Inductive qexn :=
| QLazy (e : lexn)     (* Unavailable: RuntimeError of netCDF, the file has been closed *)
| QFile (e : fexn).

Section Lazy.
Variable r : ncmeta.
Variable g : group.
Variable h : bool.

(** 111-115: _lazy_map by path (there are no lookups for structures) *)
Definition lazy_map (p : path) : option ncvar := get_var g (dotted p).
(** value == _FillValue *)
Definition cell_eqb (a : cell) (b : option cell) : bool :=
  match a, b with
  | CFlt x, Some (CFlt y) => feq x y
  | CInt x, Some (CInt y) => Z.eqb x y
  | CStr x, Some (CStr y) => str_eqb x y
  | CCpx a b, Some (CCpx c d) => feq a c && feq b d
  | _, _ => false
  end.
(** 335-346; [None] * size is the empty list for a negative size *)
Definition lazy_size (v : ncvar) (p : path) (idx : list nat) : result fexn nat :=
  if v_sparse v then
    do zs <- shapes_at g (v_name v) idx;
    match zs with [] => Err FIndex | z :: _ => Ok (Z.to_nat z) end
  else match rev (get_dimensions r h p) with
       | [] => Err FIndex
       | d :: _ => match sget d (g_sizes g) with None => Err FKey | Some k => Ok k end
       end.
(** 353-376 *)
Definition lazy_value (v : ncvar) (dt : dtype) (nd : nat) (idx : list nat) : result fexn (option value) :=
  do sh <- var_sizes g v;
  if v_sparse v then
    if (nd =? 0) then
      if index_ok sh idx then
        let x := v_data v idx in
        if cell_eqb x (v_fill v) then Ok None else Ok (Some (build dt nd [] (fun ix => v_data v (idx ++ ix))))
      else Err FIndex
    else
      do zs <- shapes_at g (v_name v) idx;
      if existsb (fun z => Z.eqb z 0) zs then Ok None
      else if index_ok sh idx then Ok (Some (build dt nd (slice_lens zs (skipn (length idx) sh)) (fun ix => v_data v (idx ++ ix)))) else Err FIndex
  else if index_ok sh idx then Ok (Some (build dt nd (skipn (length idx) sh) (fun ix => v_data v (idx ++ ix)))) else Err FIndex.

(** 319-376 and ids_structure.py:62-68: the child as it is put in __dict__, and the exception raised afterwards.  [p]: path of the child *)
Definition qload_child (open : bool) (d : meta) (p : path) (c : option (list nat)) : qnode * option qexn :=
  match c with
  | None => (qnew d, None)
  | Some idx =>
    match mkind d with
    | KAoS =>
      match lazy_map p with
      | None => (QAoS (Some (idx, 0)) None, None)
      | Some v =>
        if open then match lazy_size v p idx with Ok k => (QAoS (Some (idx, k)) None, None) | Err e => (qnew d, Some (QFile e)) end
        else (qnew d, Some (QLazy Unavailable))
      end
    | KStruct => (QStruct (Some idx) [], None)
    | KLeaf dt nd =>
      match lazy_map p with
      | None => (qnew d, None)
      | Some v =>
        if open then match lazy_value v dt nd idx with Ok x => (QLeaf x, None) | Err e => (qnew d, Some (QFile e)) end
        else (qnew d, Some (QLazy Unavailable))
      end
    end
  end.
(** ids_struct_array.py:79-105; get_context and size: nc2ids.py:399-408 *)
Definition qload_size (c : option (list nat * nat)) (v : option (list (option qnode))) : list (option qnode) :=
  match v with Some els => els | None => match c with None => [] | Some k => repeat None (snd k) end end.

(** an expression x.a.b[i].c ..., as LazyModel.access; [p]: path of x.  An element is made with iterate_to_index: 410-420 *)
Fixpoint qaccess (open : bool) (m : meta) (p : path) (path : list acc) (look : bool) (n : qnode) {struct path} : qnode * result qexn obs :=
  match path with
  | [] =>
    if look then
      match n with
      | QLeaf v => (n, Ok (OValue v))
      | QStruct _ _ => (n, Ok ONode)
      | QAoS c v => let els := qload_size c v in (QAoS c (Some els), Ok (OSize (length els)))
      end
    else (n, Ok ONode)
  | Attr nm :: rest =>
    match n with
    | QStruct c fs =>
      match child_meta m nm with
      | None => (n, Err (QLazy NoAttribute))
      | Some d =>
        match alookup nm fs with
        | Some ch => let x := qaccess open d (p ++ [nm]) rest look ch in (QStruct c (aset nm (fst x) fs), snd x)
        | None =>
          match qload_child open d (p ++ [nm]) c with
          | (ch, Some e) => (QStruct c (aset nm ch fs), Err e)
          | (ch, None) => let x := qaccess open d (p ++ [nm]) rest look ch in (QStruct c (aset nm (fst x) fs), snd x)
          end
        end
      end
    | _ => (n, Err (QLazy NoAttribute))
    end
  | Item i :: rest =>
    match n with
    | QAoS c v =>
      let els := qload_size c v in
      match index i (length els) with
      | None => (QAoS c (Some els), Err (QLazy NoElement))
      | Some j =>
        let el := match nth_error els j with
                  | Some (Some e) => e
                  | _ => QStruct (option_map (fun k => fst k ++ [j]) c) []
                  end in
        let x := qaccess open (Meta (mname m) KStruct (mchildren m)) p rest look el in (QAoS c (Some (list_set j (Some (fst x)) els)), snd x)
      end
    | _ => (n, Err (QLazy NoElement))
    end
  end.

Record qstate := { q_open : bool; q_tree : qnode }.
Definition qstep (m : meta) (st : qstate) (op : lop) : qstate * option (result qexn obs) :=
  match op with
  | Access path look => let x := qaccess (q_open st) m [] path look (q_tree st) in ({| q_open := q_open st; q_tree := fst x |}, Some (snd x))
  | Close => ({| q_open := false; q_tree := q_tree st |}, None)
  end.
Fixpoint qrun (m : meta) (st : qstate) (ops : list lop) : qstate * list (option (result qexn obs)) :=
  match ops with
  | [] => (st, [])
  | op :: t => let x := qstep m st op in let q := qrun m (fst x) t in (fst q, snd x :: snd q)
  end.
End Lazy.
(** 66-88 with lazy: the file is validated, data is not read yet.  Then the accesses ops. *)
Definition qget (m : meta) (r : ncmeta) (units : path -> str) (g : group) (ops : list lop) : result fexn (list (option (result qexn obs))) :=
  do h <- read_homogeneous m r units g;
  do _ <- validate_variables m r units g h;
  Ok (snd (qrun r g h m {| q_open := true; q_tree := QStruct (Some []) [] |} ops)).
