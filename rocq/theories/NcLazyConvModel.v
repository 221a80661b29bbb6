(** Model of lazy loading from a netCDF file that was written with another version of the data dictionary:
    imas/backends/netcdf/nc2ids.py:83-130 (run with lazy and nbc_map), 314-420 (LazyContext, LazyArrayStructContext) and
    imas/backends/netcdf/db_entry_nc.py:120-135.

    The map from paths to variables is made when the IDS is got: a path of the dictionary of the IDS to the variable whose target it is.
    Lines 353-376 never call the setter of the node.
    Simplifications: as in NcLazyModel.v and NcConvModel.v; the value that is stored has the type of the node (changes of the type of a
    quantity together with its name: see C54_type_refuted). *)
From Verif Require Import Base TreeModel NcMetaModel NcFileModel NcConvModel LazyModel NcLazyModel.
From Verif Require VmapModel.
Import VmapModel(nmap).

(** 90-130: the items of _lazy_map, the newest first; in a Python dictionary the last value of a key counts *)
Fixpoint lazy_targets (m m' : meta) (rm : nmap) (l : list ncvar) (acc : list (path * ncvar)) : result fexn (list (path * ncvar)) :=
  match l with
  | [] => Ok acc
  | v :: t =>
    match var_meta m (v_name v) with
    | None => Err FKey
    | Some (p, c) =>
      match mkind c with
      | KStruct => lazy_targets m m' rm t acc
      | _ => do q <- target_of m m' rm p;
             match q with
             | None => lazy_targets m m' rm t acc
             | Some fl => lazy_targets m m' rm t ((map fst fl, v) :: acc)
             end
      end
    end
  end.
(** 332: _lazy_map.get *)
Definition target_var (l : list (path * ncvar)) (q : path) : option ncvar :=
  option_map snd (List.find (fun x => if list_eq_dec str_dec (fst x) q then true else false) l).

Section Lazy.
Variable r : ncmeta.               (* of the version of the file *)
Variable g : group.
Variable h : bool.
Variable lm : path -> option ncvar.

(** 353-376; the index of the node may have another length than the variable has dimensions for it *)
Definition conv_lazy_value (v : ncvar) (dt : dtype) (nd : nat) (idx : list nat) : result fexn (option value) :=
  if length idx =? length (v_dims v) - nd then lazy_value g v dt nd idx
  else if v_sparse v then Err FIndex
  else do sh <- var_sizes g v;
       let rest := skipn (length idx) sh in
       if index_ok sh idx then Ok (Some (build dt (length rest) rest (fun ix => v_data v (idx ++ ix)))) else Err FIndex.
(** 319-376; line 343 asks the metadata of the version of the file for the dimensions of a path of the version of the IDS *)
Definition cload_child (open : bool) (d : meta) (p : path) (c : option (list nat)) : qnode * option qexn :=
  match c with
  | None => (qnew d, None)
  | Some idx =>
    match mkind d with
    | KAoS =>
      match lm p with
      | None => (QAoS (Some (idx, 0)) None, None)
      | Some v =>
        if open then match lazy_size r g h v p idx with Ok k => (QAoS (Some (idx, k)) None, None) | Err e => (qnew d, Some (QFile e)) end
        else (qnew d, Some (QLazy Unavailable))
      end
    | KStruct => (QStruct (Some idx) [], None)
    | KLeaf dt nd =>
      match lm p with
      | None => (qnew d, None)
      | Some v =>
        if open then match conv_lazy_value v dt nd idx with Ok x => (QLeaf x, None) | Err e => (qnew d, Some (QFile e)) end
        else (qnew d, Some (QLazy Unavailable))
      end
    end
  end.
(** as NcLazyModel.qaccess *)
Fixpoint caccess (open : bool) (m : meta) (p : path) (path : list acc) (look : bool) (n : qnode) {struct path} : qnode * result qexn obs :=
  match path with
  | [] =>
    if look then
      match n with
      | QLeaf v => (n, Ok (OValue v))
      | QStruct _ _ => (n, Ok ONode)
      | QAoS c v => let els := qload_size c v in (QAoS c (Some els), Ok (OSize (length els)))
      end
    else (n, Ok ONode)
  | Attr nm :: rest =>
    match n with
    | QStruct c fs =>
      match child_meta m nm with
      | None => (n, Err (QLazy NoAttribute))
      | Some d =>
        match alookup nm fs with
        | Some ch => let x := caccess open d (p ++ [nm]) rest look ch in (QStruct c (aset nm (fst x) fs), snd x)
        | None =>
          match cload_child open d (p ++ [nm]) c with
          | (ch, Some e) => (QStruct c (aset nm ch fs), Err e)
          | (ch, None) => let x := caccess open d (p ++ [nm]) rest look ch in (QStruct c (aset nm (fst x) fs), snd x)
          end
        end
      end
    | _ => (n, Err (QLazy NoAttribute))
    end
  | Item i :: rest =>
    match n with
    | QAoS c v =>
      let els := qload_size c v in
      match index i (length els) with
      | None => (QAoS c (Some els), Err (QLazy NoElement))
      | Some j =>
        let el := match nth_error els j with
                  | Some (Some e) => e
                  | _ => QStruct (option_map (fun k => fst k ++ [j]) c) []
                  end in
        let x := caccess open (Meta (mname m) KStruct (mchildren m)) p rest look el in (QAoS c (Some (list_set j (Some (fst x)) els)), snd x)
      end
    | _ => (n, Err (QLazy NoElement))
    end
  end.
Definition cstep (m : meta) (st : qstate) (op : lop) : qstate * option (result qexn obs) :=
  match op with
  | Access path look => let x := caccess (q_open st) m [] path look (q_tree st) in ({| q_open := q_open st; q_tree := fst x |}, Some (snd x))
  | Close => ({| q_open := false; q_tree := q_tree st |}, None)
  end.
Fixpoint crun (m : meta) (st : qstate) (ops : list lop) : qstate * list (option (result qexn obs)) :=
  match ops with
  | [] => (st, [])
  | op :: t => let x := cstep m st op in let q := crun m (fst x) t in (fst q, snd x :: snd q)
  end.
End Lazy.
(** db_entry_nc.py:123-135, nc2ids.py:66-130 with lazy.  Then the accesses ops. *)
Definition cget (m : meta) (r : ncmeta) (units : path -> str) (m' : meta) (units' : path -> str) (rm : nmap) (g : group) (ops : list lop)
  : result fexn (list (option (result qexn obs))) :=
  do h <- read_homogeneous m' r units' g;
  do _ <- validate_variables m r units g h;
  do l <- lazy_targets m m' rm (sorted_vars g) [];
  Ok (snd (crun r g h (target_var l) m' {| q_open := true; q_tree := QStruct (Some []) [] |} ops)).
