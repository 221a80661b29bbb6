(** Model of `imas analyze-db` and of the report of `imas process-db-analysis` (imas/command/db_analysis.py). *)
From Verif Require Import Base TreeModel AnalysisModel.

(** ** analyze-db *)
(** A folder: whether it has a master.h5, and its files *.h5 with the names of the datasets in the group of the IDS ([None]: h5py raises). *)
Record folder := { fd_path : str; fd_master : bool; fd_files : list (str * option (list str)) }.
Record result_ := { rs_path : str; rs_infos : entry }.
(** The output file: absent, something that cannot be read, or a list of results. *)
Inductive file := Absent | Corrupt | Data (l : list result_).
Inductive status := Finished | Exit1 | Raised.

(** [analyze_folder] and [ids_info], 109-141 (machine name and occurrence left out) *)
Fixpoint all_some {X} (l : list (option X)) : option (list X) :=
  match l with
  | [] => Some []
  | Some x :: l => match all_some l with Some r => Some (x :: r) | None => None end
  | None :: _ => None
  end.
Definition analyze_folder (f : folder) : option result_ :=
  match all_some (map (fun sd => option_map (info_of_file (fst sd)) (snd sd)) (filter (fun sd => negb (str_eqb (fst sd) "master"%string)) (fd_files f))) with
  | Some l => Some {| rs_path := fd_path f; rs_infos := l |}
  | None => None
  end.
(** 96-99: [if not (entry / "master.h5").exists:] has a method, not its result, as condition: the folder is never skipped *)
Definition skipped (f : folder) : bool := false.
Fixpoint analyze_all (fs : list folder) (data : list result_) : option (list result_) :=
  match fs with
  | [] => Some data
  | f :: fs => if skipped f then analyze_all fs data else match analyze_folder f with Some r => analyze_all fs (data ++ [r]) | None => None end
  end.
(** [analyze_db], 68-106; [h5py]: whether h5py can be imported; writing the file succeeds *)
Definition analyze_db (h5py : bool) (out : file) (fs : list folder) : file * status :=
  if negb h5py then (out, Exit1) else
  match match out with Absent => Some [] | Corrupt => None | Data l => Some l end with
  | None => (out, Exit1)
  | Some data =>
    match analyze_all fs data with
    | None => (out, Raised)
    | Some [] => (out, Finished)
    | Some data => (Data data, Finished)
    end
  end.
Definition runs (l : list (bool * list folder)) : file := fold_left (fun out r => fst (analyze_db (fst r) out (snd r))) l Absent.

(** ** The report *)
(** [_AnalysisNode], 348-361 *)
Inductive anode := ANode (path : str) (used : bool) (kids : list anode) (total full : nat).
Definition a_used (a : anode) : bool := match a with ANode _ u _ _ _ => u end.
Definition a_kids (a : anode) : list anode := match a with ANode _ _ k _ _ => k end.
Definition a_total (a : anode) : nat := match a with ANode _ _ _ n _ => n end.
Definition a_full (a : anode) : nat := match a with ANode _ _ _ _ f => f end.
(** [walk_metadata_tree], 275-293: the numbers of a node from those of its children *)
Definition add_kid (s : nat * nat) (k : anode) : nat * nat :=
  match a_kids k with
  | [] => (S (fst s), if a_used k then S (snd s) else snd s)
  | _ => (fst s + a_total k, snd s + a_full k)
  end.
Definition finish (p : str) (kids : list anode) : anode :=
  let s := fold_left add_kid kids (0, 0) in ANode p (0 <? snd s)%nat kids (fst s) (snd s).
Fixpoint node_of (filled : str -> bool) (p : str) (m : meta) : anode :=
  match mchildren m with
  | [] => ANode p (filled p) [] 0 0
  | _ => finish p (map (fun c => node_of filled (child_path p (mname c)) c) (mchildren m))
  end.
Definition ids_node (filled : str -> bool) (m : meta) : anode :=
  finish [] (map (fun c => node_of filled (mname c) c) (mchildren m)).

(** 260-296: one node per IDS that occurs in the data and is in the data dictionary *)
Definition analysis_nodes (factory : list (str * meta)) (t : totals) : list (str * anode) :=
  concat (map (fun nu => match alookup (fst nu) factory with
                         | None => []
                         | Some m => [(fst nu, ids_node (fun p => has_key p (path_counter (snd nu))) m)]
                         end) (per_occurrence t)).
(** 300-315: IDSs with greater [fill_fraction] (363-366) first, otherwise in the given order; a fraction is compared as a rational number.
    [None]: ZeroDivisionError. *)
Definition less_full (a b : str * anode) : bool := (a_full (snd a) * a_total (snd b) <? a_full (snd b) * a_total (snd a))%nat.
Fixpoint insert (x : str * anode) (l : list (str * anode)) : list (str * anode) :=
  match l with [] => [x] | y :: l' => if less_full x y then y :: insert x l' else x :: l end.
Definition sort (l : list (str * anode)) : list (str * anode) := fold_right insert [] l.
Definition table (show_empty : bool) (nodes : list (str * anode)) : option (list (str * nat * nat)) :=
  if existsb (fun n => (a_total (snd n) =? 0)%nat) nodes then None else
  Some (map (fun n => (fst n, a_full (snd n), a_total (snd n))) (filter (fun n => show_empty || negb (a_full (snd n) =? 0)%nat) (sort nodes))).

(** [fill_tree], 368-385: the branches that are added to the given one *)
Inductive label := IsUsed (path : str) | Counts (path : str) (full total : nat).
Inductive branch := Branch (l : label) (sub : list branch).
Fixpoint fill_tree (a : anode) : list branch :=
  match a with
  | ANode p used kids total full =>
    match kids with
    | [] => if used then [Branch (IsUsed p) []] else []
    | _ => [Branch (Counts p full total) (if used then concat (map fill_tree kids) else [])]
    end
  end.
(** 338-344, the branches of the tree of one IDS *)
Definition details (a : anode) : list branch := concat (map fill_tree (a_kids a)).
