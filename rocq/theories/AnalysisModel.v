(** Model of the usage statistics (imas/command/db_analysis.py) and of the path search (imas/util.py:314-342). *)
From Verif Require Import Base TreeModel HashModel.

(** One item of "ids_info" and one data entry of an analysis file, db_analysis.py:109-119 and 137-141 (machine name, path and
    occurrence are not used by the statistics). *)
Record ids_info := { ii_name : str; ii_filled : list str }.
Definition entry := list ids_info.

(** Splitting of the file name, db_analysis.py:127: [re.split("_(?=[0-9]+)|$", stem, 1)]: the parts before and after the first "_" that is
    followed by a digit, or the whole name and "". *)
Fixpoint split_stem (s : str) : str * str :=
  match s with
  | [] => ([], [])
  | c :: t => if Ascii.eqb c "_" && match t with d :: _ => is_digit d | [] => false end then ([], t)
              else let (a, b) := split_stem t in (c :: a, b)
  end.
(** [dataset.endswith("SHAPE")] and [dataset.replace("[", "").replace("]", "").replace("&", "/")], db_analysis.py:132-134. *)
Definition ends_with (suf s : str) : bool := str_eqb suf (skipn (length s - length suf) s).
Definition dataset_path (d : str) : str :=
  map (fun c => if Ascii.eqb c "&" then "/"%char else c) (filter (fun c => negb (Ascii.eqb c "[" || Ascii.eqb c "]")) d).
Definition info_of_file (stem : str) (datasets : list str) : ids_info :=
  {| ii_name := fst (split_stem stem); ii_filled := map dataset_path (filter (fun d => negb (ends_with "SHAPE"%string d)) datasets) |}.

(** [_PathUsage], db_analysis.py:144-147, a Counter being a dictionary path -> number. *)
Record usage := { num_occurrences : nat; path_counter : list (str * nat) }.
Definition no_usage : usage := {| num_occurrences := 0; path_counter := [] |}.
Definition usages := list (str * usage).

(** [Counter.update(iterable)]: one more for each item. *)
Definition count_of (c : list (str * nat)) (p : str) : nat := match alookup p c with Some n => n | None => 0 end.
Definition counter_update (c : list (str * nat)) (ps : list str) : list (str * nat) :=
  fold_left (fun c p => aset p (S (count_of c p)) c) ps c.

(** [defaultdict(_PathUsage)]: item access creates an empty usage. *)
Definition usage_of (u : usages) (n : str) : usage := match alookup n u with Some x => x | None => no_usage end.
Definition update_usage (u : usages) (n : str) (incr : nat) (ps : list str) : usages :=
  let x := usage_of u n in
  aset n {| num_occurrences := num_occurrences x + incr; path_counter := counter_update (path_counter x) ps |} u.

(** Lines 227-242: one data entry.  State: usage per entry, usage per occurrence, number of entries. *)
Record totals := { per_entry : usages; per_occurrence : usages; num_entries : nat }.
Definition add_entry (t : totals) (e : entry) : totals :=
  let '(this, occ) :=
    fold_left (fun '(this, occ) i => (update_usage this (ii_name i) 0 (ii_filled i), update_usage occ (ii_name i) 1 (ii_filled i)))
              e ([], per_occurrence t) in
  {| per_entry := fold_left (fun u nu => update_usage u (fst nu) 1 (akeys (path_counter (snd nu)))) this (per_entry t);
     per_occurrence := occ;
     num_entries := S (num_entries t) |}.

(** Lines 222-242: all entries of all files. *)
Definition read_files (files : list (list entry)) : totals :=
  fold_left add_entry (concat files) {| per_entry := []; per_occurrence := []; num_entries := 0 |}.

(** Rows of the CSV file, db_analysis.py:150-192; frequencies are numerator and denominator. *)
Inductive row :=
| RIds (name : str) (num den : nat)
| RPath (name path : str) (uses_error : bool) (num1 den1 num2 den2 : nat).

Fixpoint infix (p s : str) : bool :=
  str_eqb p (firstn (length p) s) || match s with [] => false | _ :: t => infix p t end.
Definition has_key {V} (k : str) (m : list (str * V)) : bool := match alookup k m with Some _ => true | None => false end.
Definition path_rows (name : str) (eu ou : usage) : list row :=
  concat (map (fun pc => if infix "_error_"%string (fst pc) then [] else
    [RPath name (fst pc) (has_key (fst pc ++ strs "_error_upper") (path_counter eu))
       (snd pc) (num_occurrences eu) (count_of (path_counter ou) (fst pc)) (num_occurrences ou)]) (isort (path_counter eu))).
Definition csv_rows (t : totals) : list row :=
  concat (map (fun nu => RIds (fst nu) (num_occurrences (snd nu)) (num_entries t)
                         :: path_rows (fst nu) (snd nu) (usage_of (per_occurrence t) (fst nu))) (isort (per_entry t))).

(** [walk_metadata_tree], db_analysis.py:275-293: numbers (descendant data nodes, filled ones) of a node; [prefix]: path_string of the
    node, "" for the IDS.  A node counts as data node iff its metadata has no children (line 282). *)
Definition child_path (prefix name : str) : str := match prefix with [] => name | _ => prefix ++ "/"%char :: name end.
Fixpoint walk (filled : str -> bool) (prefix : str) (m : meta) : nat * nat :=
  fold_left (fun '(n, f) c =>
    let p := child_path prefix (mname c) in
    match mchildren c with
    | [] => (S n, if filled p then S f else f)
    | _ => let (n', f') := walk filled p c in (n + n', f + f')
    end) (mchildren m) (0, 0).

(** [find_paths], util.py:314-342.  An XML element: its path attribute and its children; [iter()] is pre-order; [search] is
    [re.compile(query).search(path) is not None]. *)
Inductive xml := Xml (path : option str) (children : list xml).
Definition xpath (x : xml) : str := match x with Xml (Some p) _ => p | Xml None _ => [] end.
Fixpoint xml_iter (x : xml) : list xml := match x with Xml _ cs => x :: concat (map xml_iter cs) end.
Definition find_paths (search : str -> bool) (x : xml) : list str := filter search (map xpath (xml_iter x)).
