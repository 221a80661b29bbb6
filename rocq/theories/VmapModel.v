(** Model of the map between two versions of the data dictionary: imas/ids_convert.py:35-524. *)
From Verif Require Import Base DataTypeModel HashModel ValModel.

(** * Elements of the XML definition *)

(** Attribute change_nbc_version after splitting at commas (244-255): missing, not a list of versions, or the versions.  A version is
    represented by its rank in the order of [packaging.version.Version]: only comparisons are used. *)
Inductive nbc_versions := NoVersion | BadVersion | Versions (l : list Z).
(** The three change_nbc attributes of an element (240-260). *)
Record nbc := { n_desc : str; n_versions : nbc_versions; n_prev : option (list str) }.

(** The attributes of a [field] element that are read by ids_convert.py: path, data_type, whether doc_identifier is present and not
    empty, whether type is "dynamic", timebasepath, whether cocos_label_transformation is psi_like or dodpsi_like, change_nbc_*. *)
Record elem := { e_path : str; e_type : option str; e_ident : bool; e_dynamic : bool; e_tbp : str; e_psi : bool; e_nbc : option nbc }.

(** The fields of one IDS in document order ([iterfind(".//field")]). *)
Definition fields := list elem.

(** * The map *)

(** Functions that are stored in the map (type change handlers and postprocessing functions, 870-1172). *)
Inductive handler :=
  | H_structure_aos | H_0d_1d | H_to_identifier | H_flt0d_int0d
  | H_remove_last | H_repeat_first | H_remove_last_cond | H_repeat_first_cond | H_repeat_last_centre | H_remove_last_centre
  | H_cocos | H_connections_4to3 | H_connections_3to4 | H_ids_source | H_equilibrium_boundary.

(** ids_convert.py:54-109 [NBCPathMap] *)
Record nmap := { m_path : list (str * option str); m_tbp : list (str * str); m_ctx : list (str * str);
                 m_type : list (str * option handler); m_post : list (str * handler); m_post_ids : list handler; m_ignore : list str }.
Definition empty_map : nmap := {| m_path := []; m_tbp := []; m_ctx := []; m_type := []; m_post := []; m_post_ids := []; m_ignore := [] |}.

(** [__setitem__] 102-103, [__contains__] 105-106; assignments to single attributes *)
Definition set_entry (k : str) (v : option str) (tbp ctx : str) (m : nmap) : nmap :=
  {| m_path := aset k v (m_path m); m_tbp := aset k tbp (m_tbp m); m_ctx := aset k ctx (m_ctx m);
     m_type := m_type m; m_post := m_post m; m_post_ids := m_post_ids m; m_ignore := m_ignore m |}.
Definition set_path (k : str) (v : option str) (m : nmap) : nmap :=
  {| m_path := aset k v (m_path m); m_tbp := m_tbp m; m_ctx := m_ctx m;
     m_type := m_type m; m_post := m_post m; m_post_ids := m_post_ids m; m_ignore := m_ignore m |}.
Definition set_type (k : str) (h : option handler) (m : nmap) : nmap :=
  {| m_path := m_path m; m_tbp := m_tbp m; m_ctx := m_ctx m;
     m_type := aset k h (m_type m); m_post := m_post m; m_post_ids := m_post_ids m; m_ignore := m_ignore m |}.
Definition set_post (k : str) (h : handler) (m : nmap) : nmap :=
  {| m_path := m_path m; m_tbp := m_tbp m; m_ctx := m_ctx m;
     m_type := m_type m; m_post := aset k h (m_post m); m_post_ids := m_post_ids m; m_ignore := m_ignore m |}.
Definition add_post_ids (h : handler) (m : nmap) : nmap :=
  {| m_path := m_path m; m_tbp := m_tbp m; m_ctx := m_ctx m;
     m_type := m_type m; m_post := m_post m; m_post_ids := m_post_ids m ++ [h]; m_ignore := m_ignore m |}.
Definition add_ignore (k : str) (m : nmap) : nmap :=
  {| m_path := m_path m; m_tbp := m_tbp m; m_ctx := m_ctx m;
     m_type := m_type m; m_post := m_post m; m_post_ids := m_post_ids m; m_ignore := k :: m_ignore m |}.
Definition in_map (k : str) (m : nmap) : bool := match alookup k (m_path m) with Some _ => true | None => false end.

(** The two maps: old_to_new and new_to_old. *)
Record maps := { o2n : nmap; n2o : nmap }.
Definition on_o2n (f : nmap -> nmap) (s : maps) : maps := {| o2n := f (o2n s); n2o := n2o s |}.
Definition on_n2o (f : nmap -> nmap) (s : maps) : maps := {| o2n := o2n s; n2o := f (n2o s) |}.

(** Exceptions: AttributeError (a missing attribute is used as a string), AssertionError, KeyError, TypeError, those of the data type. *)
Inductive vm_exn := VmAttribute | VmAssertion | VmKey | VmType | VmDataType (e : dt_exn).

(** * Paths *)

(** ids_convert.py:35-51 [iter_parents] *)
Fixpoint iter_parents (path : str) : list str :=
  match path with
  | [] => []
  | c :: t => let r := map (cons c) (iter_parents t) in if Ascii.eqb c "/"%char then [] :: r else r
  end.
(** [s.replace(old, new, 1)] for a prefix [old] of [s] (224, 284). *)
Definition replace_prefix (old new s : str) : str := new ++ skipn (length old) s.
(** [s.rsplit("/", 1)]: what precedes the last slash ([None]: no slash, 231-235) *)
Definition before_slash (path : str) : option str := match rev (iter_parents path) with [] => None | p :: _ => Some p end.

(** The dictionary path -> element (208-209). *)
Definition elements := list (str * elem).
Definition by_path (f : fields) : elements := fold_left (fun d e => aset (e_path e) e d) f [].
Definition has {V} (k : str) (d : list (str * V)) : bool := match alookup k d with Some _ => true | None => false end.

Definition is_type (t : string) (e : elem) : bool := match e_type e with Some s => str_eqb s (strs t) | None => false end.
(** STRUCTURE_TYPES, 124 *)
Definition is_structure (e : elem) : bool := is_type "structure" e || is_type "struct_array" e.

(** ids_convert.py:487-492 [_get_ctxpath] *)
Fixpoint ctxpath_loop (path : str) (parents : list str) (paths : elements) : result vm_exn str :=
  match parents with
  | [] => Ok path
  | p :: r => match alookup p paths with
              | None => Err VmKey
              | Some e => if is_type "struct_array" e then Ok (skipn (S (length p)) path) else ctxpath_loop path r paths
              end
  end.
Definition get_ctxpath (path : str) (paths : elements) : result vm_exn str := ctxpath_loop path (rev (iter_parents path)) paths.

(** ids_convert.py:495-506 [_get_tbp] *)
Definition get_tbp (e : elem) (paths : elements) : result vm_exn str :=
  if is_type "struct_array" e then
    if negb (e_dynamic e) then Ok [] else do c <- get_ctxpath (e_path e) paths; Ok (c ++ strs "/time")
  else Ok (e_tbp e).

(** * Building the map *)

(** [IDSDataType.parse(a) == IDSDataType.parse(b)], 160 *)
Definition dtype_eqb (a b : ids_dtype) : bool :=
  match a, b with
  | T_STRUCTURE, T_STRUCTURE | T_STRUCT_ARRAY, T_STRUCT_ARRAY | T_STR, T_STR | T_INT, T_INT | T_FLT, T_FLT | T_CPX, T_CPX => true
  | _, _ => false
  end.
Definition parsed_eqb (a b : option ids_dtype * N) : bool :=
  (snd a =? snd b)%N && match fst a, fst b with Some x, Some y => dtype_eqb x y | None, None => true | _, _ => false end.
Definition parse_type (t : option str) : result vm_exn (option ids_dtype * N) :=
  match dt_parse t with Ok r => Ok r | Err e => Err (VmDataType e) end.

(** The handler for a change between two different data types (170-190); [None]: not supported. *)
Definition pair_is (a b : string) (x y : str) : bool :=
  (str_eqb x (strs a) && str_eqb y (strs b)) || (str_eqb x (strs b) && str_eqb y (strs a)).
Definition change_handler (old_type new_type : str) (new_ident : bool) : option handler :=
  if pair_is "struct_array" "structure" old_type new_type then Some H_structure_aos
  else if pair_is "INT_0D" "INT_1D" old_type new_type || pair_is "FLT_0D" "FLT_1D" old_type new_type
       || pair_is "CPX_0D" "CPX_1D" old_type new_type || pair_is "STR_0D" "STR_1D" old_type new_type then Some H_0d_1d
  else if str_eqb old_type (strs "INT_1D") && new_ident then Some H_to_identifier
  else if pair_is "FLT_0D" "INT_0D" old_type new_type then Some H_flt0d_int0d
  else None.

(** ids_convert.py:150-204 [_check_data_type] *)
Definition check_data_type (old_item new_item : elem) (s : maps) : result vm_exn (bool * maps) :=
  do tn <- parse_type (e_type new_item); do to <- parse_type (e_type old_item);
  if parsed_eqb tn to then Ok (true, s) else
  match e_type old_item, e_type new_item with
  | Some ot, Some nt =>
    match change_handler ot nt (e_ident new_item) with
    | Some h => Ok (true, on_o2n (set_type (e_path old_item) (Some h)) (on_n2o (set_type (e_path new_item) (Some h)) s))
    | None => Ok (false, on_o2n (fun m => set_type (e_path old_item) None (set_path (e_path old_item) None m))
                          (on_n2o (fun m => set_type (e_path new_item) None (set_path (e_path new_item) None m)) s))
    end
  | _, _ => Err VmType
  end.

Section Build.
(** Fields of both versions by path (208-215). *)
Variables (old_paths new_paths : elements) (version_old : Z).

(** ids_convert.py:217-226 [process_parent_renames] *)
Fixpoint parent_rename_loop (path : str) (parents : list str) (s : maps) : result vm_exn str :=
  match parents with
  | [] => Ok path
  | p :: r => match alookup p (m_path (n2o s)) with
              | Some (Some (c :: t)) => match alookup p new_paths with
                                        | None => Err VmKey
                                        | Some e => if is_structure e then Ok (replace_prefix p (c :: t) path) else parent_rename_loop path r s
                                        end
              | _ => parent_rename_loop path r s
              end
  end.
Definition process_parent_renames (path : str) (s : maps) : result vm_exn str := parent_rename_loop path (rev (iter_parents path)) s.

(** ids_convert.py:228-236 [get_old_path] *)
Definition get_old_path (path previous_name : str) (s : maps) : result vm_exn str :=
  process_parent_renames (match before_slash path with Some p => p ++ "/"%char :: previous_name | None => previous_name end) s.

(** ids_convert.py:338-358 [_add_rename] *)
Definition add_rename (old_path new_path : str) (s : maps) : result vm_exn maps :=
  match alookup old_path old_paths, alookup new_path new_paths with
  | Some oi, Some ni =>
    do tn <- get_tbp ni new_paths; do cn <- get_ctxpath new_path new_paths;
    do to <- get_tbp oi old_paths; do co <- get_ctxpath old_path old_paths;
    Ok (on_n2o (set_entry new_path (Some old_path) to co) (on_o2n (set_entry old_path (Some new_path) tn cn) s))
  | _, _ => Err VmKey
  end.

(** The common sub-elements of a renamed structure (281-286); [str.startswith] compares characters. *)
Fixpoint add_below (old_path new_path : str) (ps : list str) (s : maps) : result vm_exn maps :=
  match ps with
  | [] => Ok s
  | p :: r => if starts_with old_path p && has (replace_prefix old_path new_path p) new_paths
              then do s' <- add_rename p (replace_prefix old_path new_path p) s; add_below old_path new_path r s'
              else add_below old_path new_path r s
  end.

(** The previous name that applies to the old version (263-266). *)
Fixpoint select_name (vs : list Z) (names : list str) : option str :=
  match vs, names with
  | v :: vr, n :: nr => if (version_old <? v)%Z then Some n else select_name vr nr
  | _, _ => None
  end.
Fixpoint sortedZ (l : list Z) : bool :=
  match l with x :: ((y :: _) as r) => (x <=? y)%Z && sortedZ r | _ => true end.
Definition one_of (l : list string) (s : str) : bool := existsb (fun x => str_eqb s (strs x)) l.

(** One element with an NBC change (239-318). *)
Definition nbc_step (new_item : elem) (s : maps) : result vm_exn maps :=
  match e_nbc new_item with
  | None => Ok s
  | Some n =>
    let new_path := e_path new_item in
    match n_versions n with
    | NoVersion => Err VmAttribute
    | BadVersion => Ok s
    | Versions vs =>
      if negb (sortedZ vs) then Err VmAssertion else
      if (last vs 0 <=? version_old)%Z then Ok s else
      if one_of ["aos_renamed"; "leaf_renamed"; "structure_renamed"]%string (n_desc n) then
        match n_prev n with
        | None => Err VmAttribute
        | Some names =>
          if negb (length names =? length vs) then Err VmAssertion else
          match select_name vs names with
          | None => Err VmAttribute      (* unreachable: the last version is later *)
          | Some prev =>
            do old_path <- get_old_path new_path prev s;
            match alookup old_path old_paths with
            | None => Ok s
            | Some old_item =>
              do (same, s1) <- check_data_type old_item new_item s;
              if same : bool then
                do s2 <- add_rename old_path new_path s1;
                if is_structure old_item then add_below old_path new_path (akeys old_paths) s2 else Ok s2
              else Ok s1
            end
          end
        end
      else if one_of ["type_changed"]%string (n_desc n) then Ok s
      else if one_of ["repeat_children_first_point"]%string (n_desc n) then
        do old_path <- process_parent_renames new_path s;
        Ok (on_o2n (set_post old_path H_repeat_first) (on_n2o (set_post new_path H_remove_last) s))
      else if one_of ["repeat_children_first_point_conditional"]%string (n_desc n) then
        do old_path <- process_parent_renames new_path s;
        Ok (on_o2n (fun m => add_ignore (old_path ++ strs "/closed") (set_type old_path (Some H_repeat_first_cond) m))
             (on_n2o (set_type new_path (Some H_remove_last_cond)) s))
      else if one_of ["repeat_children_first_point_conditional_sibling"; "repeat_children_first_point_conditional_sibling_dynamic"]%string (n_desc n) then
        do old_path <- process_parent_renames new_path s;
        Ok (on_o2n (fun m => add_ignore (match before_slash old_path with Some p => p ++ strs "/closed" | None => strs "closed" end)
                                        (set_type old_path (Some H_repeat_first_cond) m))
             (on_n2o (set_type new_path (Some H_remove_last_cond)) s))
      else if one_of ["remove_last_point_if_open_annular_centreline"]%string (n_desc n) then
        do old_path <- process_parent_renames new_path s;
        Ok (on_o2n (fun m => add_ignore (old_path ++ strs "/closed") (set_type old_path (Some H_remove_last_centre) m))
             (on_n2o (set_type new_path (Some H_repeat_last_centre)) s))
      else Ok s
    end
  end.

Fixpoint nbc_loop (items : fields) (s : maps) : result vm_exn maps :=
  match items with [] => Ok s | e :: r => do s' <- nbc_step e s; nbc_loop r s' end.

(** Paths of both versions (320-324); [common] enumerates the set in any order. *)
Fixpoint common_loop (common : list str) (s : maps) : result vm_exn maps :=
  match common with
  | [] => Ok s
  | p :: r =>
    if in_map p (n2o s) || in_map p (o2n s) then common_loop r s else
    match alookup p old_paths, alookup p new_paths with
    | Some oi, Some ni => do (_, s') <- check_data_type oi ni s; common_loop r s'
    | _, _ => Err VmKey
    end
  end.

(** ids_convert.py:464-484 [_map_missing] *)
Definition parents_of_keys (m : nmap) : list str := flat_map iter_parents (akeys (m_path m)).
Definition mem (x : str) (l : list str) : bool := existsb (str_eqb x) l.
Fixpoint skip_loop (with_renames : list str) (paths skipped : list str) : list str :=
  match paths with
  | [] => skipped
  | p :: r => if mem p with_renames then skip_loop with_renames r skipped
              else if existsb (fun q => mem q skipped) (iter_parents p) then skip_loop with_renames r skipped
              else skip_loop with_renames r (p :: skipped)
  end.
Definition sort_paths (l : list str) : list str := map fst (isort (map (fun p => (p, tt)) l)).
Definition map_missing (missing : list str) (m : nmap) : nmap :=
  fold_left (fun m p => set_path p None m) (skip_loop (parents_of_keys m) (sort_paths missing) []) m.
End Build.

(** Paths of [a] that are not in [b] and not in the map (327-328). *)
Definition missing_paths (a b : elements) (m : nmap) : list str := filter (fun p => negb (has p b) && negb (in_map p m)) (akeys a).

(** ids_convert.py:206-328 [_build_map] without the rules for DD 3 to 4; [order] gives the order in which a set is enumerated. *)
Definition build_map (order : list str -> list str) (old new : fields) (version_old : Z) : result vm_exn maps :=
  let old_paths := by_path old in let new_paths := by_path new in
  do s1 <- nbc_loop old_paths new_paths version_old new {| o2n := empty_map; n2o := empty_map |};
  do s2 <- common_loop old_paths new_paths (order (filter (fun p => has p new_paths) (akeys old_paths))) s1;
  let s3 := on_n2o (map_missing (missing_paths new_paths old_paths (n2o s2))) s2 in
  Ok (on_o2n (map_missing (missing_paths old_paths new_paths (o2n s3))) s3).

(** * Rules for DD 3 to DD 4 (360-462) *)

Section Three_to_four.
Variables (old_paths new_paths : elements).

(** Sign flips (361-372); [flips]: the entry of [_3to4_sign_flip_paths] for this IDS. *)
Definition cocos_step (s : maps) (p : str) : maps :=
  let new_path := match alookup p (m_path (o2n s)) with Some (Some q) => Some q | Some None => None | None => Some p end in
  let s1 := match new_path with Some q => on_n2o (set_post q H_cocos) s | None => s end in      (* [None] as key is never looked up *)
  on_o2n (set_post p H_cocos) s1.
Definition cocos_rules (old : fields) (flips : list str) (s : maps) : maps :=
  fold_left cocos_step (map e_path (filter e_psi old) ++ flips) s.

(** 374-394 *)
Definition special_rules (ids_name : str) (s : maps) : maps :=
  let s1 := if str_eqb ids_name (strs "equilibrium")
            then on_o2n (fun m => add_ignore (strs "time_slice/boundary_separatrix")
                                   (add_ignore (strs "time_slice/boundary_secondary_separatrix") (add_post_ids H_equilibrium_boundary m))) s else s in
  let s2 := if str_eqb ids_name (strs "pf_active")
            then on_o2n (set_post (strs "circuit/connections") H_connections_3to4) (on_n2o (set_post (strs "circuit/connections") H_connections_4to3) s1)
            else s1 in
  on_o2n (fun m => set_type (strs "ids_properties/source") (Some H_ids_source)
                     (set_path (strs "ids_properties/source") (Some (strs "ids_properties/provenance")) m)) s2.

(** GH#55, 396-422; [m341]: the path map from DD 3.41.0 ([None]: not applicable). *)
Fixpoint below_341 (path : str) (m341 : list (str * option str)) (upd : list (str * option str)) : list (str * option str) :=
  match m341 with
  | [] => upd
  | (p, v) :: r => below_341 path r (if starts_with (path ++ strs "/") p then aset p v upd else upd)
  end.
Definition obsolete_step (m341 : list (str * option str)) (acc : nmap * list (str * option str)) (kv : str * option str) :=
  match snd kv, alookup (fst kv) m341 with
  | None, Some v => (set_path (fst kv) v (fst acc), below_341 (fst kv) m341 (snd acc))
  | _, _ => acc
  end.
Definition obsolete_rules (m341 : option (list (str * option str))) (s : maps) : maps :=
  match m341 with
  | None => s
  | Some m => let r := fold_left (obsolete_step m) (m_path (o2n s)) (o2n s, []) in
              on_o2n (fun _ => fold_left (fun m kv => set_path (fst kv) (snd kv) m) (snd r) (fst r)) s
  end.

(** GH#59, 424-462 *)
Definition ends_with (suffix s : str) : bool := (length suffix <=? length s) && str_eqb (skipn (length s - length suffix) s) suffix.
Definition name_step (p : str) (s : maps) : result vm_exn maps :=
  if negb (ends_with (strs "/name") p) then Ok s else
  match before_slash p with
  | None => Ok s                          (* unreachable *)
  | Some parent =>
    let name_path := parent ++ strs "/name" in let id_path := parent ++ strs "/identifier" in
    let index_path := parent ++ strs "/index" in let desc_path := parent ++ strs "/description" in
    if negb (has name_path old_paths) || negb (has id_path old_paths) then Ok s else
    if has index_path old_paths then Ok s else
    if negb (has desc_path new_paths) || negb (has name_path new_paths) then Ok s else
    do s1 <- (if in_map name_path (o2n s) then Ok s else add_rename old_paths new_paths name_path desc_path s);
    if in_map id_path (o2n s1) then add_rename old_paths new_paths id_path name_path s1 else Ok s1
  end.
Fixpoint name_loop (ps : list str) (s : maps) : result vm_exn maps :=
  match ps with [] => Ok s | p :: r => do s' <- name_step p s; name_loop r s' end.
End Three_to_four.

(** ids_convert.py:360-462 [_apply_3to4_conversion] *)
Definition apply_3to4 (ids_name : str) (old new : fields) (flips : list str) (m341 : option (list (str * option str))) (s : maps) : result vm_exn maps :=
  let s1 := obsolete_rules m341 (special_rules ids_name (cocos_rules old flips s)) in
  name_loop (by_path old) (by_path new) (akeys (by_path old)) s1.

(** The complete map (127-148, 206-336); [is_3to4]: the old version has major number 3 and the new one 4 (335). *)
Definition version_map (order : list str -> list str) (ids_name : str) (old new : fields) (version_old : Z) (is_3to4 : bool)
    (flips : list str) (m341 : option (list (str * option str))) : result vm_exn maps :=
  do s <- build_map order old new version_old;
  if is_3to4 then apply_3to4 ids_name old new flips m341 s else Ok s.

(** * Reading the map: [_get_target_item] (679-697): the path of the target, [None] if the quantity is not copied *)
Definition target_path (m : nmap) (p : str) : option str :=
  match alookup p (m_path m) with Some r => r | None => Some p end.
