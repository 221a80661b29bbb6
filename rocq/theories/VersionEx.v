(** C55: examples and findings. *)
From Verif Require Import Base PathSpec TreeModel TreeSpec TreeProofs TreeCheck ValProofs StoreProofs2 ConvSpec NcMetaModel
  NcFileModel NcFileSpec NcConvModel NcConvSpec NcConvProps NcConvEx VersionModel VersionSpec VersionProofs VersionProps VersionProps2 VersionEnd.
From Verif Require DataTypeModel NcMetaProps NcFileProps VmapModel VmapSpec VmapProofs4 VmapProps EndSpec EndModel EndProofs4 EndProps EndCheck.
From Coq Require Import Lia.
Import VmapProps(el, ren).
Import NcFileProps(st, fl, no_units).
Notation lf := NcMetaProps.leaf.

(** ** An example: two released versions *)
Definition vx (v : string) (d : EndModel.ids_def) : xml := {| x_version := Some (strs v); x_ids := [(strs "ids", d)] |}.
Definition ex_package : list (str * xml) := [(strs "4.0.0", vx "4.0.0" cv_old); (strs "4.2.0", vx "4.2.0" cv_new)].
Definition ex_idsdef (p : str) : str := p ++ strs "/include/IDSDef.xml".
Definition ver (v : string) (r : Z) : str * parsed := (strs v, {| p_rank := r; p_major := 4; p_minor := r |}).
Definition ex_parse (v : str) : option parsed := alookup v [ver "3.9.9" 2; ver "4.0.0" 5; ver "4.2.0" 20; ver "4.3.0" 30].
Definition ex_major (v : str) : option Z := Some 4%Z.
Definition ex_341 : EndModel.dictionary := EndProps.en_dict 41 cv_old.
Definition quiet : world := {| w_version := None; w_prefix := None; w_file := fun _ => Missing |}.
Notation ex_make := (make ex_package ex_idsdef).
Notation ex_choose := (choose ex_package ex_idsdef ex_parse ex_major VmapProps.same_order (fun _ => []) ex_341 41).
Notation ex_nc_choose := (nc_choose ex_package ex_idsdef ex_parse ex_major VmapProps.same_order (fun _ => []) ex_341 41).

Lemma ex_parse_in : forall v p, ex_parse v = Some p -> In (v, p) [ver "3.9.9" 2; ver "4.0.0" 5; ver "4.2.0" 20; ver "4.3.0" 30].
Proof. intros v p. apply alookup_In. Qed.
Example C55_example_package : package_ok ex_package ex_parse.
Proof.
  constructor.
  - apply VmapProofs4.nodup_b_sound. vm_compute. reflexivity.
  - intros (x & [E|[E|[]]]); discriminate.
  - intros v x u [E|[E|[]]] X; injection E as <- <-; cbn in X; congruence.
  - intros v v' p p' A B E. apply ex_parse_in in A. apply ex_parse_in in B.
    destruct A as [A|[A|[A|[A|[]]]]]; destruct B as [B|[B|[B|[B|[]]]]]; injection A as <- <-; injection B as <- <-; try reflexivity; discriminate E.
Qed.
Lemma ex_idsdef_ne : forall p, ex_idsdef p <> [].
Proof. intros [|a p]; discriminate. Qed.
(** The environment names a version that is not released, then one that is in an installation, then a released one; the files do not change. *)
Definition ex_files (p : str) : file := if str_eqb p (strs "/opt/include/IDSDef.xml") then Good (vx "4.3.0" cv_new) else Missing.
Definition ex_world (v pre : option string) : world := {| w_version := option_map strs v; w_prefix := option_map strs pre; w_file := ex_files |}.
Definition ex_events : list event := [EMake None None; ESet (ex_world (Some "4.3.0"%string) (Some "/opt"%string)); EMake None None; ESet (ex_world (Some "4.0.0"%string) None); EMake None None; EMake (Some (strs "4.2.0")) None; EMake (Some (strs "9")) None].
Example C55_example_exact : same_files (ex_world (Some "4.9.9"%string) None) ex_events /\
  map (fun y => match snd y with Ok f => Ok (f_version f) | Err e => Err e end) (fst (run ex_package ex_idsdef (ex_world (Some "4.9.9"%string) None) fresh ex_events))
  = [Ok (strs "4.2.0"); Ok (strs "4.3.0"); Ok (strs "4.0.0"); Ok (strs "4.2.0"); Err VUnknown].
Proof. split; [|vm_compute; reflexivity]. intros w' p I. cbn in I. repeat (destruct I as [E|I]; [try discriminate E; inversion E; reflexivity|]). destruct I. Qed.

(** the hypotheses of C55_nc_newer and C55_map *)
Definition ex_fe : factory := {| f_version := strs "4.2.0"; f_xml := vx "4.2.0" cv_new; f_path := None; f_obj := 0 |}.
Definition ex_ds : factory := {| f_version := strs "4.0.0"; f_xml := vx "4.0.0" cv_old; f_path := None; f_obj := 1 |}.
Definition ex_mem (n : nat) : mem := snd (run ex_package ex_idsdef quiet fresh (firstn n [EMake (Some (strs "4.2.0")) None; EMake (Some (strs "4.0.0")) None])).
Example C55_example_read : reachable ex_package ex_idsdef (ex_mem 1) /\ fst (ex_make quiet (Some (strs "4.2.0")) None fresh) = Ok ex_fe /\
  nc_open ex_package ex_idsdef quiet ex_fe (strs "4.0.0") (ex_mem 1) = (Ok ex_ds, ex_mem 2) /\ major (strs "4.0.0") = major (f_version ex_fe) /\
  (exists p p', ex_parse (strs "4.0.0") = Some p /\ ex_parse (f_version ex_fe) = Some p' /\ (p_rank p < p_rank p')%Z /\ EndProps.pair_ok (strs "ids") (dict ex_major ex_ds p) (dict ex_major ex_fe p') cv_old cv_new) /\
  one_definition ex_package ex_fe /\ (exists rm s', ex_nc_choose quiet ex_fe ex_ds (strs "ids") None true false (ex_mem 2) = (Ok (ex_fe, Some rm), s') /\ rm = cv_map) /\
  (exists rm s', ex_choose quiet ex_fe (strs "ids") None true false (strs "4.0.0") (ex_mem 2) = (Ok (ex_fe, Some rm), s')) /\
  (exists s', ex_choose quiet ex_fe (strs "ids") None false false (strs "4.0.0") (ex_mem 2) = (Ok ({| f_version := strs "4.0.0"; f_xml := vx "4.0.0" cv_old; f_path := None; f_obj := 2 |}, None), s')).
Proof.
  split; [eexists; eexists; eexists; apply surjective_pairing|]. split; [vm_compute; reflexivity|]. split; [vm_compute; reflexivity|]. split; [vm_compute; reflexivity|]. split.
  { eexists. eexists. split; [vm_compute; reflexivity|]. split; [vm_compute; reflexivity|]. split; [vm_compute; reflexivity|].
    destruct C54_example_pair. constructor; auto. intros (E & _). discriminate E. }
  split; [intros x [E|[E|[]]]; [discriminate E|injection E as <-; reflexivity]|].
  split; [eexists; eexists; split; [vm_compute; reflexivity|vm_compute; reflexivity]|]. split; [eexists; eexists; vm_compute; reflexivity|eexists; vm_compute; reflexivity].
Qed.

(** ** Findings *)
(** A file that is changed: a new factory for it has the old definition, because of the cache of _load_etree. *)
Theorem C55_stale_refuted : exists w l o s o1 w1 p f,
  run ex_package ex_idsdef w fresh l = (o, s) /\ o = o1 ++ [(w1, None, Some p, Ok f)] /\ wants ex_package ex_idsdef w1 None (Some p) (InFile p) /\
  exists x, w_file w1 p = Good x /\ x <> f_xml f.
Proof.
  pose (file1 := fun p : str => if str_eqb p (strs "/x.xml") then Good (vx "4.3.0" cv_old) else Missing). pose (file2 := fun p : str => if str_eqb p (strs "/x.xml") then Good (vx "4.3.0" cv_new) else Missing).
  exists {| w_version := None; w_prefix := None; w_file := file1 |}, [EMake None (Some (strs "/x.xml")); ESet {| w_version := None; w_prefix := None; w_file := file2 |}; EMake None (Some (strs "/x.xml"))].
  eexists. eexists. exists [({| w_version := None; w_prefix := None; w_file := file1 |}, None, Some (strs "/x.xml"), Ok {| f_version := strs "4.3.0"; f_xml := vx "4.3.0" cv_old; f_path := Some (strs "/x.xml"); f_obj := 0 |})].
  exists {| w_version := None; w_prefix := None; w_file := file2 |}, (strs "/x.xml"), {| f_version := strs "4.3.0"; f_xml := vx "4.3.0" cv_old; f_path := Some (strs "/x.xml"); f_obj := 1 |}.
  split; [reflexivity|]. split; [reflexivity|]. split; [constructor; [discriminate|now left]|]. exists (vx "4.3.0" cv_new). split; [reflexivity|]. cbn [f_xml]. intros E. apply (f_equal (fun x => existsb (fun e => str_eqb (VmapModel.e_path e) (strs "extra")) (EndModel.i_fields (snd (hd ([], cv_old) (x_ids x)))))) in E. vm_compute in E. discriminate E.
Qed.

(** An entry with a definition of its own: data that it wrote itself is read with autoconvert=False as if it had the released definition with the
    same version, ... *)
Theorem C55_own_refuted : exists fe d m s', has_ids fe (strs "ids") = true /\
  ex_choose quiet fe (strs "ids") None false false (f_version fe) (ex_mem 2) = (Ok (d, m), s') /\ m = None /\ f_xml d <> f_xml fe.
Proof.
  exists {| f_version := strs "4.0.0"; f_xml := vx "4.0.0" cv_new; f_path := Some (strs "/my.xml"); f_obj := 0 |}. eexists. eexists. eexists.
  split; [vm_compute; reflexivity|]. split; [vm_compute; reflexivity|]. split; [reflexivity|]. cbn [f_xml]. intros E. apply (f_equal (fun x => existsb (fun e => str_eqb (VmapModel.e_path e) (strs "extra")) (EndModel.i_fields (snd (hd ([], cv_old) (x_ids x)))))) in E. vm_compute in E. discriminate E.
Qed.
(** ... and not at all if the version is not a released one; with autoconvert=True it can be read. *)
Theorem C55_own_unreleased_refuted : exists fe, has_ids fe (strs "ids") = true /\
  fst (ex_choose quiet fe (strs "ids") None false false (f_version fe) (ex_mem 2)) = Err VUnknown /\ fst (ex_choose quiet fe (strs "ids") None true false (f_version fe) (ex_mem 2)) = Ok (fe, None).
Proof.
  exists {| f_version := strs "4.3.0"; f_xml := vx "4.3.0" cv_new; f_path := Some (strs "/my.xml"); f_obj := 0 |}. split; [vm_compute; reflexivity|]. split; vm_compute; reflexivity.
Qed.

(** A destination of a third version: the map between the file and the entry is used.  The file has [a], which the entry calls [b]; the destination has
    [a] as well, and another quantity [b]: the value of [a] is stored in [b]. *)
Definition th_file : EndModel.ids_def := {| EndModel.i_fields := head_f ++ [el "a" "FLT_0D"]; EndModel.i_meta := Meta (strs "ids") KStruct [head_m; lf "a" FLT 0] |}.
Definition th_entry : EndModel.ids_def := {| EndModel.i_fields := head_f ++ [ren "b" "FLT_0D" "leaf_renamed" "a"]; EndModel.i_meta := Meta (strs "ids") KStruct [head_m; lf "b" FLT 0] |}.
Definition th_dest : EndModel.ids_def := {| EndModel.i_fields := head_f ++ [el "a" "FLT_0D"; el "b" "FLT_0D"]; EndModel.i_meta := Meta (strs "ids") KStruct [head_m; lf "a" FLT 0; lf "b" FLT 0] |}.
Definition th_package : list (str * xml) := [(strs "4.0.0", vx "4.0.0" th_dest); (strs "4.1.0", vx "4.1.0" th_file); (strs "4.2.0", vx "4.2.0" th_entry)].
Definition th_parse (v : str) : option parsed := alookup v [ver "4.0.0" 2; ver "4.1.0" 5; ver "4.2.0" 20].
Definition th_f (v : string) (d : EndModel.ids_def) (i : nat) : factory := {| f_version := strs v; f_xml := vx v d; f_path := None; f_obj := i |}.
Definition th_src : node := cv_tree [("a", NLeaf (Some (VFlt (fl 7))))]%string.
Definition th_got : node := st [("b", NLeaf (Some (VFlt (fl 7)))); ("ids_properties", st [("homogeneous_time", NLeaf (Some (VInt 1)))])]%string.
Theorem C55_third_refuted : exists fe ds d rm s' g n', package_ok th_package th_parse /\
  one_definition th_package fe /\ one_definition th_package ds /\ one_definition th_package d /\
  nc_choose th_package ex_idsdef th_parse ex_major VmapProps.same_order (fun _ => []) ex_341 41 quiet fe ds (strs "ids") (Some d) true false fresh = (Ok (d, Some rm), s') /\
  NcFileModel.put (EndModel.i_meta th_file) (nc_of (EndModel.i_meta th_file)) no_units th_src = Ok g /\
  get_conv (EndModel.i_meta th_file) (nc_of (EndModel.i_meta th_file)) no_units (EndModel.i_meta th_dest) no_units rm keep g = Ok n' /\
  leaf_at (EndModel.i_meta th_file) th_src [Child (strs "a")] (VFlt (fl 7)) /\
  leaf_at (EndModel.i_meta th_dest) n' [Child (strs "b")] (VFlt (fl 7)) /\ (forall v, ~ leaf_at (EndModel.i_meta th_dest) n' [Child (strs "a")] v).
Proof.
  exists (th_f "4.2.0" th_entry 0), (th_f "4.1.0" th_file 1), (th_f "4.0.0" th_dest 2). eexists. eexists. eexists. exists th_got.
  split.
  { constructor.
    - apply VmapProofs4.nodup_b_sound. vm_compute. reflexivity.
    - intros (x & [E|[E|[E|[]]]]); discriminate.
    - intros v x u [E|[E|[E|[]]]] X; injection E as <- <-; cbn in X; congruence.
    - intros v v' p p' A B E. assert (IA : In (v, p) [ver "4.0.0" 2; ver "4.1.0" 5; ver "4.2.0" 20]) by (apply alookup_In; exact A). assert (IB : In (v', p') [ver "4.0.0" 2; ver "4.1.0" 5; ver "4.2.0" 20]) by (apply alookup_In; exact B).
      destruct IA as [IA|[IA|[IA|[]]]]; destruct IB as [IB|[IB|[IB|[]]]]; injection IA as <- <-; injection IB as <- <-; try reflexivity; discriminate E. }
  split; [intros x [E|[E|[E|[]]]]; try discriminate E; injection E as <-; reflexivity|]. split; [intros x [E|[E|[E|[]]]]; try discriminate E; injection E as <-; reflexivity|]. split; [intros x [E|[E|[E|[]]]]; try discriminate E; injection E as <-; reflexivity|].
  split; [vm_compute; reflexivity|]. split; [vm_compute; reflexivity|]. split; [vm_compute; reflexivity|].
  assert (CF : conf (EndModel.i_meta th_file) th_src) by by_check. assert (NF : ~ is_leaf (EndModel.i_meta th_file)) by apply NcFileProps.not_leaf_ids.
  assert (CD : conf (EndModel.i_meta th_dest) th_got) by by_check. assert (NDL : ~ is_leaf (EndModel.i_meta th_dest)) by apply NcFileProps.not_leaf_ids.
  split; [apply NcFileProps.leaf_in; auto; vm_compute; tauto|]. split; [apply NcFileProps.leaf_in; auto; vm_compute; tauto|].
  intros v (m' & L & N & F). destruct (node_at_struct_inv _ _ _ _ _ _ N) as [(E & _)|(c & ch & l' & E & IC & A & N2)]; [discriminate E|].
  injection E as EC _. rewrite <- EC in A. vm_compute in A. discriminate A.
Qed.
Print Assumptions C55_stale_refuted.
Print Assumptions C55_own_refuted.
Print Assumptions C55_own_unreleased_refuted.
Print Assumptions C55_third_refuted.
