(** C57: examples and findings. *)
From Verif Require Import Base PathModel PathSpec TreeModel TreeSpec TreeProofs TreeCheck PrimModel PrimSpec ConvSpec ConvProofs3 ConvProofs4 ConvModel EndModel EndSpec EndProofs4 EndCheck EndProps StoreModel StoreSpec StoreProofs2 CliModel CliSpec CliProofs CliProofs2 CliProofs3 CliProps.
From Verif Require ConvProofs5 PrimProps StoreProps StoreProps2 SerModel ConvProps ProvProps VmapProps VmapSpec VmapProofs4.
From Coq Require Import Lia.
Import VmapModel(e_path, e_type, e_nbc, n_versions, fields, elem).
Import VmapSpec(wf_fields).
Import ConvProps(lf, ex_cast, ex_casts).

Lemma meta_at_sound : forall p m m', meta_at m p = Some m' -> loc_ok m (map Child p) m'.
Proof.
  induction p as [|x p IH]; intros [nm k cs] m' H; cbn [meta_at mkind mchildren] in H.
  - injection H as <-. constructor.
  - destruct k; try discriminate. destruct (List.find _ cs) as [c|] eqn:F; [|discriminate]. apply find_some in F. destruct F as [I E]. apply str_eqb_eq in E. subst x. cbn [map]. constructor; auto.
Qed.

(** ** Two versions of an IDS: [a/y] is renamed to [c/w]; [time] is dynamic *)
Definition el := VmapProps.el.
Definition ren := VmapProps.ren.
Definition dynamic_el (p t tb : string) : elem := {| VmapModel.e_path := p; VmapModel.e_type := Some (strs t); VmapModel.e_ident := false; VmapModel.e_dynamic := true; VmapModel.e_tbp := tb; VmapModel.e_psi := false; VmapModel.e_nbc := None |}.
Definition common : fields := [el "ids_properties" "structure"; el "ids_properties/homogeneous_time" "INT_0D"; el "ids_properties/version_put" "structure"; el "ids_properties/version_put/data_dictionary" "STR_0D";
  el "ids_properties/version_put/access_layer" "STR_0D"; el "ids_properties/version_put/access_layer_language" "STR_0D"; el "ids_properties/provenance" "structure"; el "ids_properties/provenance/node" "struct_array";
  el "ids_properties/provenance/node/path" "STR_0D"; el "ids_properties/provenance/node/reference" "struct_array"; el "ids_properties/provenance/node/reference/name" "STR_0D";
  el "ids_properties/provenance/node/reference/timestamp" "STR_0D"; dynamic_el "time" "FLT_1D" "time"].
Definition common_meta : list meta := [Meta (strs "ids_properties") KStruct [lf "homogeneous_time" INT 0; Meta (strs "version_put") KStruct [lf "data_dictionary" STR 0; lf "access_layer" STR 0; lf "access_layer_language" STR 0];
  Meta (strs "provenance") KStruct [Meta (strs "node") KAoS [lf "path" STR 0; Meta (strs "reference") KAoS [lf "name" STR 0; lf "timestamp" STR 0]]]]; lf "time" FLT 1].
Definition c_old : ids_def := {| i_fields := common ++ [el "a" "structure"; el "a/x" "FLT_0D"; el "a/y" "FLT_0D"; el "k" "FLT_3D"];
  i_meta := Meta (strs "ids") KStruct (common_meta ++ [Meta (strs "a") KStruct [lf "x" FLT 0; lf "y" FLT 0]; lf "k" FLT 3]) |}.
Definition c_new : ids_def := {| i_fields := common ++ [ren "c" "structure" "structure_renamed" "a"; el "c/x" "FLT_0D"; ren "c/w" "FLT_0D" "leaf_renamed" "y"; el "k" "STR_0D"];
  i_meta := Meta (strs "ids") KStruct (common_meta ++ [Meta (strs "c") KStruct [lf "x" FLT 0; lf "w" FLT 0]; lf "k" STR 0]) |}.
Definition dict (rank : Z) (text : string) (l : list (str * ids_def)) : dictionary :=
  {| d_rank := rank; d_major := 3; d_minor := rank; d_text := strs text; d_xml_major := Some 3%Z; d_ids := l |}.
Definition d_old : dictionary := dict 5 "3.5.0" [(strs "ids", c_old); (strs "gone", c_old)].
Definition d_new : dictionary := dict 20 "3.20.0" [(strs "extra", c_new); (strs "ids", c_new)].
Definition c_tree0 (mode : Z) (y : flt) : node := NStruct
  [(strs "ids_properties", NStruct [(strs "homogeneous_time", NLeaf (Some (VInt mode)))]); (strs "time", NLeaf (Some (VFltA [2] [1; 2]%Z))); (strs "a", NStruct [(strs "y", NLeaf (Some (VFlt y)))])].

Definition released : list (str * dictionary) := [(strs "3.5.0", d_old); (strs "3.20.0", d_new)].
Notation puts := (put_ids (fun _ _ => StoreProps2.no_max) (fun _ _ => false) (fun _ _ _ => true) false (strs "5.4") (strs "python")).
Notation commands own custom := (convert_command VmapProps.same_order (fun _ => []) d_old 15 41 (strs "2.0") (fun _ => []) (fun _ => None) (fun _ => None) Some ex_cast (fun _ => []) (fun _ _ => true)
    (fun f => Ok f) (fun _ => None) (fun _ => {| ValModel.a_dynamic := false; ValModel.a_coords := []; ValModel.a_same := []; ValModel.a_alts := [] |}) (fun _ _ _ _ _ => 0%Z)
    released own custom (fun _ _ => StoreProps2.no_max) (fun _ _ => false) (fun _ _ _ => true) false (strs "5.4") (strs "python") (strs "now")).
Notation command := (commands d_new (fun _ => None)).
Definition put_old (name : string) (mode : Z) (y : flt) : store := fst (puts d_old (strs name) (d_old, c_old, c_tree0 mode y) empty_store).
Definition c_input : entry := [((strs "ids", 0%Z), put_old "ids" 1 8%Z); ((strs "ids", 2%Z), put_old "ids" 2 9%Z)].
(** the trees in an entry *)
Definition trees (own : dictionary) (e : entry) : list (result cli_exn (str * node)) :=
  map (fun x => do y <- get_ids released own e (fst (fst x)) (snd (fst x)); Ok (d_text (fst (fst y)), snd y)) e.

Example C57_example_usual : usual c_old /\ usual c_new.
Proof.
  split; (constructor; [apply StoreProps2.namedb_sound; vm_compute; reflexivity|by_check|reflexivity|intros p I; cbn [In] in I; repeat (destruct I as [<-|I]; [vm_compute; reflexivity|]); destruct I|]);
    (intros x I; eexists _, _; cbn [In] in I; destruct I as [<-|[<-|[<-|[]]]]; apply (meta_at_sound [strs "ids_properties"; strs "version_put"; _]); vm_compute; reflexivity).
Qed.
Example C57_example_pair : pair_ok (strs "ids") d_old d_new c_old c_new.
Proof.
  assert (W : wf_fields (i_fields c_new)) by (apply VmapProofs4.wf_b_sound; vm_compute; reflexivity).
  assert (N : forall p t, (exists ty, DataTypeModel.dt_parse (Some (strs t)) = Ok ty) -> VmapProofs4.good_elem (el p t)).
  { intros p t [ty H]. split; [exists (strs t), ty; auto|]. intros n E. discriminate. }
  assert (D : forall p t b, (exists ty, DataTypeModel.dt_parse (Some (strs t)) = Ok ty) -> VmapProofs4.good_elem (dynamic_el p t b)).
  { intros p t b [ty H]. split; [exists (strs t), ty; auto|]. intros n E. discriminate. }
  assert (R : forall p t d prev, (exists ty, DataTypeModel.dt_parse (Some (strs t)) = Ok ty) -> VmapProofs4.good_elem (ren p t d prev)).
  { intros p t d prev [ty H]. split; [exists (strs t), ty; auto|]. intros n E. inversion E; subst. right. exists [10%Z]. split; [reflexivity|]. split; [reflexivity|].
    intros _. exists [strs prev]. split; reflexivity. }
  constructor; try reflexivity; try (split; by_check).
  - cbn. lia.
  - intros (_ & H). discriminate.
  - apply VmapProofs4.pair_b_sound. vm_compute. reflexivity.
  - apply same_b_sound; [exact W|]. vm_compute. reflexivity.
  - apply inside_b_sound; [exact W|]. vm_compute. reflexivity.
  - apply described_b_sound. vm_compute. reflexivity.
  - apply described_b_sound. vm_compute. reflexivity.
  - split; reflexivity.
  - split; intros e H; cbn [i_fields c_old c_new common app In] in H; repeat (destruct H as [<-|H]; [first [apply N|apply R|apply D]; eexists; reflexivity|]); destruct H.
  - intros e c I E E'. cbn [i_fields c_new common app In] in I. repeat (destruct I as [<-|I]; [cbn in E; try discriminate; injection E as <-; discriminate|]). destruct I.
Qed.
Lemma put_old_ok : forall name mode y, name = "ids"%string -> In mode [0; 1; 2]%Z -> (y = 8 \/ y = 9)%Z -> was_put (fun _ _ => StoreProps2.no_max) (fun _ _ => false) (fun _ _ _ => true) false (strs "5.4") (strs "python") d_old (strs name) c_old (c_tree0 mode y) (put_old name mode y).
Proof.
  intros name mode y -> M Y. split; [destruct M as [<-|[<-|[<-|[]]]]; destruct Y as [->| ->]; by_check|]. split; [apply StoreProps2.settledb_sound; destruct M as [<-|[<-|[<-|[]]]]; destruct Y as [->| ->]; vm_compute; reflexivity|].
  exists empty_store. split; [exact filled_empty|]. unfold put_old. rewrite (surjective_pairing (puts _ _ _ _)) at 1. f_equal. destruct M as [<-|[<-|[<-|[]]]]; destruct Y as [->| ->]; vm_compute; reflexivity.
Qed.
(** the hypotheses of C57_newer, with provenance *)
Example C57_example_hypotheses : let uri := strs "imas:hdf5?path=in" in
  unique c_input /\ snd (command uri false c_input (strs "3.20.0") None (-1)%Z) = None /\ find_version released (fun _ => None) (strs "3.20.0") = Ok d_new /\ NoDup (map fst (d_ids d_new)) /\
  selected d_new c_input None (-1)%Z (strs "ids", 2%Z) /\ known released d_old (strs "ids") c_old /\ known released d_new (strs "ids") c_new /\
  (strs "now" <> [] /\ ProvProps.with_reference (i_meta c_new)) /\ find_store c_input (strs "ids", 2%Z) = Some (put_old "ids" 2 9%Z) /\
  plain_copy 15 (strs "ids") d_old d_new (i_meta c_old) /\ untouched (i_meta c_old) (c_tree0 2 9%Z) (old_changes (i_fields c_old) (i_fields c_new) 5) /\
  stamps_kept (old_changes (i_fields c_old) (i_fields c_new) 5) /\ counterpart (i_fields c_old) (i_fields c_new) 5 (slashed time_path) (slashed time_path).
Proof.
  intros uri. assert (W : wf_fields (i_fields c_new)) by (apply VmapProofs4.wf_b_sound; vm_compute; reflexivity).
  assert (CH : forall p, old_changes (i_fields c_old) (i_fields c_new) 5 p -> In p [strs "k"]).
  { intros p (q & H). apply (changing_complete _ _ _ W) in H. assert (E : changing (i_fields c_old) (i_fields c_new) 5 = [(strs "k", strs "k")]) by (vm_compute; reflexivity). rewrite E in H. destruct H as [H|[]]. left. exact (f_equal fst H). }
  split. { unfold unique, c_input. cbn [map fst]. constructor; [intros [E|[]]; discriminate|]. constructor; [intros []|constructor]. }
  split; [vm_compute; reflexivity|]. split; [reflexivity|]. split. { apply VmapProofs4.nodup_b_sound. vm_compute. reflexivity. }
  split. { split; [exists c_new; right; left; reflexivity|]. change (exists s, In ((strs "ids", 2%Z), s) c_input). exists (put_old "ids" 2 9%Z). right. left. reflexivity. }
  split. { split; [reflexivity|]. split; [discriminate|]. split; [reflexivity|]. apply C57_example_usual. }
  split. { split; [reflexivity|]. split; [discriminate|]. split; [reflexivity|]. apply C57_example_usual. }
  split. { split; [discriminate|]. eexists. exists []. eexists. eexists. eexists. eexists. eexists. eexists. split.
    - exists (strs "node"). eexists. eexists. split; [apply (meta_at_sound [strs "ids_properties"; strs "provenance"; strs "node"]); reflexivity|]. apply (meta_at_sound [strs "path"]). reflexivity.
    - split; [apply (meta_at_sound [strs "reference"]); reflexivity|]. split; [apply (meta_at_sound [strs "name"]); reflexivity|apply (meta_at_sound [strs "timestamp"]); reflexivity]. }
  split; [reflexivity|]. split; [intros E; discriminate|]. split. { apply (untouched_b_sound _ _ _ [strs "k"]); [exact CH|vm_compute; reflexivity]. }
  split. { intros p I H. apply CH in H. destruct H as [H|[]]. cbn [In] in I. repeat (destruct I as [<-|I]; [vm_compute in H; discriminate|]). destruct I. }
  split; [eexists; split; [right; left; reflexivity|reflexivity]|]. split; [eexists; split; [right; left; reflexivity|reflexivity]|]. exists false.
  pose proof (VmapProofs4.loc_origin (i_fields c_old) (i_fields c_new) 5 W (slashed time_path)) as O.
  assert (E : VmapProofs4.loc (i_fields c_old) (i_fields c_new) 5 (slashed time_path) = (slashed time_path, false)) by (vm_compute; reflexivity). rewrite E in O. exact O.
Qed.
Definition c_out (time : list (str * node)) (mode : Z) (w : flt) : node := NStruct
  ((strs "ids_properties", NStruct [(strs "homogeneous_time", NLeaf (Some (VInt mode))); (strs "version_put", NStruct [(strs "data_dictionary", NLeaf (Some (VStr (strs "3.20.0"))));
     (strs "access_layer", NLeaf (Some (VStr (strs "5.4")))); (strs "access_layer_language", NLeaf (Some (VStr (strs "python"))))]); (strs "provenance", NStruct [])]) :: time ++ [(strs "c", NStruct [(strs "w", NLeaf (Some (VFlt w)))])]).
Example C57_example_run : trees d_new (fst (command [] false c_input (strs "3.20.0") None (-1)%Z)) =
  [Ok (strs "3.20.0", c_out [(strs "time", NLeaf (Some (VFltA [2] [1; 2]%Z)))] 1 8%Z); Ok (strs "3.20.0", c_out [] 2 9%Z)].
Proof. vm_compute. reflexivity. Qed.

(** ** Findings *)
(** --occurrence without --ids: the IDSs that do not have the occurrence make the command fail, also when another IDS has it. *)
Theorem C57_occurrence_refuted : exists input k s, unique input /\ find_store input k = Some s /\ snd k = 2%Z /\
  command [] false input (strs "3.20.0") None 2%Z = ([], Some EmptyIds) /\ snd (command [] false input (strs "3.20.0") (Some (fst k)) 2%Z) = None.
Proof.
  exists c_input, (strs "ids", 2%Z). eexists. split; [exact (proj1 C57_example_hypotheses)|]. split; [reflexivity|]. split; [reflexivity|]. split; vm_compute; reflexivity.
Qed.
Print Assumptions C57_occurrence_refuted.
(** An IDS that the target version does not have is left out, and the command reports success. *)
Theorem C57_lost_refuted : exists input k s out, unique input /\ find_store input k = Some s /\ command [] false input (strs "3.20.0") None (-1)%Z = (out, None) /\ find_store out k = None.
Proof.
  exists [((strs "gone", 0%Z), put_old "gone" 1 8%Z)], (strs "gone", 0%Z). eexists. eexists. split; [constructor; [intros []|constructor]|]. split; [reflexivity|]. split; [vm_compute; reflexivity|reflexivity].
Qed.
Print Assumptions C57_lost_refuted.
(** An IDS that the default version does not have cannot be converted, though the version of the data and the target version have it. *)
Theorem C57_default_refuted : exists own input k s i j, unique input /\ find_store input k = Some s /\ alookup (fst k) (d_ids d_old) = Some i /\ alookup (fst k) (d_ids d_new) = Some j /\ read_version s = Ok (d_text d_old) /\
  commands own (fun _ => None) [] false input (strs "3.20.0") None (-1)%Z = ([], Some NoIds) /\ snd (command [] false input (strs "3.20.0") None (-1)%Z) = None.
Proof.
  exists (dict 41 "3.41.0" []), c_input, (strs "ids", 2%Z). do 3 eexists. split; [exact (proj1 C57_example_hypotheses)|]. split; [reflexivity|]. split; [reflexivity|]. split; [reflexivity|]. split; [vm_compute; reflexivity|].
  split; vm_compute; reflexivity.
Qed.
Print Assumptions C57_default_refuted.
(** A failure leaves a part of the output, and then a second attempt is refused. *)
Theorem C57_retry_refuted : exists input out e k s, unique input /\ command [] false input (strs "3.20.0") (Some (strs "ids")) (-1)%Z = (out, Some e) /\ find_store out k = Some s /\
  command [] true input (strs "3.20.0") (Some (strs "ids")) (-1)%Z = ([], Some OutputExists).
Proof.
  set (input := [((strs "ids", 0%Z), put_old "ids" 1 8%Z); ((strs "ids", 1%Z), empty_store)]).
  destruct (command [] false input (strs "3.20.0") (Some (strs "ids")) (-1)%Z) as [out e] eqn:C.
  assert (E : snd (command [] false input (strs "3.20.0") (Some (strs "ids")) (-1)%Z) = Some EmptyIds) by (vm_compute; reflexivity).
  assert (F : match find_store (fst (command [] false input (strs "3.20.0") (Some (strs "ids")) (-1)%Z)) (strs "ids", 0%Z) with Some _ => true | None => false end = true) by (vm_compute; reflexivity).
  rewrite C in E, F. cbn [fst snd] in E, F. subst e. destruct (find_store out (strs "ids", 0%Z)) as [s|] eqn:FS; [|discriminate].
  exists input, out, EmptyIds, (strs "ids", 0%Z), s. split; [|split; [exact C|split; [exact FS|vm_compute; reflexivity]]].
  unfold unique, input. cbn [map fst]. constructor; [intros [X|[]]; discriminate|]. constructor; [intros []|constructor].
Qed.
Print Assumptions C57_retry_refuted.
(** A definition file with the version of the data: nothing is converted, and what the file renames cannot be read with it. *)
Definition d_custom : dictionary := dict 20 "3.5.0" [(strs "ids", c_new)].
Theorem C57_custom_refuted : exists input k out s g, unique input /\ commands d_old (fun _ => Some d_custom) [] false input (strs "my.xml") None (-1)%Z = (out, None) /\ find_store out k = Some s /\
  al_get (StoreProps2.xml_dynamic (i_fields c_new)) (StoreProps2.xml_timebase (i_fields c_new)) None s (i_meta c_new) = Ok g /\
  ~ (exists v, leaf_at (i_meta c_new) g [Child (strs "c"); Child (strs "w")] v) /\
  (exists st, convert_one VmapProps.same_order (fun _ => []) d_old 15 41 (strs "2.0") (fun _ => []) (fun _ => None) (fun _ => None) Some ex_cast (fun _ => []) (fun _ _ => true)
    (fun f => Ok f) (fun _ => None) (fun _ => {| ValModel.a_dynamic := false; ValModel.a_coords := []; ValModel.a_same := []; ValModel.a_alts := [] |}) (fun _ _ _ _ _ => 0%Z) (strs "now")
    (dict 20 "3.5.0+local" [(strs "ids", c_new)]) [] (strs "ids") (d_old, c_old, c_tree0 1 8%Z) = Ok st /\ leaf_at (i_meta c_new) (snd st) [Child (strs "c"); Child (strs "w")] (VFlt 8%Z)).
Proof.
  set (input := [((strs "ids", 0%Z), put_old "ids" 1 8%Z)]).
  destruct (commands d_old (fun _ => Some d_custom) [] false input (strs "my.xml") None (-1)%Z) as [out e] eqn:C.
  assert (E : snd (commands d_old (fun _ => Some d_custom) [] false input (strs "my.xml") None (-1)%Z) = None) by (vm_compute; reflexivity).
  set (f := fun o : option store => match o with Some s => match al_get (StoreProps2.xml_dynamic (i_fields c_new)) (StoreProps2.xml_timebase (i_fields c_new)) None s (i_meta c_new) with Ok g => Some g | Err _ => None end | None => None end).
  assert (F : f (find_store (fst (commands d_old (fun _ => Some d_custom) [] false input (strs "my.xml") None (-1)%Z)) (strs "ids", 0%Z)) =
    Some (NStruct [(strs "ids_properties", NStruct [(strs "homogeneous_time", NLeaf (Some (VInt 1))); (strs "version_put", NStruct [(strs "data_dictionary", NLeaf (Some (VStr (strs "3.5.0"))));
     (strs "access_layer", NLeaf (Some (VStr (strs "5.4")))); (strs "access_layer_language", NLeaf (Some (VStr (strs "python"))))]); (strs "provenance", NStruct [])]);
     (strs "time", NLeaf (Some (VFltA [2] [1; 2]%Z))); (strs "c", NStruct [])])) by (vm_compute; reflexivity).
  rewrite C in E, F. cbn [fst snd] in E, F. subst e. destruct (find_store out (strs "ids", 0%Z)) as [s|] eqn:FS; [|discriminate F]. unfold f in F. clear f.
  destruct (al_get _ _ _ s _) as [g|] eqn:G; [|discriminate F]. assert (F' := f_equal (fun z => match z with Some x => x | None => g end) F). cbv beta iota in F'. clear F.
  exists input, (strs "ids", 0%Z), out, s, g. split; [constructor; [intros []|constructor]|]. split; [exact C|]. split; [exact FS|]. split; [exact G|]. split.
  - intros (v & H). rewrite F' in H. apply ConvProofs5.fval_leaf in H; [|by_check|by_check]. vm_compute in H. discriminate.
  - eexists. split; [vm_compute; reflexivity|]. apply ConvProofs5.fval_leaf; [by_check|by_check|vm_compute; reflexivity].
Qed.
Print Assumptions C57_custom_refuted.
