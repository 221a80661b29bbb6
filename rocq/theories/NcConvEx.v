(** C54: examples and findings. *)
From Verif Require Import Base PathSpec TreeModel TreeSpec TreeProofs TreeCheck ValProofs StoreProofs2 ConvSpec ConvProofs3 ConvProps ConvProps8 NcMetaModel NcMetaSpec NcMetaProofs2
  NcFileModel NcFileSpec NcFileProofs NcFileProofs2 NcFileProofs3 NcFileProofs4 NcConvModel NcConvSpec NcConvProofs NcConvProofs2 NcConvProofs3 NcConvProofs4 NcConvProps.
From Verif Require DataTypeModel NcMetaProps NcFileProps VmapModel VmapSpec VmapProofs4 VmapProps EndSpec EndModel EndProofs4 EndProps EndCheck.
From Coq Require Import Lia Permutation.
Import VmapModel(nmap, o2n, n2o).
Import VmapProps(el, ren).
Import NcFileProps(st, fl, no_units).
Notation lf := NcMetaProps.leaf.

Definition head_f : list VmapModel.elem := [el "ids_properties" "structure"; el "ids_properties/homogeneous_time" "INT_0D"].
Definition head_m : meta := Meta (strs "ids_properties") KStruct [lf "homogeneous_time" INT 0].
Definition cv_old : EndModel.ids_def := {| EndModel.i_fields := head_f ++ VmapProps.ex_old; EndModel.i_meta := Meta (strs "ids") KStruct
  [head_m; Meta (strs "a") KStruct [lf "x" FLT 0; lf "y" FLT 0; Meta (strs "s") KAoS [lf "u" INT 0]]; lf "b" FLT 1; Meta (strs "gone") KStruct [lf "z" INT 0]; lf "k" FLT 3] |}.
Definition cv_new : EndModel.ids_def := {| EndModel.i_fields := head_f ++ VmapProps.ex_new; EndModel.i_meta := Meta (strs "ids") KStruct
  [head_m; Meta (strs "c") KStruct [lf "x" FLT 0; lf "w" FLT 0; Meta (strs "s") KAoS [lf "u" INT 0]]; lf "b" FLT 1; Meta (strs "extra") KStruct [lf "z" INT 0]; lf "k" STR 0] |}.
Notation om := (EndModel.i_meta cv_old).
Notation nm := (EndModel.i_meta cv_new).
Example C54_example_pair : EndProps.pair_ok (strs "ids") (EndProps.en_dict 5 cv_old) (EndProps.en_dict 20 cv_new) cv_old cv_new.
Proof.
  assert (W : VmapSpec.wf_fields (EndModel.i_fields cv_new)) by (apply VmapProofs4.wf_b_sound; vm_compute; reflexivity).
  constructor; try reflexivity; try (split; by_check).
  - cbn. lia.
  - intros (_ & H). discriminate.
  - apply VmapProofs4.pair_b_sound. vm_compute. reflexivity.
  - apply EndCheck.same_b_sound; [exact W|]. vm_compute. reflexivity.
  - apply EndCheck.inside_b_sound; [exact W|]. vm_compute. reflexivity.
  - apply EndCheck.described_b_sound. vm_compute. reflexivity.
  - apply EndCheck.described_b_sound. vm_compute. reflexivity.
  - split; reflexivity.
  - assert (X : forall p t, (exists ty, DataTypeModel.dt_parse (Some (strs t)) = Ok ty) -> VmapProofs4.good_elem (el p t)).
    { intros p t [ty H]. split; [exists (strs t), ty; auto|]. intros c E. discriminate. }
    destruct VmapProps.C20_example_good as (A & B). split; intros e I; [change (EndModel.i_fields cv_old) with (head_f ++ VmapProps.ex_old) in I|change (EndModel.i_fields cv_new) with (head_f ++ VmapProps.ex_new) in I];
      apply in_app_iff in I; (destruct I as [I|I]; [|auto]); (destruct I as [<-|[<-|[]]]; apply X; eexists; reflexivity).
  - intros e c I N E. cbn in I. repeat (destruct I as [<-|I]; [cbn in N; try discriminate; injection N as <-; discriminate|]). destruct I.
Qed.
Definition cv_at (p : path) : nattr := NcMetaProps.no_refs.
Definition nc_of (m : meta) : ncmeta := match nc_metadata cv_at 100 m with Ok r => r | Err _ => {| nc_paths := []; nc_dims := []; nc_coords := []; nc_time := []; nc_aos := [] |} end.
Definition keep (c : meta) (v : value) : result fexn value := Ok v.
Definition cv_map : nmap := match EndModel.rename_map VmapProps.same_order (fun _ => []) (EndProps.en_dict 41 cv_old) 41 (strs "ids") (EndProps.en_dict 5 cv_old) (EndProps.en_dict 20 cv_new) with Ok rm => rm | Err _ => VmapModel.empty_map end.
Definition cv_tree (l : list (string * node)) : node := st (("ids_properties", st [("homogeneous_time", NLeaf (Some (VInt 1)))]) :: l)%string.
Definition convert_file (n : node) : result fexn node := do g <- put om (nc_of om) no_units n; get_conv om (nc_of om) no_units nm no_units cv_map keep g.
Definition cv_a : string * node := ("a", st [("x", NLeaf (Some (VFlt (fl 7)))); ("y", NLeaf (Some (VFlt (fl 8)))); ("s", NAoS [st [("u", NLeaf (Some (VInt 1)))]; NStruct []; st [("u", NLeaf (Some (VInt 3)))]])])%string.
Definition cv_src : node := cv_tree [cv_a; ("b", NLeaf (Some (VFltA [2] [fl 1; fl 2])))]%string.

(** ** An example *)
(** two quantities and an array of structures in a structure that gets another name, one of them with another name as well; a vector *)
Definition cv_g : group := match put om (nc_of om) no_units cv_src with Ok g => g | Err _ => {| g_vars := []; g_shapes := []; g_sizes := [] |} end.
Definition cv_back : node := match get om (nc_of om) no_units cv_g with Ok n => n | Err _ => NLeaf None end.
Definition cv_got : node := match convert_file cv_src with Ok n => n | Err _ => NLeaf None end.
Lemma cv_dict : names_ok om /\ small_dims om /\ no_structure_errors om.
Proof. apply NcFileProps.dict_b_sound. vm_compute. reflexivity. Qed.
Lemma keep_values : keeps_values keep.
Proof. intros c dt nd v _ _. reflexivity. Qed.
Lemma cv_mode : same_mode om nm no_units no_units.
Proof.
  exists (lf "homogeneous_time" INT 0), (lf "homogeneous_time" INT 0). split; [|split; [|split; reflexivity]]; (apply meta_at_path; [by_check|reflexivity]).
Qed.
(** the map gives the counterparts *)
Section Counterparts.
Variables (name : str) (old new : EndModel.dictionary) (o n : EndModel.ids_def).
Hypothesis P : EndProps.pair_ok name old new o n.
Variable order : list str -> list str.
Variable s : VmapModel.maps.
Hypothesis Ord : VmapProps.any_order order.
Hypothesis B : VmapModel.build_map order (EndModel.i_fields o) (EndModel.i_fields n) (EndModel.d_rank old) = Ok s.
Notation C := (EndSpec.counterpart (EndModel.i_fields o) (EndModel.i_fields n) (EndModel.d_rank old)).
Lemma renamed_counterpart : forall p q, alookup p (VmapModel.m_path (o2n s)) = Some (Some q) -> C p q.
Proof.
  intros p q E. apply (proj2 (VmapProps.exact_of _ _ _ _ _ Ord (EndProps.po_cond _ _ _ _ _ P) B)) in E. destruct E as [(q' & E & M)|(E & _)]; [|discriminate]. assert (q' = q) by congruence. subst q'. destruct M as (X & Y & O). split; auto. split; auto. eauto.
Qed.
Lemma same_counterpart : forall p, VmapSpec.exists_in (EndModel.i_fields o) p -> VmapSpec.exists_in (EndModel.i_fields n) p -> alookup p (VmapModel.m_path (o2n s)) = None -> C p p.
Proof.
  intros p X Y E. split; auto. split; auto. exists false. apply (EndProps.po_same _ _ _ _ _ P); auto. intros q M.
  assert (A : alookup p (VmapModel.m_path (o2n s)) = Some (Some q)) by (apply (proj2 (VmapProps.exact_of _ _ _ _ _ Ord (EndProps.po_cond _ _ _ _ _ P) B)); left; eauto). congruence.
Qed.
End Counterparts.
Definition unchanged_b (l : list str) (p : list str) : bool := forallb (fun i => negb (existsb (str_eqb (slashed (firstn i p))) l)) (seq 0 (S (length p))).
Lemma unchanged_b_sound : forall (ch : str -> Prop) l, (forall x, ch x -> In x l) -> forall p, unchanged_b l p = true -> unchanged ch p.
Proof.
  intros ch l H p U a b E NA X. unfold unchanged_b in U. rewrite forallb_forall in U. specialize (U (length a)). rewrite E, firstn_app, firstn_all, Nat.sub_diag in U. cbn [firstn] in U. rewrite app_nil_r in U.
  assert (Q : negb (existsb (str_eqb (slashed a)) l) = true) by (apply U; apply in_seq; rewrite app_length; lia). apply Bool.negb_true_iff in Q. rewrite <- Bool.not_true_iff_false in Q. apply Q. apply existsb_exists. exists (slashed a). split; [apply H; exact X|apply str_eqb_refl].
Qed.
Definition cv_s : VmapModel.maps := match VmapModel.build_map VmapProps.same_order (EndModel.i_fields cv_old) (EndModel.i_fields cv_new) 5 with Ok s => s | Err _ => {| o2n := VmapModel.empty_map; n2o := VmapModel.empty_map |} end.
Definition fate_b (p : list str) : bool := unchanged_b (map fst (EndCheck.changing (EndModel.i_fields cv_old) (EndModel.i_fields cv_new) 5)) p &&
  match alookup (slashed p) (VmapModel.m_path (o2n cv_s)) with
  | Some (Some _) => true
  | Some None => false
  | None => existsb (fun e => str_eqb (VmapModel.e_path e) (slashed p)) (EndModel.i_fields cv_old) && existsb (fun e => str_eqb (VmapModel.e_path e) (slashed p)) (EndModel.i_fields cv_new)
  end.
Lemma fate_b_sound : forall p, fate_b p = true -> fate (EndSpec.counterpart (EndModel.i_fields cv_old) (EndModel.i_fields cv_new) 5) (EndSpec.old_changes (EndModel.i_fields cv_old) (EndModel.i_fields cv_new) 5)
  (old_gone (EndProps.en_dict 5 cv_old) cv_old cv_new) p.
Proof.
  intros p H. unfold fate_b in H. apply Bool.andb_true_iff in H. destruct H as [U H]. left. split.
  - eapply unchanged_b_sound; [|exact U]. intros x (q & X). apply in_map_iff. exists (x, q). split; [reflexivity|]. apply EndCheck.changing_complete; auto. apply VmapProofs4.wf_b_sound; vm_compute; reflexivity.
  - assert (B : VmapModel.build_map VmapProps.same_order (EndModel.i_fields cv_old) (EndModel.i_fields cv_new) (EndModel.d_rank (EndProps.en_dict 5 cv_old)) = Ok cv_s) by (vm_compute; reflexivity).
    assert (EX : forall f, existsb (fun e => str_eqb (VmapModel.e_path e) (slashed p)) f = true -> VmapSpec.exists_in f (slashed p)). { intros f X. apply existsb_exists in X. destruct X as (e & I & E). apply str_eqb_eq in E. exists e. auto. }
    destruct (alookup (slashed p) (VmapModel.m_path (o2n cv_s))) as [[q|]|] eqn:E; [|discriminate|].
    + exists q. exact (renamed_counterpart _ _ _ _ _ C54_example_pair _ _ VmapProps.same_order_any B _ _ E).
    + apply Bool.andb_true_iff in H. destruct H as [H1 H2]. exists (slashed p). exact (same_counterpart _ _ _ _ _ C54_example_pair _ _ VmapProps.same_order_any B _ (EX _ H1) (EX _ H2) E).
Qed.
(** all that C54_forward asks for, and what it gives *)
Example C54_example_forward : nc_metadata cv_at 100 om = Ok (nc_of om) /\ names_ok om /\ keeps_values keep /\ same_mode om nm no_units no_units /\
  NoDup (map v_name (g_vars cv_g)) /\ get om (nc_of om) no_units cv_g = Ok cv_back /\
  (forall v c, In v (g_vars cv_g) -> at_path om (vpath v) c -> mkind c <> KStruct ->
     fate (EndSpec.counterpart (EndModel.i_fields cv_old) (EndModel.i_fields cv_new) 5) (EndSpec.old_changes (EndModel.i_fields cv_old) (EndModel.i_fields cv_new) 5) (old_gone (EndProps.en_dict 5 cv_old) cv_old cv_new) (vpath v)) /\
  length (g_vars cv_g) = 8 /\ get_conv om (nc_of om) no_units nm no_units cv_map keep cv_g = Ok cv_got /\
  leaf_at nm cv_got [Child (strs "c"); Child (strs "w")] (VFlt (fl 8)) /\ leaf_at nm cv_got [Child (strs "c"); Child (strs "s"); Elem 2; Child (strs "u")] (VInt 3).
Proof.
  split; [vm_compute; reflexivity|]. split; [apply cv_dict|]. split; [apply keep_values|]. split; [apply cv_mode|]. split; [apply VmapProofs4.nodup_b_sound; vm_compute; reflexivity|]. split; [vm_compute; reflexivity|].
  split; [|split; [vm_compute; reflexivity|split; [vm_compute; reflexivity|]]].
  - intros v c Iv A KC. apply fate_b_sound.
    assert (Q : forallb (fun v => match meta_at om (vpath v) with Some c => match mkind c with KStruct => true | _ => fate_b (vpath v) end | None => true end) (g_vars cv_g) = true) by (vm_compute; reflexivity).
    rewrite forallb_forall in Q. specialize (Q v Iv). assert (W : wf_meta om) by by_check. rewrite (proj2 (meta_at_path (vpath v) om c W) A) in Q. destruct (mkind c); [congruence|exact Q|exact Q].
  - assert (CF : conf nm cv_got) by by_check. assert (NL : ~ is_leaf nm) by apply NcFileProps.not_leaf_ids. split; apply NcFileProps.leaf_in; auto; vm_compute; tauto.
Qed.
(** the hypotheses of C54_written *)
Example C54_example_written : wf_meta om /\ wf_meta nm /\ names_ok om /\ small_dims om /\ no_structure_errors om /\ str_ok om /\ conf om cv_src /\ time_mode om cv_src /\ int32 om cv_src.
Proof.
  assert (C : conf om cv_src) by by_check. assert (NL : ~ is_leaf om) by apply NcFileProps.not_leaf_ids. destruct cv_dict as (D1 & D2 & D3).
  split; [by_check|]. split; [by_check|]. split; [exact D1|]. split; [exact D2|]. split; [exact D3|]. split; [by_check|]. split; [exact C|]. split; [apply (NcFileProps.time_mode_in om cv_src 1 C NL); [vm_compute; tauto|auto]|apply NcFileProps.data_b_sound; auto].
Qed.

(** ** Findings *)
(** The quantity [z] was removed together with the structure that it is in: a file that has it cannot be read at all with the newer version.
    Only the path of the structure is in the map, and the code looks for the path of the variable. *)
Definition cv_lost : node := cv_tree [cv_a; ("gone", st [("z", NLeaf (Some (VInt 5)))])]%string.
Theorem C54_removed_structure_refuted : exists name old new o n rm src g n0,
  EndProps.pair_ok name old new o n /\ EndModel.rename_map VmapProps.same_order (fun _ => []) old 41 name old new = Ok rm /\
  conf (EndModel.i_meta o) src /\ put (EndModel.i_meta o) (nc_of (EndModel.i_meta o)) no_units src = Ok g /\ get (EndModel.i_meta o) (nc_of (EndModel.i_meta o)) no_units g = Ok n0 /\
  (exists a, In a [strs "gone"] /\ alookup a (VmapModel.m_path rm) = Some None /\ ~ VmapSpec.exists_in (EndModel.i_fields n) a) /\
  get_conv (EndModel.i_meta o) (nc_of (EndModel.i_meta o)) no_units (EndModel.i_meta n) no_units rm keep g = Err FAttr.
Proof.
  exists (strs "ids"), (EndProps.en_dict 5 cv_old), (EndProps.en_dict 20 cv_new), cv_old, cv_new, cv_map, cv_lost. eexists. eexists.
  split; [exact C54_example_pair|]. split; [vm_compute; reflexivity|]. split; [by_check|]. split; [vm_compute; reflexivity|]. split; [vm_compute; reflexivity|]. split.
  - exists (strs "gone"). split; [now left|]. split; [vm_compute; reflexivity|]. intros (e & I & E). cbn in I. repeat (destruct I as [<-|I]; [vm_compute in E; discriminate|]). destruct I.
  - vm_compute; reflexivity.
Qed.
(** ... although it is no problem for convert_ids, which leaves it out (C48). *)

(** A quantity inside an array of structures gets another name and becomes an integer: the number with decimals is stored in the node of the
    integer.  The code that handles changes of type is only reached for paths that do not change. *)
Definition ty_old : EndModel.ids_def := {| EndModel.i_fields := head_f ++ [el "s" "struct_array"; el "s/p" "FLT_0D"];
  EndModel.i_meta := Meta (strs "ids") KStruct [head_m; Meta (strs "s") KAoS [lf "p" FLT 0]] |}.
Definition ty_new : EndModel.ids_def := {| EndModel.i_fields := head_f ++ [el "s" "struct_array"; ren "s/q" "INT_0D" "leaf_renamed" "p"];
  EndModel.i_meta := Meta (strs "ids") KStruct [head_m; Meta (strs "s") KAoS [lf "q" INT 0]] |}.
Definition ty_src : node := cv_tree [("s", NAoS [st [("p", NLeaf (Some (VFlt (fl 5))))]])]%string.
Definition ty_map : nmap := match EndModel.rename_map VmapProps.same_order (fun _ => []) (EndProps.en_dict 41 ty_old) 41 (strs "ids") (EndProps.en_dict 5 ty_old) (EndProps.en_dict 20 ty_new) with Ok rm => rm | Err _ => VmapModel.empty_map end.
Theorem C54_type_refuted : exists name old new o n rm src g n',
  EndProps.pair_ok name old new o n /\ EndModel.rename_map VmapProps.same_order (fun _ => []) old 41 name old new = Ok rm /\
  conf (EndModel.i_meta o) src /\ put (EndModel.i_meta o) (nc_of (EndModel.i_meta o)) no_units src = Ok g /\
  get_conv (EndModel.i_meta o) (nc_of (EndModel.i_meta o)) no_units (EndModel.i_meta n) no_units rm keep g = Ok n' /\
  leaf_at (EndModel.i_meta n) n' [Child (strs "s"); Elem 0; Child (strs "q")] (VFlt (fl 5)) /\ ~ conf (EndModel.i_meta n) n'.
Proof.
  exists (strs "ids"), (EndProps.en_dict 5 ty_old), (EndProps.en_dict 20 ty_new), ty_old, ty_new, ty_map, ty_src. eexists. eexists.
  split.
  { assert (W : VmapSpec.wf_fields (EndModel.i_fields ty_new)) by (apply VmapProofs4.wf_b_sound; vm_compute; reflexivity).
    constructor; try reflexivity; try (split; by_check).
    - cbn. lia.
    - intros (_ & H). discriminate.
    - apply VmapProofs4.pair_b_sound. vm_compute. reflexivity.
    - apply EndCheck.same_b_sound; [exact W|]. vm_compute. reflexivity.
    - apply EndCheck.inside_b_sound; [exact W|]. vm_compute. reflexivity.
    - apply EndCheck.described_b_sound. vm_compute. reflexivity.
    - apply EndCheck.described_b_sound. vm_compute. reflexivity.
    - split; reflexivity.
    - assert (X : forall p t, (exists ty, DataTypeModel.dt_parse (Some (strs t)) = Ok ty) -> VmapProofs4.good_elem (el p t)).
      { intros p t [ty H]. split; [exists (strs t), ty; auto|]. intros c E. discriminate. }
      assert (Y : VmapProofs4.good_elem (ren "s/q" "INT_0D" "leaf_renamed" "p")).
      { split; [eexists; eexists; split; [reflexivity|vm_compute; reflexivity]|]. intros c E. inversion E; subst. right. exists [10%Z]. split; [reflexivity|]. split; [reflexivity|]. intros _. exists [strs "p"]. split; reflexivity. }
      split; intros e I; cbn in I; repeat (destruct I as [<-|I]; [first [exact Y|apply X; eexists; reflexivity]|]); destruct I.
    - intros e c I N E. cbn in I. repeat (destruct I as [<-|I]; [cbn in N; try discriminate; injection N as <-; discriminate|]). destruct I. }
  split; [vm_compute; reflexivity|]. split; [by_check|]. split; [vm_compute; reflexivity|]. split; [vm_compute; reflexivity|].
  match goal with |- leaf_at _ ?n _ _ /\ _ => assert (N : node_at (EndModel.i_meta ty_new) n [Child (strs "s"); Elem 0; Child (strs "q")] (lf "q" INT 0) (NLeaf (Some (VFlt (fl 5))))) end.
  { apply (na_child _ _ _ (Meta (strs "s") KAoS [lf "q" INT 0]) (NAoS [NStruct [(strs "q", NLeaf (Some (VFlt (fl 5))))]])); [right; now left|reflexivity|].
    apply (na_elem _ _ _ 0 (NStruct [(strs "q", NLeaf (Some (VFlt (fl 5))))])); [reflexivity|].
    apply (na_child _ _ _ (lf "q" INT 0) (NLeaf (Some (VFlt (fl 5))))); [now left|reflexivity|constructor]. }
  split.
  - exists (lf "q" INT 0). split; [exists INT, 0; reflexivity|]. split; [exact N|exact I].
  - intros C. pose proof (node_at_conf _ _ _ _ _ N C) as Q. clear N C. destruct (conf_leaf_inv (strs "q") INT 0 [] _ Q) as [E|(v & E & V)]; [discriminate E|].
    injection E as <-. inversion V.
Qed.
Print Assumptions C54_removed_structure_refuted.
Print Assumptions C54_type_refuted.
