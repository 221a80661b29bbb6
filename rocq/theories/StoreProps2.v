(** C31, C42: put_slice; reading what another version of the data dictionary has written; examples and a difference between the two
    computations of the time base. *)
From Verif Require Import Base TreeModel TreeSpec TreeProofs TreeCheck ConvSpec ConvProofs3 ConvProofs4 VmapModel ValProofs
  StoreModel StoreSpec StoreProofs StoreProofs2 StoreProofs3 StoreProofs4 StoreProofs5 StoreProps.
From Verif Require PrimModel.

(** * put_slice *)

(** C31: put_slice on an entry without this IDS is a put; if the stored homogeneous_time differs from that of the IDS it is refused
    before anything is changed; otherwise nothing is deleted and exactly the dynamic data nodes (and the sizes of arrays of structures)
    are passed to the backend. *)
Theorem C31_put_slice : forall dynamic xml_tbp maxoccur nbc mode verify edyn em s m fs stored,
  read_mode s = Ok stored ->
  let r := al_put_calls dynamic xml_tbp maxoccur nbc mode verify edyn em true s m (NStruct fs) in
  (stored = EMPTY_INT -> r = al_put_calls dynamic xml_tbp maxoccur nbc mode verify edyn em false s m (NStruct fs)) /\
  (stored <> EMPTY_INT -> stored <> mode -> r = Err TimeModeChanged) /\
  (stored <> EMPTY_INT -> stored = mode -> named m -> mkind m = KStruct -> conf m (NStruct fs) -> exists calls e, r = Ok (true, s, (calls, e)) /\
     (e = None -> forall k v, In (Write k v) calls <->
        exists l, leaf_at m (NStruct fs) l v /\ position_of dynamic xml_tbp nbc mode false l k /\ dynamic (loc_names l) = true)).
Proof.
  intros dynamic xml_tbp maxoccur nbc mode verify edyn em s m fs stored R r. subst r. unfold al_put_calls. rewrite R. cbn [rbind].
  split; [|split].
  - intros ->. rewrite Z.eqb_refl. reflexivity.
  - intros NE ND. apply Z.eqb_neq in NE, ND. rewrite NE, ND. reflexivity.
  - intros NE -> NM K CF. apply Z.eqb_neq in NE. rewrite NE, Z.eqb_refl. cbn [rbind].
    destruct (put_children dynamic xml_tbp maxoccur nbc mode true verify m (NStruct fs)) as [calls e] eqn:P.
    exists calls, e. split; auto. intros -> k v. rewrite (proj1 (C31_put_exact _ _ _ _ _ _ _ _ _ _ NM K CF P) k v). split.
    + intros (l & A & B & C). exists l. auto.
    + intros (l & A & B & C). exists l. auto.
Qed.
Print Assumptions C31_put_slice.

(** * Another version *)

(** C42: an IDS [fs] was put in the data dictionary (m, dynamic, xml_tbp) of the entry and is read with implicit conversion into the data
    dictionary (m2, dynamic2, xml_tbp2).  If every position that is read belongs to the entry's data dictionary, then a data node gets
    a value exactly when a filled data node of the stored IDS has the same position and type, and the arrays of structures on the way
    have enough elements there. *)
Theorem C42_get_converted : forall dynamic xml_tbp maxoccur verify mode m fs s s' dynamic2 xml_tbp2 nbc m2 n,
  named m -> wf_meta m -> mkind m = KStruct -> conf m (NStruct fs) ->
  named m2 -> wf_meta m2 -> mkind m2 = KStruct ->
  al_put dynamic xml_tbp maxoccur None mode verify dynamic m s m (NStruct fs) = (s', None) ->
  get_children dynamic2 xml_tbp2 nbc mode s' m2 = Ok n ->
  (forall l m1 aos k, loc_ok m2 l m1 -> mkind m1 <> KStruct -> position_of dynamic2 xml_tbp2 nbc mode aos l k -> erased m k) ->
  forall l v, leaf_at m2 n l v <->
    exists m' dt nd k l', loc_ok m2 l m' /\ mkind m' = KLeaf dt nd /\ position_of dynamic2 xml_tbp2 nbc mode false l k /\
      leaf_at m (NStruct fs) l' v /\ position_of dynamic xml_tbp None mode false l' k /\ (nd = 0 -> PrimModel.is_empty dt v = false) /\
      (forall a i b, l = a ++ Elem i :: b -> exists ka a' j,
         position_of dynamic2 xml_tbp2 nbc mode true a ka /\ position_of dynamic xml_tbp None mode true a' ka /\ aos_at m (NStruct fs) a' j /\ i < j).
Proof.
  intros dynamic xml_tbp maxoccur verify mode m fs s s' dynamic2 xml_tbp2 nbc m2 n NM W K CF NM2 W2 K2 P G ER l v.
  unfold al_put, al_put_calls in P. cbn [rbind] in P. cbv zeta in P. destruct (put_children _ _ _ _ _ _ _ _ _) as [calls e] eqn:R. injection P as <- ->.
  rewrite (proj1 (C42_get_exact _ _ _ _ _ _ _ NM2 W2 K2 G) l v). destruct (C31_put_exact _ _ _ _ _ _ _ _ _ _ NM K CF R) as [PW PB].
  destruct (C31_erases dynamic m s NM K) as [E1 _].
  assert (INJ : forall l l' m1 m1' aos k, loc_ok m l m1 -> loc_ok m l' m1' -> mkind m1 <> KStruct -> mkind m1' <> KStruct ->
    position_of dynamic xml_tbp None mode aos l k -> position_of dynamic xml_tbp None mode aos l' k -> l = l').
  { intros x x' m1 m1' aos k L L' Q1 Q2 P1 P2. eapply (position_inj dynamic xml_tbp mode (length x) x x' m m); eauto. }
  assert (CL : forall l m1 aos k, loc_ok m l m1 -> mkind m1 <> KStruct -> position_of dynamic xml_tbp None mode aos l k -> s_data (delete_children dynamic m s) k = None /\ s_size (delete_children dynamic m s) k = None).
  { intros x m1 aos k L K1 P1. apply E1. eapply position_erased; eauto. }
  assert (DA : forall k w, erased m k -> (s_data (apply_all (delete_children dynamic m s) calls) k = Some w <-> exists l', leaf_at m (NStruct fs) l' w /\ position_of dynamic xml_tbp None mode false l' k)).
  { intros k w EK. split.
    - intros D. apply apply_all_data in D. destruct D as [D|[_ D]]; [|rewrite (proj1 (E1 k EK)) in D; discriminate].
      apply PW in D. destruct D as (l' & A & B & _). eauto.
    - intros (l' & A & B). destruct (holds_loc m (NStruct fs) l' (ILeaf w) A) as (m1 & L1 & K1).
      apply (data_after dynamic xml_tbp maxoccur None mode verify _ m fs NM W K CF INJ CL calls R l' m1 k w L1 K1 B). exact A. }
  assert (SA : forall k j, erased m k -> (s_size (apply_all (delete_children dynamic m s) calls) k = Some j <-> exists l', aos_at m (NStruct fs) l' j /\ position_of dynamic xml_tbp None mode true l' k)).
  { intros k w EK. split.
    - intros D. apply apply_all_size in D. destruct D as [D|[_ D]]; [|rewrite (proj2 (E1 k EK)) in D; discriminate]. apply PB in D. exact D.
    - intros (l' & A & B). destruct (holds_loc m (NStruct fs) l' (ISize w) A) as (m1 & L1 & K1).
      apply (size_after dynamic xml_tbp maxoccur None mode verify _ m fs NM W K CF INJ CL calls R l' m1 k w L1 K1 B). exact A. }
  split.
  - intros (m' & dt & nd & k & L & KL & PO & D & F & NE & CV). apply DA in D; [|eapply ER; eauto; congruence]. destruct D as (l' & A & B).
    exists m', dt, nd, k, l'. repeat (split; [assumption|]). intros a i b ->. destruct (CV a i b eq_refl) as (ka & j & P1 & S1 & L1).
    apply loc_ok_split in L. destruct L as (ma & La & Lb). assert (KA : mkind ma <> KStruct) by (inversion Lb; subst; discriminate). apply SA in S1; [|eapply ER; eauto]. destruct S1 as (a' & A1 & B1). exists ka, a', j. auto.
  - intros (m' & dt & nd & k & l' & L & KL & PO & A & B & NE & CV). exists m', dt, nd, k. repeat (split; [assumption|]).
    split; [apply DA; [eapply ER; eauto; congruence|eauto]|]. split; [destruct A as (? & _ & _ & F); exact F|]. split; [assumption|].
    intros a i b ->. destruct (CV a i b eq_refl) as (ka & a' & j & P1 & P2 & A1 & L1). apply loc_ok_split in L. destruct L as (ma & La & Lb). assert (KA : mkind ma <> KStruct) by (inversion Lb; subst; discriminate).
    exists ka, j. split; auto. split; auto. apply SA; [eapply ER; eauto|eauto].
Qed.
Print Assumptions C42_get_converted.

(** * Examples *)

Definition namedb : meta -> bool :=
  fix go m := match m with Meta nm _ cs => negb (str_eqb nm []) && forallb (fun c => negb (Ascii.eqb c "/"%char)) nm && forallb go cs end.
Lemma namedb_sound : forall m, namedb m = true -> named m.
Proof.
  intros m. induction m as [nm k cs IH] using meta_ind'. intros H. cbn [namedb] in H. apply andb_true_iff in H. destruct H as [H H3]. apply andb_true_iff in H. destruct H as [H1 H2].
  constructor.
  - intros ->. discriminate.
  - intros I. rewrite forallb_forall in H2. specialize (H2 _ I). rewrite Ascii.eqb_refl in H2. discriminate.
  - intros c C. apply IH; auto. rewrite forallb_forall in H3. auto.
Qed.
Definition settledb : meta -> node -> bool :=
  fix go m n {struct m} := match m with Meta _ k cs =>
    let sb e := match e with NStruct fs => forallb (fun c => match alookup (mname c) fs with Some ch => go c ch | None => true end) cs | _ => true end in
    match k, n with
    | KLeaf dt nd, NLeaf (Some v) => negb ((nd =? 0) && PrimModel.is_empty dt v)
    | KStruct, _ => sb n
    | KAoS, NAoS els => forallb sb els
    | _, _ => true
    end end.
Lemma settledb_sound : forall m n, settledb m n = true -> settled m n.
Proof.
  intros m. induction m as [nm k cs IH] using meta_ind'.
  assert (SB : forall nm' e, match e with NStruct fs => forallb (fun c => match alookup (mname c) fs with Some ch => settledb c ch | None => true end) cs | _ => true end = true -> settled (Meta nm' KStruct cs) e).
  { intros nm' [fs|es|ov] H l m' v N dt KD; inversion N; subst; try discriminate. rewrite forallb_forall in H. specialize (H c ltac:(assumption)).
    match goal with A : alookup _ _ = Some _ |- _ => rewrite A in H end. eapply IH; eauto. }
  intros n H. cbn [settledb] in H. destruct k as [| |dt nd].
  - apply SB. destruct n; auto.
  - intros l m' v N dt KD. inversion N; subst; [discriminate|]. rewrite forallb_forall in H. eapply (SB nm); eauto. apply H. eapply nth_error_In; eauto.
  - intros l m' v N dt' KD. inversion N; subst. cbn in KD. inversion KD; subst. cbn in H. now destruct (PrimModel.is_empty dt' v).
Qed.

Definition N (s : string) : str := strs s.
(** an IDS with a dynamic array of structures that contains a static one *)
Definition ex_meta : meta :=
  Meta (N "core") KStruct
    [Meta (N "ids_properties") KStruct [Meta (N "homogeneous_time") (KLeaf INT 0) []; Meta (N "comment") (KLeaf STR 0) []];
     Meta (N "time") (KLeaf FLT 1) [];
     Meta (N "slice") KAoS [Meta (N "time") (KLeaf FLT 0) []; Meta (N "ion") KAoS [Meta (N "z") (KLeaf INT 1) []]];
     Meta (N "vacuum") KStruct [Meta (N "b0") (KLeaf FLT 1) []; Meta (N "r0") (KLeaf FLT 0) []]].
Definition ex_dynamic (p : list str) : bool :=
  existsb (str_eqb (path_of p)) [N "time"; N "slice"; N "slice/time"; N "slice/ion/z"; N "vacuum/b0"].
Definition ex_tbp (p : list str) : str := if str_eqb (path_of p) (N "time") then N "time" else if str_eqb (path_of p) (N "vacuum/b0") then N "time" else [].
Definition ex_fields (mode : Z) : TreeModel.fields :=
  [(N "ids_properties", NStruct [(N "homogeneous_time", NLeaf (Some (VInt mode))); (N "comment", NLeaf (Some (VStr (N "c"))))]);
   (N "time", NLeaf (Some (VFltA [2] [1; 2]%Z)));
   (N "slice", NAoS [NStruct [(N "time", NLeaf (Some (VFlt 7%Z))); (N "ion", NAoS [NStruct []; NStruct [(N "z", NLeaf (Some (VIntA [1] [5]%Z)))]])]; NStruct []]);
   (N "vacuum", NStruct [(N "b0", NLeaf (Some (VFltA [2] [3; 4]%Z))); (N "r0", NLeaf (Some (VFlt 9%Z)))])].
Definition no_max (_ : list str) : option nat := None.

(** the hypotheses of [C31_round_trip] hold, for each of the time modes *)
Example C31_example : forall mode, In mode [0; 1; 2]%Z ->
  named ex_meta /\ wf_meta ex_meta /\ mkind ex_meta = KStruct /\ conf ex_meta (NStruct (ex_fields mode)) /\ settled ex_meta (NStruct (ex_fields mode)) /\
  leaf_at ex_meta (NStruct (ex_fields mode)) homogeneous_time (VInt mode) /\ is_mode mode = true /\
  ex_dynamic [strs "ids_properties"] = false /\ ex_dynamic [strs "ids_properties"; strs "homogeneous_time"] = false /\
  snd (al_put ex_dynamic ex_tbp no_max None mode true ex_dynamic ex_meta empty_store ex_meta (NStruct (ex_fields mode))) = None.
Proof.
  intros mode M.
  assert (L : leaf_at ex_meta (NStruct (ex_fields mode)) homogeneous_time (VInt mode)).
  { exists (Meta (N "homogeneous_time") (KLeaf INT 0) []). split; [do 2 eexists; reflexivity|]. split; [|exact I].
    unfold homogeneous_time, ex_meta. change (strs "ids_properties") with (mname (Meta (N "ids_properties") KStruct [Meta (N "homogeneous_time") (KLeaf INT 0) []; Meta (N "comment") (KLeaf STR 0) []])).
    econstructor; [left; reflexivity|reflexivity|].
    change (strs "homogeneous_time") with (mname (Meta (N "homogeneous_time") (KLeaf INT 0) [])). econstructor; [left; reflexivity|reflexivity|constructor]. }
  split; [apply namedb_sound; vm_compute; reflexivity|]. split; [by_check|]. split; [reflexivity|].
  destruct M as [<-|[<-|[<-|[]]]]; (split; [by_check|]; split; [apply settledb_sound; vm_compute; reflexivity|]; split; [exact L|]; vm_compute; auto).
Qed.
(** in time-independent mode the dynamic nodes are not there after put and get, in homogeneous mode they are *)
Definition there_and_back (mode : Z) : result exn node :=
  al_get ex_dynamic ex_tbp None (fst (al_put ex_dynamic ex_tbp no_max None mode true ex_dynamic ex_meta empty_store ex_meta (NStruct (ex_fields mode)))) ex_meta.
Example C31_example_modes :
  there_and_back 2%Z = Ok (NStruct [(N "ids_properties", NStruct [(N "homogeneous_time", NLeaf (Some (VInt 2%Z))); (N "comment", NLeaf (Some (VStr (N "c"))))]);
                                  (N "vacuum", NStruct [(N "r0", NLeaf (Some (VFlt 9%Z)))])]) /\
  there_and_back 1%Z = Ok (NStruct (ex_fields 1%Z)) /\ there_and_back 0%Z = Ok (NStruct (ex_fields 0%Z)).
Proof. vm_compute. auto. Qed.

(** elements of an XML definition, with the former name; their attributes *)
Definition tb_elem (path ty : string) (dyn : bool) (tbp : string) (prev : option string) : elem :=
  {| e_path := strs path; e_type := Some (strs ty); e_ident := false; e_dynamic := dyn; e_tbp := strs tbp; e_psi := false;
     e_nbc := match prev with Some p => Some {| n_desc := strs "leaf_renamed"; n_versions := Versions [5%Z]; n_prev := Some [strs p] |} | None => None end |}.
Definition xml_dynamic (f : VmapModel.fields) (p : list str) : bool := existsb (fun e => str_eqb (e_path e) (path_of p) && e_dynamic e) f.
Definition xml_timebase (f : VmapModel.fields) (p : list str) : str :=
  match List.find (fun e => str_eqb (e_path e) (path_of p)) f with Some e => e_tbp e | None => [] end.

(** ** An example for [C42_get_converted]: a renamed array of structures, a renamed data node and one that was removed *)
Fixpoint tops (m : meta) : list (list str * meta) :=
  match m with
  | Meta nm KStruct cs => flat_map (fun c => map (fun x => (mname c :: fst x, snd x)) (tops c)) cs
  | m => [([], m)]
  end.
Lemma tops_spec : forall m ns m', loc_ok m (map Child ns) m' /\ mkind m' <> KStruct <-> In (ns, m') (tops m).
Proof.
  intros m. induction m as [nm k cs IH] using meta_ind'. intros ns m'. destruct k as [| |dt nd]; cbn [tops].
  - rewrite in_flat_map. split.
    + intros [L K]. destruct ns as [|x ns]; inversion L; subst; [now destruct K|]. exists c. split; auto. apply in_map_iff. exists (ns, m'). split; auto. apply IH; auto.
    + intros (c & C & I). apply in_map_iff in I. destruct I as ([ns' m1] & E & I). inversion E; subst. apply IH in I; auto. destruct I. split; auto. now constructor.
  - split; [intros [L K]; destruct ns; inversion L; subst; now left|]. intros [E|[]]. inversion E; subst. split; [constructor|discriminate].
  - split; [intros [L K]; destruct ns; inversion L; subst; now left|]. intros [E|[]]. inversion E; subst. split; [constructor|discriminate].
Qed.
(** it suffices to look at the nodes outside arrays of structures *)
Definition heads_ok (dynamic : list str -> bool) (nbc : option nmap) (mode : Z) (m m2 : meta) : bool :=
  forallb (fun x => match target_of nbc (fst x) with
                    | Gone => true
                    | Same => existsb (fun y => str_eqb (path_of (fst y)) (path_of (fst x))) (tops m)
                    | At p => existsb (fun y => str_eqb (path_of (fst y)) (fst p)) (tops m)
                    | Bad => false
                    end) (tops m2) && match tops m with [] => false | _ => forallb (fun y => negb (match fst y with [] => true | _ => false end)) (tops m) end.
Lemma heads_ok_sound : forall dynamic xml_tbp nbc mode m m2, named m2 -> mkind m2 = KStruct -> heads_ok dynamic nbc mode m m2 = true ->
  forall l m1 aos k, loc_ok m2 l m1 -> mkind m1 <> KStruct -> position_of dynamic xml_tbp nbc mode aos l k -> erased m k.
Proof.
  intros dynamic xml_tbp nbc mode m m2 NM K H. unfold heads_ok in H. apply andb_true_iff in H. destruct H as [H H2]. rewrite forallb_forall in H.
  assert (NE : forall y, In y (tops m) -> fst y <> []).
  { destruct (tops m) as [|t r]; [intros y []|]. rewrite forallb_forall in H2. intros y Y E. specialize (H2 y Y). rewrite E in H2. discriminate. }
  assert (HD : forall ns m1 aos p, loc_ok m2 (map Child ns) m1 -> mkind m1 <> KStruct -> placed dynamic xml_tbp nbc mode aos ns ns p ->
    exists ns' m', ns' <> [] /\ loc_ok m (map Child ns') m' /\ mkind m' <> KStruct /\ path_of ns' = fst p).
  { intros ns m1 aos p L K1 P. assert (I : In (ns, m1) (tops m2)) by (apply tops_spec; auto). specialize (H _ I). cbn [fst] in H.
    assert (EX : forall q, existsb (fun y => str_eqb (path_of (fst y)) q) (tops m) = true ->
        exists ns' m', ns' <> [] /\ loc_ok m (map Child ns') m' /\ mkind m' <> KStruct /\ path_of ns' = q).
    { intros q E. apply existsb_exists in E. destruct E as ([ns' m'] & Y & Q). apply str_eqb_eq in Q. exists ns', m'. split; [exact (NE _ Y)|]. apply tops_spec in Y. destruct Y; auto. }
    inversion P; subst; rewrite H0 in H; apply EX in H; exact H. }
  intros l m1 aos [c q] L K1 P. unfold position_of in P. apply position_split in P. destruct P as [(ns & -> & -> & PL)|(ns & i & l2 & p & c2 & -> & -> & PL & PO)].
  - exact (HD ns m1 aos q L K1 PL).
  - destruct (child_path _ _ _ _ L NM) as (ma & A & B & NA & SA). inversion B; subst. exact (HD ns (Meta nm KAoS cs) true p A ltac:(discriminate) PL).
Qed.

Definition cv_old : VmapModel.fields :=
  [tb_elem "ids_properties" "structure" false "" None; tb_elem "ids_properties/homogeneous_time" "INT_0D" false "" None;
   tb_elem "gone" "FLT_0D" false "" None; tb_elem "slice" "struct_array" true "" None; tb_elem "slice/x" "FLT_0D" true "" None;
   tb_elem "slice/keep" "FLT_0D" true "" None].
Definition cv_new : VmapModel.fields :=
  [tb_elem "ids_properties" "structure" false "" None; tb_elem "ids_properties/homogeneous_time" "INT_0D" false "" None;
   tb_elem "part" "struct_array" true "" (Some "slice"%string); tb_elem "part/y" "FLT_0D" true "" (Some "x"%string); tb_elem "part/keep" "FLT_0D" true "" None;
   tb_elem "more" "FLT_0D" false "" None].
Definition cv_old_meta : meta :=
  Meta (N "core") KStruct [Meta (N "ids_properties") KStruct [Meta (N "homogeneous_time") (KLeaf INT 0) []]; Meta (N "gone") (KLeaf FLT 0) [];
                           Meta (N "slice") KAoS [Meta (N "x") (KLeaf FLT 0) []; Meta (N "keep") (KLeaf FLT 0) []]].
Definition cv_new_meta : meta :=
  Meta (N "core") KStruct [Meta (N "ids_properties") KStruct [Meta (N "homogeneous_time") (KLeaf INT 0) []];
                           Meta (N "part") KAoS [Meta (N "y") (KLeaf FLT 0) []; Meta (N "keep") (KLeaf FLT 0) []]; Meta (N "more") (KLeaf FLT 0) []].
Definition cv_fields : TreeModel.fields :=
  [(N "ids_properties", NStruct [(N "homogeneous_time", NLeaf (Some (VInt 0%Z)))]); (N "gone", NLeaf (Some (VFlt 3%Z)));
   (N "slice", NAoS [NStruct [(N "x", NLeaf (Some (VFlt 7%Z)))]; NStruct [(N "keep", NLeaf (Some (VFlt 8%Z)))]])].
Example C42_example : exists s st, build_map (fun l => l) cv_old cv_new 4 = Ok s /\
  st = al_put (xml_dynamic cv_old) (xml_timebase cv_old) no_max None 0%Z false (xml_dynamic cv_old) cv_old_meta empty_store cv_old_meta (NStruct cv_fields) /\ snd st = None /\
  named cv_old_meta /\ wf_meta cv_old_meta /\ conf cv_old_meta (NStruct cv_fields) /\ named cv_new_meta /\ wf_meta cv_new_meta /\
  (forall l m1 aos k, loc_ok cv_new_meta l m1 -> mkind m1 <> KStruct -> position_of (xml_dynamic cv_new) (xml_timebase cv_new) (Some (n2o s)) 0 aos l k -> erased cv_old_meta k) /\
  (* the stored x is read as y, in the renamed array of structures *)
  get_children (xml_dynamic cv_new) (xml_timebase cv_new) (Some (n2o s)) 0 (fst st) cv_new_meta =
    Ok (NStruct [(N "ids_properties", NStruct [(N "homogeneous_time", NLeaf (Some (VInt 0%Z)))]);
                 (N "part", NAoS [NStruct [(N "y", NLeaf (Some (VFlt 7%Z)))]; NStruct [(N "keep", NLeaf (Some (VFlt 8%Z)))]])]).
Proof.
  destruct (build_map (fun l => l) cv_old cv_new 4) as [s|] eqn:B; [|vm_compute in B; discriminate].
  exists s. eexists. split; [reflexivity|]. vm_compute in B. injection B as <-. split; [reflexivity|]. split; [vm_compute; reflexivity|].
  split; [apply namedb_sound; vm_compute; reflexivity|]. split; [by_check|]. split; [by_check|].
  split; [apply namedb_sound; vm_compute; reflexivity|]. split; [by_check|].
  split; [apply heads_ok_sound; [apply namedb_sound; vm_compute; reflexivity|reflexivity|vm_compute; reflexivity]|]. vm_compute. reflexivity.
Qed.

(** * The time base of a renamed quantity *)

(** Finding.  For a renamed data node, the version map takes the time base from the XML definition as it is (ids_convert.py:495-506), while
    ids_metadata.py:190-203 ignores it inside a dynamic array of structures (and for nodes that are not dynamic).  A quantity that was
    stored by the version that has the new name is then looked up at another position: with a backend for which the time base is part
    of the position, its value is not found. *)
Definition tb_old : VmapModel.fields :=
  [tb_elem "ids_properties" "structure" false "" None; tb_elem "ids_properties/homogeneous_time" "INT_0D" false "" None;
   tb_elem "slice" "struct_array" true "" None; tb_elem "slice/x" "FLT_0D" true "slice/time" None].
Definition tb_new : VmapModel.fields :=
  [tb_elem "ids_properties" "structure" false "" None; tb_elem "ids_properties/homogeneous_time" "INT_0D" false "" None;
   tb_elem "slice" "struct_array" true "" None; tb_elem "slice/y" "FLT_0D" true "slice/time" (Some "x"%string)].
Definition tb_meta (nm : string) : meta :=
  Meta (N "core") KStruct [Meta (N "ids_properties") KStruct [Meta (N "homogeneous_time") (KLeaf INT 0) []];
                           Meta (N "slice") KAoS [Meta (N nm) (KLeaf FLT 0) []]].
Definition tb_fields (nm : string) : TreeModel.fields :=
  [(N "ids_properties", NStruct [(N "homogeneous_time", NLeaf (Some (VInt 0%Z)))]); (N "slice", NAoS [NStruct [(N nm, NLeaf (Some (VFlt 7%Z)))]])].

Theorem C42_timebase_refuted : exists v s st, build_map (fun l => l) tb_old tb_new v = Ok s /\
  alookup (strs "slice/y") (m_path (n2o s)) = Some (Some (strs "slice/x")) /\
  st = al_put (xml_dynamic tb_old) (xml_timebase tb_old) no_max None 0%Z false (xml_dynamic tb_old) (tb_meta "x") empty_store (tb_meta "x") (NStruct (tb_fields "x")) /\
  snd st = None /\
  (* read back by the same version *)
  al_get (xml_dynamic tb_old) (xml_timebase tb_old) None (fst st) (tb_meta "x") = Ok (NStruct (tb_fields "x")) /\
  (* read by the new version: the element is there, its value is not *)
  al_get (xml_dynamic tb_new) (xml_timebase tb_new) (Some (n2o s)) (fst st) (tb_meta "y") =
    Ok (NStruct [(N "ids_properties", NStruct [(N "homogeneous_time", NLeaf (Some (VInt 0%Z)))]); (N "slice", NAoS [NStruct []])]).
Proof.
  destruct (build_map (fun l => l) tb_old tb_new 4) as [s|] eqn:B; [|vm_compute in B; discriminate].
  exists 4%Z, s. eexists. split; [exact B|]. vm_compute in B. injection B as <-. split; [vm_compute; reflexivity|]. split; [reflexivity|].
  split; [vm_compute; reflexivity|]. split; vm_compute; reflexivity.
Qed.
Print Assumptions C42_timebase_refuted.
