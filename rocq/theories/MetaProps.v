(** C49: the metadata of an IDS is what its XML definition says, and the rest of the library uses it consistently. *)
From Verif Require Import Base DataTypeModel HashModel PathModel PathSpec PathProofs3 TreeModel TreeSpec ConvSpec ConvProofs3 ValModel EndSpec EndModel EndProps.
From Verif Require Import MetaModel MetaSpec MetaProofs MetaProofs2 MetaProofs3 MetaProofs4.
From Verif Require VmapModel VmapSpec VmapProofs4 StoreModel NcEntryModel.

(** Metadata can be built exactly when every element is usable and the IDS itself has no time base. *)
Theorem C49_builds : forall x, (exists t, toplevel_metadata x = Ok t) <-> (forall y, part_of x y -> usable y) /\ no_own_time x.
Proof.
  intros x. split.
  - intros (t & B). destruct (build_usable _ _ _ _ B) as (U & N). auto.
  - intros (U & N). apply build_ok; auto.
Qed.
Print Assumptions C49_builds.

(** Every element has its node, at the path of its names, with the attributes of MetaSpec.v and the children in the order of the
    definition; there are no other nodes. *)
Theorem C49_nodes : forall x t, toplevel_metadata x = Ok t -> distinct_names x -> (forall p y, elem_at x p y -> ~ In [] p) ->
  (forall p y, elem_at x p y -> exists m, descend t p = Some m /\ node_is x p y (tinfo m) /\ map (attr "name") (xchildren y) = map Some (map fst (tchildren m))) /\
  (forall p m, descend t p = Some m -> exists y, elem_at x p y).
Proof.
  intros x t B D NE. split.
  - intros p y E. destruct (build_inv _ _ _ _ B) as (k & d & I & _). exact (build_down x D NE p x y [] t [] None E (elem_here _) B (node_top _ _ _ I)).
  - intros p m E. exact (descend_up p x t m [] None D B E).
Qed.
Print Assumptions C49_nodes.

(** Names that are joined by slashes or dots, in any mixture *)
Inductive written : list str -> str -> Prop :=
| written_one : forall n, ~ In "/"%char n -> ~ In "."%char n -> written [n] n
| written_more : forall n c p s, ~ In "/"%char n -> ~ In "."%char n -> c = "/"%char \/ c = "."%char -> written p s -> written (n :: p) (n ++ c :: s).
Lemma is_sep_iff : forall c, is_sep c = true <-> c = "/"%char \/ c = "."%char.
Proof. intros c. unfold is_sep. rewrite orb_true_iff, !Ascii.eqb_eq. tauto. Qed.
Lemma no_seps : forall n, ~ In "/"%char n -> ~ In "."%char n -> forall d, In d n -> is_sep d = false.
Proof. intros n S P d I. destruct (is_sep d) eqn:E; [|reflexivity]. apply is_sep_iff in E. destruct E as [-> | ->]; contradiction. Qed.
Lemma written_iff : forall s p, written p s <-> split_seps s = p.
Proof.
  intros s p. split.
  - induction 1 as [n S P|n c p s S P C W IH]; [apply split_seps_none, no_seps; assumption|]. rewrite split_seps_cons; [congruence|apply no_seps; assumption|apply is_sep_iff; assumption].
  - revert p. induction s as [|c s IH]; intros p <-; cbn [split_seps]; [constructor; intros []|]. destruct (is_sep c) eqn:E.
    + apply (written_more [] c (split_seps s) s); auto. apply is_sep_iff. assumption.
    + specialize (IH _ eq_refl). assert (NS : c <> "/"%char /\ c <> "."%char) by (split; intros ->; discriminate). destruct NS as (N1 & N2).
      inversion IH as [n S P HP HN|n d q r S P C W HP HN]; subst.
      * constructor; intros [J|J]; congruence || contradiction.
      * apply (written_more (c :: n) d q r); auto; intros [J|J]; congruence || contradiction.
Qed.
(** [metadata["a/b.c"]] is the node of that element, or an error. *)
Theorem C49_getitem : forall x t, toplevel_metadata x = Ok t -> distinct_names x -> (forall p y, elem_at x p y -> ~ In [] p) -> forall s,
  (forall p y, written p s -> elem_at x p y -> exists m, getitem t s = Some m /\ node_is x p y (tinfo m)) /\
  (getitem t s = None <-> forall p y, written p s -> ~ elem_at x p y).
Proof.
  intros x t B D NE s. destruct (C49_nodes _ _ B D NE) as (H1 & H2). unfold getitem. split.
  - intros p y W E. apply written_iff in W. rewrite W. destruct (H1 _ _ E) as (m & M & NI & _). eauto.
  - split.
    + intros N p y W E. apply written_iff in W. rewrite W in N. destruct (H1 _ _ E) as (m & M & _). congruence.
    + intros H. destruct (descend t (split_seps s)) as [m|] eqn:E; [|reflexivity]. exfalso. destruct (H2 _ _ E) as (y & EY). exact (H _ y (proj2 (written_iff _ _) eq_refl) EY).
Qed.
Print Assumptions C49_getitem.

(** ** The same definition in the map between versions *)
(** The context path that is written into the map is the one of the metadata. *)
Theorem C49_map_context : forall version x t, definition x -> toplevel_metadata x = Ok t -> forall p m, p <> [] -> descend t p = Some m ->
  VmapModel.get_ctxpath (x_path_string (tinfo m)) (VmapModel.by_path (fields_of version x)) = Ok (x_ctx (tinfo m)).
Proof.
  intros version x t DF B p m NP E. destruct (node_back x DF t B _ _ E) as (y & EY & NI).
  destruct (ni_path _ _ _ _ NI) as (-> & _). unfold attr_or. rewrite (df_path _ DF _ _ EY NP). destruct (ni_context _ _ _ _ NI) as [(-> & _)|C]; [contradiction|].
  apply (ctx_loop version x DF t B p _ y); assumption.
Qed.
Print Assumptions C49_map_context.
(** The time base that is written into the map is the one of the metadata for arrays of structures; for data it is the attribute of the
    definition, which is that of the metadata exactly if it is empty or the quantity varies and is not inside something that varies. *)
Theorem C49_map_time_base : forall version x t, definition x -> toplevel_metadata x = Ok t -> forall p y m, p <> [] -> elem_at x p y -> descend t p = Some m ->
  exists b, VmapModel.get_tbp (elem_of version (xattrib y)) (VmapModel.by_path (fields_of version x)) = Ok b /\
  (is_array_of_structures y -> b = x_tbp (tinfo m)) /\
  (~ is_array_of_structures y -> b = attr_or "timebasepath" y /\
     (b = x_tbp (tinfo m) <-> attr_or "timebasepath" y = [] \/ (varies y /\ ~ inside_varying x p))).
Proof.
  intros version x t DF B p y m NP EY E. destruct (node_back x DF t B _ _ E) as (y' & EY' & NI). rewrite (elem_fun _ _ _ _ (df_distinct _ DF) EY' EY) in NI. clear y' EY'.
  assert (VB : VmapModel.e_dynamic (elem_of version (xattrib y)) = true <-> varies y).
  { cbn [elem_of VmapModel.e_dynamic]. unfold varies. change (att "type" (xattrib y)) with (attr "type" y). destruct (attr "type" y) as [s|]; [rewrite str_eqb_eq; split; congruence|split; discriminate]. }
  unfold VmapModel.get_tbp. destruct (ni_time _ _ _ _ NI) as (T1 & T2). destruct (VmapModel.is_type "struct_array" (elem_of version (xattrib y))) eqn:EA.
  - apply array_elem in EA. destruct (T1 EA) as (T3 & T4). destruct (VmapModel.e_dynamic (elem_of version (xattrib y))) eqn:ED; cbn [negb].
    + rewrite (elem_path version x DF p y EY NP). destruct (ni_context _ _ _ _ NI) as [(-> & _)|C]; [contradiction|]. rewrite (ctx_loop version x DF t B p _ y EY C). cbn [rbind].
      eexists. split; [reflexivity|]. split; [intros _; symmetry; apply T3, VB; reflexivity|]. intros N. contradiction.
    + eexists. split; [reflexivity|]. split; [|intros N; contradiction]. intros _. symmetry. apply T4. intros V. apply VB in V. discriminate.
  - assert (NA : ~ is_array_of_structures y) by (intros A; apply (array_elem version) in A; congruence). eexists. split; [reflexivity|]. split; [intros A; contradiction|]. intros _. split; [reflexivity|].
    destruct (T2 NA) as (T3 & T4). cbn [elem_of VmapModel.e_tbp]. change (att_or "timebasepath" [] (xattrib y)) with (attr_or "timebasepath" y).
    assert (IV : inside_varying x p \/ ~ inside_varying x p).
    { assert (N := ni_inside _ _ _ _ NI). assert (VD : varies y \/ ~ varies y) by (unfold varies; destruct (attr "type" y) as [s|]; [destruct (str_dec s (strs "dynamic")); [left|right]; congruence|right; discriminate]).
      destruct p as [|n p] using rev_ind; [contradiction|]. clear IHp. destruct (elem_split p [n] x y EY) as (z & EZ & EC). destruct (node_at_def x DF t B p z EZ) as (mz & _ & NZ & _).
      destruct (x_is_dynamic (tinfo mz)) eqn:EX.
      - left. apply (ni_inside _ _ _ _ NZ) in EX. destruct EX as (NN & [V|(a & b & w & -> & NA' & NB & EW & V)]).
        + exists p, [n], z. repeat split; auto. discriminate.
        + exists a, (b ++ [n]), w. rewrite app_assoc. repeat split; auto. destruct b; discriminate.
      - right. intros (a & b & w & E1 & NA' & NB & EW & V). destruct (snoc_split _ _ _ _ E1 NB) as (b' & -> & ->). assert (X : x_is_dynamic (tinfo mz) = true); [|congruence].
        apply (ni_inside _ _ _ _ NZ). split; [destruct a; [contradiction|discriminate]|]. destruct b' as [|u b']; [left|right].
        + rewrite app_nil_r in EZ. rewrite (elem_fun _ _ _ _ (df_distinct _ DF) EZ EW). assumption.
        + exists a, (u :: b'), w. repeat split; auto. discriminate. }
    assert (VD : varies y \/ ~ varies y) by (unfold varies; destruct (attr "type" y) as [s|]; [destruct (str_dec s (strs "dynamic")); [left|right]; congruence|right; discriminate]).
    split.
    + intros EB. destruct VD as [V|V]; [destruct IV as [I|I]|]; auto; left; rewrite EB; apply T4; auto.
    + intros [E0|(V & I)]; [|symmetry; apply T3; assumption]. rewrite E0. symmetry. destruct VD as [V|V]; [destruct IV as [I|I]|]; [apply T4; auto|rewrite <- E0; apply T3; auto|apply T4; auto].
Qed.
Print Assumptions C49_map_time_base.

(** ** The same definition when an IDS is stored (StoreModel.v) *)
(** the position that StoreModel.v computes on the way down to a node *)
Inductive reached (dynamic : list str -> bool) (t : mtree) : StoreModel.pos -> list str -> mtree -> Prop :=
| reached_top : reached dynamic t StoreModel.top [] t
| reached_child : forall q p m n c, reached dynamic t q p m -> alookup n (tchildren m) = Some c -> reached dynamic t (StoreModel.below dynamic q (erase c)) (p ++ [n]) c.
Lemma reached_inv : forall dynamic x t, definition x -> toplevel_metadata x = Ok t -> (forall p y, elem_at x p y -> (dynamic p = true <-> varies y)) ->
  forall q p m, reached dynamic t q p m -> exists y cp par, elem_at x p y /\ build y cp par = Ok m /\ StoreModel.p_names q = p /\ StoreModel.p_ctx q = child_ctx (tinfo m) /\ StoreModel.p_dyn q = x_is_dynamic (tinfo m).
Proof.
  intros dynamic x t DF B DY q p m R. induction R as [|q p m n c R (y & cp & par & EY & BM & I1 & I2 & I3) L].
  - exists x, [], None. destruct (build_inv _ _ _ _ B) as (k & d & I & _). apply init_inv in I. destruct I as (LI & C & _ & DI & _). unfold ctx_is, dyn_is in *.
    split; [constructor|]. split; [assumption|]. split; [reflexivity|]. split; [|rewrite DI; reflexivity]. unfold child_ctx. rewrite C. destruct (is_array (x_dtype (tinfo t))); reflexivity.
  - assert (ND : NoDup (map (attr "name") (xchildren y))) by (apply (df_distinct _ DF); eapply elem_part; eauto).
    destruct (F2_lookup (fun z v => build z (child_ctx (tinfo m)) (Some (tinfo m)) = Ok v) _ _ (build_children _ _ _ _ BM ND) _ _ L) as (z & IZ & NZ & BZ).
    assert (EZ : elem_at x (p ++ [n]) z) by (eapply elem_app; [eassumption|]; econstructor; [eassumption|assumption|constructor]).
    exists z, (child_ctx (tinfo m)), (Some (tinfo m)). split; [assumption|]. split; [assumption|].
    destruct (build_inv _ _ _ _ BZ) as (k & d & I & _). apply init_inv in I. destruct I as (LI & C & _ & DI & _). unfold ctx_is, dyn_is in *.
    assert (EN : x_name (tinfo c) = n) by (assert (X := li_name _ _ _ LI); congruence). unfold StoreModel.below. rewrite erase_name, EN, I1. cbn [StoreModel.p_names StoreModel.p_ctx StoreModel.p_dyn].
    split; [reflexivity|]. split.
    + unfold child_ctx at 1. rewrite erase_eq. cbn [mkind]. unfold StoreModel.ctx_path. rewrite I2. rewrite EN in C.
      destruct (x_dtype (tinfo c)) as [[]|]; cbn [kind_of is_array]; try reflexivity; rewrite C; destruct (child_ctx (tinfo m)); reflexivity.
    + rewrite DI, I3. assert (X := DY _ _ EZ). assert (Y := dyn_iff _ _ (li_time _ _ _ LI)). f_equal. unfold varies in X. destruct (dynamic (p ++ [n])), (is_dynamic (x_type (tinfo c))); auto; exfalso; intuition congruence.
Qed.
(** StoreModel.v passes the context path and the time base of the metadata to the lowlevel interface. *)
Theorem C49_store : forall dynamic xml_tbp x t, definition x -> toplevel_metadata x = Ok t -> (forall p y, elem_at x p y -> (dynamic p = true <-> varies y)) ->
  (forall p y, elem_at x p y -> xml_tbp p = attr_or "timebasepath" y) -> forall q p m n c, reached dynamic t q p m -> alookup n (tchildren m) = Some c ->
  StoreModel.ctx_path q (mname (erase c)) = x_ctx (tinfo c) /\ StoreModel.timebasepath dynamic xml_tbp q (erase c) = x_tbp (tinfo c).
Proof.
  intros dynamic xml_tbp x t DF B DY TB q p m n c R L. destruct (reached_inv dynamic x t DF B DY _ _ _ R) as (y & cp & par & EY & BM & I1 & I2 & I3).
  assert (ND : NoDup (map (attr "name") (xchildren y))) by (apply (df_distinct _ DF); eapply elem_part; eauto).
  destruct (F2_lookup (fun z v => build z (child_ctx (tinfo m)) (Some (tinfo m)) = Ok v) _ _ (build_children _ _ _ _ BM ND) _ _ L) as (z & IZ & NZ & BZ).
  assert (EZ : elem_at x (p ++ [n]) z) by (eapply elem_app; [eassumption|]; econstructor; [eassumption|assumption|constructor]).
  destruct (build_inv _ _ _ _ BZ) as (k & d & I & _). apply init_inv in I. destruct I as (LI & C & T & _). unfold ctx_is, tbp_is in *.
  assert (EN : x_name (tinfo c) = n) by (assert (X := li_name _ _ _ LI); congruence). rewrite EN in C.
  assert (CX : StoreModel.ctx_path q n = x_ctx (tinfo c)) by (unfold StoreModel.ctx_path; rewrite I2, C; destruct (child_ctx (tinfo m)); reflexivity).
  split; [rewrite erase_name, EN; assumption|]. unfold StoreModel.timebasepath. rewrite erase_name, EN, I1, I3, CX, (TB _ _ EZ).
  assert (X := DY _ _ EZ). assert (Y := dyn_iff _ _ (li_time _ _ _ LI)). unfold varies in X.
  assert (ED : dynamic (p ++ [n]) = is_dynamic (x_type (tinfo c))) by (destruct (dynamic (p ++ [n])), (is_dynamic (x_type (tinfo c))); auto; exfalso; intuition congruence).
  rewrite ED. rewrite erase_eq. cbn [mkind]. destruct (x_dtype (tinfo c)) as [[]|]; cbn [kind_of is_array] in *; destruct (is_dynamic (x_type (tinfo c))); cbn [negb orb]; auto; destruct (x_is_dynamic (tinfo m)); auto.
Qed.
Print Assumptions C49_store.

(** ** A conversion between two definitions *)
(** How changes are described: a list of versions, and as many previous names for a change of name *)
Definition changes_ok (version : str -> option Z) (x : xml) : Prop := forall y d, part_of x y -> attr "change_nbc_description" y = Some d ->
  exists s, attr "change_nbc_version" y = Some s /\ (all_versions version (split_on ","%char s) = None \/
    exists vs, all_versions version (split_on ","%char s) = Some vs /\ VmapModel.sortedZ vs = true /\
      (In d (map strs ["aos_renamed"; "leaf_renamed"; "structure_renamed"]%string) ->
       exists names, attr "change_nbc_previous_name" y = Some names /\ length (split_on ","%char names) = length (split_on ","%char s))).
Lemma all_versions_length : forall version l vs, all_versions version l = Some vs -> length vs = length l.
Proof.
  induction l as [|s l IH]; intros vs E; cbn in E; [injection E as <-; reflexivity|]. destruct (version s); [|discriminate]. destruct (all_versions version l); [|discriminate].
  injection E as <-. cbn. f_equal. apply IH. reflexivity.
Qed.
Lemma def_good : forall version x t, definition x -> toplevel_metadata x = Ok t -> changes_ok version x ->
  (forall e, In e (fields_of version x) -> VmapProofs4.good_elem e) /\ (forall e c, In e (fields_of version x) -> VmapModel.e_nbc e = Some c -> VmapModel.n_versions c <> VmapModel.Versions []).
Proof.
  intros version x t DF B CH. split.
  - intros e I. apply (field_iff version x DF) in I. destruct I as (p & y & NP & EY & ->). assert (P := elem_part _ _ _ EY). split.
    + cbn [elem_of VmapModel.e_type]. change (att "data_type" (xattrib y)) with (attr "data_type" y). destruct (us_type _ (def_usable x t B y P)) as (ty & n & T & _).
      assert (N := df_type _ DF _ _ EY NP). destruct (attr "data_type" y) as [s|]; [|congruence]. exists s, (ty, n). auto.
    + intros c EC. cbn [elem_of VmapModel.e_nbc] in EC. change (att "change_nbc_description" (xattrib y)) with (attr "change_nbc_description" y) in EC.
      destruct (attr "change_nbc_description" y) as [d|] eqn:ED; [|discriminate]. injection EC as <-. cbn [VmapModel.n_versions VmapModel.n_desc VmapModel.n_prev].
      change (att "change_nbc_version" (xattrib y)) with (attr "change_nbc_version" y). change (att "change_nbc_previous_name" (xattrib y)) with (attr "change_nbc_previous_name" y).
      destruct (CH y d P ED) as (s & -> & [-> |(vs & EV & SO & PN)]); [left; reflexivity|]. right. rewrite EV. exists vs. split; [reflexivity|]. split; [assumption|].
      intros RN. destruct PN as (names & -> & LN); [cbn [map In]; destruct RN as [-> |[-> | ->]]; auto|]. exists (split_on ","%char names). split; [reflexivity|]. rewrite (all_versions_length _ _ _ EV). assumption.
  - intros e c I EC. apply (field_iff version x DF) in I. destruct I as (p & y & NP & EY & ->). cbn [elem_of VmapModel.e_nbc] in EC. destruct (att "change_nbc_description" (xattrib y)) as [d|]; [|discriminate].
    injection EC as <-. cbn [VmapModel.n_versions]. destruct (att "change_nbc_version" (xattrib y)) as [s|]; [|discriminate]. destruct (all_versions version (split_on ","%char s)) as [vs|] eqn:EV; [|discriminate].
    intros X. injection X as ->. apply all_versions_length in EV. assert (N := split_on_nonnil ","%char s). destruct (split_on ","%char s); [contradiction|discriminate].
Qed.
(** What C48 needs to know of the two versions follows from their XML definitions, except for how their changes fit together. *)
Theorem C49_conversion : forall version name old new xo xn to tn, definition xo -> definition xn -> toplevel_metadata xo = Ok to -> toplevel_metadata xn = Ok tn ->
  changes_ok version xo -> changes_ok version xn ->
  let o := {| i_fields := fields_of version xo; i_meta := erase to |} in let n := {| i_fields := fields_of version xn; i_meta := erase tn |} in
  alookup name (d_ids old) = Some o -> alookup name (d_ids new) = Some n -> (d_rank old <= d_rank new)%Z -> ~ (d_major old = 3%Z /\ d_xml_major new = Some 4%Z) ->
  VmapSpec.plain_names (i_fields n) (d_rank old) -> VmapSpec.no_reuse (i_fields o) (i_fields n) (d_rank old) -> VmapSpec.no_sibling (i_fields o) (i_fields n) (d_rank old) ->
  VmapSpec.one_successor (i_fields o) (i_fields n) (d_rank old) -> VmapSpec.supported_renames (i_fields o) (i_fields n) (d_rank old) ->
  VmapSpec.no_capture (i_fields o) (i_fields n) (d_rank old) -> same_quantity (i_fields o) (i_fields n) (d_rank old) -> types_inside (i_fields o) (i_fields n) (d_rank old) ->
  pair_ok name old new o n.
Proof.
  intros version name old new xo xn to tn DO DN BO BN CO CN o n L1 L2 RK MJ H1 H2 H3 H4 H5 H6 H7 H8.
  destruct (def_good _ _ _ DO BO CO) as (GO & _). destruct (def_good _ _ _ DN BN CN) as (GN & VN).
  destruct (def_wf_meta version xo DO to BO) as (W1 & S1 & K1). destruct (def_wf_meta version xn DN tn BN) as (W2 & S2 & K2).
  constructor; auto.
  - unfold VmapProofs4.conditions. split; [apply (def_wf_fields version xo DO to BO)|]. split; [apply (def_wf_fields version xn DN tn BN)|]. auto 10.
  - apply (def_described version xo DO to BO).
  - apply (def_described version xn DN tn BN).
Qed.
Print Assumptions C49_conversion.

(** ** Checking definitions by computation *)
Definition structural (y : xml) : bool := match dt_parse (attr "data_type" y) with Ok (Some t, _) => match t with T_STRUCTURE | T_STRUCT_ARRAY => true | _ => false end | _ => true end.
Definition here_b (x : xml) : bool :=
  VmapProofs4.nodup_b (map nm (xchildren x)) && forallb (fun c => match attr "name" c with Some n => valid_field n | None => false end) (xchildren x) &&
  (structural x || match xchildren x with [] => true | _ => false end).
Definition def_b (x : xml) : bool :=
  here_b x && match attr "name" x with Some _ => true | None => false end && match attr "data_type" x with None => true | Some _ => false end &&
  forallb (fun qy => here_b (snd qy) && str_eqb (xtag (snd qy)) (strs "field") && match attr "path" (snd qy) with Some s => str_eqb s (slashed (fst qy)) | None => false end
                     && match attr "data_type" (snd qy) with Some _ => true | None => false end) (walk x []).
Lemma walk_part : forall x p y, part_of x y -> y = x \/ exists q, In (q, y) (walk x p).
Proof.
  intros x p y P. revert p. induction P as [x|x c y I P IH]; intros p; [left; reflexivity|]. right. rewrite walk_eq. unfold walks. destruct (IH (p ++ [nm c])) as [-> |(q & J)].
  - exists (p ++ [nm c]). apply in_flat_map. exists c. split; [assumption|left; reflexivity].
  - exists q. apply in_flat_map. exists c. split; [assumption|right; assumption].
Qed.
Lemma def_b_sound : forall x, def_b x = true -> definition x.
Proof.
  intros x H. unfold def_b in H. rewrite !andb_true_iff in H. destruct H as (((HX & HN) & HT) & HW). rewrite forallb_forall in HW.
  assert (HB : forall y, part_of x y -> here_b y = true).
  { intros y P. destruct (walk_part x [] y P) as [-> |(q & I)]; [assumption|]. specialize (HW _ I). cbn [fst snd] in HW. rewrite !andb_true_iff in HW. tauto. }
  assert (CN : forall y c, part_of x y -> In c (xchildren y) -> exists n, attr "name" c = Some n /\ valid_field n = true).
  { intros y c P I. specialize (HB y P). unfold here_b in HB. rewrite !andb_true_iff in HB. destruct HB as ((_ & HC) & _). rewrite forallb_forall in HC. specialize (HC c I). destruct (attr "name" c) as [n|]; [eauto|discriminate]. }
  assert (NM : forall y, part_of x y -> exists n, attr "name" y = Some n).
  { intros y P. destruct (walk_part x [] y P) as [-> |(q & I)]; [destruct (attr "name" x); [eauto|discriminate]|]. clear - P CN HN.
    assert (X : forall z w, part_of z w -> part_of x z -> (exists n, attr "name" z = Some n) -> exists n, attr "name" w = Some n).
    { intros z w Q. induction Q as [z|z c w I Q IH]; intros PZ NZ; [assumption|]. apply IH.
      - clear - PZ I. induction PZ as [a|a b c' I' P' IH']; [econstructor; [eassumption|constructor]|econstructor; [exact I'|auto]].
      - destruct (CN z c PZ I) as (n & N & _). eauto. }
    apply (X x y P (part_here _)). destruct (attr "name" x); [eauto|discriminate]. }
  constructor.
  - intros y P. assert (B := HB y P). unfold here_b in B. rewrite !andb_true_iff in B. destruct B as ((B & HC) & _). apply VmapProofs4.nodup_b_sound in B.
    rewrite forallb_forall in HC. revert B HC. generalize (xchildren y). induction l as [|c l IH]; intros B HC; cbn [map]; [constructor|]. inversion B as [|? ? NI B']; subst. constructor.
    + intros I. apply NI. apply in_map_iff in I. destruct I as (d & E & I). apply in_map_iff. exists d. split; [unfold nm; rewrite E; reflexivity|assumption].
    + apply IH; auto. intros d I. apply HC. right. assumption.
  - destruct (attr "data_type" x); [discriminate|reflexivity].
  - intros p y E NP. assert (I : In (p, y) (walk x [])) by (apply walk_in; [assumption|exists p; auto]). specialize (HW _ I). cbn [fst snd] in HW. rewrite !andb_true_iff in HW. apply str_eqb_eq. tauto.
  - assert (X : forall z p y, elem_at z p y -> part_of x z -> Forall is_name p).
    { intros z p y E. induction E as [z|z c n p y I N E IH]; intros PZ; constructor.
      - destruct (CN z c PZ I) as (n' & N' & V). rewrite N in N'. injection N' as <-. apply valid_field_spec. assumption.
      - apply IH. clear - PZ I. induction PZ as [a|a b c' I' P' IH']; [econstructor; [eassumption|constructor]|econstructor; [exact I'|auto]]. }
    intros p y E. exact (X _ _ _ E (part_here _)).
  - assumption.
  - intros p y E NP. assert (I : In (p, y) (walk x [])) by (apply walk_in; [assumption|exists p; auto]). specialize (HW _ I). cbn [fst snd] in HW. rewrite !andb_true_iff in HW.
    destruct (attr "path" y) as [s|]; [|destruct HW as ((_ & X) & _); discriminate]. destruct HW as ((_ & X) & _). apply str_eqb_eq in X. congruence.
  - intros p y E NP. assert (I : In (p, y) (walk x [])) by (apply walk_in; [assumption|exists p; auto]). specialize (HW _ I). cbn [fst snd] in HW. rewrite !andb_true_iff in HW.
    destruct (attr "data_type" y); [discriminate|destruct HW as (_ & X); discriminate].
  - intros y t n P T N1 N2. assert (B := HB y P). unfold here_b in B. rewrite !andb_true_iff in B. destruct B as (_ & B). unfold structural in B. rewrite T in B.
    destruct t; try contradiction; destruct (xchildren y); auto; discriminate.
Qed.
Definition changes_b (version : str -> option Z) (x : xml) : bool := forallb (fun y => match attr "change_nbc_description" y with
  | None => true
  | Some d => match attr "change_nbc_version" y with
              | None => false
              | Some s => match all_versions version (split_on ","%char s) with
                          | None => true
                          | Some vs => VmapModel.sortedZ vs && (negb (existsb (str_eqb d) (map strs ["aos_renamed"; "leaf_renamed"; "structure_renamed"]%string))
                                         || match attr "change_nbc_previous_name" y with Some names => Nat.eqb (length (split_on ","%char names)) (length (split_on ","%char s)) | None => false end)
                          end
              end
  end) (x :: map snd (walk x [])).
Lemma changes_b_sound : forall version x, changes_b version x = true -> changes_ok version x.
Proof.
  intros version x H y d P E. unfold changes_b in H. rewrite forallb_forall in H. assert (I : In y (x :: map snd (walk x []))).
  { destruct (walk_part x [] y P) as [-> |(q & I)]; [left; reflexivity|right]. apply in_map_iff. exists (q, y). auto. }
  specialize (H y I). rewrite E in H. destruct (attr "change_nbc_version" y) as [s|]; [|discriminate]. exists s. split; [reflexivity|].
  destruct (all_versions version (split_on ","%char s)) as [vs|]; [|auto]. right. exists vs. rewrite andb_true_iff, orb_true_iff in H. destruct H as (S & H). split; [reflexivity|]. split; [assumption|].
  intros IN. destruct H as [H|H].
  - exfalso. apply negb_true_iff in H. assert (existsb (str_eqb d) (map strs ["aos_renamed"; "leaf_renamed"; "structure_renamed"]%string) = true); [|congruence]. apply existsb_exists. exists d. split; [assumption|apply str_eqb_refl].
  - destruct (attr "change_nbc_previous_name" y) as [names|]; [|discriminate]. exists names. split; [reflexivity|]. apply Nat.eqb_eq. assumption.
Qed.

(** ** Examples *)
Definition mk (k v : string) : str * str := (strs k, strs v).
Definition fld (name path type : string) (more : list (str * str)) (cs : list xml) : xml := Xml (strs "field") (mk "name" name :: mk "path" path :: mk "data_type" type :: more) cs.
Definition dynamic_ : str * str := mk "type" "dynamic".
(** an IDS with a static structure, a time slice array and, inside, a quantity for which the definition has a time base *)
Definition mx_old : xml := Xml (strs "IDS") [mk "name" "ids"; mk "maxoccur" "4"]
  [fld "a" "a" "structure" [mk "units" "m"]
     [fld "x" "a/x" "FLT_0D" [mk "units" "as_parent"] []; fld "s" "a/s" "struct_array" [mk "coordinate1" "1...N"] [fld "u" "a/s/u" "INT_0D" [] []]];
   fld "b" "b" "FLT_1D" [dynamic_; mk "timebasepath" "time"; mk "coordinate1" "time"] [];
   fld "slice" "slice" "struct_array" [dynamic_; mk "coordinate1" "slice/time"]
     [fld "time" "slice/time" "flt_type" [dynamic_; mk "timebasepath" "slice/time"] []; fld "r" "slice/r" "structure" [] [fld "q" "slice/r/q" "STR_1D" [mk "maxoccur" "unbounded"] []]];
   fld "time" "time" "flt_1d_type" [dynamic_; mk "timebasepath" "time"] []].
(** later: [a] is called [c] *)
Definition mx_new : xml := Xml (strs "IDS") [mk "name" "ids"; mk "maxoccur" "4"]
  [fld "c" "c" "structure" [mk "units" "m"; mk "change_nbc_version" "3.2.0"; mk "change_nbc_description" "structure_renamed"; mk "change_nbc_previous_name" "a"]
     [fld "x" "c/x" "FLT_0D" [mk "units" "as_parent"] []; fld "s" "c/s" "struct_array" [mk "coordinate1" "1...N"] [fld "u" "c/s/u" "INT_0D" [] []]];
   fld "b" "b" "FLT_1D" [dynamic_; mk "timebasepath" "time"; mk "coordinate1" "time"] [];
   fld "slice" "slice" "struct_array" [dynamic_; mk "coordinate1" "slice/time"]
     [fld "time" "slice/time" "flt_type" [dynamic_; mk "timebasepath" "slice/time"] []; fld "r" "slice/r" "structure" [] [fld "q" "slice/r/q" "STR_1D" [mk "maxoccur" "unbounded"] []]];
   fld "time" "time" "flt_1d_type" [dynamic_; mk "timebasepath" "time"] []].
Definition mx_version (s : str) : option Z := if str_eqb s (strs "3.2.0") then Some 10%Z else None.
Definition the (r : result me_exn mtree) (d : mtree) : mtree := match r with Ok t => t | Err _ => d end.
Definition mx_none : mtree := MTree {| x_name := []; x_ctx := []; x_maxoccur := None; x_dtype := None; x_ndim := 0; x_path_string := []; x_path := ([], []); x_path_doc := []; x_type := TNone; x_tbp := [];
  x_units := []; x_doc := None; x_is_dynamic := false; x_coords := []; x_same := []; x_alts := []; x_rest := []; x_class := IDSToplevel; x_al_ndim := 0 |} [].
Definition mx_told : mtree := Eval vm_compute in the (toplevel_metadata mx_old) mx_none.
Definition mx_tnew : mtree := Eval vm_compute in the (toplevel_metadata mx_new) mx_none.
Example C49_example_definition : definition mx_old /\ definition mx_new /\ toplevel_metadata mx_old = Ok mx_told /\ toplevel_metadata mx_new = Ok mx_tnew /\ changes_ok mx_version mx_old /\ changes_ok mx_version mx_new.
Proof.
  split; [apply def_b_sound; vm_compute; reflexivity|]. split; [apply def_b_sound; vm_compute; reflexivity|]. split; [vm_compute; reflexivity|]. split; [vm_compute; reflexivity|].
  split; apply changes_b_sound; vm_compute; reflexivity.
Qed.
Example C49_example_nodes : exists m1 m2 m3, getitem mx_told (strs "a/x") = Some m1 /\ x_units (tinfo m1) = strs "m" /\ x_ctx (tinfo m1) = strs "a/x" /\
  getitem mx_told (strs "a.s/u") = Some m2 /\ x_ctx (tinfo m2) = strs "u" /\ getitem mx_told (strs "slice.r.q") = Some m3 /\ x_ctx (tinfo m3) = strs "r/q" /\ x_al_ndim (tinfo m3) = 2%N /\
  x_is_dynamic (tinfo m3) = true /\ getitem mx_told (strs "a/y") = None.
Proof. eexists _, _, _. vm_compute. repeat split; reflexivity. Qed.
(** An unknown type, a missing name, or a time base at the top: no metadata *)
Example C49_example_unusable : toplevel_metadata (Xml (strs "IDS") [mk "name" "ids"] [fld "a" "a" "FLT_7D" [] []]) = Err MeKey /\
  toplevel_metadata (Xml (strs "IDS") [] []) = Err MeKey /\ toplevel_metadata (Xml (strs "IDS") [mk "name" "ids"; dynamic_; mk "timebasepath" "time"] []) = Err MeAttribute.
Proof. vm_compute. repeat split; reflexivity. Qed.
(** positions of StoreModel.v *)
Example C49_example_reached : exists q m, reached (fun p => match p with [a] => str_eqb a (strs "slice") | _ => false end) mx_told q [strs "slice"; strs "r"] m /\ StoreModel.p_ctx q = strs "r" /\ StoreModel.p_dyn q = true.
Proof.
  eexists _, _. split; [|split].
  - eapply (reached_child _ _ _ [strs "slice"] _ (strs "r")); [eapply (reached_child _ _ _ [] _ (strs "slice")); [constructor|vm_compute; reflexivity]|vm_compute; reflexivity].
  - vm_compute. reflexivity.
  - vm_compute. reflexivity.
Qed.
Definition mx_dict (rank : Z) (d : ids_def) : dictionary :=
  {| d_rank := rank; d_major := 3; d_minor := rank; d_text := strs "3.x.0"; d_xml_major := Some 3%Z; d_ids := [(strs "ids", d)] |}.
Example C49_example_pair : let o := {| i_fields := fields_of mx_version mx_old; i_meta := erase mx_told |} in let n := {| i_fields := fields_of mx_version mx_new; i_meta := erase mx_tnew |} in
  pair_ok (strs "ids") (mx_dict 5 o) (mx_dict 20 n) o n.
Proof.
  intros o n. destruct C49_example_definition as (D1 & D2 & B1 & B2 & C1 & C2). assert (W := def_wf_fields mx_version mx_new D2 mx_tnew B2).
  assert (P : VmapProofs4.conditions (i_fields o) (i_fields n) 5) by (apply VmapProofs4.pair_b_sound; vm_compute; reflexivity). unfold VmapProofs4.conditions in P. destruct P as (_ & _ & H1 & H2 & H3 & H4 & H5 & H6).
  apply (C49_conversion mx_version _ _ _ mx_old mx_new mx_told mx_tnew); auto.
  - cbn. lia.
  - intros (_ & H). discriminate.
  - apply EndCheck.same_b_sound; [exact W|]. vm_compute. reflexivity.
  - apply EndCheck.inside_b_sound; [exact W|]. vm_compute. reflexivity.
Qed.
(** ** Refutation: data inside a time slice array, with a time base in the definition.  The metadata has none, the map has it. *)
Theorem C49_map_time_base_refuted : exists version x t p y m, definition x /\ toplevel_metadata x = Ok t /\ p <> [] /\ elem_at x p y /\ descend t p = Some m /\
  VmapModel.get_tbp (elem_of version (xattrib y)) (VmapModel.by_path (fields_of version x)) <> Ok (x_tbp (tinfo m)).
Proof.
  destruct C49_example_definition as (D1 & D2 & B1 & B2 & C1 & C2).
  assert (I : In ([strs "slice"; strs "time"], fld "time" "slice/time" "flt_type" [dynamic_; mk "timebasepath" "slice/time"] []) (walk mx_old [])) by (vm_compute; repeat (right; try (left; reflexivity))).
  apply walk_in in I; [|apply (df_named _ D1)]. destruct I as (r & NR & E & EY). cbn [app] in E. subst r.
  exists mx_version, mx_old, mx_told, [strs "slice"; strs "time"]. eexists _, _. split; [assumption|]. split; [assumption|]. split; [discriminate|]. split; [exact EY|]. split; [vm_compute; reflexivity|].
  vm_compute. discriminate.
Qed.
Print Assumptions C49_map_time_base_refuted.
