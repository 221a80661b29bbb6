(** C48: the conversion of an IDS as a whole, in terms of the two data dictionaries. *)
From Verif Require Import Base PathModel PathSpec PathProofs3 TreeModel TreeSpec TreeProofs TreeProofs2 TreeCheck TreeProofs4 ValProofs ValProofs2 PrimModel ConvModel ConvSpec ConvProofs ConvProofs2 ConvProofs3 ConvProofs4 ConvProofs5 ConvProgress ConvProps ConvProps7 ConvProps8 ConvMaps.
From Verif Require VmapModel VmapProofs VmapProofs2 VmapProofs3 VmapProofs4 VmapProps ProvModel ProvProps ValSpec.
From Verif Require Import VmapSpec EndSpec EndModel EndProofs EndProofs2 EndProofs3 EndProofs4 EndCheck.
From Coq Require Import Permutation.
Import VmapModel(fields, e_path, e_type, e_nbc, n_versions, elem, nmap, maps, o2n, n2o, build_map, m_post_ids).

(** ** A pair of versions *)
Section Versions.
Variables (sm tm : meta) (old new : fields) (v : Z).
Hypothesis Cond : VmapProofs4.conditions old new v.
Hypothesis Hsame : same_quantity old new v.
Hypothesis Hins : types_inside old new v.
Hypothesis Wsm : wf_meta sm.
Hypothesis Wtm : wf_meta tm.
Hypothesis Ds : described sm old.
Hypothesis Dt : described tm new.
Variable order : list str -> list str.
Variable s : maps.
Hypothesis Ord : forall l, Permutation (order l) l.
Hypothesis Built : build_map order old new v = Ok s.
Hypothesis Ksm : mkind sm = KStruct.
Hypothesis Ktm : mkind tm = KStruct.
Hypothesis Ssm : str_ok sm.
Hypothesis Stm : str_ok tm.
Notation C := (counterpart old new v).
Notation C' := (fun q p => counterpart old new v p q).
Let iff_ := corrb_iff sm tm old new v Ds Dt.

Lemma no_empty : forall m f, described m f -> ~ exists_in f [].
Proof.
  intros m f D (e & I & E). destruct (ds_meta _ _ D e I) as (p & m' & N & A & E' & _). rewrite E in E'.
  destruct p as [|x p]; [congruence|]. pose proof (ds_names _ _ D _ _ A) as F. inversion F as [|? ? IN _]; subst. destruct IN as (y & t & -> & _). destruct p; discriminate.
Qed.
Lemma forward_ok : versions_ok sm tm (o2n s) /\ structures_ok sm tm (o2n s).
Proof.
  destruct (old_fits sm tm old new v Cond Hsame Hins Wsm Wtm Ds Dt order s Ord Built Ksm) as (F & S). split; auto. unfold versions_ok. auto 10.
Qed.
Lemma backward_ok : versions_ok tm sm (n2o s) /\ structures_ok tm sm (n2o s).
Proof.
  destruct (new_fits sm tm old new v Cond Hsame Hins Wsm Wtm Ds Dt order s Ord Built Ktm) as (F & S). split; auto. unfold versions_ok. auto 10.
Qed.
Lemma forward_map : forall p q m mt, at_path sm p m -> at_path tm q mt -> p <> [] -> q <> [] -> ~ removed (o2n s) p -> (mapped (o2n s) p q <-> C (slashed p) (slashed q)).
Proof.
  intros p q m mt A B N M NR. rewrite <- (iff_ p q) by eauto.
  pose proof (old_mapped sm tm old new v Cond Hsame Hins Wsm Wtm Ds Dt order s Ord Built p q m A N (ds_names _ _ Dt _ _ B)) as H. tauto.
Qed.
Lemma backward_map : forall q p mt m, at_path tm q mt -> at_path sm p m -> q <> [] -> p <> [] -> ~ removed (n2o s) q -> (mapped (n2o s) q p <-> C (slashed p) (slashed q)).
Proof.
  intros q p mt m B A M N NR. rewrite <- (iff_ p q) by eauto.
  pose proof (new_mapped sm tm old new v Cond Hsame Hins Wsm Wtm Ds Dt order s Ord Built q p mt B M (ds_names _ _ Ds _ _ A)) as H. unfold corr, back in *. tauto.
Qed.
Lemma forward_nonempty : forall p q m, at_path sm p m -> p <> [] -> ~ removed (o2n s) p -> mapped (o2n s) p q -> Forall is_name q -> q <> [].
Proof.
  intros p q m A N NR M F. destruct (proj1 (old_mapped sm tm old new v Cond Hsame Hins Wsm Wtm Ds Dt order s Ord Built p q m A N F) (conj NR M)) as ((b & _ & X & _) & _). exact X.
Qed.
Lemma forward_removed : forall p q m mt, at_path sm p m -> at_path tm q mt -> p <> [] -> q <> [] -> removed (o2n s) p -> C (slashed p) (slashed q) ->
  exists a b, p = a ++ b /\ a <> [] /\ old_changes old new v (slashed a).
Proof.
  intros p q m mt A B N M R CC. apply iff_ in CC; eauto.
  destruct (old_removed sm tm old new v Cond Hsame Hins Wsm Wtm Ds Dt order s Ord Built p q R CC) as (a & b & E & NA & H). exists a, b. split; auto. split; auto. eexists; eauto.
Qed.
Lemma backward_removed : forall q p mt m, at_path tm q mt -> at_path sm p m -> q <> [] -> p <> [] -> removed (n2o s) q -> C (slashed p) (slashed q) ->
  exists a b, q = a ++ b /\ a <> [] /\ new_changes old new v (slashed a).
Proof.
  intros q p mt m B A M N R CC. apply iff_ in CC; eauto.
  destruct (new_removed sm tm old new v Cond Hsame Hins Wsm Wtm Ds Dt order s Ord Built q p R CC) as (a & b & E & NA & H). exists a, b. split; auto. split; auto. eexists; eauto.
Qed.
Lemma forward_rule : forall p, rule_at (o2n s) p -> old_changes old new v (slashed p).
Proof. intros p R. apply (proj1 (rules old new v Cond Hsame Hins order s Ord Built)). exact R. Qed.
Lemma backward_rule : forall q, rule_at (n2o s) q -> new_changes old new v (slashed q).
Proof. intros p R. apply (proj1 (proj2 (rules old new v Cond Hsame Hins order s Ord Built))). exact R. Qed.
(** what changes in the new version, changes in the old one *)
Lemma changes_back : forall p q m mt a b, at_path sm p m -> at_path tm q mt -> p <> [] -> q <> [] -> C (slashed p) (slashed q) -> q = a ++ b -> a <> [] ->
  new_changes old new v (slashed a) -> exists a' b', p = a' ++ b' /\ a' <> [] /\ old_changes old new v (slashed a').
Proof.
  intros p q m mt a b A B N M CC E NA (P & H). apply iff_ in CC as (b0 & CC); eauto. subst q.
  destruct (up_new_all sm tm old new v Cond Ds Dt a b p b0 NA CC) as (p' & r' & b1 & E' & C1). exists p', r'. split; auto.
  pose proof C1 as (N1 & _ & _ & _ & O1). split; auto. exists (slashed a). pose proof H as (e & b2 & I & EE & O & _).
  destruct (VmapProofs.origin_fun old new v (proj1 (proj2 Cond)) _ _ _ O1 _ _ O) as (-> & _). exact H.
Qed.
End Versions.

(** Two versions of the IDS [name], not a step from version 3 to 4; the conditions are those of C20 (VmapSpec.v) and EndSpec.v. *)
Record pair_ok (name : str) (old new : dictionary) (o n : ids_def) : Prop := {
  po_old : alookup name (d_ids old) = Some o;
  po_new : alookup name (d_ids new) = Some n;
  po_order : (d_rank old <= d_rank new)%Z;
  po_major : ~ (d_major old = 3%Z /\ d_xml_major new = Some 4%Z);
  po_cond : VmapProofs4.conditions (i_fields o) (i_fields n) (d_rank old);
  po_same : same_quantity (i_fields o) (i_fields n) (d_rank old);
  po_types : types_inside (i_fields o) (i_fields n) (d_rank old);
  po_dold : described (i_meta o) (i_fields o);
  po_dnew : described (i_meta n) (i_fields n);
  po_wf : wf_meta (i_meta o) /\ wf_meta (i_meta n);
  po_kind : mkind (i_meta o) = KStruct /\ mkind (i_meta n) = KStruct;
  po_str : str_ok (i_meta o) /\ str_ok (i_meta n);
  po_good : (forall e, In e (i_fields o) -> VmapProofs4.good_elem e) /\ (forall e, In e (i_fields n) -> VmapProofs4.good_elem e);
  po_nbc : forall e c, In e (i_fields n) -> e_nbc e = Some c -> n_versions c <> VmapModel.Versions [] }.
(** Not the special case of pulse_schedule; there the time mode has to exist to find out. *)
Definition plain_copy (rank340 : Z) (name : str) (source target : dictionary) (sm : meta) : Prop :=
  name = strs "pulse_schedule" -> ~ (d_rank source < rank340 <= d_rank target)%Z /\
  exists m dt nd, loc_ok sm [Child (strs "ids_properties"); Child (strs "homogeneous_time")] m /\ mkind m = KLeaf dt nd.
Lemma vnode_names : forall p m n m', conf m n -> loc_ok m (map Child p) m' -> exists n', vnode_at m n (map Child p) m' n'.
Proof.
  induction p as [|x p IH]; intros m n m' CF L; cbn [map] in *.
  - inversion L; subst. eexists. constructor.
  - remember (Child x :: map Child p) as l eqn:El. destruct L as [?|nm cs c l m' I L|? ? ? ? ? L]; try discriminate. injection El as <- ->.
    inversion CF as [| |? ? fs H1 H2 H3|]; subst. destruct (alookup (mname c) fs) as [ch|] eqn:E.
    + destruct (IH c ch m' (H1 _ _ I E) L) as (n' & V). exists n'. econstructor; eauto.
    + destruct (IH c (new_node c) m' (new_node_conf c) L) as (n' & V). exists n'. econstructor; eauto.
Qed.

Section Convert.
Variable order : list str -> list str.
Variable flips : str -> list str.
Variable dd341 : dictionary.
Variables (rank340 rank341 : Z).
Variable library_version : str.
Variable str_of : pyval -> str.
Variable parse_float : str -> option flt.
Variable parse_cpx : str -> option (flt * flt).
Variable flt_of_int : Z -> option flt.
Variable np_cast : dtype -> pyval -> result pexn value.
Variable array_items : value -> list pyval.
Variable close : pyval -> pyval -> bool.
Variable np_int32 : flt -> result pexn Z.
Variable enum_of : list str -> option (Z -> option (str * str)).
Variable at_ : list str -> ValModel.attrs.
Variable lin : flt -> flt -> flt -> flt -> flt -> flt.
Notation convert := (convert_ids order flips dd341 rank340 rank341 library_version str_of parse_float parse_cpx flt_of_int np_cast array_items close np_int32 enum_of at_ lin).
Notation copy m m' n r d := (copy_toplevel m m' n r d str_of parse_float parse_cpx flt_of_int np_cast array_items close np_int32 enum_of).
Notation plain_copy := (plain_copy rank340).
Hypothesis Ord : VmapProps.any_order order.
Hypothesis Casts : casts_arrays np_cast.

Lemma dd_map : forall name old new o n, pair_ok name old new o n ->
  exists s, build_map order (i_fields o) (i_fields n) (d_rank old) = Ok s /\ dd_version_map order flips dd341 rank341 name old new = Ok s.
Proof.
  intros name old new o n P. destruct (po_cond _ _ _ _ _ P) as (Wo & Wn & _). destruct (po_good _ _ _ _ _ P) as (Go & Gn).
  destruct (VmapProps.C20_no_exception order _ _ (d_rank old) Ord Wo Wn Go Gn (po_nbc _ _ _ _ _ P)) as (s & B). exists s. split; auto.
  unfold dd_version_map. rewrite (po_old _ _ _ _ _ P), (po_new _ _ _ _ _ P).
  assert (E : is_3to4 (d_major old) new = false).
  { unfold is_3to4. pose proof (po_major _ _ _ _ _ P) as NM. destruct (Z.eqb_spec (d_major old) 3) as [E|E]; [|reflexivity].
    destruct (d_xml_major new) as [m|]; [|reflexivity]. cbn. apply Z.eqb_neq. intros ->. apply NM. auto. }
  rewrite E. cbn [andb rbind]. unfold VmapModel.version_map. rewrite B. reflexivity.
Qed.
Lemma copy_plain : forall name source target sm tm src dc rm st, plain_copy name source target sm -> wf_meta sm -> conf sm src ->
  copy_all rank340 str_of parse_float parse_cpx flt_of_int np_cast array_items close np_int32 enum_of at_ lin name source target sm tm src dc rm st = copy sm tm src rm dc st.
Proof.
  intros name source target sm tm src dc rm st P W CF. unfold copy_all. destruct (str_eqb name (strs "pulse_schedule")) eqn:E; [|reflexivity].
  apply str_eqb_eq in E. destruct (P E) as (NR & m & dt & nd & LO & K). destruct (vnode_names [strs "ids_properties"; strs "homogeneous_time"] _ _ _ CF LO) as (n & VN).
  cbn [map] in VN.
  assert (H : exists h, heterogeneous sm src = cret h).
  { destruct (vnode_conf _ _ _ _ _ VN W CF) as (_ & CN). unfold heterogeneous, source_at. rewrite (proj2 (look_vnode _ _ _ _ _ W) VN).
    destruct m as [nm k cs]. cbn [mkind] in K. subst k. inversion CN; subst; eexists; reflexivity. }
  destruct H as (h & ->). unfold cbind, cret.
  assert (F : (h && (d_rank source <? rank340)%Z && (rank340 <=? d_rank target)%Z) = false).
  { destruct h; [|reflexivity]. cbn [andb]. destruct (Z.ltb_spec (d_rank source) rank340); [|reflexivity]. cbn [andb]. apply Z.leb_gt. lia. }
  rewrite F. reflexivity.
Qed.
Lemma convert_plain : forall name source target sm d src dc stamp rm st, plain_copy name source target sm -> wf_meta sm -> conf sm src ->
  rename_map order flips dd341 rank341 name source target = Ok rm -> m_post_ids rm = [] -> alookup name (d_ids target) = Some d ->
  copy sm (i_meta d) src rm dc {| c_tree := NStruct []; c_shared := [] |} = (st, Ok tt) -> convert false name source target sm src None dc [] stamp = Ok st.
Proof.
  intros name source target sm d src dc stamp rm st P W CF R Q D RUN. unfold convert_ids. rewrite D. cbn [rbind fst snd]. rewrite R. cbn [rbind].
  unfold convert_data, cbind. rewrite copy_plain, RUN, Q by auto. reflexivity.
Qed.

(** From the older version to the newer one: the conversion raises no exception, and the new IDS holds exactly the values and arrays of
    structures whose quantity exists in the newer version, there. *)
Theorem C48_forward : forall name old new o n, pair_ok name old new o n -> forall src, conf (i_meta o) src -> stored_values (i_meta o) src ->
  plain_copy name old new (i_meta o) -> untouched (i_meta o) src (old_changes (i_fields o) (i_fields n) (d_rank old)) ->
  forall deepcopy stamp, exists st, convert false name old new (i_meta o) src None deepcopy [] stamp = Ok st /\ conf (i_meta n) (c_tree st) /\
  (forall t v, leaf_at (i_meta n) (c_tree st) t v <->
     exists s, leaf_at (i_meta o) src s v /\ stands_for (i_meta n) (counterpart (i_fields o) (i_fields n) (d_rank old)) s t) /\
  (forall t k, aos_at (i_meta n) (c_tree st) t k <->
     exists s, aos_at (i_meta o) src s k /\ stands_for (i_meta n) (counterpart (i_fields o) (i_fields n) (d_rank old)) s t).
Proof.
  intros name old new o n P src CF SV PC U dc stamp. destruct (dd_map _ _ _ _ _ P) as (s & B & D).
  destruct P as [P1 P2 P3 P4 P5 P6 P7 P8 P9 (P10 & P10') (P11 & P11') (P12 & P12') P13 P14].
  destruct (forward_ok _ _ _ _ _ P5 P6 P7 P10 P10' P8 P9 order s Ord B P11 P11' P12') as (V & SO).
  set (ch := old_changes (i_fields o) (i_fields n) (d_rank old)) in *. set (C := counterpart (i_fields o) (i_fields n) (d_rank old)).
  assert (HR := forward_rule _ _ _ P5 P6 P7 order s Ord B).
  assert (HM := forward_map _ _ _ _ _ P5 P6 P7 P10 P10' P8 P9 order s Ord B).
  assert (HD := forward_removed _ _ _ _ _ P5 P6 P7 P10 P10' P8 P9 order s Ord B).
  assert (HE : forall p, C p [] -> False) by (intros p (_ & X & _); exact (no_empty _ _ P9 X)).
  assert (NR := bridge_rules (i_meta o) src (o2n s) ch HR U).
  destruct (C24_converts (i_meta o) (i_meta n) src (o2n s) dc str_of parse_float parse_cpx flt_of_int np_cast array_items close np_int32 enum_of V Casts SV CF SO (no_rules_nodes _ _ _ NR))
    as (st & RUN & CT & L & A).
  exists st. split.
  { eapply convert_plain; eauto; [|apply (build_quiet _ _ _ _ _ B)]. unfold rename_map. replace (d_rank old >? d_rank new)%Z with false by (symmetry; rewrite Z.gtb_ltb; apply Z.ltb_ge; lia). rewrite D. reflexivity. }
  split; auto.
  pose proof (bridge_goes (i_meta o) (i_meta n) src (o2n s) C ch V HM HD HR HE U) as G.
  split.
  - intros t v. rewrite L. split; intros (x & LA & X); exists x; split; auto; apply G; eauto.
  - intros t k. rewrite A. split; intros (x & LA & X); exists x; split; auto; apply G; eauto.
Qed.

(** From the newer version to the older one. *)
Theorem C48_backward : forall name old new o n, pair_ok name old new o n -> (d_rank old < d_rank new)%Z ->
  forall src, conf (i_meta n) src -> stored_values (i_meta n) src ->
  plain_copy name new old (i_meta n) -> untouched (i_meta n) src (new_changes (i_fields o) (i_fields n) (d_rank old)) ->
  forall deepcopy stamp, exists st, convert false name new old (i_meta n) src None deepcopy [] stamp = Ok st /\ conf (i_meta o) (c_tree st) /\
  (forall t v, leaf_at (i_meta o) (c_tree st) t v <->
     exists s, leaf_at (i_meta n) src s v /\ stands_for (i_meta o) (fun q p => counterpart (i_fields o) (i_fields n) (d_rank old) p q) s t) /\
  (forall t k, aos_at (i_meta o) (c_tree st) t k <->
     exists s, aos_at (i_meta n) src s k /\ stands_for (i_meta o) (fun q p => counterpart (i_fields o) (i_fields n) (d_rank old) p q) s t).
Proof.
  intros name old new o n P LT src CF SV PC U dc stamp. destruct (dd_map _ _ _ _ _ P) as (s & B & D).
  destruct P as [P1 P2 P3 P4 P5 P6 P7 P8 P9 (P10 & P10') (P11 & P11') (P12 & P12') P13 P14].
  destruct (backward_ok _ _ _ _ _ P5 P6 P7 P10 P10' P8 P9 order s Ord B P11 P11' P12) as (V & SO).
  set (ch := new_changes (i_fields o) (i_fields n) (d_rank old)) in *. set (C := fun q p => counterpart (i_fields o) (i_fields n) (d_rank old) p q).
  assert (HR := backward_rule _ _ _ P5 P6 P7 order s Ord B).
  assert (HM := backward_map _ _ _ _ _ P5 P6 P7 P10 P10' P8 P9 order s Ord B).
  assert (HD := backward_removed _ _ _ _ _ P5 P6 P7 P10 P10' P8 P9 order s Ord B).
  assert (HE : forall p, C p [] -> False) by (intros p (X & _); exact (no_empty _ _ P8 X)).
  assert (NR := bridge_rules (i_meta n) src (n2o s) ch HR U).
  destruct (C24_converts (i_meta n) (i_meta o) src (n2o s) dc str_of parse_float parse_cpx flt_of_int np_cast array_items close np_int32 enum_of V Casts SV CF SO (no_rules_nodes _ _ _ NR))
    as (st & RUN & CT & L & A).
  exists st. split.
  { eapply convert_plain; eauto; [|apply (build_quiet _ _ _ _ _ B)]. unfold rename_map. replace (d_rank new >? d_rank old)%Z with true by (symmetry; rewrite Z.gtb_ltb; apply Z.ltb_lt; lia). rewrite D. reflexivity. }
  split; auto.
  pose proof (bridge_goes (i_meta n) (i_meta o) src (n2o s) C ch V HM HD HR HE U) as G.
  split.
  - intros t v. rewrite L. split; intros (x & LA & X); exists x; split; auto; apply G; eauto.
  - intros t k. rewrite A. split; intros (x & LA & X); exists x; split; auto; apply G; eauto.
Qed.

(** To the newer version and back: neither conversion raises an exception, and the result holds exactly the values and arrays of
    structures whose quantity exists in both versions, where they were. *)
Theorem C48_there_and_back : forall name old new o n, pair_ok name old new o n -> (d_rank old < d_rank new)%Z ->
  forall src, conf (i_meta o) src -> stored_values (i_meta o) src ->
  plain_copy name old new (i_meta o) -> plain_copy name new old (i_meta n) ->
  untouched (i_meta o) src (old_changes (i_fields o) (i_fields n) (d_rank old)) ->
  forall deepcopy deepcopy' stamp stamp', exists st st', convert false name old new (i_meta o) src None deepcopy [] stamp = Ok st /\
  convert false name new old (i_meta n) (c_tree st) None deepcopy' [] stamp' = Ok st' /\ conf (i_meta o) (c_tree st') /\
  (forall s v, leaf_at (i_meta o) (c_tree st') s v <->
     leaf_at (i_meta o) src s v /\ exists q, counterpart (i_fields o) (i_fields n) (d_rank old) (slashed (loc_names s)) q) /\
  (forall s k, aos_at (i_meta o) (c_tree st') s k <->
     aos_at (i_meta o) src s k /\ exists q, counterpart (i_fields o) (i_fields n) (d_rank old) (slashed (loc_names s)) q).
Proof.
  intros name old new o n P LT src CF SV PC PC' U dc dc' stamp stamp'. destruct (dd_map _ _ _ _ _ P) as (s & B & D).
  destruct P as [P1 P2 P3 P4 P5 P6 P7 P8 P9 (P10 & P10') (P11 & P11') (P12 & P12') P13 P14].
  destruct (forward_ok _ _ _ _ _ P5 P6 P7 P10 P10' P8 P9 order s Ord B P11 P11' P12') as (V & SO).
  destruct (backward_ok _ _ _ _ _ P5 P6 P7 P10 P10' P8 P9 order s Ord B P11 P11' P12) as (V' & SO').
  set (ch := old_changes (i_fields o) (i_fields n) (d_rank old)) in *. set (C := counterpart (i_fields o) (i_fields n) (d_rank old)).
  assert (HR := forward_rule _ _ _ P5 P6 P7 order s Ord B).
  assert (HM := forward_map _ _ _ _ _ P5 P6 P7 P10 P10' P8 P9 order s Ord B).
  assert (HD := forward_removed _ _ _ _ _ P5 P6 P7 P10 P10' P8 P9 order s Ord B).
  assert (HE : forall p, C p [] -> False) by (intros p (_ & X & _); exact (no_empty _ _ P9 X)).
  assert (HR' := backward_rule _ _ _ P5 P6 P7 order s Ord B).
  assert (HM' := backward_map _ _ _ _ _ P5 P6 P7 P10 P10' P8 P9 order s Ord B).
  assert (HD' := backward_removed _ _ _ _ _ P5 P6 P7 P10 P10' P8 P9 order s Ord B).
  assert (HC := changes_back _ _ _ _ _ P5 P8 P9).
  assert (HN := forward_nonempty _ _ _ _ _ P5 P6 P7 P10 P10' P8 P9 order s Ord B).
  assert (NR := bridge_rules (i_meta o) src (o2n s) ch HR U).
  pose proof (bridge_goes (i_meta o) (i_meta n) src (o2n s) C ch V HM HD HR HE U) as G.
  assert (PM := fun x PR => present_meta (i_meta o) (i_meta n) src P10 P11 P11' x PR).
  (* nothing changes at the place of a value *)
  assert (UN : forall x t, (exists v, leaf_at (i_meta o) src x v) \/ (exists k, aos_at (i_meta o) src x k) -> stands_for (i_meta n) C x t ->
    forall a b, loc_names t = a ++ b -> a <> [] -> ~ new_changes (i_fields o) (i_fields n) (d_rank old) (slashed a)).
  { intros x t PR ST a b E NA H. destruct (PM x PR) as (m' & n' & _ & _ & _ & _ & N1 & AP & _). destruct ST as (CC & _ & NT & mt & LO).
    assert (N2 : loc_names t <> []) by (rewrite E; destruct a; [congruence|discriminate]).
    destruct (HC _ _ _ _ a b AP (loc_at_path _ _ _ LO NT) N1 N2 CC E NA H) as (a' & b' & E' & NA' & H'). exact (U x PR a' b' E' NA' H'). }
  assert (NB : forall x t, (exists v, leaf_at (i_meta o) src x v) \/ (exists k, aos_at (i_meta o) src x k) -> stands_for (i_meta n) C x t -> ~ removed (n2o s) (loc_names t)).
  { intros x t PR ST R. destruct (PM x PR) as (m' & n' & _ & _ & _ & _ & N1 & AP & _). pose proof ST as (CC & _ & NT & mt & LO).
    assert (N2 : loc_names t <> []) by (intros E; rewrite E in CC; exact (HE _ CC)).
    destruct (HD' _ _ _ _ (loc_at_path _ _ _ LO NT) AP N2 N1 R CC) as (a & b & E & NA & H). exact (UN x t PR ST a b E NA H). }
  assert (RB : renamed_back (i_meta o) (i_meta n) (o2n s) (n2o s)).
  { intros p q m mt A K BT NP NQ M.
    assert (N1 : p <> []). { intros ->. inversion A; subst. congruence. }
    assert (N2 : q <> []) by (exact (HN p q m A N1 NP M (ds_names _ _ P9 _ _ BT))).
    apply (HM' q p mt m BT A N2 N1 NQ). apply (HM p q m mt A BT N1 N2 NP). exact M. }
  assert (NU2 : forall x t, (exists v, leaf_at (i_meta o) src x v) \/ (exists k, aos_at (i_meta o) src x k) -> ~ removed (o2n s) (loc_names x) ->
    goes_to (i_meta n) (o2n s) x t -> ~ ruled (n2o s) (loc_names t)).
  { intros x t PR NX GT (a & b & E & NA & R). apply (UN x t PR (proj1 (G x t PR) (conj NX GT)) a b E NA). apply HR'. exact R. }
  destruct (C24_there_and_back (i_meta o) (i_meta n) src (o2n s) (n2o s) dc dc' str_of parse_float parse_cpx flt_of_int np_cast array_items close np_int32 enum_of
    V V' Casts SV CF SO SO' RB NR NU2) as (st & st' & R1 & R2 & CF' & L & A).
  exists st, st'. destruct (build_quiet _ _ _ _ _ B) as (Q1 & Q2).
  assert (CN : conf (i_meta n) (c_tree st)).
  { destruct (C24_converts (i_meta o) (i_meta n) src (o2n s) dc str_of parse_float parse_cpx flt_of_int np_cast array_items close np_int32 enum_of V Casts SV CF SO (no_rules_nodes _ _ _ NR))
      as (st1 & R3 & C3 & _). rewrite R3 in R1. injection R1 as <-. exact C3. }
  split; [|split; [|split; [exact CF'|]]].
  - apply (convert_plain name old new (i_meta o) n src dc stamp (o2n s)); auto. unfold rename_map. replace (d_rank old >? d_rank new)%Z with false by (symmetry; rewrite Z.gtb_ltb; apply Z.ltb_ge; lia). rewrite D. reflexivity.
  - apply (convert_plain name new old (i_meta n) o (c_tree st) dc' stamp' (n2o s)); auto. unfold rename_map. replace (d_rank new >? d_rank old)%Z with true by (symmetry; rewrite Z.gtb_ltb; apply Z.ltb_lt; lia). rewrite D. reflexivity.
  - assert (X : forall x, (exists v, leaf_at (i_meta o) src x v) \/ (exists k, aos_at (i_meta o) src x k) ->
      (~ removed (o2n s) (loc_names x) /\ exists t, goes_to (i_meta n) (o2n s) x t /\ ~ removed (n2o s) (loc_names t)) <-> exists q, C (slashed (loc_names x)) q).
    { intros x PR. split.
      - intros (NX & t & GT & _). destruct (proj1 (G x t PR) (conj NX GT)) as (CC & _). eauto.
      - intros (q & CC). destruct (PM x PR) as (m' & n' & _ & _ & _ & _ & N1 & AP & _).
        assert (NX : ~ removed (o2n s) (loc_names x)).
        { intros R. pose proof CC as (_ & (e & I & E) & _). destruct (ds_meta _ _ P9 e I) as (q' & mq & N2 & AQ & E' & _). rewrite E in E'. rewrite E' in CC.
          destruct (HD _ _ _ _ AP AQ N1 N2 R CC) as (a & b & Eab & NA & H). exact (U x PR a b Eab NA H). }
        split; auto. destruct (C24_has_place _ _ _ _ V CF x PR NX (NR x PR)) as (t & GT & _). exists t. split; auto.
        apply (NB x t PR). apply G; auto. }
    split.
    + intros x v. rewrite L. split; intros (LA & H); split; auto; apply X; eauto.
    + intros x k. rewrite A. split; intros (LA & H); split; auto; apply X; eauto.
Qed.

(** ** To the same version *)
(** no change of the dictionary is later than version v *)
Definition settled (f : fields) (v : Z) : Prop := forall e c vs, In e f -> e_nbc e = Some c -> n_versions c = VmapModel.Versions vs -> vs <> [] /\ forall x, In x vs -> (x <= v)%Z.
Section Settled.
Variables (f : fields) (v : Z).
Hypothesis S : settled f v.
Lemma settled_rule : forall q prev, ~ rule f v q prev.
Proof.
  intros q prev (e & c & vs & names & i & x & I & E & N & _ & V & _ & X & LT & _). destruct (S e c vs I N V) as (_ & H). apply nth_error_In in X. specialize (H _ X). lia.
Qed.
Lemma settled_origin : forall q p b, origin f f v q p b -> p = q /\ b = false.
Proof.
  intros q p b O. induction O as [n H1 H2|n prev H1 H2 H3|q p b n O (-> & ->) H2 H3|q p b n prev O (-> & ->) H2 H3 H4]; auto; exfalso; eapply settled_rule; eauto.
Qed.
Lemma settled_moved : forall p q, ~ moved f f v p q.
Proof. intros p q (_ & _ & O). apply settled_origin in O as (_ & X). discriminate. Qed.
Lemma settled_same : wf_fields f -> forall p, origin f f v p p false.
Proof.
  intros W p. destruct (VmapProofs2.origin_total f f v W p) as (p' & b & O). destruct (settled_origin _ _ _ O) as (-> & ->). exact O.
Qed.
Lemma settled_conditions : wf_fields f -> VmapProofs4.conditions f f v.
Proof.
  intros W. unfold VmapProofs4.conditions. split; auto. split; auto.
  split; [intros q prev R; exfalso; eapply settled_rule; eauto|]. split; [intros q p r M; exfalso; eapply settled_moved; eauto|].
  split; [intros q p r c M; exfalso; eapply settled_moved; eauto|]. split; [intros p q q' M; exfalso; eapply settled_moved; eauto|].
  split; [intros a b Ia Ib M; exfalso; eapply settled_moved; eauto|]. split; intros p q M; exfalso; eapply settled_moved; eauto.
Qed.
Lemma settled_changes : wf_fields f -> (forall e, In e f -> VmapProofs4.good_elem e) -> forall p, ~ old_changes f f v p.
Proof.
  intros W G p (q & e & b & I & E & O & [(c & vs & N & V & LT & _)|(a & Ia & Ea & NS)]).
  - destruct (S e c vs I N V) as (NE & H). destruct vs as [|x vs]; [congruence|]. pose proof (H (last (x :: vs) 0%Z)) as X.
    assert (IL : In (last (x :: vs) 0%Z) (x :: vs)). { destruct (exists_last NE) as (l & y & EL). rewrite EL, last_last. apply in_or_app. right. left. reflexivity. }
    specialize (X IL). lia.
  - apply settled_origin in O as (-> & _). apply NS.
    assert (a = e) as ->.
    { pose proof (proj2 (VmapProofs.by_path_lookup f (VmapSpec.wf_nodup _ W) q a) (conj Ia Ea)) as X. rewrite (proj2 (VmapProofs.by_path_lookup f (VmapSpec.wf_nodup _ W) q e) (conj I E)) in X. congruence. }
    destruct (G e I) as ((x & t & _ & T) & _). exists t. auto.
Qed.
Lemma settled_pair : forall name d i, f = i_fields i -> v = d_rank d -> alookup name (d_ids d) = Some i -> ~ (d_major d = 3%Z /\ d_xml_major d = Some 4%Z) ->
  wf_fields f -> described (i_meta i) f -> wf_meta (i_meta i) -> mkind (i_meta i) = KStruct -> str_ok (i_meta i) -> (forall e, In e f -> VmapProofs4.good_elem e) ->
  pair_ok name d d i i.
Proof.
  intros name d i Ef Ev L M W D Wm K SO G. constructor; rewrite <- ?Ef, <- ?Ev; auto; try lia.
  - apply settled_conditions. exact W.
  - intros p _ _ _. apply settled_same. exact W.
  - intros p q r a b MV. exfalso. eapply settled_moved; eauto.
  - intros e c I N V. destruct (S e c [] I N V) as (X & _). congruence.
Qed.
End Settled.
(** Converting to the same version gives the same IDS. *)
Theorem C48_same_version : forall name d i, alookup name (d_ids d) = Some i -> ~ (d_major d = 3%Z /\ d_xml_major d = Some 4%Z) ->
  wf_fields (i_fields i) -> described (i_meta i) (i_fields i) -> wf_meta (i_meta i) -> mkind (i_meta i) = KStruct -> str_ok (i_meta i) ->
  (forall e, In e (i_fields i) -> VmapProofs4.good_elem e) -> settled (i_fields i) (d_rank d) ->
  forall src, conf (i_meta i) src -> stored_values (i_meta i) src -> plain_copy name d d (i_meta i) ->
  forall deepcopy stamp, exists st, convert false name d d (i_meta i) src None deepcopy [] stamp = Ok st /\ conf (i_meta i) (c_tree st) /\
  (forall l v, leaf_at (i_meta i) (c_tree st) l v <-> leaf_at (i_meta i) src l v) /\ (forall l k, aos_at (i_meta i) (c_tree st) l k <-> aos_at (i_meta i) src l k).
Proof.
  intros name d i L M W D Wm K SO G S src CF SV PC dc stamp.
  pose proof (settled_pair _ _ S name d i eq_refl eq_refl L M W D Wm K SO G) as P.
  destruct (C48_forward name d d i i P src CF SV PC) with (deepcopy := dc) (stamp := stamp) as (st & E & CF' & HL & HA).
  { intros s _ a b _ _. apply settled_changes; auto. }
  exists st. split; auto. split; auto.
  assert (X : forall s t, (exists v, leaf_at (i_meta i) src s v) \/ (exists k, aos_at (i_meta i) src s k) ->
    (stands_for (i_meta i) (counterpart (i_fields i) (i_fields i) (d_rank d)) s t <-> s = t)).
  { intros s t PR. destruct (present_meta (i_meta i) (i_meta i) src Wm K K s PR) as (m' & n' & N & _ & NE & NN & NNN & AP & LO). split.
    - intros ((_ & _ & b & O) & I & NT & mt & LT). apply (settled_origin _ _ S) in O as (O & _).
      eapply loc_unique; eauto. apply (slashed_inj _ _ (ds_names _ _ D _ _ AP) (ds_names _ _ D _ _ (loc_at_path _ _ _ LT NT)) O).
    - intros <-. destruct (ds_field _ _ D _ _ AP NNN) as (e & I & E'). assert (EX : exists_in (i_fields i) (slashed (loc_names s))) by (exists e; auto).
      split; [|split; [reflexivity|split; [exact NE|eauto]]]. split; auto. split; auto. exists false. apply settled_same; auto. }
  split.
  - intros l v. rewrite HL. split; [intros (s & LA & ST); apply X in ST as <-; eauto|]. intros LA. exists l. split; auto. apply X; eauto.
  - intros l k. rewrite HA. split; [intros (s & LA & ST); apply X in ST as <-; eauto|]. intros LA. exists l. split; auto. apply X; eauto.
Qed.

(** ** With a provenance entry *)
Lemma convert_uri : forall name source target sm src given dc uri stamp st, uri <> [] -> convert false name source target sm src given dc [] stamp = Ok st ->
  forall tm, (forall t, given = Some t -> tm = fst t) -> (given = None -> exists d, alookup name (d_ids target) = Some d /\ tm = i_meta d) ->
  convert false name source target sm src given dc uri stamp =
  match ProvModel.add_provenance tm str_of parse_float parse_cpx flt_of_int np_cast array_items (ProvModel.source_text uri (d_text source) (d_text target) library_version) stamp st with
  | (st', Ok _) => Ok st' | (_, Err e) => Err (EndConv e) end.
Proof.
  intros name source target sm src given dc uri stamp st NU H tm H1 H2. unfold convert_ids in *.
  set (t := match given with Some t => Ok t | None => _ end) in *.
  assert (T : forall t', t = Ok t' -> tm = fst t').
  { intros t' E. unfold t in E. destruct given as [g|]; [injection E as <-; auto|]. destruct (H2 eq_refl) as (d & D & ->). rewrite D in E. injection E as <-. reflexivity. }
  clearbody t. destruct t as [[tm' st0]|]; [|discriminate]. specialize (T _ eq_refl). cbn [fst] in T. subst tm'. cbn [rbind fst snd] in *.
  destruct (rename_map order flips dd341 rank341 name source target) as [rm|]; [|discriminate]. cbn [rbind] in *.
  unfold convert_data, cbind in *.
  destruct (copy_all rank340 str_of parse_float parse_cpx flt_of_int np_cast array_items close np_int32 enum_of at_ lin name source target sm tm src dc rm st0) as [st1 [[]|]]; [|discriminate].
  destruct (citer (callback str_of parse_float parse_cpx flt_of_int np_cast array_items sm tm src dc) (m_post_ids rm) st1) as [st2 [[]|]]; [|discriminate].
  cbn in H. injection H as <-. destruct uri as [|c uri]; [congruence|]. reflexivity.
Qed.
(** With the argument [provenance_origin_uri] the same values are converted, and an entry is added that names the two versions
    (C46: where it goes). *)
Theorem C48_provenance : forall name source target sm src given dc uri stamp st, uri <> [] -> stamp <> [] ->
  convert false name source target sm src given dc [] stamp = Ok st ->
  forall tm, (forall t, given = Some t -> tm = fst t) -> (given = None -> exists d, alookup name (d_ids target) = Some d /\ tm = i_meta d) ->
  wf_meta tm -> str_ok tm -> ProvProps.with_reference tm -> conf tm (c_tree st) ->
  exists st' i j a b c, convert false name source target sm src given dc uri stamp = Ok st' /\ conf tm (c_tree st') /\
    ProvProps.entry_node tm (c_tree st) i /\ ProvProps.elements tm (c_tree st) (ProvProps.in_node i "reference") j /\
    leaf_at tm (c_tree st') (ProvProps.in_reference i j "name") (VStr (uri ++ a ++ d_text source ++ b ++ d_text target ++ c ++ library_version ++ strs ".")) /\
    leaf_at tm (c_tree st') (ProvProps.in_reference i j "timestamp") (VStr stamp) /\
    (forall l v, l <> ProvProps.in_reference i j "name" -> l <> ProvProps.in_reference i j "timestamp" -> (leaf_at tm (c_tree st') l v <-> leaf_at tm (c_tree st) l v)).
Proof.
  intros name source target sm src given dc uri stamp st NU NS H tm H1 H2 W SO WR CF. rewrite (convert_uri _ _ _ _ _ _ _ _ _ _ NU H tm H1 H2).
  destruct (ProvProps.C46_text uri (d_text source) (d_text target) library_version) as (a & b & c & ET & NT).
  destruct (ProvProps.C46_reference tm str_of parse_float parse_cpx flt_of_int np_cast array_items W SO (proj1 Casts) WR (ProvModel.source_text uri (d_text source) (d_text target) library_version) stamp st NT NS CF)
    as (st' & i & j & k & E & C' & EN & EJ & _ & L1 & L2 & L3 & _).
  exists st', i, j, a, b, c. rewrite E. rewrite <- ET. auto 10.
Qed.
End Convert.
Print Assumptions C48_forward.
Print Assumptions C48_backward.
Print Assumptions C48_there_and_back.
Print Assumptions C48_same_version.
Print Assumptions C48_provenance.

(** ** Examples *)
(** The versions of VmapProps.v: a structure and a quantity inside it are renamed, one structure is removed and one is new, and [k] changes
    its type. *)
Definition en_old : ids_def := {| i_fields := VmapProps.ex_old; i_meta := Meta (strs "ids") KStruct
  [Meta (strs "a") KStruct [lf "x" FLT 0; lf "y" FLT 0; Meta (strs "s") KAoS [lf "u" INT 0]]; lf "b" FLT 1; Meta (strs "gone") KStruct [lf "z" INT 0]; lf "k" FLT 3] |}.
Definition en_new : ids_def := {| i_fields := VmapProps.ex_new; i_meta := Meta (strs "ids") KStruct
  [Meta (strs "c") KStruct [lf "x" FLT 0; lf "w" FLT 0; Meta (strs "s") KAoS [lf "u" INT 0]]; lf "b" FLT 1; Meta (strs "extra") KStruct [lf "z" INT 0]; lf "k" STR 0] |}.
Definition en_dict (rank : Z) (d : ids_def) : dictionary :=
  {| d_rank := rank; d_major := 3; d_minor := rank; d_text := strs "3.x.0"; d_xml_major := Some 3%Z; d_ids := [(strs "ids", d)] |}.
Definition en_src : node := NStruct
  [(strs "a", NStruct [(strs "x", NLeaf (Some (VFlt 7%Z))); (strs "y", NLeaf (Some (VFlt 8%Z)));
                       (strs "s", NAoS [NStruct [(strs "u", NLeaf (Some (VInt 1)))]; NStruct []; NStruct [(strs "u", NLeaf (Some (VInt 3)))]])]);
   (strs "b", NLeaf (Some (VFltA [2] [1%Z; 2%Z]))); (strs "gone", NStruct [(strs "z", NLeaf (Some (VInt 5)))])].
Example C48_example_pair : pair_ok (strs "ids") (en_dict 5 en_old) (en_dict 20 en_new) en_old en_new.
Proof.
  assert (W : wf_fields (i_fields en_new)) by (apply VmapProofs4.wf_b_sound; vm_compute; reflexivity).
  constructor; try reflexivity; try (split; by_check).
  - cbn. lia.
  - intros (_ & H). discriminate.
  - apply VmapProps.C20_example_conditions.
  - apply same_b_sound; [exact W|]. vm_compute. reflexivity.
  - apply inside_b_sound; [exact W|]. vm_compute. reflexivity.
  - apply described_b_sound. vm_compute. reflexivity.
  - apply described_b_sound. vm_compute. reflexivity.
  - split; reflexivity.
  - apply VmapProps.C20_example_good.
  - intros e c I N E. cbn in I. repeat (destruct I as [<-|I]; [cbn in N; try discriminate; injection N as <-; discriminate|]). destruct I.
Qed.
Example C48_example_source : conf (i_meta en_old) en_src /\ stored_values (i_meta en_old) en_src /\ plain_copy 15 (strs "ids") (en_dict 5 en_old) (en_dict 20 en_new) (i_meta en_old) /\
  plain_copy 15 (strs "ids") (en_dict 20 en_new) (en_dict 5 en_old) (i_meta en_new) /\
  untouched (i_meta en_old) en_src (old_changes (i_fields en_old) (i_fields en_new) 5) /\ VmapProps.any_order VmapProps.same_order /\ casts_arrays ex_cast.
Proof.
  assert (W : wf_fields (i_fields en_new)) by (apply VmapProofs4.wf_b_sound; vm_compute; reflexivity).
  split; [by_check|]. split; [apply stored_b_sound; [by_check|vm_compute; reflexivity]|]. split; [intros E; discriminate|]. split; [intros E; discriminate|].
  split; [|split; [apply VmapProps.same_order_any|apply ex_casts]].
  apply (untouched_b_sound _ _ _ (map fst (changing (i_fields en_old) (i_fields en_new) 5))); [|vm_compute; reflexivity].
  intros p (q & H). apply in_map_iff. exists (p, q). split; [reflexivity|]. apply changing_complete; auto.
Qed.
(** the conversions *)
Definition en_convert (source target : dictionary) (sm : meta) (src : node) : result end_exn cst :=
  convert_ids VmapProps.same_order (fun _ => []) (en_dict 41 en_old) 15 41 (strs "2.0") (fun _ => []) (fun _ => None) (fun _ => None) Some ex_cast (fun _ => []) (fun _ _ => true)
    (fun f => Ok f) (fun _ => None) (fun _ => {| ValModel.a_dynamic := false; ValModel.a_coords := []; ValModel.a_same := []; ValModel.a_alts := [] |}) (fun _ _ _ _ _ => 0%Z) false (strs "ids") source target sm src None true [] [].
Example C48_example_convert : exists st st', en_convert (en_dict 5 en_old) (en_dict 20 en_new) (i_meta en_old) en_src = Ok st /\
  en_convert (en_dict 20 en_new) (en_dict 5 en_old) (i_meta en_new) (c_tree st) = Ok st' /\
  leaf_at (i_meta en_new) (c_tree st) [Child (strs "c"); Child (strs "w")] (VFlt 8%Z) /\
  leaf_at (i_meta en_new) (c_tree st) [Child (strs "c"); Child (strs "s"); Elem 2; Child (strs "u")] (VInt 3) /\
  leaf_at (i_meta en_old) (c_tree st') [Child (strs "a"); Child (strs "s"); Elem 2; Child (strs "u")] (VInt 3) /\
  ~ exists v, leaf_at (i_meta en_old) (c_tree st') [Child (strs "gone"); Child (strs "z")] v.
Proof.
  eexists _, _. split; [vm_compute; reflexivity|]. split; [vm_compute; reflexivity|].
  split; [apply fval_leaf; [by_check|by_check|vm_compute; reflexivity]|]. split; [apply fval_leaf; [by_check|by_check|vm_compute; reflexivity]|].
  split; [apply fval_leaf; [by_check|by_check|vm_compute; reflexivity]|].
  intros (v & H). apply fval_leaf in H; [|by_check|by_check]. vm_compute in H. discriminate.
Qed.
(** The newer dictionary, converted to itself. *)
Example C48_example_settled : settled (i_fields en_new) 20 /\ ~ settled (i_fields en_new) 5.
Proof.
  split.
  - intros e c vs I N V. assert (X : vs = [10%Z]); [|subst vs; split; [discriminate|intros x [<-|[]]; lia]].
    cbn in I. repeat (destruct I as [<-|I]; [cbn in N; try discriminate; injection N as <-; cbn in V; congruence|]). destruct I.
  - intros S. destruct (S (VmapProps.ren "c" "structure" "structure_renamed" "a") _ [10%Z] (or_introl eq_refl) eq_refl eq_refl) as (_ & H). specialize (H 10%Z (or_introl eq_refl)). lia.
Qed.
