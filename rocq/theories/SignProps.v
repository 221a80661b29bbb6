(** C52: the conversion of an IDS between DD 3 and DD 4, in terms of the two data dictionaries: values that change sign, and names. *)
From Verif Require Import Base PathModel PathSpec PathProofs3 TreeModel TreeSpec TreeProofs TreeProofs2 TreeCheck TreeProofs4 ValProofs ValProofs2 PrimModel PrimSpec ConvModel ConvSpec ConvProofs ConvProofs2 ConvProofs3 ConvProofs4 ConvProofs5 ConvProgress ConvProps ConvProps7 ConvProps8 ConvMaps.
From Verif Require VmapModel VmapProofs VmapProofs2 VmapProofs3 VmapProofs4 VmapProps VmapProps3 ProvModel ProvProps ValSpec.
From Verif Require Import VmapSpec EndSpec EndModel EndProofs EndProofs2 EndProofs3 EndProofs4 EndCheck EndProps.
From Verif Require Import SignSpec SignProofs SignProofs2 SignProofs3 SignProofs4 SignNames SignNames2 SignMaps.
From Coq Require Import Permutation.
Import VmapModel(fields, e_path, e_type, e_nbc, n_versions, elem, nmap, maps, o2n, n2o, build_map, m_post_ids, handler(..)).
Import VmapProps3(flipped, swapped, nm, idn, dsc, source_path, connections_path).

(** Two versions of the IDS [name], from major version 3 to 4.  The conditions are those of C20 (VmapSpec.v), of EndSpec.v and of SignNames.v,
    for the dictionaries as they are and with the declared renamings of names and identifiers.  Left out: DD 3.42.0 and later
    (for which the map of 3.41.0 is used as well) and the IDS equilibrium. *)
Record pair_34 (flips : str -> list str) (name : str) (old new : dictionary) (o n : ids_def) : Prop := {
  pf_old : alookup name (d_ids old) = Some o;
  pf_new : alookup name (d_ids new) = Some n;
  pf_order : (d_rank old < d_rank new)%Z;
  pf_major : d_major old = 3%Z /\ d_xml_major new = Some 4%Z /\ (d_minor old < 42)%Z;
  pf_name : name <> strs "equilibrium";
  pf_cond : VmapProofs4.conditions (i_fields o) (i_fields n) (d_rank old);
  pf_same : same_quantity (i_fields o) (i_fields n) (d_rank old);
  pf_types : types_inside (i_fields o) (i_fields n) (d_rank old);
  pf_names : names_ok (i_fields o) (i_fields n) (d_rank old);
  pf_dcond : VmapProofs4.conditions (i_fields o) (declared (i_fields o) (i_fields n) (d_rank old)) (d_rank old);
  pf_dsame : same_quantity (i_fields o) (declared (i_fields o) (i_fields n) (d_rank old)) (d_rank old);
  pf_dtypes : types_inside (i_fields o) (declared (i_fields o) (i_fields n) (d_rank old)) (d_rank old);
  pf_dold : described (i_meta o) (i_fields o);
  pf_dnew : described (i_meta n) (i_fields n);
  pf_wf : wf_meta (i_meta o) /\ wf_meta (i_meta n);
  pf_kind : mkind (i_meta o) = KStruct /\ mkind (i_meta n) = KStruct;
  pf_str : str_ok (i_meta o) /\ str_ok (i_meta n);
  pf_good : (forall e, In e (i_fields o) -> VmapProofs4.good_elem e) /\ (forall e, In e (i_fields n) -> VmapProofs4.good_elem e);
  pf_nbc : forall e c, In e (i_fields n) -> e_nbc e = Some c -> n_versions c <> VmapModel.Versions [];
  pf_listed : forall p, In p (flips name) -> exists_in (i_fields o) p \/ ~ exists_in (i_fields n) p;
  pf_unsigned : forall P, swapped (i_fields o) (i_fields n) P ->
    ~ flipped (i_fields o) (flips name) (nm P) /\ ~ flipped (i_fields o) (flips name) (idn P) /\ ~ flipped (i_fields o) (flips name) (dsc P) }.

(** the path is that of a structure or array of structures *)
Definition structure_at (m : meta) (p : str) : Prop := exists q m', p = slashed q /\ at_path m q m' /\ (mkind m' = KStruct \/ mkind m' = KAoS).

Section Pair.
Variable flips : str -> list str.
Variables (name : str) (old new : dictionary) (o n : ids_def).
Notation O := (i_fields o).
Notation N' := (declared (i_fields o) (i_fields n) (d_rank old)).
Notation v := (d_rank old).
(** the quantity p of DD 3 is the quantity q of DD 4 *)
Definition becomes : str -> str -> Prop := counterpart O N' v.
(** the quantity of DD 3 changes sign; the quantity of DD 4 does *)
Definition sign3 (p : str) : Prop := flipped O (flips name) p.
Definition sign4 (q : str) : Prop := exists p, sign3 p /\ becomes p q.
(** Something else than the path or the sign of the quantity changes: changes of the dictionary, the source of the data, the connections of
    circuits, and structures with a sign. *)
Definition changes3 (p : str) : Prop := old_changes O N' v p \/ p = source_path \/
  (name = strs "pf_active" /\ (p = connections_path \/ becomes p connections_path)) \/ (sign3 p /\ structure_at (i_meta o) p).
Definition changes4 (q : str) : Prop := new_changes O N' v q \/
  (name = strs "pf_active" /\ q = connections_path) \/ (sign4 q /\ structure_at (i_meta n) q).
End Pair.

Section Convert.
Variable order : list str -> list str.
Variable flips : str -> list str.
Variable dd341 : dictionary.
Variables (rank340 rank341 : Z).
Variable library_version : str.
Variable str_of : pyval -> str.
Variable parse_float : str -> option flt.
Variable parse_cpx : str -> option (flt * flt).
Variable flt_of_int : Z -> option flt.
Variable np_cast : dtype -> pyval -> result pexn value.
Variable array_items : value -> list pyval.
Variable close : pyval -> pyval -> bool.
Variable np_int32 : flt -> result pexn Z.
Variable enum_of : list str -> option (Z -> option (str * str)).
Variable at_ : list str -> ValModel.attrs.
Variable lin : flt -> flt -> flt -> flt -> flt -> flt.
Notation convert := (convert_ids order flips dd341 rank340 rank341 library_version str_of parse_float parse_cpx flt_of_int np_cast array_items close np_int32 enum_of at_ lin).
Notation copy m m' n r d := (copy_toplevel m m' n r d str_of parse_float parse_cpx flt_of_int np_cast array_items close np_int32 enum_of).
Notation plain_copy := (plain_copy rank340).
Hypothesis Ord : VmapProps.any_order order.
Hypothesis Casts : casts_arrays np_cast.

Lemma map_34 : forall name old new o n, pair_34 flips name old new o n ->
  exists s s0 s', build_map order (i_fields o) (i_fields n) (d_rank old) = Ok s /\
    build_map order (i_fields o) (declared (i_fields o) (i_fields n) (d_rank old)) (d_rank old) = Ok s0 /\
    VmapModel.apply_3to4 name (i_fields o) (i_fields n) (flips name) None s = Ok s' /\
    dd_version_map order flips dd341 rank341 name old new = Ok s'.
Proof.
  intros name old new o n P. destruct (pf_cond _ _ _ _ _ _ P) as (Wo & Wn & _). destruct (pf_good _ _ _ _ _ _ P) as (Go & Gn).
  destruct (VmapProps.C20_no_exception order _ _ (d_rank old) Ord Wo Wn Go Gn (pf_nbc _ _ _ _ _ _ P)) as (s & B).
  pose proof (declared_wf (i_fields o) (i_fields n) (d_rank old) Wn) as W'.
  destruct (VmapProps.C20_no_exception order _ _ (d_rank old) Ord Wo W' Go (declared_good _ _ _ Gn) (declared_nbc _ _ _ (pf_nbc _ _ _ _ _ _ P))) as (s0 & B0).
  destruct (name_loop_ok (i_fields o) (i_fields n) Wo Wn (akeys (VmapModel.by_path (i_fields o)))
     (VmapModel.special_rules name (VmapModel.cocos_rules (i_fields o) (flips name) s))) as (s' & A).
  exists s, s0, s'. split; auto. split; auto. split; [exact A|].
  unfold dd_version_map. rewrite (pf_old _ _ _ _ _ _ P), (pf_new _ _ _ _ _ _ P). destruct (pf_major _ _ _ _ _ _ P) as (M1 & M2 & M3).
  assert (E : is_3to4 (d_major old) new = true) by (unfold is_3to4; rewrite M1, M2; reflexivity). rewrite E.
  assert (F : (42 <=? d_minor old)%Z = false) by (apply Z.leb_gt; exact M3). rewrite F. cbn [andb rbind]. unfold VmapModel.version_map. rewrite B. cbn [rbind].
  unfold VmapModel.apply_3to4. cbn [VmapModel.obsolete_rules]. rewrite A. reflexivity.
Qed.

Lemma leaf_end : forall m src s a b, wf_meta m -> mkind m = KStruct -> present m src s -> loc_names s = a ++ b -> a <> [] -> ~ structure_at m (slashed a) -> b = [] /\ exists v, leaf_at m src s v.
Proof.
  intros m src s a b W K PR E NA NS. destruct (present_meta m m src W K K s PR) as (m' & n' & ND & K' & _ & _ & _ & AP & _).
  rewrite E in AP. apply at_path_split in AP as (ma & A1 & A2).
  assert (KL : exists dt nd, mkind ma = KLeaf dt nd).
  { destruct (mkind ma) as [| |dt nd] eqn:KK; [exfalso; apply NS; exists a, ma; auto|exfalso; apply NS; exists a, ma; auto|eauto]. }
  assert (Wa := at_path_wf _ _ _ W A1).
  assert (b = []) as ->.
  { destruct b as [|x b]; [reflexivity|]. exfalso. destruct KL as (dt & nd & KL). destruct Wa as [nm k cs _ _ H]. cbn in KL. subst k. apply at_path_inv in A2 as (c & I & _). cbn in I. rewrite (H dt nd eq_refl) in I. destruct I. }
  split; auto. inversion A2; subst. destruct PR as [H|(k & m2 & els & N2 & K2 & _)]; [exact H|]. exfalso.
  destruct (node_at_inj _ _ _ _ _ ND W _ _ N2) as (<- & _). destruct KL as (dt & nd & KL). congruence.
Qed.

Section Facts.
Variables (name : str) (old new : dictionary) (o n : ids_def).
Hypothesis P : pair_34 flips name old new o n.
Variables s s0 s' : maps.
Hypothesis B : build_map order (i_fields o) (i_fields n) (d_rank old) = Ok s.
Hypothesis B0 : build_map order (i_fields o) (declared (i_fields o) (i_fields n) (d_rank old)) (d_rank old) = Ok s0.
Hypothesis A : VmapModel.apply_3to4 name (i_fields o) (i_fields n) (flips name) None s = Ok s'.
Notation sign3 := (sign3 flips name o).
Notation sign4 := (sign4 flips name old o n).
Notation becomes := (becomes old o n).
Notation changes3 := (changes3 flips name old o n).
Notation changes4 := (changes4 flips name old o n).

Lemma types_34 : (forall k, k <> source_path -> alookup k (VmapModel.m_type (o2n s')) = alookup k (VmapModel.m_type (o2n s))) /\ VmapModel.m_type (n2o s') = VmapModel.m_type (n2o s) /\ (quiet s -> quiet s').
Proof. apply (apply_types _ _ _ _ _ _ (pf_name _ _ _ _ _ _ P) A). Qed.
Lemma changes_in : forall k, old_changes (i_fields o) (i_fields n) (d_rank old) k -> old_changes (i_fields o) (declared (i_fields o) (i_fields n) (d_rank old)) (d_rank old) k.
Proof. intros k (q & H). exists q. apply (changes_declared _ _ _ (pf_names _ _ _ _ _ _ P) (pf_cond _ _ _ _ _ _ P)). exact H. Qed.
Lemma changes_in' : forall k, new_changes (i_fields o) (i_fields n) (d_rank old) k -> new_changes (i_fields o) (declared (i_fields o) (i_fields n) (d_rank old)) (d_rank old) k.
Proof. intros k (q & H). exists q. apply (changes_declared _ _ _ (pf_names _ _ _ _ _ _ P) (pf_cond _ _ _ _ _ _ P)). exact H. Qed.
Lemma no_rule : forall k, ~ old_changes (i_fields o) (declared (i_fields o) (i_fields n) (d_rank old)) (d_rank old) k -> alookup k (VmapModel.m_type (o2n s)) = None /\ alookup k (VmapModel.m_post (o2n s)) = None.
Proof.
  intros k N. destruct (rules _ _ _ (pf_cond _ _ _ _ _ _ P) (pf_same _ _ _ _ _ _ P) (pf_types _ _ _ _ _ _ P) order s Ord B) as (R & _).
  destruct (alookup k (VmapModel.m_type (o2n s))) eqn:E1; [exfalso; apply N, changes_in, R; left; congruence|].
  destruct (alookup k (VmapModel.m_post (o2n s))) eqn:E2; [exfalso; apply N, changes_in, R; right; congruence|auto].
Qed.
Lemma no_rule' : forall k, ~ new_changes (i_fields o) (declared (i_fields o) (i_fields n) (d_rank old)) (d_rank old) k -> alookup k (VmapModel.m_type (n2o s)) = None /\ alookup k (VmapModel.m_post (n2o s)) = None.
Proof.
  intros k N. destruct (rules _ _ _ (pf_cond _ _ _ _ _ _ P) (pf_same _ _ _ _ _ _ P) (pf_types _ _ _ _ _ _ P) order s Ord B) as (_ & R & _).
  destruct (alookup k (VmapModel.m_type (n2o s))) eqn:E1; [exfalso; apply N, changes_in', R; left; congruence|].
  destruct (alookup k (VmapModel.m_post (n2o s))) eqn:E2; [exfalso; apply N, changes_in', R; right; congruence|auto].
Qed.
Lemma name_cases : forall k, ~ (name = strs "pf_active" /\ k = connections_path) -> name <> strs "pf_active" \/ k <> connections_path.
Proof. intros k H. destruct (str_dec name (strs "pf_active")) as [E|E]; [|auto]. right. intros X. apply H. auto. Qed.
Lemma sign3_dec : forall p, sign3 (slashed p) \/ ~ sign3 (slashed p).
Proof. intros p. apply flipped_dec. Qed.
Lemma sign4_dec : forall q, sign4 (slashed q) \/ ~ sign4 (slashed q).
Proof. intros q. exact (signed_new_dec _ _ (d_rank old) (flips name) (pf_cond _ _ _ _ _ _ P) (slashed q)). Qed.

(** what the map says about a path at which nothing else changes *)
Lemma old_path : forall k, ~ old_changes (i_fields o) (declared (i_fields o) (i_fields n) (d_rank old)) (d_rank old) k -> k <> source_path -> ~ (name = strs "pf_active" /\ k = connections_path) ->
  VmapProofs2.entry (o2n s') k = VmapProofs2.entry (o2n s0) k /\ alookup k (VmapModel.m_type (o2n s')) = None /\
  (sign3 k -> alookup k (VmapModel.m_post (o2n s')) = Some H_cocos) /\ (~ sign3 k -> alookup k (VmapModel.m_post (o2n s')) = None).
Proof.
  intros k N NS NC. destruct (no_rule k N) as (T1 & T2). destruct types_34 as (T & _).
  destruct (VmapProps3.C25_sign_rules _ _ _ _ _ _ _ A) as (C & _). destruct (C k (name_cases k NC)) as (C1 & C2 & _).
  split; [apply (forward_entries _ _ _ (pf_names _ _ _ _ _ _ P) (pf_cond _ _ _ _ _ _ P) (pf_dcond _ _ _ _ _ _ P) order Ord s s0 s' B B0 name (flips name) A); exact NS|].
  split; [rewrite (T k NS); exact T1|]. split; [exact C1|]. intros F. rewrite (C2 F). exact T2.
Qed.
Lemma new_path : forall k, exists_in (i_fields n) k -> ~ new_changes (i_fields o) (declared (i_fields o) (i_fields n) (d_rank old)) (d_rank old) k -> ~ (name = strs "pf_active" /\ k = connections_path) ->
  VmapProofs2.entry (n2o s') k = VmapProofs2.entry (n2o s0) k /\ alookup k (VmapModel.m_type (n2o s')) = None /\
  (sign4 k -> alookup k (VmapModel.m_post (n2o s')) = Some H_cocos) /\ (~ sign4 k -> alookup k (VmapModel.m_post (n2o s')) = None).
Proof.
  intros k EX N NC. destruct (no_rule' k N) as (T1 & T2). destruct types_34 as (_ & T & _).
  destruct (VmapProps3.C25_sign_rules _ _ _ _ _ _ _ A) as (C & _). destruct (C k (name_cases k NC)) as (_ & _ & C1 & C2).
  assert (N0 : ~ new_changes (i_fields o) (i_fields n) (d_rank old) k) by (intros H; apply N, changes_in', H).
  pose proof (signs_new _ _ _ (flips name) (pf_names _ _ _ _ _ _ P) (pf_cond _ _ _ _ _ _ P) (pf_same _ _ _ _ _ _ P) (pf_listed _ _ _ _ _ _ P) (pf_unsigned _ _ _ _ _ _ P) order Ord s B k EX N0) as SN.
  split; [apply (backward_entries _ _ _ (pf_names _ _ _ _ _ _ P) (pf_cond _ _ _ _ _ _ P) (pf_dcond _ _ _ _ _ _ P) order Ord s s0 s' B B0 name (flips name) A)|].
  split; [rewrite T; exact T1|]. split; [intros H; apply C1, SN; exact H|]. intros F. rewrite C2; [exact T2|]. intros H. apply F, SN. exact H.
Qed.
Lemma forward_signs : forall src, untouched (i_meta o) src changes3 -> signs_added (i_meta o) src (o2n s0) (o2n s') (fun p => sign3 (slashed p)).
Proof.
  intros src U x PR a b E NA. pose proof (U x PR a b E NA) as NC.
  destruct (old_path (slashed a)) as (E1 & E2 & E3 & E4).
  { intros H. apply NC. left. exact H. } { intros H. apply NC. right. left. exact H. } { intros (H1 & H2). apply NC. right. right. left. auto. }
  split; [exact E1|]. split; [exact E2|]. split; [|exact E4]. intros F. split; [apply E3; exact F|].
  destruct (pf_wf _ _ _ _ _ _ P) as (W & _). destruct (pf_kind _ _ _ _ _ _ P) as (K & _).
  apply (leaf_end _ _ _ a b W K PR E NA). intros H. apply NC. right. right. right. auto.
Qed.
Lemma new_exists : forall src t a b, present (i_meta n) src t -> loc_names t = a ++ b -> a <> [] -> exists_in (i_fields n) (slashed a).
Proof.
  intros src t a b PR E NA. destruct (pf_wf _ _ _ _ _ _ P) as (_ & W). destruct (pf_kind _ _ _ _ _ _ P) as (_ & K).
  destruct (present_meta (i_meta n) (i_meta n) src W K K t PR) as (m' & n' & _ & _ & _ & _ & _ & AP & _). rewrite E in AP. apply at_path_prefix in AP as (ma & AP).
  eapply exists_new; eauto. apply (pf_dnew _ _ _ _ _ _ P).
Qed.
Lemma backward_signs : forall src, untouched (i_meta n) src changes4 -> signs_added (i_meta n) src (n2o s0) (n2o s') (fun q => sign4 (slashed q)).
Proof.
  intros src U x PR a b E NA. pose proof (U x PR a b E NA) as NC.
  destruct (new_path (slashed a)) as (E1 & E2 & E3 & E4).
  { eapply new_exists; eauto. } { intros H. apply NC. left. exact H. } { intros (H1 & H2). apply NC. right. left. auto. }
  split; [exact E1|]. split; [exact E2|]. split; [|exact E4]. intros F. split; [apply E3; exact F|].
  destruct (pf_wf _ _ _ _ _ _ P) as (_ & W). destruct (pf_kind _ _ _ _ _ _ P) as (_ & K).
  apply (leaf_end _ _ _ a b W K PR E NA). intros H. apply NC. right. right. auto.
Qed.
End Facts.

(** From DD 3 to DD 4: the conversion raises no exception, and the new IDS holds exactly the values and arrays of structures whose quantity
    exists in DD 4, there, with the opposite sign where the sign changes. *)
Theorem C52_forward : forall name old new o n, pair_34 flips name old new o n -> forall src, conf (i_meta o) src -> stored_values (i_meta o) src ->
  plain_copy name old new (i_meta o) -> untouched (i_meta o) src (changes3 flips name old o n) -> signs_ok (i_meta o) src (fun p => sign3 flips name o (slashed p)) ->
  forall deepcopy stamp, exists st, convert false name old new (i_meta o) src None deepcopy [] stamp = Ok st /\ conf (i_meta n) (c_tree st) /\
  (forall t w, leaf_at (i_meta n) (c_tree st) t w ->
     exists s v, leaf_at (i_meta o) src s v /\ stands_for (i_meta n) (becomes old o n) s t /\ arrives (fun p => sign3 flips name o (slashed p)) (loc_names s) v w) /\
  (forall s t v, leaf_at (i_meta o) src s v -> stands_for (i_meta n) (becomes old o n) s t ->
     exists w, leaf_at (i_meta n) (c_tree st) t w /\ arrives (fun p => sign3 flips name o (slashed p)) (loc_names s) v w) /\
  (forall t k, aos_at (i_meta n) (c_tree st) t k <-> exists s, aos_at (i_meta o) src s k /\ stands_for (i_meta n) (becomes old o n) s t).
Proof.
  intros name old new o n P src CF SV PC U OK dc stamp. destruct (map_34 _ _ _ _ _ P) as (s & s0 & s' & B & B0 & A & DM).
  destruct (pf_wf _ _ _ _ _ _ P) as (P10 & P10'). destruct (pf_kind _ _ _ _ _ _ P) as (P11 & P11'). destruct (pf_str _ _ _ _ _ _ P) as (P12 & P12').
  pose proof (pf_dcond _ _ _ _ _ _ P) as P5. pose proof (pf_dsame _ _ _ _ _ _ P) as P6. pose proof (pf_dtypes _ _ _ _ _ _ P) as P7.
  pose proof (pf_dold _ _ _ _ _ _ P) as P8. pose proof (declared_described (i_fields o) (i_fields n) (d_rank old) _ (pf_dnew _ _ _ _ _ _ P)) as P9.
  destruct (forward_ok _ _ _ _ _ P5 P6 P7 P10 P10' P8 P9 order s0 Ord B0 P11 P11' P12') as (V & SO).
  set (fl := fun p => sign3 flips name o (slashed p)) in *.
  assert (U1 : untouched (i_meta o) src (old_changes (i_fields o) (declared (i_fields o) (i_fields n) (d_rank old)) (d_rank old))).
  { intros x PR a b E NA H. apply (U x PR a b E NA). left. exact H. }
  assert (HR := forward_rule _ _ _ P5 P6 P7 order s0 Ord B0).
  assert (HM := forward_map _ _ _ _ _ P5 P6 P7 P10 P10' P8 P9 order s0 Ord B0).
  assert (HD := forward_removed _ _ _ _ _ P5 P6 P7 P10 P10' P8 P9 order s0 Ord B0).
  assert (HE : forall p, becomes old o n p [] -> False) by (intros p (_ & X & _); exact (no_empty _ _ P9 X)).
  assert (NR := bridge_rules (i_meta o) src (o2n s0) _ HR U1).
  assert (SA := forward_signs _ _ _ _ _ P s s0 s' B B0 A src U). fold fl in SA.
  assert (Dec : forall p, fl p \/ ~ fl p) by (intros p; apply flipped_dec).
  destruct (copy_signs (i_meta o) (i_meta n) src (o2n s') (o2n s0) dc str_of parse_float parse_cpx flt_of_int np_cast array_items close np_int32 enum_of fl V Casts SV CF SO NR SA Dec OK)
    as (st & RUN & CT & L & AA).
  exists st. split.
  { eapply convert_plain; eauto; [|apply (types_34 _ _ _ _ _ P s s' A); apply (build_quiet _ _ _ _ _ B)|apply (pf_new _ _ _ _ _ _ P)].
    unfold rename_map. pose proof (pf_order _ _ _ _ _ _ P). replace (d_rank old >? d_rank new)%Z with false by (symmetry; rewrite Z.gtb_ltb; apply Z.ltb_ge; lia). rewrite DM. reflexivity. }
  split; auto.
  pose proof (bridge_goes (i_meta o) (i_meta n) src (o2n s0) (becomes old o n) _ V HM HD HR HE U1) as G.
  assert (AR := leaf_arrives (i_meta o) (i_meta n) src (o2n s') (o2n s0) fl V CF SA Dec OK).
  split; [|split].
  - intros t w LT. apply L in LT. destruct LT as (x & v & LA & NX & GX & ->). exists x, v. split; auto. split; [apply G; eauto|apply AR; auto].
  - intros x t v LA ST. exists (flip_value (signed (o2n s')) (loc_names x) v). assert (X : ~ removed (o2n s0) (loc_names x) /\ goes_to (i_meta n) (o2n s0) x t) by (apply G; eauto).
    split; [apply L; exists x, v; tauto|apply AR; auto].
  - intros t k. rewrite AA. split; intros (x & LA & X); exists x; split; auto; apply G; eauto.
Qed.

(** From DD 4 to DD 3. *)
Theorem C52_backward : forall name old new o n, pair_34 flips name old new o n -> forall src, conf (i_meta n) src -> stored_values (i_meta n) src ->
  plain_copy name new old (i_meta n) -> untouched (i_meta n) src (changes4 flips name old o n) -> signs_ok (i_meta n) src (fun q => sign4 flips name old o n (slashed q)) ->
  forall deepcopy stamp, exists st, convert false name new old (i_meta n) src None deepcopy [] stamp = Ok st /\ conf (i_meta o) (c_tree st) /\
  (forall t w, leaf_at (i_meta o) (c_tree st) t w ->
     exists s v, leaf_at (i_meta n) src s v /\ stands_for (i_meta o) (fun q p => becomes old o n p q) s t /\ arrives (fun q => sign4 flips name old o n (slashed q)) (loc_names s) v w) /\
  (forall s t v, leaf_at (i_meta n) src s v -> stands_for (i_meta o) (fun q p => becomes old o n p q) s t ->
     exists w, leaf_at (i_meta o) (c_tree st) t w /\ arrives (fun q => sign4 flips name old o n (slashed q)) (loc_names s) v w) /\
  (forall t k, aos_at (i_meta o) (c_tree st) t k <-> exists s, aos_at (i_meta n) src s k /\ stands_for (i_meta o) (fun q p => becomes old o n p q) s t).
Proof.
  intros name old new o n P src CF SV PC U OK dc stamp. destruct (map_34 _ _ _ _ _ P) as (s & s0 & s' & B & B0 & A & DM).
  destruct (pf_wf _ _ _ _ _ _ P) as (P10 & P10'). destruct (pf_kind _ _ _ _ _ _ P) as (P11 & P11'). destruct (pf_str _ _ _ _ _ _ P) as (P12 & P12').
  pose proof (pf_dcond _ _ _ _ _ _ P) as P5. pose proof (pf_dsame _ _ _ _ _ _ P) as P6. pose proof (pf_dtypes _ _ _ _ _ _ P) as P7.
  pose proof (pf_dold _ _ _ _ _ _ P) as P8. pose proof (declared_described (i_fields o) (i_fields n) (d_rank old) _ (pf_dnew _ _ _ _ _ _ P)) as P9.
  destruct (backward_ok _ _ _ _ _ P5 P6 P7 P10 P10' P8 P9 order s0 Ord B0 P11 P11' P12) as (V & SO).
  set (fl := fun p => sign4 flips name old o n (slashed p)) in *.
  assert (U1 : untouched (i_meta n) src (new_changes (i_fields o) (declared (i_fields o) (i_fields n) (d_rank old)) (d_rank old))).
  { intros x PR a b E NA H. apply (U x PR a b E NA). left. exact H. }
  assert (HR := backward_rule _ _ _ P5 P6 P7 order s0 Ord B0).
  assert (HM := backward_map _ _ _ _ _ P5 P6 P7 P10 P10' P8 P9 order s0 Ord B0).
  assert (HD := backward_removed _ _ _ _ _ P5 P6 P7 P10 P10' P8 P9 order s0 Ord B0).
  set (C := fun q p => becomes old o n p q).
  assert (HE : forall p, C p [] -> False) by (intros p (X & _); exact (no_empty _ _ P8 X)).
  assert (NR := bridge_rules (i_meta n) src (n2o s0) _ HR U1).
  assert (SA := backward_signs _ _ _ _ _ P s s0 s' B B0 A src U). fold fl in SA.
  assert (Dec : forall p, fl p \/ ~ fl p) by (intros p; apply (sign4_dec _ _ _ _ _ P)).
  destruct (copy_signs (i_meta n) (i_meta o) src (n2o s') (n2o s0) dc str_of parse_float parse_cpx flt_of_int np_cast array_items close np_int32 enum_of fl V Casts SV CF SO NR SA Dec OK)
    as (st & RUN & CT & L & AA).
  exists st. split.
  { eapply convert_plain; eauto; [|apply (types_34 _ _ _ _ _ P s s' A); apply (build_quiet _ _ _ _ _ B)|apply (pf_old _ _ _ _ _ _ P)].
    unfold rename_map. pose proof (pf_order _ _ _ _ _ _ P). replace (d_rank new >? d_rank old)%Z with true by (symmetry; rewrite Z.gtb_ltb; apply Z.ltb_lt; lia). rewrite DM. reflexivity. }
  split; auto.
  pose proof (bridge_goes (i_meta n) (i_meta o) src (n2o s0) C _ V HM HD HR HE U1) as G.
  assert (AR := leaf_arrives (i_meta n) (i_meta o) src (n2o s') (n2o s0) fl V CF SA Dec OK).
  split; [|split].
  - intros t w LT. apply L in LT. destruct LT as (x & v & LA & NX & GX & ->). exists x, v. split; auto. split; [apply G; eauto|apply AR; auto].
  - intros x t v LA ST. exists (flip_value (signed (n2o s')) (loc_names x) v). assert (X : ~ removed (n2o s0) (loc_names x) /\ goes_to (i_meta o) (n2o s0) x t) by (apply G; eauto).
    split; [apply L; exists x, v; tauto|apply AR; auto].
  - intros t k. rewrite AA. split; intros (x & LA & X); exists x; split; auto; apply G; eauto.
Qed.

(** From DD 3 to DD 4 and back: neither conversion raises an exception, and the result holds exactly the values and arrays of structures whose
    quantity exists in both versions, where they were and with their sign. *)
Theorem C52_there_and_back : forall name old new o n, pair_34 flips name old new o n -> forall src, conf (i_meta o) src -> stored_values (i_meta o) src ->
  plain_copy name old new (i_meta o) -> plain_copy name new old (i_meta n) ->
  untouched (i_meta o) src (changes3 flips name old o n) -> signs_ok (i_meta o) src (fun p => sign3 flips name o (slashed p)) ->
  forall deepcopy deepcopy' stamp stamp', exists st st', convert false name old new (i_meta o) src None deepcopy [] stamp = Ok st /\
  convert false name new old (i_meta n) (c_tree st) None deepcopy' [] stamp' = Ok st' /\ conf (i_meta o) (c_tree st') /\
  (forall s v, leaf_at (i_meta o) (c_tree st') s v <-> leaf_at (i_meta o) src s v /\ exists q, becomes old o n (slashed (loc_names s)) q) /\
  (forall s k, aos_at (i_meta o) (c_tree st') s k <-> aos_at (i_meta o) src s k /\ exists q, becomes old o n (slashed (loc_names s)) q).
Proof.
  intros name old new o n P src CF SV PC PC' U OK dc dc' stamp stamp'. destruct (map_34 _ _ _ _ _ P) as (s & s0 & s' & B & B0 & A & DM).
  destruct (pf_wf _ _ _ _ _ _ P) as (P10 & P10'). destruct (pf_kind _ _ _ _ _ _ P) as (P11 & P11'). destruct (pf_str _ _ _ _ _ _ P) as (P12 & P12').
  pose proof (pf_dcond _ _ _ _ _ _ P) as P5. pose proof (pf_dsame _ _ _ _ _ _ P) as P6. pose proof (pf_dtypes _ _ _ _ _ _ P) as P7.
  pose proof (pf_dold _ _ _ _ _ _ P) as P8. pose proof (declared_described (i_fields o) (i_fields n) (d_rank old) _ (pf_dnew _ _ _ _ _ _ P)) as P9.
  destruct (forward_ok _ _ _ _ _ P5 P6 P7 P10 P10' P8 P9 order s0 Ord B0 P11 P11' P12') as (V & SO).
  destruct (backward_ok _ _ _ _ _ P5 P6 P7 P10 P10' P8 P9 order s0 Ord B0 P11 P11' P12) as (V' & SO').
  set (fl := fun p => sign3 flips name o (slashed p)) in *. set (fb := fun q => sign4 flips name old o n (slashed q)).
  set (ch := old_changes (i_fields o) (declared (i_fields o) (i_fields n) (d_rank old)) (d_rank old)).
  assert (U1 : untouched (i_meta o) src ch).
  { intros x PR a b E NA H. apply (U x PR a b E NA). left. exact H. }
  assert (HR := forward_rule _ _ _ P5 P6 P7 order s0 Ord B0).
  assert (HM := forward_map _ _ _ _ _ P5 P6 P7 P10 P10' P8 P9 order s0 Ord B0).
  assert (HD := forward_removed _ _ _ _ _ P5 P6 P7 P10 P10' P8 P9 order s0 Ord B0).
  assert (HR' := backward_rule _ _ _ P5 P6 P7 order s0 Ord B0).
  assert (HM' := backward_map _ _ _ _ _ P5 P6 P7 P10 P10' P8 P9 order s0 Ord B0).
  assert (HD' := backward_removed _ _ _ _ _ P5 P6 P7 P10 P10' P8 P9 order s0 Ord B0).
  assert (HC := changes_back _ _ _ _ _ P5 P8 P9).
  assert (HN := forward_nonempty _ _ _ _ _ P5 P6 P7 P10 P10' P8 P9 order s0 Ord B0).
  set (C := becomes old o n).
  assert (HE : forall p, C p [] -> False) by (intros p (_ & X & _); exact (no_empty _ _ P9 X)).
  assert (NR := bridge_rules (i_meta o) src (o2n s0) _ HR U1).
  assert (SA := forward_signs _ _ _ _ _ P s s0 s' B B0 A src U). fold fl in SA.
  pose proof (bridge_goes (i_meta o) (i_meta n) src (o2n s0) C _ V HM HD HR HE U1) as G.
  assert (PM := fun x PR => present_meta (i_meta o) (i_meta n) src P10 P11 P11' x PR).
  (* nothing changes at the place of a value *)
  assert (UN : forall x t, (exists v, leaf_at (i_meta o) src x v) \/ (exists k, aos_at (i_meta o) src x k) -> stands_for (i_meta n) C x t ->
    forall a b, loc_names t = a ++ b -> a <> [] -> ~ new_changes (i_fields o) (declared (i_fields o) (i_fields n) (d_rank old)) (d_rank old) (slashed a)).
  { intros x t PR ST a b E NA H. destruct (PM x PR) as (m' & n' & _ & _ & _ & _ & N1 & AP & _). destruct ST as (CC & _ & NT & mt & LO).
    assert (N2 : loc_names t <> []) by (rewrite E; destruct a; [congruence|discriminate]).
    destruct (HC _ _ _ _ a b AP (loc_at_path _ _ _ LO NT) N1 N2 CC E NA H) as (a' & b' & E' & NA' & H'). exact (U1 x PR a' b' E' NA' H'). }
  assert (NB : forall x t, (exists v, leaf_at (i_meta o) src x v) \/ (exists k, aos_at (i_meta o) src x k) -> stands_for (i_meta n) C x t -> ~ removed (n2o s0) (loc_names t)).
  { intros x t PR ST R. destruct (PM x PR) as (m' & n' & _ & _ & _ & _ & N1 & AP & _). pose proof ST as (CC & _ & NT & mt & LO).
    assert (N2 : loc_names t <> []) by (intros E; rewrite E in CC; exact (HE _ CC)).
    destruct (HD' _ _ _ _ (loc_at_path _ _ _ LO NT) AP N2 N1 R CC) as (a & b & E & NA & H). exact (UN x t PR ST a b E NA H). }
  assert (RB : renamed_back (i_meta o) (i_meta n) (o2n s0) (n2o s0)).
  { intros p q m mt AA K BT NP NQ M.
    assert (N1 : p <> []). { intros ->. inversion AA; subst. congruence. }
    assert (N2 : q <> []) by (exact (HN p q m AA N1 NP M (ds_names _ _ P9 _ _ BT))).
    apply (HM' q p mt m BT AA N2 N1 NQ). apply (HM p q m mt AA BT N1 N2 NP). exact M. }
  assert (W' := declared_wf (i_fields o) (i_fields n) (d_rank old) (proj1 (proj2 (pf_cond _ _ _ _ _ _ P)))).
  assert (BK : forall x t, present (i_meta o) src x -> ~ removed (o2n s0) (loc_names x) -> goes_to (i_meta n) (o2n s0) x t ->
    ~ ruled (n2o s0) (loc_names t) /\ (fl (loc_names x) <-> fb (loc_names t)) /\
    forall a b, loc_names t = a ++ b -> a <> [] -> entry (n2o s') a = entry (n2o s0) a /\ alookup (slashed a) (VmapModel.m_type (n2o s')) = None /\
      (fb a -> alookup (slashed a) (VmapModel.m_post (n2o s')) = Some H_cocos /\ b = [] /\ exists v, leaf_at (i_meta o) src x v) /\
      (~ fb a -> alookup (slashed a) (VmapModel.m_post (n2o s')) = None)).
  { intros x t PR NX GT. pose proof (proj1 (G x t PR) (conj NX GT)) as ST. destruct (PM x PR) as (m' & n' & _ & _ & _ & _ & N1 & AP & _). pose proof ST as (CC & _ & NT & mt & LO).
    assert (AT := loc_at_path _ _ _ LO NT). assert (N2 : loc_names t <> []) by (intros E; rewrite E in CC; exact (HE _ CC)).
    pose proof CC as CB. apply (corrb_iff (i_meta o) (i_meta n) _ _ _ P8 P9 (loc_names x) (loc_names t)) in CB; eauto. destruct CB as (b0 & CB).
    assert (SAME : forall p a b1, corrb (i_meta o) (i_meta n) (i_fields o) (declared (i_fields o) (i_fields n) (d_rank old)) (d_rank old) p a b1 -> fb a -> sign3 flips name o (slashed p)).
    { intros p a b1 (_ & _ & _ & _ & O1) (p' & F & (_ & _ & b2 & O2)). destruct (VmapProofs.origin_fun _ _ _ W' _ _ _ O1 _ _ O2) as (-> & _). exact F. }
    split; [|split].
    - intros (a & b & E & NA & R). apply (UN x t PR ST a b E NA). apply HR'. exact R.
    - split; intros F; [exists (slashed (loc_names x)); auto|eapply SAME; eauto].
    - intros a b E NA. rewrite E in CB. destruct (up_new_all _ _ _ _ _ P5 P8 P9 a b _ _ NA CB) as (p' & r' & b1 & E' & C1).
      assert (NP : p' <> []) by (apply C1). pose proof (U x PR p' r' E' NP) as NC.
      assert (CC1 : becomes old o n (slashed p') (slashed a)).
      { apply (corrb_iff (i_meta o) (i_meta n) _ _ _ P8 P9 p' a); [apply C1|apply C1|apply C1|apply C1|]. eexists. exact C1. }
      assert (EX : exists_in (i_fields n) (slashed a)) by (apply (declared_exists (i_fields o) (i_fields n) (d_rank old)); apply CC1).
      destruct (new_path _ _ _ _ _ P s s0 s' B B0 A (slashed a) EX) as (E1 & E2 & E3 & E4).
      { exact (UN x t PR ST a b E NA). }
      { intros (H1 & H2). apply NC. right. right. left. split; auto. right. rewrite <- H2. exact CC1. }
      split; [exact E1|]. split; [exact E2|]. split; [|exact E4]. intros F. split; [apply E3; exact F|].
      assert (F' := SAME _ _ _ C1 F). destruct (leaf_end _ _ _ p' r' P10 P11 PR E' NP) as (-> & LV). { intros H. apply NC. right. right. right. auto. }
      split; [|exact LV]. rewrite app_nil_r in E'. rewrite E' in CB. assert (X := corrb_fun _ _ _ _ _ P5 P8 P9 _ _ _ _ _ C1 CB).
      rewrite <- (app_nil_r a) in X at 1. apply app_inv_head in X. auto. }
  assert (Dec : forall p, fl p \/ ~ fl p) by (intros p; apply flipped_dec).
  assert (Dec' : forall p, fb p \/ ~ fb p) by (intros p; apply (sign4_dec _ _ _ _ _ P)).
  destruct (signs_back (i_meta o) (i_meta n) src (o2n s') (o2n s0) (n2o s') (n2o s0) dc dc' str_of parse_float parse_cpx flt_of_int np_cast array_items close np_int32 enum_of fl fb
    V V' Casts SV CF SO SO' RB NR SA Dec Dec' OK BK) as (st & st' & R1 & R2 & CN & CF' & L & AA).
  destruct (proj2 (proj2 (types_34 _ _ _ _ _ P s s' A)) (build_quiet _ _ _ _ _ B)) as (Q1 & Q2). pose proof (pf_order _ _ _ _ _ _ P) as LT.
  exists st, st'. split; [|split; [|split; [exact CF'|]]].
  - apply (convert_plain order flips dd341 rank340 rank341 library_version str_of parse_float parse_cpx flt_of_int np_cast array_items close np_int32 enum_of at_ lin name old new (i_meta o) n src dc stamp (o2n s')); auto; [|apply (pf_new _ _ _ _ _ _ P)].
    unfold rename_map. replace (d_rank old >? d_rank new)%Z with false by (symmetry; rewrite Z.gtb_ltb; apply Z.ltb_ge; lia). rewrite DM. reflexivity.
  - apply (convert_plain order flips dd341 rank340 rank341 library_version str_of parse_float parse_cpx flt_of_int np_cast array_items close np_int32 enum_of at_ lin name new old (i_meta n) o (c_tree st) dc' stamp' (n2o s')); auto; [|apply (pf_old _ _ _ _ _ _ P)].
    unfold rename_map. replace (d_rank new >? d_rank old)%Z with true by (symmetry; rewrite Z.gtb_ltb; apply Z.ltb_lt; lia). rewrite DM. reflexivity.
  - assert (X : forall x, (exists v, leaf_at (i_meta o) src x v) \/ (exists k, aos_at (i_meta o) src x k) ->
      (~ removed (o2n s0) (loc_names x) /\ exists t, goes_to (i_meta n) (o2n s0) x t /\ ~ removed (n2o s0) (loc_names t)) <-> exists q, C (slashed (loc_names x)) q).
    { intros x PR. split.
      - intros (NX & t & GT & _). destruct (proj1 (G x t PR) (conj NX GT)) as (CC & _). eauto.
      - intros (q & CC). destruct (PM x PR) as (m' & n' & _ & _ & _ & _ & N1 & AP & _).
        assert (NX : ~ removed (o2n s0) (loc_names x)).
        { intros R. pose proof CC as (_ & (e & I & E) & _). destruct (ds_meta _ _ P9 e I) as (q' & mq & N2 & AQ & E' & _). rewrite E in E'. rewrite E' in CC.
          destruct (HD _ _ _ _ AP AQ N1 N2 R CC) as (a & b & Eab & NA & H). exact (U1 x PR a b Eab NA H). }
        split; auto. destruct (C24_has_place _ _ _ _ V CF x PR NX (NR x PR)) as (t & GT & _). exists t. split; auto.
        apply (NB x t PR). apply G; auto. }
    split.
    + intros x v. rewrite L. split; intros (LA & H); split; auto; apply X; eauto.
    + intros x k. rewrite AA. split; intros (LA & H); split; auto; apply X; eauto.
Qed.
End Convert.

Lemma gets_dec : forall old new q, {SignNames.gets old new q} + {~ SignNames.gets old new q}.
Proof.
  intros old new q. destruct (VmapModel.before_slash q) as [P|] eqn:B.
  - destruct (swapped_b old new P) eqn:S; [apply swapped_b_iff in S|].
    + destruct (str_dec q (dsc P)) as [E|E]; [left; exists P; auto|]. destruct (str_dec q (nm P)) as [E'|E']; [left; exists P; auto|].
      right. intros (P' & S' & [-> | ->]); [rewrite before_d in B|rewrite before_n in B]; injection B as ->; auto.
    + right. intros (P' & S' & [-> | ->]); [rewrite before_d in B|rewrite before_n in B]; injection B as ->; apply swapped_b_iff in S'; congruence.
  - right. intros (P' & S' & [-> | ->]); [rewrite before_d in B|rewrite before_n in B]; discriminate.
Qed.
(** [becomes] in the terms of the two dictionaries as they are: names and identifiers move, everything else is its counterpart of EndSpec.v. *)
Theorem C52_names : forall flips name old new o n, pair_34 flips name old new o n -> forall p q, becomes old o n p q <->
  (exists P, swapped (i_fields o) (i_fields n) P /\ ((p = nm P /\ q = dsc P) \/ (p = idn P /\ q = nm P))) \/
  (counterpart (i_fields o) (i_fields n) (d_rank old) p q /\ ~ exists P, swapped (i_fields o) (i_fields n) P /\ (q = dsc P \/ q = nm P)).
Proof.
  intros flips name old new o n H p q. pose proof (pf_names _ _ _ _ _ _ H) as K. destruct (pf_cond _ _ _ _ _ _ H) as (Wo & Wn & _).
  unfold becomes, counterpart. split.
  - intros (E1 & E2 & b & O). rewrite declared_exists in E2. destruct (gets_dec (i_fields o) (i_fields n) q) as [G|G].
    + left. destruct G as (P & S & [-> | ->]); exists P; split; auto; [left|right]; split; auto.
      * apply (fun' _ _ _ Wn _ _ _ _ _ O (was_d _ _ _ K Wo Wn P S)).
      * apply (fun' _ _ _ Wn _ _ _ _ _ O (was_n _ _ _ K Wo Wn P S)).
    + right. split; [|exact G]. split; auto. split; auto. exists b. apply (origin_from _ _ _); auto. apply (clear_exists _ _ (d_rank old)); auto.
  - intros [(P & S & [(-> & ->)|(-> & ->)])|((E1 & E2 & b & O) & N)].
    + split; [apply S|]. split; [apply declared_exists, S|]. exists true. apply was_d; auto.
    + split; [apply S|]. split; [apply declared_exists, S|]. exists true. apply was_n; auto.
    + split; auto. split; [apply declared_exists; auto|]. exists b. apply origin_to; auto. apply (clear_exists _ _ (d_rank old)); auto.
Qed.
Print Assumptions C52_forward.
Print Assumptions C52_backward.
Print Assumptions C52_there_and_back.
Print Assumptions C52_names.
