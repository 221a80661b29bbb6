(** C57: the command "imas convert". *)
From Verif Require Import Base PathModel PathSpec TreeModel TreeSpec TreeProofs PrimModel PrimSpec ConvSpec ConvProofs3 ConvProofs4 ConvModel EndModel EndSpec EndProofs4 EndProps StoreModel StoreSpec StoreProofs2 CliModel CliSpec CliProofs CliProofs2 CliProofs3.
From Verif Require PrimProps StoreProps StoreProps2 StoreProofs5 SerModel SerProps ConvProps ProvProps VmapProps.
From Coq Require Import Lia.
Import StoreProps(kept).

(** what put sets has the same meaning in both versions *)
Definition stamps_kept (ch : str -> Prop) : Prop := forall p,
  In p [[strs "ids_properties"]; [strs "ids_properties"; strs "homogeneous_time"]; [strs "ids_properties"; strs "version_put"];
    [strs "ids_properties"; strs "version_put"; strs "data_dictionary"]; [strs "ids_properties"; strs "version_put"; strs "access_layer"];
    [strs "ids_properties"; strs "version_put"; strs "access_layer_language"]] -> ~ ch (slashed p).
Lemma stamps_untouched : forall ch const a b c l v, stamps_kept ch -> assigned const a b c l v -> forall x y, loc_names l = x ++ y -> x <> [] -> ~ ch (slashed x).
Proof.
  intros ch const a b c l v S A x y E N. apply S.
  assert (I : exists z, (z = strs "homogeneous_time" /\ loc_names l = [strs "ids_properties"; z]) \/ (In z [strs "data_dictionary"; strs "access_layer"; strs "access_layer_language"] /\ loc_names l = [strs "ids_properties"; strs "version_put"; z])).
  { destruct A as [(_ & -> & _)|([z w] & -> & _ & I)]; [eexists; left; split; reflexivity|]. exists z. right. split; [|reflexivity]. destruct I as [I|[I|[I|[]]]]; injection I as <- _; cbn; auto. }
  destruct I as (z & [(-> & L)|(I & L)]); rewrite L in E; clear L.
  - destruct x as [|x1 [|x2 [|x3 x]]]; [contradiction| | |cbn [app] in E; exfalso; apply (f_equal (@length _)) in E; cbn [length] in E; rewrite app_length in E; lia].
    + assert (X := f_equal (fun q => hd [] q) E). cbn [hd app] in X. subst x1. left. reflexivity.
    + assert (X := f_equal (fun q => hd [] q) E). cbn [hd app] in X. assert (X2 := f_equal (fun q => hd [] (tl q)) E). cbn [hd tl app] in X2. subst. right. left. reflexivity.
  - destruct x as [|x1 [|x2 [|x3 [|x4 x]]]]; [contradiction| | | |cbn [app] in E; exfalso; apply (f_equal (@length _)) in E; cbn [length] in E; rewrite app_length in E; lia].
    + assert (X := f_equal (fun q => hd [] q) E). cbn [hd app] in X. subst x1. left. reflexivity.
    + assert (X := f_equal (fun q => hd [] q) E). cbn [hd app] in X. assert (X2 := f_equal (fun q => hd [] (tl q)) E). cbn [hd tl app] in X2. subst. right. right. left. reflexivity.
    + assert (X := f_equal (fun q => hd [] q) E). cbn [hd app] in X. assert (X2 := f_equal (fun q => hd [] (tl q)) E). cbn [hd tl app] in X2. assert (X3 := f_equal (fun q => hd [] (tl (tl q))) E). cbn [hd tl app] in X3. subst x1 x2 x3.
      destruct I as [<-|[<-|[<-|[]]]]; cbn [In]; auto 10.
Qed.

Section Command.
Variable order : list str -> list str.
Variable flips : str -> list str.
Variable dd341 : dictionary.
Variables (rank340 rank341 : Z).
Variable library_version : str.
Variable str_of : pyval -> str.
Variable parse_float : str -> option flt.
Variable parse_cpx : str -> option (flt * flt).
Variable flt_of_int : Z -> option flt.
Variable np_cast : dtype -> pyval -> result pexn value.
Variable array_items : value -> list pyval.
Variable close : pyval -> pyval -> bool.
Variable np_int32 : flt -> result pexn Z.
Variable enum_of : list str -> option (Z -> option (str * str)).
Variable at_ : list str -> ValModel.attrs.
Variable lin : flt -> flt -> flt -> flt -> flt -> flt.
Variable released : list (str * dictionary).
Variable own : dictionary.
Variable custom : str -> option dictionary.
Variable maxoccur : dictionary -> str -> list str -> option nat.
Variable constant : dictionary -> str -> bool.
Variable valid : dictionary -> str -> node -> bool.
Variable verify : bool.
Variables (access_layer language now : str).

Notation get_ids := (get_ids released own).
Notation put_ids := (put_ids maxoccur constant valid verify access_layer language).
Notation convert_one := (convert_one order flips dd341 rank340 rank341 library_version str_of parse_float parse_cpx flt_of_int np_cast array_items close np_int32 enum_of at_ lin now).
Notation convert_command := (convert_command order flips dd341 rank340 rank341 library_version str_of parse_float parse_cpx flt_of_int np_cast array_items close np_int32 enum_of at_ lin
  released own custom maxoccur constant valid verify access_layer language now).
Notation find_version := (find_version released custom).
Notation done := (done order flips dd341 rank340 rank341 library_version str_of parse_float parse_cpx flt_of_int np_cast array_items close np_int32 enum_of at_ lin
  released own maxoccur constant valid verify access_layer language now).
Notation converts_by := (converts_by order flips dd341 rank340 rank341 library_version str_of parse_float parse_cpx flt_of_int np_cast array_items close np_int32 enum_of at_ lin now).

(** The command stores exactly the occurrences that are selected, each of them read, converted and put into a new occurrence. *)
Theorem C57_exact : forall uri exists_ input version name occ out, unique input -> convert_command uri exists_ input version name occ = (out, None) ->
  exists target, find_version version = Ok target /\ exists_ = false /\ (NoDup (map fst (d_ids target)) ->
    forall k s, find_store out k = Some s <-> selected target input name occ k /\ done target uri input k empty_store s).
Proof.
  intros uri ex input version name occ out U H. unfold CliModel.convert_command in H. destruct (find_version version) as [target|e]; [|discriminate]. destruct ex; [discriminate|]. exists target. split; [reflexivity|]. split; [reflexivity|].
  intros ND k s. eapply convert_all_ok with (k := k) (s := s) in H; [|apply nodup_todo; assumption]. rewrite H. rewrite in_todo. cbn [find_store]. unfold stored. cbn [find_store]. split; [intros [X|(_ & X)]; [exact X|discriminate]|left; assumption].
Qed.
(** When it fails, the output has a part of the occurrences: all that are there are complete, but for the one at which it failed; one that is selected is missing or incomplete. *)
Theorem C57_failed : forall uri input version name occ out e target, unique input -> convert_command uri false input version name occ = (out, Some e) ->
  find_version version = Ok target -> NoDup (map fst (d_ids target)) ->
  exists k, selected target input name occ k /\ (forall s, ~ done target uri input k empty_store s) /\ ((forall b, e <> Backend b) -> find_store out k = None) /\
    forall j s, j <> k -> find_store out j = Some s -> selected target input name occ j /\ done target uri input j empty_store s.
Proof.
  intros uri input version name occ out e target U H FV ND. unfold CliModel.convert_command in H. rewrite FV in H.
  eapply convert_all_err in H; [|apply nodup_todo; assumption]. destruct H as (l1 & k & l2 & E & A & B & D).
  exists k. split; [apply in_todo; rewrite E; apply in_or_app; right; left; reflexivity|]. split; [|split].
  - intros s (x & y & G & C & P). rewrite G, C in D. unfold stored in D. cbn [find_store] in D. rewrite P in D. discriminate.
  - intros NB. rewrite (B NB). reflexivity.
  - intros j s NE F. apply (A j s NE) in F. destruct F as [(I & X)|(_ & X)]; [|discriminate]. split; [apply in_todo; rewrite E; apply in_or_app; left; exact I|exact X].
Qed.

Hypothesis Ord : VmapProps.any_order order.
Hypothesis Casts : ConvProps.casts_arrays np_cast.
Hypothesis AL : access_layer <> [].
Hypothesis LG : language <> [].

(** a dictionary that is found under its own version; the IDS [name] in it *)
Definition known (d : dictionary) (name : str) (i : ids_def) : Prop := alookup (d_text d) released = Some d /\ d_text d <> [] /\ alookup name (d_ids d) = Some i /\ usual i.
(** the occurrence holds the IDS [n] of the dictionary [d], put into it earlier *)
Definition was_put (d : dictionary) (name : str) (i : ids_def) (n : node) (s : store) : Prop :=
  conf (i_meta i) n /\ settled (i_meta i) n /\ exists s0, filled_store s0 /\ put_ids d name (d, i, n) s0 = (s, None).
Notation dyn i := (StoreProps2.xml_dynamic (i_fields i)).
Notation mode_after := (mode_after constant).
Notation stored_leaf d name i n := (put_leaf (i_meta i) n (constant d name) (d_text d) access_layer language).

Lemma selected_done : forall uri input version name0 occ out target name o, unique input -> convert_command uri false input version name0 occ = (out, None) -> find_version version = Ok target ->
  NoDup (map fst (d_ids target)) -> selected target input name0 occ (name, o) ->
  exists x y s, get_ids input name o = Ok x /\ convert_one target uri name x = Ok y /\ put_ids target name y empty_store = (s, None) /\ find_store out (name, o) = Some s.
Proof.
  intros uri input version name0 occ out target name o U H FV ND S. pose proof H as H'. unfold CliModel.convert_command in H'. rewrite FV in H'.
  assert (G : forall l out0 out1, NoDup l -> CliModel.convert_all order flips dd341 rank340 rank341 library_version str_of parse_float parse_cpx flt_of_int np_cast array_items close np_int32 enum_of at_ lin
     released own maxoccur constant valid verify access_layer language now target uri input l out0 = (out1, None) -> forall k, In k l -> exists s, find_store out1 k = Some s).
  { clear. induction l as [|[nm oc] l IH]; intros out0 out1 ND H k I; [contradiction|]. cbn [CliModel.convert_all] in H. inversion ND as [|? ? NI ND']; subst.
    destruct (rbind _ _) as [x|] eqn:E; [|discriminate]. destruct (put_ids target nm x _) as [s1 [[]|]]; try discriminate. destruct I as [<-|I]; [|eapply IH; eauto].
    exists s1. eapply convert_all_ok with (k := (nm, oc)) (s := s1) in H; [|exact ND']. apply H. right. split; [exact NI|]. rewrite find_set, same_key_refl. reflexivity. }
  destruct (G _ _ _ (nodup_todo _ _ _ _ U ND) H' (name, o) (proj2 (in_todo _ _ _ _ _) S)) as (s & F).
  destruct (C57_exact _ _ _ _ _ _ _ U H) as (t' & FV' & _ & EX). assert (t' = target) by congruence. subst t'. pose proof F as F'. apply (EX ND) in F'. destruct F' as (_ & x & y & A & B & C). exists x, y, s. auto.
Qed.

(** Same version: reading the output gives the IDS that was put into the input (with what put sets). *)
Theorem C57_same : forall uri input version name0 occ out target name o i n s, unique input -> convert_command uri false input version name0 occ = (out, None) -> find_version version = Ok target ->
  NoDup (map fst (d_ids target)) -> selected target input name0 occ (name, o) -> known target name i -> alookup name (d_ids own) <> None ->
  find_store input (name, o) = Some s -> was_put target name i n s ->
  exists g, get_ids out name o = Ok (target, i, g) /\ SerModel.time_mode g = mode_after target name n /\
  (forall l v, leaf_at (i_meta i) g l v <-> stored_leaf target name i n l v /\ kept (dyn i) (mode_after target name n) l) /\
  (forall l k, aos_at (i_meta i) g l k <-> aos_at (i_meta i) n l k /\ kept (dyn i) (mode_after target name n) l).
Proof.
  intros uri input version name0 occ out target name o i n s U H FV ND SEL (KN & TX & EI & US) OW FS (CF & ST & s0 & FL & P).
  destruct (put_get maxoccur constant valid verify access_layer language released own AL LG target name i n s0 s input o KN OW EI US TX CF ST FL P FS) as (_ & M & g & G & CG & SG & TM & LF & AO).
  destruct (selected_done _ _ _ _ _ _ _ _ _ U H FV ND SEL) as (x & y & s2 & G1 & C1 & P1 & F1). assert (x = (target, i, g)) by congruence. subst x.
  unfold CliModel.convert_one in C1. rewrite str_eqb_refl in C1. injection C1 as <-.
  destruct (put_get maxoccur constant valid verify access_layer language released own AL LG target name i g empty_store s2 out o KN OW EI US TX CG SG filled_empty P1 F1) as (_ & M2 & g2 & G2 & CG2 & SG2 & TM2 & LF2 & AO2).
  assert (EM : mode_after target name g = mode_after target name n) by (unfold CliProofs2.mode_after in *; rewrite TM; destruct (constant target name); reflexivity). rewrite EM in *.
  exists g2. split; [exact G2|]. split; [exact TM2|]. split.
  - intros l v. rewrite LF2. unfold put_leaf at 1. rewrite LF. unfold put_leaf. intuition.
  - intros l k. rewrite AO2, AO. intuition.
Qed.
(** Another version, for any conversion that moves quantities as C says. *)
Theorem C57_values : forall C ch uri input version name0 occ out target name o d i j n s, unique input -> convert_command uri false input version name0 occ = (out, None) -> find_version version = Ok target ->
  NoDup (map fst (d_ids target)) -> selected target input name0 occ (name, o) -> known d name i -> known target name j -> d_text d <> d_text target -> alookup name (d_ids own) <> None ->
  (uri <> [] -> now <> [] /\ str_ok (i_meta j) /\ ProvProps.with_reference (i_meta j)) ->
  find_store input (name, o) = Some s -> was_put d name i n s ->
  converts_by name d target i j C ch -> untouched (i_meta i) n ch -> stamps_kept ch ->
  exists g, get_ids out name o = Ok (target, j, g) /\ leaf_at (i_meta j) g [Child (strs "ids_properties"); Child (strs "version_put"); Child (strs "data_dictionary")] (VStr (d_text target)) /\
  (C (slashed time_path) (slashed time_path) -> SerModel.time_mode g = if constant target name then 2%Z else mode_after d name n) /\
  (forall t v, ~ assigns (constant target name) t -> (uri <> [] -> ~ in_provenance t) ->
     (leaf_at (i_meta j) g t v <-> (exists l, stored_leaf d name i n l v /\ kept (dyn i) (mode_after d name n) l /\ stands_for (i_meta j) C l t) /\ kept (dyn j) (SerModel.time_mode g) t)) /\
  (uri = [] -> forall t k, aos_at (i_meta j) g t k <-> (exists l, aos_at (i_meta i) n l k /\ kept (dyn i) (mode_after d name n) l /\ stands_for (i_meta j) C l t) /\ kept (dyn j) (SerModel.time_mode g) t).
Proof.
  intros C ch uri input version name0 occ out target name o d i j n s U H FV ND SEL (KN & TX & EI & US) (KN2 & TX2 & EJ & US2) ND2 OW HP FS (CF & ST & s0 & FL & P) CB UN SK.
  destruct (put_get maxoccur constant valid verify access_layer language released own AL LG d name i n s0 s input o KN OW EI US TX CF ST FL P FS) as (_ & M & g & G & CG & SG & TM & LF & AO).
  destruct (selected_done _ _ _ _ _ _ _ _ _ U H FV ND SEL) as (x & y & s2 & G1 & C1 & P1 & F1). assert (x = (d, i, g)) by congruence. subst x.
  unfold CliModel.convert_one in C1. destruct (str_eqb (d_text d) (d_text target)) eqn:E; [apply str_eqb_eq in E; contradiction|]. rewrite EJ in C1.
  destruct (convert_ids _ _ _ _ _ _ _ _ _ _ _ _ _ _ _ _ _ _ _ _ _ _ _ _ _ _ _) as [st|] eqn:R; [|discriminate]. injection C1 as <-.
  assert (UG : untouched (i_meta i) g ch).
  { intros l [(v & L)|(k & A)] a b EL N.
    - apply LF in L. destruct L as ([A|[_ L]] & _); [exact (stamps_untouched ch _ _ _ _ l v SK A a b EL N)|]. apply (UN l (or_introl (ex_intro _ v L)) a b EL N).
    - apply AO in A. destruct A as (A & _). apply (UN l (or_intror (ex_intro _ k A)) a b EL N). }
  destruct (convert_tree order flips dd341 rank340 rank341 library_version str_of parse_float parse_cpx flt_of_int np_cast array_items close np_int32 enum_of at_ lin now Casts
    name d target i j C ch uri g st CB EJ (us_wf j US2) HP CG SG UG R) as (CT & ST2 & LT & AT).
  destruct (put_get maxoccur constant valid verify access_layer language released own AL LG target name j (c_tree st) empty_store s2 out o KN2 OW EJ US2 TX2 CT ST2 filled_empty P1 F1) as (_ & M2 & g2 & G2 & CG2 & SG2 & TM2 & LF2 & AO2).
  exists g2. split; [exact G2|]. split; [|split; [|split]].
  - apply LF2. split; [left; right; exists (strs "data_dictionary", d_text target); split; [reflexivity|]; split; [reflexivity|left; reflexivity]|].
    apply (kept_static _ _ (version_path ++ [strs "data_dictionary"])). intros q I. apply (us_static j US2). cbn in I. destruct I as [<-|[<-|[<-|[]]]]; [left|right; right; left|right; right; right; left]; reflexivity.
  - intros CC. rewrite TM2. unfold CliProofs2.mode_after at 1. destruct (constant target name); [reflexivity|]. rewrite <- TM.
    apply (mode_of_leaf (i_meta j) _ _ (us_wf j US2) CT). apply LT; [intros _ (l & X); discriminate|]. exists (map Child time_path). split.
    + assert (MG : is_mode (SerModel.time_mode g) = true) by (rewrite TM; unfold CliProofs2.mode_after; destruct (constant d name); [reflexivity|exact M]). exact (SerProps.mode_leaf _ _ CG MG).
    + split; [exact CC|]. split; [reflexivity|]. split; [intros (a & b & X); destruct a as [|? [|? [|? ?]]]; discriminate|]. destruct (time_loc _ _ (us_wf j US2) CT M2) as (nm & cs & L). eauto.
  - intros t v NA NP. rewrite LF2. unfold put_leaf. rewrite (LT t v NP), TM2. split.
    + intros ([A|[_ (l & L & SF)]] & K); [exfalso; apply NA; destruct A as [A|(x & A1 & A2 & A3)]|].
      * exists v. left. exact A.
      * exists (VStr []). right. exists (fst x, []). split; [exact A1|]. split; [reflexivity|]. destruct A3 as [<-|[<-|[<-|[]]]]; cbn [fst In]; auto.
      * split; [|exact K]. apply LF in L. destruct L as (L & K'). exists l. auto.
    + intros ((l & L & K' & SF) & K). split; [|exact K]. right. split; [exact NA|]. exists l. split; [apply LF; split; assumption|exact SF].
  - intros EU t k. rewrite AO2, (AT EU t k), TM2. split.
    + intros ((l & L & SF) & K). split; [|exact K]. apply AO in L. destruct L as (L & K'). exists l. auto.
    + intros ((l & L & K' & SF) & K). split; [|exact K]. exists l. split; [apply AO; split; assumption|exact SF].
Qed.
(** To a newer version: the quantities are those of C48_forward. *)
Theorem C57_newer : forall uri input version name0 occ out target name o d i j n s, unique input -> convert_command uri false input version name0 occ = (out, None) -> find_version version = Ok target ->
  NoDup (map fst (d_ids target)) -> selected target input name0 occ (name, o) -> known d name i -> known target name j -> d_text d <> d_text target -> alookup name (d_ids own) <> None ->
  (uri <> [] -> now <> [] /\ ProvProps.with_reference (i_meta j)) -> find_store input (name, o) = Some s -> was_put d name i n s ->
  pair_ok name d target i j -> plain_copy rank340 name d target (i_meta i) ->
  untouched (i_meta i) n (old_changes (i_fields i) (i_fields j) (d_rank d)) -> stamps_kept (old_changes (i_fields i) (i_fields j) (d_rank d)) ->
  let C := counterpart (i_fields i) (i_fields j) (d_rank d) in
  exists g, get_ids out name o = Ok (target, j, g) /\ leaf_at (i_meta j) g [Child (strs "ids_properties"); Child (strs "version_put"); Child (strs "data_dictionary")] (VStr (d_text target)) /\
  (C (slashed time_path) (slashed time_path) -> SerModel.time_mode g = if constant target name then 2%Z else mode_after d name n) /\
  (forall t v, ~ assigns (constant target name) t -> (uri <> [] -> ~ in_provenance t) ->
     (leaf_at (i_meta j) g t v <-> (exists l, stored_leaf d name i n l v /\ kept (dyn i) (mode_after d name n) l /\ stands_for (i_meta j) C l t) /\ kept (dyn j) (SerModel.time_mode g) t)) /\
  (uri = [] -> forall t k, aos_at (i_meta j) g t k <-> (exists l, aos_at (i_meta i) n l k /\ kept (dyn i) (mode_after d name n) l /\ stands_for (i_meta j) C l t) /\ kept (dyn j) (SerModel.time_mode g) t).
Proof.
  intros uri input version name0 occ out target name o d i j n s U H FV ND SEL K1 K2 ND2 OW HP FS WP PO PC UN SK C.
  apply (C57_values C (old_changes (i_fields i) (i_fields j) (d_rank d)) uri input version name0 occ out target name o d i j n s); auto.
  - intros NU. destruct (HP NU). split; [assumption|]. split; [exact (proj2 (po_str _ _ _ _ _ PO))|assumption].
  - intros src CF SV UT. exact (C48_forward order flips dd341 rank340 rank341 library_version str_of parse_float parse_cpx flt_of_int np_cast array_items close np_int32 enum_of at_ lin Ord Casts name d target i j PO src CF SV PC UT false now).
Qed.
(** To an older version: those of C48_backward. *)
Theorem C57_older : forall uri input version name0 occ out target name o d i j n s, unique input -> convert_command uri false input version name0 occ = (out, None) -> find_version version = Ok target ->
  NoDup (map fst (d_ids target)) -> selected target input name0 occ (name, o) -> known d name i -> known target name j -> d_text d <> d_text target -> alookup name (d_ids own) <> None ->
  (uri <> [] -> now <> [] /\ ProvProps.with_reference (i_meta j)) -> find_store input (name, o) = Some s -> was_put d name i n s ->
  pair_ok name target d j i -> (d_rank target < d_rank d)%Z -> plain_copy rank340 name d target (i_meta i) ->
  untouched (i_meta i) n (new_changes (i_fields j) (i_fields i) (d_rank target)) -> stamps_kept (new_changes (i_fields j) (i_fields i) (d_rank target)) ->
  let C := fun q p => counterpart (i_fields j) (i_fields i) (d_rank target) p q in
  exists g, get_ids out name o = Ok (target, j, g) /\ leaf_at (i_meta j) g [Child (strs "ids_properties"); Child (strs "version_put"); Child (strs "data_dictionary")] (VStr (d_text target)) /\
  (C (slashed time_path) (slashed time_path) -> SerModel.time_mode g = if constant target name then 2%Z else mode_after d name n) /\
  (forall t v, ~ assigns (constant target name) t -> (uri <> [] -> ~ in_provenance t) ->
     (leaf_at (i_meta j) g t v <-> (exists l, stored_leaf d name i n l v /\ kept (dyn i) (mode_after d name n) l /\ stands_for (i_meta j) C l t) /\ kept (dyn j) (SerModel.time_mode g) t)) /\
  (uri = [] -> forall t k, aos_at (i_meta j) g t k <-> (exists l, aos_at (i_meta i) n l k /\ kept (dyn i) (mode_after d name n) l /\ stands_for (i_meta j) C l t) /\ kept (dyn j) (SerModel.time_mode g) t).
Proof.
  intros uri input version name0 occ out target name o d i j n s U H FV ND SEL K1 K2 ND2 OW HP FS WP PO RK PC UN SK C.
  apply (C57_values C (new_changes (i_fields j) (i_fields i) (d_rank target)) uri input version name0 occ out target name o d i j n s); auto.
  - intros NU. destruct (HP NU). split; [assumption|]. split; [exact (proj1 (po_str _ _ _ _ _ PO))|assumption].
  - intros src CF SV UT. exact (C48_backward order flips dd341 rank340 rank341 library_version str_of parse_float parse_cpx flt_of_int np_cast array_items close np_int32 enum_of at_ lin Ord Casts name target d j i PO RK src CF SV PC UT false now).
Qed.
End Command.
Print Assumptions C57_exact.
Print Assumptions C57_failed.
Print Assumptions C57_same.
Print Assumptions C57_values.
Print Assumptions C57_newer.
Print Assumptions C57_older.
