(** C52: examples. *)
From Verif Require Import Base PathModel PathSpec PathProofs3 TreeModel TreeSpec TreeProofs TreeProofs2 TreeCheck TreeProofs4 ValProofs ValProofs2 PrimModel PrimSpec ConvModel ConvSpec ConvProofs ConvProofs2 ConvProofs3 ConvProofs4 ConvProofs5 ConvProgress ConvProps ConvProps7 ConvProps8 ConvMaps.
From Verif Require VmapModel VmapProofs VmapProofs2 VmapProofs3 VmapProofs4 VmapProps VmapProps3 ProvModel ProvProps ValSpec.
From Verif Require Import DataTypeModel VmapSpec EndSpec EndModel EndProofs EndProofs2 EndProofs3 EndProofs4 EndCheck EndProps.
From Verif Require Import SignSpec SignProofs SignProofs2 SignProofs3 SignProofs4 SignNames SignNames2 SignMaps SignProps.
Import VmapModel(fields, e_path, e_type, e_nbc, e_psi, n_versions, elem, nmap, maps, o2n, n2o, build_map, m_post_ids, handler(..)).
Import VmapProps3(flipped, swapped, nm, idn, dsc, source_path, connections_path).

(** ** Checks *)
Definition swaps (old new : fields) : list str :=
  filter (swapped_b old new) (flat_map (fun e => match VmapModel.before_slash (e_path e) with Some P => [P] | None => [] end) old).
Lemma swaps_complete : forall old new P, swapped old new P -> In P (swaps old new).
Proof.
  intros old new P S. apply filter_In. split; [|apply swapped_b_iff; exact S]. destruct S as ((e & I & E) & _). apply in_flat_map. exists e. split; auto. rewrite E, before_n. left. reflexivity.
Qed.
Definition type_eq_b (a b : elem) : bool := match dt_parse (e_type a), dt_parse (e_type b) with Ok x, Ok y => VmapModel.parsed_eqb x y | _, _ => false end.
Definition mem (p : str) (l : list str) : bool := existsb (str_eqb p) l.
Lemma mem_in : forall p l, In p l -> mem p l = true.
Proof. intros p l I. apply existsb_exists. exists p. split; auto. apply str_eqb_refl. Qed.
Definition names_b (old new : fields) (v : Z) : bool := forallb (fun P =>
  (let w := VmapProofs4.loc old new v P in str_eqb (fst w) P && negb (snd w)) && negb (VmapModel.has (idn P) (VmapModel.by_path new)) &&
  forallb (fun a => forallb (fun b => negb (mem (e_path a) [nm P; idn P; dsc P] && mem (e_path b) [nm P; dsc P]) || type_eq_b a b) new) old &&
  forallb (fun b => negb (mem (e_path b) [nm P; dsc P]) || (match e_nbc b with None => true | _ => false end && negb (VmapModel.is_structure b))) new &&
  forallb (fun a => negb (mem (e_path a) [nm P; idn P]) || negb (VmapModel.is_structure a)) old) (swaps old new).
Lemma names_b_sound : forall old new v, wf_fields new -> names_b old new v = true -> names_ok old new v.
Proof.
  intros old new v W H. unfold names_b in H. rewrite forallb_forall in H.
  assert (G : forall P, swapped old new P -> origin old new v P P false /\ ~ exists_in new (idn P) /\
    (forall a b, In a old -> In b new -> In (e_path a) [nm P; idn P; dsc P] -> In (e_path b) [nm P; dsc P] -> same_type a b) /\
    (forall b, In b new -> In (e_path b) [nm P; dsc P] -> e_nbc b = None /\ VmapModel.is_structure b = false) /\
    (forall a, In a old -> In (e_path a) [nm P; idn P] -> VmapModel.is_structure a = false)).
  { intros P S. specialize (H P (swaps_complete _ _ _ S)). rewrite !andb_true_iff in H. destruct H as ((((H1 & H2) & H3) & H4) & H5). destruct H1 as (H1 & H1').
    rewrite forallb_forall in H3, H4, H5. split; [|split; [|split; [|split]]].
    - apply str_eqb_eq in H1. apply negb_true_iff in H1'. pose proof (VmapProofs4.loc_origin old new v W P) as O. rewrite H1, H1' in O. exact O.
    - apply VmapProofs.has_not_exists. apply negb_true_iff. exact H2.
    - intros a b Ia Ib Ma Mb. specialize (H3 a Ia). rewrite forallb_forall in H3. specialize (H3 b Ib). rewrite (mem_in _ _ Ma), (mem_in _ _ Mb) in H3. cbn [andb negb orb] in H3.
      unfold type_eq_b in H3. destruct (dt_parse (e_type a)) as [x|] eqn:Xa; [|discriminate]. destruct (dt_parse (e_type b)) as [y|] eqn:Xb; [|discriminate]. apply VmapProofs2.parsed_eqb_eq in H3. subst. exists y. auto.
    - intros b Ib Mb. specialize (H4 b Ib). rewrite (mem_in _ _ Mb) in H4. cbn [negb orb] in H4. apply andb_true_iff in H4 as (X & Y). apply negb_true_iff in Y. destruct (e_nbc b); [discriminate|auto].
    - intros a Ia Ma. specialize (H5 a Ia). rewrite (mem_in _ _ Ma) in H5. cbn [negb orb] in H5. apply negb_true_iff. exact H5. }
  constructor; intros P; intros; edestruct G as (G1 & G2 & G3 & G4 & G5); eauto.
Qed.
(** the leaves of a tree *)
Fixpoint stored_leaves (n : node) : list (list str * value) :=
  match n with
  | NLeaf (Some v) => [([], v)]
  | NLeaf None => []
  | NStruct fs => flat_map (fun x => map (fun y => (fst x :: fst y, snd y)) (stored_leaves (snd x))) fs
  | NAoS els => flat_map stored_leaves els
  end.
Lemma stored_leaves_complete : forall m n l m' n', node_at m n l m' n' -> forall v, n' = NLeaf (Some v) -> In (loc_names l, v) (stored_leaves n).
Proof.
  intros m n l m' n' H. induction H as [m n|nm cs fs c ch l m' n' I E H IH|nm cs els i e l m' n' E H IH]; intros v X.
  - subst n. left. reflexivity.
  - cbn [loc_names stored_leaves]. apply in_flat_map. exists (mname c, ch). split; [apply alookup_In; exact E|]. apply in_map_iff. exists (loc_names l, v). split; [reflexivity|]. apply IH. exact X.
  - cbn [stored_leaves]. change (loc_names (Elem i :: l)) with (loc_names l). apply in_flat_map. exists e. split; [apply nth_error_In in E; exact E|]. apply IH. exact X.
Qed.
Definition flip_b (v : value) : bool :=
  match v with VFlt f => negb (is_nan f) && negb (f_mag f =? f_mag EMPTY_FLOAT)%Z | VFltA _ _ => true | _ => false end.
Lemma mag_of : forall f g, same_flt f g -> is_nan f = false -> f_mag f = f_mag g.
Proof.
  intros f g [(A & _)|(_ & _ & E)] N; [congruence|]. unfold f_key in E. assert (P : forall x, (0 <= f_mag x)%Z) by (intros x; unfold f_mag; apply Z.land_nonneg; right; vm_compute; discriminate).
  pose proof (P f). pose proof (P g). destruct (f_neg f), (f_neg g); lia.
Qed.
Lemma flip_b_sound : forall m v dt nd, mkind m = KLeaf dt nd -> val_ok dt nd v -> flip_b v = true -> can_flip m v.
Proof.
  intros m v dt nd K VO F. exists dt, nd. split; auto. inversion VO; subst; try discriminate; (split; [discriminate|]); (split; [cbn; auto|]); [|intros Z; exfalso; destruct sh; [congruence|discriminate]].
  intros _ w OP E. inversion OP as [|f' g (O1 & O2 & O3)| | | |]; subst. inversion E as [| |g' S|]; subst.
  cbn [flip_b] in F. apply andb_true_iff in F as (F1 & F2). apply negb_true_iff in F1, F2. apply Z.eqb_neq in F2. apply F2.
  assert (M : f_mag f = f_mag g) by (apply mag_parts; auto). rewrite M. apply mag_of; auto. unfold is_nan in *. rewrite O2, O3. exact F1.
Qed.
Lemma signs_b_sound : forall m n (fl : list str -> Prop) (fb : list str -> bool), wf_meta m -> conf m n -> (forall p, fl p -> fb p = true) ->
  forallb (fun x => negb (fb (fst x)) || flip_b (snd x)) (stored_leaves n) = true -> signs_ok m n fl.
Proof.
  intros m n fl fb W CF HF H l m' v ND FV F. rewrite forallb_forall in H. specialize (H _ (stored_leaves_complete _ _ _ _ _ ND v eq_refl)). cbn [fst snd] in H. rewrite (HF _ F) in H. cbn [negb orb] in H.
  assert (C : conf m' (NLeaf (Some v))) by (eapply node_at_conf; eauto). inversion C; subst. eapply flip_b_sound; eauto. reflexivity.
Qed.

(** ** An example *)
(** A structure with a flux function and an array of coils: the structure is renamed, the flux function and the flux of the coil change sign, and
    the name and identifier of the coil become its description and name. *)
Definition psi (p t : string) : elem := {| VmapModel.e_path := p; VmapModel.e_type := Some (strs t); VmapModel.e_ident := false; VmapModel.e_dynamic := false; VmapModel.e_tbp := []; VmapModel.e_psi := true; VmapModel.e_nbc := None |}.
Notation el := VmapProps.el.
Notation ren := VmapProps.ren.
Definition sg_old : ids_def := {| i_fields := [el "profiles" "structure"; psi "profiles/psi" "FLT_1D"; el "coil" "struct_array"; el "coil/name" "STR_0D"; el "coil/identifier" "STR_0D"; el "coil/flux" "FLT_0D"; el "gone" "INT_0D"; el "current" "FLT_0D"];
  i_meta := Meta (strs "ids") KStruct [Meta (strs "profiles") KStruct [lf "psi" FLT 1]; Meta (strs "coil") KAoS [lf "name" STR 0; lf "identifier" STR 0; lf "flux" FLT 0]; lf "gone" INT 0; lf "current" FLT 0] |}.
Definition sg_new : ids_def := {| i_fields := [ren "profiles_1d" "structure" "structure_renamed" "profiles"; psi "profiles_1d/psi" "FLT_1D"; el "coil" "struct_array"; el "coil/name" "STR_0D"; el "coil/description" "STR_0D"; el "coil/flux" "FLT_0D"; el "current" "FLT_0D"];
  i_meta := Meta (strs "ids") KStruct [Meta (strs "profiles_1d") KStruct [lf "psi" FLT 1]; Meta (strs "coil") KAoS [lf "name" STR 0; lf "description" STR 0; lf "flux" FLT 0]; lf "current" FLT 0] |}.
Definition sg_flips (name : str) : list str := [strs "coil/flux"; strs "coil/old_flux"].
Definition sg_old_dd : dictionary := {| d_rank := 5; d_major := 3; d_minor := 39; d_text := strs "3.39.0"; d_xml_major := Some 3%Z; d_ids := [(strs "ids", sg_old)] |}.
Definition sg_new_dd : dictionary := {| d_rank := 20; d_major := 4; d_minor := 0; d_text := strs "4.0.0"; d_xml_major := Some 4%Z; d_ids := [(strs "ids", sg_new)] |}.
(** 1.0 and 2.5 *)
Definition one : flt := 4607182418800017408%Z.
Definition two_half : flt := 4612811918334230528%Z.
Definition minus (f : flt) : flt := (f + 2 ^ 63)%Z.
Definition sg_src : node := NStruct
  [(strs "profiles", NStruct [(strs "psi", NLeaf (Some (VFltA [2] [one; minus two_half])))]);
   (strs "coil", NAoS [NStruct [(strs "name", NLeaf (Some (VStr (strs "Central coil")))); (strs "identifier", NLeaf (Some (VStr (strs "CS1")))); (strs "flux", NLeaf (Some (VFlt two_half)))];
                       NStruct [(strs "identifier", NLeaf (Some (VStr (strs "PF1"))))]]);
   (strs "gone", NLeaf (Some (VInt 3))); (strs "current", NLeaf (Some (VFlt one)))].
Lemma sg_wf : wf_fields (i_fields sg_new) /\ wf_fields (declared (i_fields sg_old) (i_fields sg_new) 5).
Proof. split; apply VmapProofs4.wf_b_sound; vm_compute; reflexivity. Qed.
Example C52_example_pair : pair_34 sg_flips (strs "ids") sg_old_dd sg_new_dd sg_old sg_new.
Proof.
  destruct sg_wf as (W & W'). constructor; try reflexivity; try (split; by_check).
  - split; [reflexivity|]. split; [reflexivity|]. cbn. lia.
  - discriminate.
  - apply VmapProofs4.pair_b_sound. vm_compute. reflexivity.
  - apply same_b_sound; [exact W|]. vm_compute. reflexivity.
  - apply inside_b_sound; [exact W|]. vm_compute. reflexivity.
  - apply names_b_sound; [exact W|]. vm_compute. reflexivity.
  - apply VmapProofs4.pair_b_sound. vm_compute. reflexivity.
  - apply same_b_sound; [exact W'|]. vm_compute. reflexivity.
  - apply inside_b_sound; [exact W'|]. vm_compute. reflexivity.
  - apply described_b_sound. vm_compute. reflexivity.
  - apply described_b_sound. vm_compute. reflexivity.
  - split; reflexivity.
  - assert (N : forall p t b, (exists ty, dt_parse (Some (strs t)) = Ok ty) -> VmapProofs4.good_elem {| VmapModel.e_path := p; VmapModel.e_type := Some (strs t); VmapModel.e_ident := false; VmapModel.e_dynamic := false; VmapModel.e_tbp := []; VmapModel.e_psi := b; VmapModel.e_nbc := None |}).
    { intros p t b [ty H]. split; [exists (strs t), ty; auto|]. intros n E. discriminate. }
    assert (R : forall p t d prev, (exists ty, dt_parse (Some (strs t)) = Ok ty) -> VmapProofs4.good_elem (ren p t d prev)).
    { intros p t d prev [ty H]. split; [exists (strs t), ty; auto|]. intros n E. inversion E; subst. right. exists [10%Z]. split; [reflexivity|]. split; [reflexivity|]. intros _. exists [strs prev]. split; reflexivity. }
    split; intros e H; cbn in H; repeat (destruct H as [<-|H]; [first [apply N|apply R]; eexists; reflexivity|]); destruct H.
  - intros e c I N E. cbn in I. repeat (destruct I as [<-|I]; [cbn in N; try discriminate; injection N as <-; discriminate|]). destruct I.
  - intros p [<-|[<-|[]]]; [left; apply VmapProofs.has_exists; vm_compute; reflexivity|right; apply VmapProofs.has_not_exists; vm_compute; reflexivity].
  - intros P S. apply swaps_complete in S. change (swaps (i_fields sg_old) (i_fields sg_new)) with [strs "coil"; strs "coil"; strs "coil"] in S.
    assert (P = strs "coil") as -> by (cbn [In] in S; intuition).
    assert (X : forall k, existsb (fun e => str_eqb (e_path e) k && e_psi e) (i_fields sg_old) = false -> mem k (sg_flips []) = false -> ~ flipped (i_fields sg_old) (sg_flips []) k).
    { intros k X1 X2 [(e & I & E1 & E2)|I].
      - assert (Y : existsb (fun e => str_eqb (e_path e) k && e_psi e) (i_fields sg_old) = true) by (apply existsb_exists; exists e; split; auto; rewrite E1, E2, str_eqb_refl; reflexivity). congruence.
      - rewrite (mem_in _ _ I) in X2. discriminate. }
    split; [|split]; apply X; vm_compute; reflexivity.
Qed.
Fixpoint meta_paths (m : meta) : list (list str) := match m with Meta _ k cs => match k with KLeaf _ _ => [] | _ => [[]] end ++ flat_map (fun c => map (cons (mname c)) (meta_paths c)) cs end.
Lemma meta_paths_complete : forall m q m', at_path m q m' -> mkind m' = KStruct \/ mkind m' = KAoS -> In q (meta_paths m).
Proof.
  intros m q m' H K. induction H as [m|m c q m' I H IH].
  - destruct m as [nm k cs]. cbn [mkind] in K. cbn [meta_paths]. apply in_or_app. left. destruct K as [-> | ->]; left; reflexivity.
  - destruct m as [nm k cs]. cbn [mchildren] in I. cbn [meta_paths]. apply in_or_app. right. apply in_flat_map. exists c. split; auto. apply List.in_map. auto.
Qed.
Definition flip_list (flips : list str) (old : fields) : list str := map e_path (filter e_psi old) ++ flips.
Lemma flip_list_complete : forall old flips p, flipped old flips p -> In p (flip_list flips old).
Proof. intros old flips p [(e & I & <- & E)|I]; apply in_or_app; [left|right; exact I]. apply List.in_map. apply filter_In. auto. Qed.
(** a complete list of what [changes3] says, for an IDS other than pf_active *)
Definition changes_list (flips : str -> list str) (name : str) (old : dictionary) (o n : ids_def) : list str :=
  map fst (changing (i_fields o) (declared (i_fields o) (i_fields n) (d_rank old)) (d_rank old)) ++ [source_path] ++
  filter (fun p => existsb (fun q => str_eqb (slashed q) p) (meta_paths (i_meta o))) (flip_list (flips name) (i_fields o)).
Lemma changes_list_complete : forall flips name old o n, wf_fields (declared (i_fields o) (i_fields n) (d_rank old)) -> name <> strs "pf_active" ->
  forall p, changes3 flips name old o n p -> In p (changes_list flips name old o n).
Proof.
  intros flips name old o n W NN p C. apply in_or_app. destruct C as [(q & H)|[-> | [(E & _)|(F & q & m' & -> & A & K)]]].
  - left. apply in_map_iff. exists (p, q). split; [reflexivity|]. apply changing_complete; auto.
  - right. left. reflexivity.
  - contradiction.
  - right. right. apply filter_In. split; [apply flip_list_complete; exact F|]. apply existsb_exists. exists q. split; [eapply meta_paths_complete; eauto|apply str_eqb_refl].
Qed.
Example C52_example_source : conf (i_meta sg_old) sg_src /\ stored_values (i_meta sg_old) sg_src /\ plain_copy 15 (strs "ids") sg_old_dd sg_new_dd (i_meta sg_old) /\
  plain_copy 15 (strs "ids") sg_new_dd sg_old_dd (i_meta sg_new) /\ untouched (i_meta sg_old) sg_src (changes3 sg_flips (strs "ids") sg_old_dd sg_old sg_new) /\
  signs_ok (i_meta sg_old) sg_src (fun p => sign3 sg_flips (strs "ids") sg_old (slashed p)) /\ VmapProps.any_order VmapProps.same_order /\ casts_arrays ex_cast.
Proof.
  split; [by_check|]. split; [apply stored_b_sound; [by_check|vm_compute; reflexivity]|]. split; [intros E; discriminate|]. split; [intros E; discriminate|].
  split; [|split; [|split; [apply VmapProps.same_order_any|apply ex_casts]]].
  - apply (untouched_b_sound _ _ _ (changes_list sg_flips (strs "ids") sg_old_dd sg_old sg_new)); [|vm_compute; reflexivity].
    intros p C. apply changes_list_complete; auto; [apply sg_wf|discriminate].
  - apply (signs_b_sound _ _ _ (fun p => mem (slashed p) (flip_list (sg_flips (strs "ids")) (i_fields sg_old)))); [by_check|by_check| |vm_compute; reflexivity].
    intros p F. apply mem_in. apply flip_list_complete. exact F.
Qed.
Definition sg_convert (source target : dictionary) (sm : meta) (src : node) : result end_exn cst :=
  convert_ids VmapProps.same_order sg_flips (en_dict 41 en_old) 15 41 (strs "2.0") (fun _ => []) (fun _ => None) (fun _ => None) Some ex_cast (fun _ => []) (fun _ _ => true)
    (fun f => Ok f) (fun _ => None) (fun _ => {| ValModel.a_dynamic := false; ValModel.a_coords := []; ValModel.a_same := []; ValModel.a_alts := [] |}) (fun _ _ _ _ _ => 0%Z) false (strs "ids") source target sm src None true [] [].
Example C52_example_convert : exists st st', sg_convert sg_old_dd sg_new_dd (i_meta sg_old) sg_src = Ok st /\ sg_convert sg_new_dd sg_old_dd (i_meta sg_new) (c_tree st) = Ok st' /\
  leaf_at (i_meta sg_new) (c_tree st) [Child (strs "profiles_1d"); Child (strs "psi")] (VFltA [2] [minus one; two_half]) /\
  leaf_at (i_meta sg_new) (c_tree st) [Child (strs "coil"); Elem 0; Child (strs "flux")] (VFlt (minus two_half)) /\
  leaf_at (i_meta sg_new) (c_tree st) [Child (strs "coil"); Elem 0; Child (strs "description")] (VStr (strs "Central coil")) /\
  leaf_at (i_meta sg_new) (c_tree st) [Child (strs "coil"); Elem 0; Child (strs "name")] (VStr (strs "CS1")) /\
  leaf_at (i_meta sg_new) (c_tree st) [Child (strs "coil"); Elem 1; Child (strs "name")] (VStr (strs "PF1")) /\
  leaf_at (i_meta sg_new) (c_tree st) [Child (strs "current")] (VFlt one) /\
  leaf_at (i_meta sg_old) (c_tree st') [Child (strs "profiles"); Child (strs "psi")] (VFltA [2] [one; minus two_half]) /\
  leaf_at (i_meta sg_old) (c_tree st') [Child (strs "coil"); Elem 1; Child (strs "identifier")] (VStr (strs "PF1")) /\
  ~ exists v, leaf_at (i_meta sg_old) (c_tree st') [Child (strs "gone")] v.
Proof.
  eexists _, _. split; [vm_compute; reflexivity|]. split; [vm_compute; reflexivity|].
  do 8 (split; [apply fval_leaf; [by_check|by_check|vm_compute; reflexivity]|]).
  intros (v & H). apply fval_leaf in H; [|by_check|by_check]. vm_compute in H. discriminate.
Qed.

(** A condition that is needed: 9e40, the opposite of the number that stands for [no value].  After the conversion the quantity has no value. *)
Definition big : flt := 5219821259440645149%Z.
Definition sg_big : node := NStruct [(strs "coil", NAoS [NStruct [(strs "flux", NLeaf (Some (VFlt big)))]])].
Theorem C52_opposite_refuted : exists src st, conf (i_meta sg_old) src /\ stored_values (i_meta sg_old) src /\ untouched (i_meta sg_old) src (changes3 sg_flips (strs "ids") sg_old_dd sg_old sg_new) /\
  sg_convert sg_old_dd sg_new_dd (i_meta sg_old) src = Ok st /\
  leaf_at (i_meta sg_old) src [Child (strs "coil"); Elem 0; Child (strs "flux")] (VFlt big) /\
  becomes sg_old_dd sg_old sg_new (strs "coil/flux") (strs "coil/flux") /\
  ~ exists w, leaf_at (i_meta sg_new) (c_tree st) [Child (strs "coil"); Elem 0; Child (strs "flux")] w.
Proof.
  exists sg_big. eexists. split; [by_check|]. split; [apply stored_b_sound; [by_check|vm_compute; reflexivity]|]. split; [|split; [vm_compute; reflexivity|]].
  - apply (untouched_b_sound _ _ _ (changes_list sg_flips (strs "ids") sg_old_dd sg_old sg_new)); [|vm_compute; reflexivity].
    intros p C. apply changes_list_complete; auto; [apply sg_wf|discriminate].
  - split; [apply fval_leaf; [by_check|by_check|vm_compute; reflexivity]|]. split.
    + split; [apply VmapProofs.has_exists; vm_compute; reflexivity|]. split; [apply VmapProofs.has_exists; vm_compute; reflexivity|]. exists false.
      exact (VmapProofs4.loc_origin (i_fields sg_old) (declared (i_fields sg_old) (i_fields sg_new) 5) 5 (proj2 sg_wf) (strs "coil/flux")).
    + intros (v & H). apply fval_leaf in H; [|by_check|by_check]. vm_compute in H. discriminate.
Qed.
Print Assumptions C52_opposite_refuted.
