(** * C34, C37: netCDF files.

    C34: storing an IDS in a netCDF file and reading it back gives the same array sizes, shapes and values.
    C37: every file that is written passes the validation of the library. *)
From Verif Require Import Base TreeModel TreeSpec TreeProofs TreeCheck TreeProps StoreProofs2 NcMetaModel NcMetaSpec NcMetaProofs NcMetaProofs2 NcMetaProofs4 NcFileModel NcFileSpec
  NcFileProofs NcFileProofs3 NcFileProofs4 NcFileProofs5 NcFileProofs6 NcFileProofs7 NcFileProofs8 NcFileProofs9.
From Verif Require NcMetaProps.
From Coq Require Import Lia.

Section Round.
Variable at_ : path -> nattr.
Variable fuel : nat.
Variable m : meta.
Variable r : ncmeta.
Variable units : path -> str.

Lemma all_ok_inv : forall A (f : A -> result fexn unit) l, all_ok f l = Ok tt -> forall x, In x l -> f x = Ok tt.
Proof.
  induction l as [|y l IH]; intros H x I; [destruct I|]. cbn [all_ok] in H. destruct (f y) as [[]|] eqn:E; [|discriminate]. cbn [rbind] in H. destruct I as [<- | I]; auto.
Qed.
Lemma write_paths_inv : forall h its l x, write_paths m r units h its l = Ok x -> forall p, In p l -> exists y, write_path m r units h its p = Ok y.
Proof.
  induction l as [|q l IH]; intros x H p I; [destruct I|]. cbn [write_paths] in H. destruct (write_path m r units h its q) as [y|] eqn:E; [|discriminate]. cbn [rbind] in H.
  destruct (write_paths m r units h its l) as [z|] eqn:E2; [|discriminate]. destruct I as [<- | I]; eauto.
Qed.
(** a file is written only if all integers fit in 32 bits *)
Lemma put_int32 : wf_meta m -> mkind m = KStruct -> nc_metadata at_ fuel m = Ok r -> forall n g, conf m n -> put m r units n = Ok g -> int32 m n.
Proof.
  intros W KR R n g C P l v z L I. assert (NL : forall dt nd, mkind m <> KLeaf dt nd) by congruence.
  assert (J : In (loc_names l, loc_index l, FLeaf v) (items m n)).
  { change (FLeaf v) with (content_item (ILeaf v)). apply (filled_iter_spec m W n [] [] (loc_names l) (loc_index l) (ILeaf v) C NL). exists l. split; [|auto]. intros ->. destruct L as (m' & LM & NA & _). inversion NA; subst.
    destruct LM as (dt & nd & K). congruence. }
  assert (FP : In (loc_names l) (filled_paths r (items m n))) by (apply (filled_path at_ fuel m r W R KR n C); eauto).
  unfold put, write_group in P. change (filled_iter m n [] []) with (items m n) in P. destruct (write_paths m r units (homogeneous_of n) (items m n) (filled_paths r (items m n))) as [x|] eqn:WP; [|discriminate].
  destruct (write_paths_inv _ _ _ _ WP _ FP) as (y & WY). destruct (item_meta m KR n C _ _ _ J) as (c & a & lv & B & _). destruct (item_fits m W KR n C _ _ _ _ _ _ J B) as [FT _]. cbn [fits] in FT. destruct FT as (dt & nd & K & V & FV).
  unfold write_path in WY. rewrite (meta_at_in m W _ c a lv B) in WY. rewrite K in WY.
  destruct (sparsity_of m r (homogeneous_of n) (items m n) (loc_names l)) as [sp|] eqn:SP; [|discriminate]. cbn [rbind] in WY.
  match type of WY with (do full <- ?s; _) = _ => destruct s as [full|] eqn:SF; [|discriminate] end. cbn [rbind] in WY.
  match type of WY with (do _ <- ?s; _) = _ => destruct s as [[]|] eqn:AO; [|discriminate] end.
  pose proof (all_ok_inv _ _ _ AO (loc_index l, FLeaf v) (proj2 (data_In m n _ _ _) J)) as AS. cbn [snd assignable] in AS. destruct (forallb cell_ok (value_cells v)) eqn:CO; [|discriminate].
  rewrite forallb_forall in CO. assert (CI : In (CInt z) (value_cells v)) by (clear - I; destruct v; cbn in *; try tauto; [destruct I as [-> |[]]; auto|now apply List.in_map]).
  apply CO in CI. cbn [cell_ok] in CI. apply Bool.andb_true_iff in CI. destruct CI as [C1 C2]. apply Z.leb_le in C1. apply Z.ltb_lt in C2. lia.
Qed.

(** ** C37 *)
Theorem C37_valid : wf_meta m -> mkind m = KStruct -> names_ok m -> small_dims m -> no_structure_errors m -> nc_metadata at_ fuel m = Ok r ->
  forall n, conf m n -> time_mode m n ->
  forall g, put m r units n = Ok g ->
  read_homogeneous m r units g = Ok (homogeneous_of n) /\ validate_variables m r units g (homogeneous_of n) = Ok tt.
Proof.
  intros W KR NO SD NE R n C TM g P. pose proof (put_int32 W KR R n g C P) as I32. destruct (write_group_ok at_ fuel m r W R NO SD KR n C (homogeneous_of n) units I32) as (g' & E & WG).
  unfold put in P. change (filled_iter m n [] []) with (items m n) in P. rewrite E in P. apply ok_inj in P. subst g'. split; [eapply mode_read; eauto|eapply valid_group; eauto].
Qed.
(** files are written for all trees with integers that fit in 32 bits *)
Theorem C37_written : wf_meta m -> mkind m = KStruct -> names_ok m -> small_dims m -> nc_metadata at_ fuel m = Ok r ->
  forall n, conf m n -> ((exists g, put m r units n = Ok g) <-> int32 m n).
Proof.
  intros W KR NO SD R n C. split; [intros (g & P); eapply put_int32; eauto|]. intros I32. destruct (write_group_ok at_ fuel m r W R NO SD KR n C (homogeneous_of n) units I32) as (g & E & _). exists g. exact E.
Qed.

(** ** C34 *)
Theorem C34_round_trip_partial : wf_meta m -> mkind m = KStruct -> names_ok m -> small_dims m -> no_structure_errors m -> nc_metadata at_ fuel m = Ok r ->
  forall n, conf m n -> time_mode m n -> int32 m n ->
  exists g n', put m r units n = Ok g /\ get m r units g = Ok n' /\
    (forall l k, aos_at m n' l k <-> aos_at m n l k) /\
    (forall l v, leaf_at m n l v -> (inside_aos l -> ~ looks_unset v) -> leaf_at m n' l v) /\
    (forall l v, leaf_at m n' l v -> (inside_aos l -> ~ is_complex v) -> leaf_at m n l v).
Proof.
  intros W KR NO SD NE R n C TM I32. destruct (write_group_ok at_ fuel m r W R NO SD KR n C (homogeneous_of n) units I32) as (g & E' & WG).
  destruct (C37_valid W KR NO SD NE R n C TM g E') as (H & V).
  destruct (tree_read at_ fuel m r W R NO SD KR n C (homogeneous_of n) units g WG) as (fs & RV & Q1 & Q2).
  exists g, (NStruct fs). split; [exact E'|]. split; [unfold get; rewrite H; cbn [rbind]; rewrite V; cbn [rbind]; rewrite RV; reflexivity|]. split; [|split].
  - intros l k. split; intros A; [apply (Q2 l (ISize k))|apply (Q1 l (ISize k))]; auto; discriminate.
  - intros l v L T. apply (Q1 l (ILeaf v) L). intros w Ew. inversion Ew; subst w. exact T.
  - intros l v L T. apply (Q2 l (ILeaf v) L). intros w Ew. inversion Ew; subst w. exact T.
Qed.
End Round.
Print Assumptions C37_valid.
Print Assumptions C37_written.
Print Assumptions C34_round_trip_partial.

(** ** Checkers for the examples *)
Definition name_okb (s : str) : bool :=
  match s with x :: _ => negb (existsb (Ascii.eqb "."%char) s) && ((nat_of_ascii x <? 48) || (57 <? nat_of_ascii x)) | [] => false end.
Lemma name_okb_sound : forall s, name_okb s = true -> name_ok s.
Proof.
  intros [|x t] H; [discriminate|]. apply Bool.andb_true_iff in H. destruct H as [A B]. exists x, t. split; auto. split.
  - intros I. apply Bool.negb_true_iff in A. rewrite <- Bool.not_true_iff_false in A. apply A. apply existsb_exists. exists "."%char. split; auto. 
  - apply Bool.orb_true_iff in B. destruct B as [B|B]; apply Nat.ltb_lt in B; lia.
Qed.
Definition is_dataf (c : meta) : bool := match mkind c with KLeaf _ _ => true | _ => false end.
Definition dict_b (m : meta) : bool :=
  let vs := visits m [] None 0 in
  forallb (fun v => name_okb (mname (vc v)) && (ndim (vc v) <=? 6)) vs &&
  forallb (fun v => is_dataf (vc v) || forallb (fun w =>
    let sib x := removelast (vp v) ++ [last (vp v) [] ++ strs x] in
    negb (if path_dec (vp w) (sib "_error_upper"%string) then true else false) && negb (if path_dec (vp w) (sib "_error_lower"%string) then true else false)) vs) vs.
Lemma dict_b_sound : forall m, dict_b m = true -> names_ok m /\ small_dims m /\ no_structure_errors m.
Proof.
  intros m H. unfold dict_b in H. apply Bool.andb_true_iff in H. destruct H as [A B]. rewrite forallb_forall in A, B. split; [|split].
  - intros p c a n I. assert (J : In (p, c, a, n) (visits m [] None 0)) by (apply visits_In; exact I). apply A in J. apply Bool.andb_true_iff in J. apply name_okb_sound. apply J.
  - intros p c a n I. assert (J : In (p, c, a, n) (visits m [] None 0)) by (apply visits_In; exact I). apply A in J. apply Bool.andb_true_iff in J. apply Nat.leb_le. apply J.
  - intros p c a n q c' a' n' I ND I' EB. assert (J : In (p, c, a, n) (visits m [] None 0)) by (apply visits_In; exact I). assert (J' : In (q, c', a', n') (visits m [] None 0)) by (apply visits_In; exact I').
    apply B in J. apply Bool.orb_true_iff in J. destruct J as [J|J]; [apply ND; unfold is_dataf, is_data in *; cbn [vc fst snd] in J; destruct (mkind c); try discriminate; eauto|].
    rewrite forallb_forall in J. apply J in J'. cbn [vp fst snd] in J'. destruct EB as (r & b & -> & E). rewrite removelast_last, last_last in J'.
    apply Bool.andb_true_iff in J'. destruct J' as [X Y]. destruct E as [-> | ->]; [destruct (path_dec (r ++ [b ++ strs "_error_upper"]) (r ++ [b ++ strs "_error_upper"]))|destruct (path_dec (r ++ [b ++ strs "_error_lower"]) (r ++ [b ++ strs "_error_lower"]))]; try discriminate; congruence.
Qed.
Definition data_b (m : meta) (n : node) : bool :=
  forallb (fun x => match snd x with
                    | NLeaf (Some v) => forallb (fun z => (-2147483648 <=? z)%Z && (z <? 2147483648)%Z) (ints v)
                    | _ => true end) (tree_iter true false false m n).
Lemma data_b_sound : forall m n, conf m n -> ~ is_leaf m -> data_b m n = true -> int32 m n.
Proof.
  intros m n C NL H l v z L I. unfold data_b in H. rewrite forallb_forall in H. pose proof (proj2 (C13_leaves_exact m n C NL l (NLeaf (Some v))) (ex_intro _ v (conj eq_refl L))) as J.
  apply H in J. cbn [snd] in J. rewrite forallb_forall in J. apply J in I. apply Bool.andb_true_iff in I. destruct I as [I1 I2]. apply Z.leb_le in I1. apply Z.ltb_lt in I2. lia.
Qed.
(** ** Examples *)
Notation leaf := NcMetaProps.leaf.
Notation pth := NcMetaProps.pth.
Definition ex_m : meta :=
  Meta (strs "core_profiles") KStruct
    [ Meta (strs "ids_properties") KStruct [leaf "homogeneous_time" INT 0; leaf "comment" STR 0];
      leaf "time" FLT 1;
      Meta (strs "profiles_1d") KAoS
        [ leaf "time" FLT 0; Meta (strs "grid") KStruct [leaf "rho" FLT 1; leaf "psi" FLT 1];
          leaf "t" FLT 1; leaf "t_error_upper" FLT 1; Meta (strs "ion") KAoS [leaf "label" STR 0; leaf "n" FLT 1] ];
      leaf "map" FLT 2 ].
Definition fl (z : Z) : flt := (4607182418800017408 + z)%Z.     (* numbers near 1.0 *)
Definition st (l : list (string * node)) : node := NStruct (map (fun x => (strs (fst x), snd x)) l).
Definition vec (l : list Z) : node := NLeaf (Some (VFltA [length l] (map fl l))).
Definition ex_ion (s : string) (l : list Z) : node := st [("label"%string, NLeaf (Some (VStr (strs s)))); ("n"%string, vec l)].
(** two time slices of different sizes, one with two ions, one with one *)
Definition ex_tree (h : Z) : node :=
  st [ ("ids_properties"%string, st [("homogeneous_time"%string, NLeaf (Some (VInt h)))]);
       ("time"%string, vec [1; 2]%Z);
       ("profiles_1d"%string, NAoS
          [ st [("time"%string, NLeaf (Some (VFlt (fl 1)))); ("grid"%string, st [("rho"%string, vec [1; 2; 3]%Z)]); ("t"%string, vec [4; 5; 6]%Z);
                ("ion"%string, NAoS [ex_ion "D" [7; 8; 9]%Z; ex_ion "T" [1; 1; 2]%Z])];
            st [("time"%string, NLeaf (Some (VFlt (fl 2)))); ("grid"%string, st [("rho"%string, vec [1; 2]%Z)]); ("t"%string, vec [4; 5]%Z);
                ("t_error_upper"%string, vec [1; 1]%Z); ("ion"%string, NAoS [ex_ion "D" [7; 8]%Z])] ]);
       ("map"%string, NLeaf (Some (VFltA [2; 3] (map fl [1; 2; 3; 4; 5; 6]%Z)))) ].
Definition ex_r : ncmeta := match nc_metadata NcMetaProps.ex_at 100 ex_m with Ok r => r | Err _ => {| nc_paths := []; nc_dims := []; nc_coords := []; nc_time := []; nc_aos := [] |} end.
Definition no_units (p : path) : str := [].
Example ex_m_ok : wf_meta ex_m /\ mkind ex_m = KStruct /\ names_ok ex_m /\ small_dims ex_m /\ no_structure_errors ex_m /\ nc_metadata NcMetaProps.ex_at 100 ex_m = Ok ex_r.
Proof.
  split; [by_check|]. split; [reflexivity|]. destruct (dict_b_sound ex_m) as (A & B & D); [vm_compute; reflexivity|]. split; [exact A|]. split; [exact B|]. split; [exact D|]. vm_compute. reflexivity.
Qed.
Lemma not_leaf_ids : forall nm cs, ~ is_leaf (Meta nm KStruct cs).
Proof. intros nm cs (dt & nd & E). discriminate. Qed.
Lemma leaf_in : forall m n l v, conf m n -> ~ is_leaf m -> In (l, NLeaf (Some v)) (tree_iter true false false m n) -> leaf_at m n l v.
Proof. intros m n l v C NL H. apply (C13_leaves_exact m n C NL) in H. destruct H as (w & E & L). inversion E; subst. exact L. Qed.
Lemma time_mode_in : forall m n z, conf m n -> ~ is_leaf m -> In ([Child (strs "ids_properties"); Child (strs "homogeneous_time")], NLeaf (Some (VInt z))) (tree_iter true false false m n) ->
  (z = 0 \/ z = 1 \/ z = 2)%Z -> time_mode m n.
Proof. intros m n z C NL H Z. exists z. split; auto. now apply leaf_in. Qed.
Example ex_tree_ok : forall h, (h = 0 \/ h = 1 \/ h = 2)%Z -> conf ex_m (ex_tree h) /\ time_mode ex_m (ex_tree h) /\ int32 ex_m (ex_tree h).
Proof.
  intros h H. assert (C : conf ex_m (ex_tree h)) by (destruct H as [-> |[-> | ->]]; by_check). assert (NL : ~ is_leaf ex_m) by apply not_leaf_ids. split; auto. split.
  - apply (time_mode_in ex_m (ex_tree h) h C NL); auto. destruct H as [-> |[-> | ->]]; vm_compute; auto.
  - apply data_b_sound; auto. destruct H as [-> |[-> | ->]]; vm_compute; reflexivity.
Qed.
(** the ragged tree is read back, for both time modes *)
Definition again (m : meta) (r : ncmeta) (n : node) : result fexn node := do g <- put m r no_units n; get m r no_units g.
Example ex_again : exists n', again ex_m ex_r (ex_tree 0) = Ok n' /\ tree_iter true false false ex_m n' = tree_iter true false false ex_m (ex_tree 0) /\
                              length (tree_iter true false false ex_m n') = 16.
Proof. eexists. split; [vm_compute; reflexivity|]. split; vm_compute; reflexivity. Qed.
Example ex_again_homogeneous : exists n', again ex_m ex_r (ex_tree 1) = Ok n' /\ tree_iter true false false ex_m n' = tree_iter true false false ex_m (ex_tree 1).
Proof. eexists. split; [vm_compute; reflexivity|]. vm_compute; reflexivity. Qed.

(** ** What is not read back *)
(** A dictionary with scalars of all types inside an array of structures *)
Definition rf_m : meta :=
  Meta (strs "ids") KStruct
    [ Meta (strs "ids_properties") KStruct [leaf "homogeneous_time" INT 0];
      Meta (strs "aos") KAoS [leaf "s" STR 0; leaf "f" FLT 0; leaf "i" INT 0; leaf "z" CPX 0] ].
Definition rf_at (p : path) : nattr := NcMetaProps.no_refs.
Definition rf_r : ncmeta := match nc_metadata rf_at 100 rf_m with Ok r => r | Err _ => {| nc_paths := []; nc_dims := []; nc_coords := []; nc_time := []; nc_aos := [] |} end.
Definition rf_tree (a b : list (string * node)) : node :=
  st [("ids_properties"%string, st [("homogeneous_time"%string, NLeaf (Some (VInt 0)))]); ("aos"%string, NAoS [st a; st b])].
Example rf_m_ok : wf_meta rf_m /\ mkind rf_m = KStruct /\ names_ok rf_m /\ small_dims rf_m /\ no_structure_errors rf_m /\ nc_metadata rf_at 100 rf_m = Ok rf_r.
Proof.
  split; [by_check|]. split; [reflexivity|]. destruct (dict_b_sound rf_m) as (A & B & D); [vm_compute; reflexivity|]. split; [exact A|]. split; [exact B|]. split; [exact D|]. vm_compute. reflexivity.
Qed.
Definition at_aos (i : nat) (nm : string) : loc := [Child (strs "aos"); Elem i; Child (strs nm)].
(** An empty string, -2147483647 and 9.969209968386869e+36 are lost if another element of the array has no value. *)
Definition lost : node := rf_tree [("s", NLeaf (Some (VStr []))); ("f", NLeaf (Some (VFlt 5160562223013167104%Z))); ("i", NLeaf (Some (VInt (-2147483647))))]%string [].
Definition lost_back : node := match again rf_m rf_r lost with Ok n' => n' | Err _ => NLeaf None end.
Theorem C34_fill_values_refuted : exists at_ fuel m r n n',
  (wf_meta m /\ mkind m = KStruct /\ names_ok m /\ small_dims m /\ no_structure_errors m /\ nc_metadata at_ fuel m = Ok r) /\ (conf m n /\ time_mode m n /\ int32 m n) /\
  again m r n = Ok n' /\
  leaf_at m n (at_aos 0 "s") (VStr []) /\ leaf_at m n (at_aos 0 "f") (VFlt 5160562223013167104%Z) /\ leaf_at m n (at_aos 0 "i") (VInt (-2147483647)) /\
  forall x v, ~ leaf_at m n' (at_aos 0 x) v.
Proof.
  exists rf_at, 100, rf_m, rf_r, lost, lost_back. split; [exact rf_m_ok|].
  assert (C : conf rf_m lost) by by_check. assert (C' : conf rf_m lost_back) by by_check. assert (NL : ~ is_leaf rf_m) by apply not_leaf_ids.
  split; [split; [exact C|split; [apply (time_mode_in rf_m lost 0 C NL); [vm_compute; tauto|auto]|apply data_b_sound; auto]]|]. split; [vm_compute; reflexivity|].
  split; [|split; [|split]]; try (apply leaf_in; auto; vm_compute; tauto). intros x v L.
  assert (J : In (at_aos 0 x, NLeaf (Some v)) (tree_iter true false false rf_m lost_back)) by (apply (C13_leaves_exact _ _ C' NL); eauto).
  assert (E : tree_iter true false false rf_m lost_back = [([Child (strs "ids_properties"); Child (strs "homogeneous_time")], NLeaf (Some (VInt 0)))]) by (vm_compute; reflexivity).
  rewrite E in J. destruct J as [J|[]]. inversion J.
Qed.
(** A complex number that is set in one element only is read back in all others, as 9.969209968386869e+36 (1 + 1j). *)
Definition gained : node := rf_tree [("z", NLeaf (Some (VCpx 0%Z 0%Z)))]%string [].
Definition gained_back : node := match again rf_m rf_r gained with Ok n' => n' | Err _ => NLeaf None end.
Theorem C34_complex_refuted : exists at_ fuel m r n n',
  (wf_meta m /\ mkind m = KStruct /\ names_ok m /\ small_dims m /\ no_structure_errors m /\ nc_metadata at_ fuel m = Ok r) /\ (conf m n /\ time_mode m n /\ int32 m n) /\
  again m r n = Ok n' /\ (forall v, ~ leaf_at m n (at_aos 1 "z") v) /\ leaf_at m n' (at_aos 1 "z") (VCpx 5160562223013167104%Z 5160562223013167104%Z).
Proof.
  exists rf_at, 100, rf_m, rf_r, gained, gained_back. split; [exact rf_m_ok|].
  assert (C : conf rf_m gained) by by_check. assert (C' : conf rf_m gained_back) by by_check. assert (NL : ~ is_leaf rf_m) by apply not_leaf_ids.
  split; [split; [exact C|split; [apply (time_mode_in rf_m gained 0 C NL); [vm_compute; tauto|auto]|apply data_b_sound; auto]]|]. split; [vm_compute; reflexivity|].
  split; [|apply leaf_in; auto; vm_compute; tauto]. intros v L.
  assert (J : In (at_aos 1 "z", NLeaf (Some v)) (tree_iter true false false rf_m gained)) by (apply (C13_leaves_exact _ _ C NL); eauto).
  assert (E : map fst (tree_iter true false false rf_m gained) = [[Child (strs "ids_properties"); Child (strs "homogeneous_time")]; at_aos 0 "z"]) by (vm_compute; reflexivity).
  apply (List.in_map fst) in J. rewrite E in J. destruct J as [J|[J|[]]]; discriminate J.
Qed.
(** A structure or array of structures next to a quantity with its name followed by _error_upper: the file cannot be read. *)
Definition eb_m : meta :=
  Meta (strs "ids") KStruct
    [ Meta (strs "ids_properties") KStruct [leaf "homogeneous_time" INT 0]; Meta (strs "aos") KAoS [leaf "f" FLT 0]; leaf "aos_error_upper" FLT 1 ].
Definition eb_r : ncmeta := match nc_metadata rf_at 100 eb_m with Ok r => r | Err _ => {| nc_paths := []; nc_dims := []; nc_coords := []; nc_time := []; nc_aos := [] |} end.
Definition eb_tree : node :=
  st [("ids_properties"%string, st [("homogeneous_time"%string, NLeaf (Some (VInt 0)))]); ("aos"%string, NAoS [st []]); ("aos_error_upper"%string, vec [1%Z])].
Theorem C37_structure_errors_refuted : exists at_ fuel m r n g,
  (wf_meta m /\ mkind m = KStruct /\ names_ok m /\ small_dims m /\ nc_metadata at_ fuel m = Ok r) /\ (conf m n /\ time_mode m n /\ int32 m n) /\
  put m r no_units n = Ok g /\ validate_variables m r no_units g (homogeneous_of n) = Err FInvalid /\ get m r no_units g = Err FInvalid.
Proof.
  assert (C : conf eb_m eb_tree) by by_check. assert (NL : ~ is_leaf eb_m) by apply not_leaf_ids.
  assert (X : match put eb_m eb_r no_units eb_tree with Ok g => (match validate_variables eb_m eb_r no_units g (homogeneous_of eb_tree) with Err FInvalid => true | _ => false end) && (match get eb_m eb_r no_units g with Err FInvalid => true | _ => false end) | Err _ => false end = true) by (vm_compute; reflexivity).
  destruct (put eb_m eb_r no_units eb_tree) as [g|] eqn:P; [|discriminate]. exists rf_at, 100, eb_m, eb_r, eb_tree, g. split; [|split; [|split]]; auto.
  - split; [by_check|]. split; [reflexivity|]. split; [|split; [|vm_compute; reflexivity]].
    + intros p c a n I. assert (J : In (p, c, a, n) (visits eb_m [] None 0)) by (apply visits_In; exact I).
      assert (Y : forallb (fun v => name_okb (mname (vc v))) (visits eb_m [] None 0) = true) by (vm_compute; reflexivity). rewrite forallb_forall in Y. apply Y in J. now apply name_okb_sound.
    + intros p c a n I. assert (J : In (p, c, a, n) (visits eb_m [] None 0)) by (apply visits_In; exact I).
      assert (Y : forallb (fun v => ndim (vc v) <=? 6) (visits eb_m [] None 0) = true) by (vm_compute; reflexivity). rewrite forallb_forall in Y. apply Y in J. now apply Nat.leb_le.
  - split; [exact C|split; [apply (time_mode_in eb_m eb_tree 0 C NL); [vm_compute; tauto|auto]|apply data_b_sound; auto]].
  - apply Bool.andb_true_iff in X. destruct X as [X1 X2]. split.
    + destruct (validate_variables eb_m eb_r no_units g (homogeneous_of eb_tree)) as [|[]]; try discriminate; auto.
    + destruct (get eb_m eb_r no_units g) as [|[]]; try discriminate; auto.
Qed.
Print Assumptions C34_fill_values_refuted.
Print Assumptions C34_complex_refuted.
Print Assumptions C37_structure_errors_refuted.
