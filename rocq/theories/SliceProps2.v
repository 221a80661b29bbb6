(** C58: examples, and what does not hold. *)
From Verif Require Import Base TreeModel TreeSpec TreeProofs TreeCheck ConvSpec VmapModel
  StoreModel StoreSpec StoreProps StoreProps2 SliceModel SliceSpec SliceProps.
From Verif Require PrimModel.

(** * Checking the hypothesis about sizes *)
Fixpoint aos_locs (n : node) : list (loc * nat) :=
  match n with
  | NLeaf _ => []
  | NStruct fs => flat_map (fun f => match f with (c, x) => map (fun y => (Child c :: fst y, snd y)) (aos_locs x) end) fs
  | NAoS els => ([], length els) :: (fix go (i : nat) (l : list node) : list (loc * nat) :=
      match l with [] => [] | x :: t => map (fun y => (Elem i :: fst y, snd y)) (aos_locs x) ++ go (S i) t end) 0 els
  end.
Lemma aos_locs_all : forall l n els, look n l = Some (NAoS els) -> In (l, length els) (aos_locs n).
Proof.
  induction l as [|st l IH]; intros n els E.
  - cbn in E. injection E as ->. cbn. now left.
  - destruct st as [c|i]; destruct n as [fs|es|v]; cbn [look] in E; try discriminate E.
    + destruct (alookup c fs) as [x|] eqn:A; [|discriminate E]. cbn [aos_locs]. apply in_flat_map. exists (c, x). split; [now apply alookup_In|].
      apply List.in_map_iff. exists (l, length els). split; auto.
    + destruct (nth_error es i) as [x|] eqn:A; [|discriminate E]. cbn [aos_locs]. right.
      assert (G : forall es k, nth_error es i = Some x -> In (Elem (k + i) :: l, length els) ((fix go (i : nat) (l : list node) : list (loc * nat) :=
        match l with [] => [] | x :: t => map (fun y => (Elem i :: fst y, snd y)) (aos_locs x) ++ go (S i) t end) k es)).
      { clear A es. revert E. specialize (IH x els). clear - IH. intros E. revert i. intros i es k. revert i k. induction es as [|y es IE]; intros i k A; [destruct i; discriminate A|]. destruct i as [|i].
        - injection A as ->. apply in_or_app. left. rewrite Nat.add_0_r. apply List.in_map_iff. exists (l, length els). split; auto.
        - apply in_or_app. right. replace (k + S i) with (S k + i) by lia. apply IE. exact A. }
      apply (G es 0 A).
Qed.
Definition step_eqb (a b : TreeModel.step) : bool :=
  match a, b with Child x, Child y => str_eqb x y | Elem i, Elem j => Nat.eqb i j | _, _ => false end.
Lemma loc_eqb_refl : forall l, list_eqb step_eqb l l = true.
Proof. induction l as [|[c|i] l IH]; cbn; auto; [rewrite str_eqb_refl|rewrite Nat.eqb_refl]; auto. Qed.
Definition same_sizes_b (dynamic : list str -> bool) (a b : node) : bool :=
  forallb (fun x => forallb (fun y => negb (list_eqb step_eqb (fst x) (fst y)) || dynamic (loc_names (fst x)) ||
    match series dynamic [] (fst x) with Some _ => true | None => Nat.eqb (snd x) (snd y) end) (aos_locs b)) (aos_locs a).
Lemma same_sizes_b_sound : forall dynamic a b, same_sizes_b dynamic a b = true -> same_sizes dynamic (contents_of a) (contents_of b).
Proof.
  intros dynamic a b H l S D NA NB. unfold same_sizes_b in H. rewrite forallb_forall in H. cbn [contents_of size] in *.
  destruct (look a l) as [[|ea|]|] eqn:EA; try congruence. destruct (look b l) as [[|eb|]|] eqn:EB; try congruence.
  specialize (H _ (aos_locs_all _ _ _ EA)). rewrite forallb_forall in H. specialize (H _ (aos_locs_all _ _ _ EB)). cbn [fst snd] in H.
  rewrite loc_eqb_refl, D, S in H. cbn in H. now apply Nat.eqb_eq in H.
Qed.

(** * An example *)
Definition s_meta : meta :=
  Meta (N "core") KStruct
    [Meta (N "ids_properties") KStruct [Meta (N "homogeneous_time") (KLeaf INT 0) []; Meta (N "version") (KLeaf STR 0) []];
     Meta (N "time") (KLeaf FLT 1) [];
     Meta (N "slice") KAoS [Meta (N "te") (KLeaf FLT 1) []; Meta (N "label") (KLeaf STR 0) []; Meta (N "ion") KAoS [Meta (N "z") (KLeaf INT 0) []]];
     Meta (N "coil") KAoS [Meta (N "turns") (KLeaf FLT 0) []; Meta (N "current") (KLeaf FLT 1) []];
     Meta (N "map") (KLeaf FLT 2) []].
Definition s_dynamic (p : list str) : bool :=
  existsb (str_eqb (path_of p)) [N "time"; N "slice"; N "slice/te"; N "slice/ion"; N "slice/ion/z"; N "coil/current"; N "map"].
Definition s_tbp (p : list str) : str := if existsb (str_eqb (path_of p)) [N "time"; N "coil/current"; N "map"] then N "time" else [].
Definition flts (l : list Z) : option value := match l with [] => None | _ => Some (VFltA [length l] l) end.
Definition s_ion (z : Z) : node := NStruct [(N "z", NLeaf (Some (VInt z)))].
Definition s_slice (te : list Z) (label : string) (ions : list Z) : node :=
  NStruct [(N "te", NLeaf (flts te)); (N "label", NLeaf (Some (VStr (strs label)))); (N "ion", NAoS (map s_ion ions))].
Definition s_coil (turns : Z) (current : list Z) : node := NStruct [(N "turns", NLeaf (Some (VFlt turns))); (N "current", NLeaf (flts current))].
Definition s_ids (version : string) (time : list Z) (slices coils : list node) (mp : list Z) : node :=
  NStruct [(N "ids_properties", NStruct [(N "homogeneous_time", NLeaf (Some (VInt 1%Z))); (N "version", NLeaf (Some (VStr (strs version))))]);
           (N "time", NLeaf (flts time)); (N "slice", NAoS slices); (N "coil", NAoS coils);
           (N "map", NLeaf (match mp with [] => None | _ => Some (VFltA [2; length mp / 2] mp) end))].
(** two times, then one, then one; the second coil has no current in the second one *)
Definition s_1 : node := s_ids "1" [10; 11]%Z [s_slice [1; 2]%Z "a" [1]%Z; s_slice [3]%Z "b" []] [s_coil 5 [20; 21]; s_coil 6 [30; 31]]%Z [40; 41; 50; 51]%Z.
Definition s_2 : node := s_ids "1" [12]%Z [s_slice [4; 5; 6]%Z "c" [2; 3]%Z] [s_coil 7 [22]; s_coil 8 []]%Z [42; 52]%Z.
Definition s_3 : node := s_ids "1" [13]%Z [s_slice []%Z "d" [4]%Z] [s_coil 5 [23]; s_coil 6 [33]]%Z [43; 53]%Z.
Definition keep (a b : nat) : nat := a.

Example C58_session : session keep s_dynamic s_tbp no_max true 1%Z s_meta empty_store s_1 [s_2; s_3].
Proof.
  assert (L : forall v t sl co mp, leaf_at s_meta (s_ids v t sl co mp) homogeneous_time (VInt 1%Z)).
  { intros v t sl co mp. exists (Meta (N "homogeneous_time") (KLeaf INT 0) []). split; [do 2 eexists; reflexivity|]. split; [|exact I].
    unfold homogeneous_time, s_meta. change (strs "ids_properties") with (mname (Meta (N "ids_properties") KStruct [Meta (N "homogeneous_time") (KLeaf INT 0) []; Meta (N "version") (KLeaf STR 0) []])).
    econstructor; [left; reflexivity|reflexivity|].
    change (strs "homogeneous_time") with (mname (Meta (N "homogeneous_time") (KLeaf INT 0) [])). econstructor; [left; reflexivity|reflexivity|constructor]. }
  split.
  - apply namedb_sound. vm_compute. reflexivity.
  - by_check.
  - reflexivity.
  - auto.
  - reflexivity.
  - reflexivity.
  - reflexivity.
  - reflexivity.
  - intros x [<-|[<-|[<-|[]]]]; (split; [by_check|]; split; [apply settledb_sound; vm_compute; reflexivity|apply L]).
  - intros x y [<-|[<-|[<-|[]]]] [<-|[<-|[]]]; apply same_sizes_b_sound; vm_compute; reflexivity.
Qed.

(** what a get returns: all slices; the labels of the appended ones are lost, the current of the second coil has three values instead of four *)
Definition s_result : node :=
  NStruct [(N "ids_properties", NStruct [(N "homogeneous_time", NLeaf (Some (VInt 1%Z))); (N "version", NLeaf (Some (VStr (N "1"))))]);
           (N "time", NLeaf (flts [10; 11; 12; 13]%Z));
           (N "slice", NAoS [s_slice [1; 2]%Z "a" [1]%Z;
                             NStruct [(N "te", NLeaf (flts [3]%Z)); (N "label", NLeaf (Some (VStr (N "b"))))];
                             NStruct [(N "te", NLeaf (flts [4; 5; 6]%Z)); (N "ion", NAoS (map s_ion [2; 3]%Z))];
                             NStruct [(N "ion", NAoS (map s_ion [4]%Z))]]);
           (N "coil", NAoS [s_coil 5 [20; 21; 22; 23]%Z; s_coil 6 [30; 31; 33]%Z]);
           (N "map", NLeaf (Some (VFltA [2; 4] [40; 41; 42; 43; 50; 51; 52; 53]%Z)))].
Definition s_after (l : list node) : result exn node :=
  do s <- put_slices keep s_dynamic s_tbp no_max None true s_dynamic s_meta 1%Z empty_store s_meta l; al_get s_dynamic s_tbp None s s_meta.
Example C58_example : s_after [s_1; s_2; s_3] = Ok s_result.
Proof. vm_compute. reflexivity. Qed.
(** the hypotheses of [C58_elements], [C58_times] and [C58_static] hold for: the slices; the current of a coil and the map; the number of turns *)
Definition turns_of (i : nat) : loc := [Child (N "coil"); Elem i; Child (N "turns")].
Definition current_of (i : nat) : loc := [Child (N "coil"); Elem i; Child (N "current")].
Example C58_example_nodes :
  series s_dynamic [] [Child (N "slice")] = None /\ s_dynamic [N "slice"] = true /\
  series s_dynamic [] (current_of 1) = None /\ has_time s_dynamic s_tbp (current_of 1) = true /\
  series s_dynamic [] [Child (N "map")] = None /\ has_time s_dynamic s_tbp [Child (N "map")] = true /\
  series s_dynamic [] (turns_of 1) = None /\ s_dynamic (loc_names (turns_of 1)) = false.
Proof. vm_compute. auto 10. Qed.
(** the hypotheses of [C58_succeeds]: an array with other dimensions cannot be appended *)
Example C58_example_shape : append (VFltA [2; 1] [1; 2]%Z) (VFltA [3; 1] [1; 2; 3]%Z) = None /\ append (VFltA [2; 1] [1; 2]%Z) (VFltA [2; 2] [3; 4; 5; 6]%Z) = Some (VFltA [2; 3] [1; 3; 4; 2; 5; 6]%Z).
Proof. vm_compute. auto. Qed.

(** * What does not hold *)

(** Finding.  A quantity that is empty in one of the slices: the values of the later slices are stored at the times of the slices before.
    Here, the coil has no current at time 12: its current at time 13 (33) is returned as the one at time 12, and it has none at time 13. *)
Theorem C58_gap_refuted : exists resize dynamic xml_tbp maxoccur mode m n l s' n' p w time,
  session resize dynamic xml_tbp maxoccur true mode m empty_store n l /\
  put_slices resize dynamic xml_tbp maxoccur None true dynamic m mode empty_store m (n :: l) = Ok s' /\ al_get dynamic xml_tbp None s' m = Ok n' /\
  leaf_at m n' [Child (N "time")] time /\ leaf_at m n' p w /\ has_time dynamic xml_tbp p = true /\
  (* slice 3 has the value 33 at time 13 *)
  (exists b, nth_error (n :: l) 2 = Some b /\ leaf_at m b [Child (N "time")] (VFltA [1] [13]%Z) /\ leaf_at m b p (VFltA [1] [33]%Z)) /\
  (* it is found at time 12 *)
  nth_item time 3 = Some (VFlt 13%Z) /\ nth_item time 2 = Some (VFlt 12%Z) /\ nth_item w 2 = Some (VFlt 33%Z) /\ nth_item w 3 = None.
Proof.
  destruct (put_slices keep s_dynamic s_tbp no_max None true s_dynamic s_meta 1%Z empty_store s_meta [s_1; s_2; s_3]) as [s'|e] eqn:P.
  2: { exfalso. pose proof C58_example as X. unfold s_after in X. rewrite P in X. discriminate X. }
  assert (G : al_get s_dynamic s_tbp None s' s_meta = Ok s_result) by (pose proof C58_example as X; unfold s_after in X; rewrite P in X; exact X).
  pose proof (se_wf _ _ _ _ _ _ _ _ _ _ C58_session) as W.
  assert (CR : conf s_meta s_result) by by_check. assert (C3 : conf s_meta s_3) by by_check.
  exists keep, s_dynamic, s_tbp, no_max, 1%Z, s_meta, s_1, [s_2; s_3], s', s_result, (current_of 1), (VFltA [3] [30; 31; 33]%Z), (VFltA [4] [10; 11; 12; 13]%Z).
  split; [exact C58_session|]. split; [exact P|]. split; [exact G|].
  split; [apply (SliceProofs2.contents_leaf s_meta s_result); auto; vm_compute; reflexivity|].
  split; [apply (SliceProofs2.contents_leaf s_meta s_result); auto; vm_compute; reflexivity|]. split; [vm_compute; reflexivity|].
  split; [|vm_compute; auto]. exists s_3. split; [reflexivity|]. split; apply (SliceProofs2.contents_leaf s_meta s_3); auto; vm_compute; reflexivity.
Qed.
Print Assumptions C58_gap_refuted.

(** Finding.  Data in an element of a time dependent array of structures that are not dynamic themselves are stored by the first put_slice, but
    not by the following ones. *)
Theorem C58_lost_refuted : exists resize dynamic xml_tbp maxoccur mode m n l s' n' b p i v,
  session resize dynamic xml_tbp maxoccur true mode m empty_store n l /\
  put_slices resize dynamic xml_tbp maxoccur None true dynamic m mode empty_store m (n :: l) = Ok s' /\ al_get dynamic xml_tbp None s' m = Ok n' /\
  In b l /\ leaf_at m b (p ++ [Elem i; Child (N "label")]) v /\ forall j, ~ leaf_at m n' (p ++ [Elem j; Child (N "label")]) v.
Proof.
  destruct (put_slices keep s_dynamic s_tbp no_max None true s_dynamic s_meta 1%Z empty_store s_meta [s_1; s_2; s_3]) as [s'|e] eqn:P.
  2: { exfalso. pose proof C58_example as X. unfold s_after in X. rewrite P in X. discriminate X. }
  assert (G : al_get s_dynamic s_tbp None s' s_meta = Ok s_result) by (pose proof C58_example as X; unfold s_after in X; rewrite P in X; exact X).
  pose proof (se_wf _ _ _ _ _ _ _ _ _ _ C58_session) as W.
  assert (CR : conf s_meta s_result) by by_check. assert (C2 : conf s_meta s_2) by by_check.
  exists keep, s_dynamic, s_tbp, no_max, 1%Z, s_meta, s_1, [s_2; s_3], s', s_result, s_2, [Child (N "slice")], 0, (VStr (N "c")).
  split; [exact C58_session|]. split; [exact P|]. split; [exact G|]. split; [now left|].
  split; [apply (SliceProofs2.contents_leaf s_meta s_2); auto; vm_compute; reflexivity|].
  intros j H. apply (SliceProofs2.contents_leaf s_meta s_result) in H; auto. destruct j as [|[|[|[|j]]]]; [vm_compute in H; discriminate H..|].
  cbn in H. destruct j; discriminate H.
Qed.
Print Assumptions C58_lost_refuted.

(** Finding.  put_slice does not compare the version of the dictionary with that of the stored data, and as the version is not dynamic, it is
    not stored again.  Here a second slice is stored with a version in which [map] is called [field]: the occurrence is still marked
    as one of the old version, with two times, but only one of the two maps is found by a get with that version (or with a conversion from it). *)
Definition v_meta : meta :=
  Meta (N "core") KStruct
    [Meta (N "ids_properties") KStruct [Meta (N "homogeneous_time") (KLeaf INT 0) []; Meta (N "version") (KLeaf STR 0) []];
     Meta (N "time") (KLeaf FLT 1) []; Meta (N "field") (KLeaf FLT 1) []].
Definition u_meta : meta :=
  Meta (N "core") KStruct
    [Meta (N "ids_properties") KStruct [Meta (N "homogeneous_time") (KLeaf INT 0) []; Meta (N "version") (KLeaf STR 0) []];
     Meta (N "time") (KLeaf FLT 1) []; Meta (N "map") (KLeaf FLT 1) []].
Definition v_dynamic (p : list str) : bool := existsb (str_eqb (path_of p)) [N "time"; N "field"].
Definition v_tbp (p : list str) : str := if v_dynamic p then N "time" else [].
Definition u_dynamic (p : list str) : bool := existsb (str_eqb (path_of p)) [N "time"; N "map"].
Definition u_tbp (p : list str) : str := if u_dynamic p then N "time" else [].
Definition v_ids (version : string) (time : Z) (name : string) (x : Z) : node :=
  NStruct [(N "ids_properties", NStruct [(N "homogeneous_time", NLeaf (Some (VInt 1%Z))); (N "version", NLeaf (Some (VStr (strs version))))]);
           (N "time", NLeaf (flts [time])); (strs name, NLeaf (flts [x]))].
Theorem C58_version_refuted : exists s1 s2,
  put_slice keep u_dynamic u_tbp no_max None true u_dynamic u_meta 1%Z empty_store u_meta (v_ids "old" 10 "map" 1) = Ok s1 /\
  put_slice keep v_dynamic v_tbp no_max None true v_dynamic v_meta 1%Z s1 v_meta (v_ids "new" 11 "field" 2) = Ok s2 /\
  al_get u_dynamic u_tbp None s2 u_meta =
    Ok (NStruct [(N "ids_properties", NStruct [(N "homogeneous_time", NLeaf (Some (VInt 1%Z))); (N "version", NLeaf (Some (VStr (N "old"))))]);
                 (N "time", NLeaf (flts [10; 11]%Z)); (N "map", NLeaf (flts [1]%Z))]).
Proof.
  destruct (put_slice keep u_dynamic u_tbp no_max None true u_dynamic u_meta 1%Z empty_store u_meta (v_ids "old" 10 "map" 1)) as [s1|e] eqn:P1; [|vm_compute in P1; discriminate P1].
  destruct (put_slice keep v_dynamic v_tbp no_max None true v_dynamic v_meta 1%Z s1 v_meta (v_ids "new" 11 "field" 2)) as [s2|e] eqn:P2.
  2: { exfalso. assert (X : (do s <- put_slice keep u_dynamic u_tbp no_max None true u_dynamic u_meta 1%Z empty_store u_meta (v_ids "old" 10 "map" 1);
          do s <- put_slice keep v_dynamic v_tbp no_max None true v_dynamic v_meta 1%Z s v_meta (v_ids "new" 11 "field" 2); Ok tt) = Ok tt) by (vm_compute; reflexivity).
       rewrite P1 in X. cbn [rbind] in X. rewrite P2 in X. discriminate X. }
  exists s1, s2. split; [reflexivity|]. split; [exact P2|].
  assert (X : (do s <- put_slice keep u_dynamic u_tbp no_max None true u_dynamic u_meta 1%Z empty_store u_meta (v_ids "old" 10 "map" 1);
          do s <- put_slice keep v_dynamic v_tbp no_max None true v_dynamic v_meta 1%Z s v_meta (v_ids "new" 11 "field" 2); al_get u_dynamic u_tbp None s u_meta) =
    Ok (NStruct [(N "ids_properties", NStruct [(N "homogeneous_time", NLeaf (Some (VInt 1%Z))); (N "version", NLeaf (Some (VStr (N "old"))))]);
                 (N "time", NLeaf (flts [10; 11]%Z)); (N "map", NLeaf (flts [1]%Z))])) by (vm_compute; reflexivity).
  rewrite P1 in X. cbn [rbind] in X. rewrite P2 in X. cbn [rbind] in X. exact X.
Qed.
Print Assumptions C58_version_refuted.
