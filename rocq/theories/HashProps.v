(** Property theorems about the content hash (C16 and the hash part of C12). *)
From Coq Require Import Permutation ZifyBool.
From Verif Require Import Base TreeModel TreeSpec TreeProofs TreeProofs2 TreeProofs4 TreeCheck TreeProps HashModel HashSpec HashProofs HashProofs2 HashProofs3.

(** The hash function is any function with 8-byte digests. *)
Definition digest8 (H : str -> str) : Prop := forall s, length (H s) = 8.

(** Two structures with the same hash have the same contents (outside version_put), unless the hash function gave the same
    digest for two different strings that were hashed, or a digest happens to continue a name in the way another name of
    the same structure does. *)
Theorem C16_hash_determines_contents : forall H m n1 n2 h, digest8 H -> wf_meta m -> conf m n1 -> conf m n2 ->
  all_storable m n1 -> all_storable m n2 -> (is_leaf m -> nonempty m n1 /\ nonempty m n2) ->
  calc_hash H m n1 = Ok h -> calc_hash H m n2 = Ok h ->
  same_hashed m n1 n2 \/ collision H m n1 n2 \/ confusion H m n1 n2.
Proof.
  intros H m n1 n2 h H8 Hw C1 C2 S1 S2 Hl E1 E2. unfold calc_hash, rbind in *.
  destruct (enc H m n1) as [u|] eqn:U; [|discriminate]. destruct (enc H m n2) as [v|] eqn:V; [|discriminate].
  destruct (str_dec u v) as [<-|N].
  - exact (enc_determines H H8 m n1 n2 u Hw C1 C2 S1 S2 Hl U V).
  - right; left. exists u, v. repeat split; auto; [| |congruence].
    + apply hd_node with (l := []) (m' := m) (n' := n1); auto; [apply masked_nil|constructor].
    + apply hd_node with (l := []) (m' := m) (n' := n2); auto; [apply masked_nil|constructor].
Qed.
Print Assumptions C16_hash_determines_contents.

(** No name of a sibling is a prefix of a name: then only a collision remains. *)
Theorem C16_prefix_free_names : forall H m n1 n2 h, digest8 H -> wf_meta m -> conf m n1 -> conf m n2 ->
  all_storable m n1 -> all_storable m n2 -> (is_leaf m -> nonempty m n1 /\ nonempty m n2) ->
  (forall m' c c' r, sub_meta m m' -> In c (mchildren m') -> In c' (mchildren m') -> mname c' = mname c ++ r -> r = []) ->
  calc_hash H m n1 = Ok h -> calc_hash H m n2 = Ok h ->
  same_hashed m n1 n2 \/ collision H m n1 n2.
Proof.
  intros H m n1 n2 h H8 Hw C1 C2 S1 S2 Hl Hp E1 E2.
  destruct (C16_hash_determines_contents H m n1 n2 h) as [X|[X|X]]; auto.
  destruct X as (m' & c & c' & r & x & S & I1 & I2 & En & Hr & _). exfalso. apply Hr. exact (Hp m' c c' r S I1 I2 En).
Qed.
Print Assumptions C16_prefix_free_names.

(** The other way round: same contents, same hash, however the structures were built. *)
Theorem C16_same_contents_same_hash : forall H m n1 n2, wf_meta m -> conf m n1 -> conf m n2 ->
  (is_leaf m -> nonempty m n1 /\ nonempty m n2) -> same_hashed m n1 n2 -> calc_hash H m n1 = calc_hash H m n2.
Proof. intros H m n1 n2 Hw C1 C2 Hl Hs. unfold calc_hash. rewrite (enc_determined H m n1 n2); auto. Qed.
Print Assumptions C16_same_contents_same_hash.

(** The order of children in the dictionary does not matter. *)
Theorem C16_dictionary_order : forall H m m' n, wf_meta m -> reorder m m' -> calc_hash H m n = calc_hash H m' n.
Proof. intros H m m' n Hw R. unfold calc_hash. rewrite (enc_reorder H m m' n); auto. Qed.
Print Assumptions C16_dictionary_order.

(** The contents of ids_properties/version_put do not matter (for the hash of ids_properties itself). *)
Theorem C16_version_put : forall H cs fs vp, wf_meta (Meta (strs "ids_properties") KStruct cs) ->
  calc_hash H (Meta (strs "ids_properties") KStruct cs) (NStruct (aset (strs "version_put") vp fs)) =
  calc_hash H (Meta (strs "ids_properties") KStruct cs) (NStruct fs).
Proof.
  intros H cs fs vp Hw. unfold calc_hash. rewrite !enc_struct.
  assert (E : forall l, pieces H (strs "ids_properties") (aset (strs "version_put") vp fs) l = pieces H (strs "ids_properties") fs l).
  { induction l as [|c l IH]; auto. unfold pieces in *. cbn [flat_map]. rewrite IH. f_equal.
    destruct (skipped (strs "ids_properties") (mname c)) eqn:Es; auto. rewrite alookup_aset.
    destruct (str_eqb (mname c) (strs "version_put")) eqn:En; auto.
    apply str_eqb_eq in En. rewrite En in Es. discriminate. }
  rewrite E. auto.
Qed.
Print Assumptions C16_version_put.

(** C12 for the hash: reading nodes does not change it. *)
Theorem C12_reads_keep_hash : forall H m n ls, wf_meta m -> str_ok m -> conf m n -> (is_leaf m -> nonempty m n) ->
  calc_hash H m (fold_left (access m) ls n) = calc_hash H m n.
Proof.
  intros H m n ls Hw Hs Hc Hl. destruct (reads_item ls m n Hw Hs Hc) as (H1 & H2).
  assert (N : nonempty m n -> nonempty m (fold_left (access m) ls n)).
  { intros K. apply nonempty_item in K as (l & o & K). apply nonempty_item. exists l, o. apply H2. auto. }
  apply C16_same_contents_same_hash; auto. constructor.
  - intros l v _. exact (H2 l (inl v)).
  - intros l k _. exact (H2 l (inr k)).
  - intros l x _. rewrite !present_item. split; intros (l' & o & K); exists l', o; apply H2; auto.
Qed.
Print Assumptions C12_reads_keep_hash.

(** ** Cases meeting the hypotheses, and findings *)
Definition pad (s : str) : str := firstn 8 (s ++ repeat zero 8).
Lemma pad8 : digest8 pad.
Proof. intros s. unfold pad. rewrite firstn_length, app_length, repeat_length. lia. Qed.

Lemma hollow_storable : forall k, all_storable ex_meta (hollow k).
Proof.
  intros k l v Hv. change (item ex_meta (hollow k) l (inl v)) in Hv. unfold ex_meta, hollow in Hv.
  apply item_struct in Hv as (c & ch & l' & -> & Hin & E & Hi). simpl in Hin.
  destruct Hin as [<-|[<-|[<-|[]]]]; simpl in E; try discriminate; inversion E; subst; clear E.
  - apply item_struct in Hi as (c & ch & l2 & -> & Hin & E & Hi). simpl in Hin. destruct Hin as [<-|[]]. inversion E; subst; clear E.
    apply item_aos in Hi as [(_ & K & _)|(i & e & l3 & -> & Hn & Hi)]; [discriminate|].
    apply nth_error_In, repeat_spec in Hn. subst. apply item_struct in Hi as (c & ch & l4 & _ & _ & E & _). discriminate.
  - apply item_leaf in Hi as (-> & w & E & Ew & _). inversion E; subst. inversion Ew; subst. cbn [storable]. apply Forall_cons; [|apply Forall_cons; [|apply Forall_nil]]; unfold is_flt, nan_bits; lia.
Qed.

Example C16_example : digest8 pad /\ wf_meta ex_meta /\ conf ex_meta (hollow 1) /\ conf ex_meta no_grid /\
  all_storable ex_meta (hollow 1) /\ ~ is_leaf ex_meta /\ (exists h, calc_hash pad ex_meta (hollow 1) = Ok h) /\ enc pad ex_meta (hollow 1) <> enc pad ex_meta (hollow 2).
Proof.
  split; [exact pad8|]. split; [exact ex_meta_wf|]. split; [apply hollow_conf|]. split; [apply no_grid_conf|].
  split; [apply hollow_storable|]. split; [intros (? & ? & K); discriminate|]. split; [eexists; vm_compute; reflexivity|]. vm_compute. discriminate.
Qed.

(** The byte string does not determine the contents even if no two hashed strings have the same digest: there is no
    separator between names and digests.  Witness: children "a" and "b" against a child "a12345678b".  Finding. *)
Definition amb_meta : meta := Meta (strs "s") KStruct
  [Meta (strs "a") (KLeaf STR 0) []; Meta (strs "b") (KLeaf STR 0) []; Meta (strs "a12345678b") (KLeaf STR 0) []].
Definition amb1 : node := NStruct [(strs "a", NLeaf (Some (VStr (strs "12345678")))); (strs "b", NLeaf (Some (VStr (strs "x"))))].
Definition amb2 : node := NStruct [(strs "a12345678b", NLeaf (Some (VStr (strs "x"))))].
Lemma amb_wf : wf_meta amb_meta.
Proof. by_check. Qed.

Theorem C16_bytes_determine_contents_refuted : exists H m n1 n2, digest8 H /\ wf_meta m /\ conf m n1 /\ conf m n2 /\
  enc H m n1 = enc H m n2 /\ ~ same_hashed m n1 n2.
Proof.
  exists pad, amb_meta, amb1, amb2. split; [exact pad8|]. split; [exact amb_wf|].
  split; [by_check|]. split; [by_check|].
  split; [vm_compute; reflexivity|]. intros [A _ _].
  assert (M : ~ masked amb_meta [Child (strs "b")]).
  { intros K. change (strs "b") with (mname (Meta (strs "b") (KLeaf STR 0) [])) in K. unfold amb_meta in K.
    apply masked_child in K as [K|K]; [discriminate|exact (masked_nil _ K)|apply (wf_names _ _ _ amb_wf)|simpl; auto]. }
  specialize (A [Child (strs "b")] (VStr (strs "x")) M). destruct A as (A & _).
  assert (L : leaf_at amb_meta amb1 [Child (strs "b")] (VStr (strs "x"))).
  { exists (Meta (strs "b") (KLeaf STR 0) []). split; [exists STR, 0; auto|]. split; [|exact I].
    unfold amb_meta, amb1. eapply (na_child _ _ _ (Meta (strs "b") (KLeaf STR 0) [])); [simpl; auto|reflexivity|constructor]. }
  apply A in L. destruct L as (m' & _ & L & _). unfold amb_meta, amb2 in L.
  apply node_at_struct_inv in L as [(K & _)|(c & ch & l' & K & _ & E & _)]; [discriminate|].
  injection K as K1 K2. rewrite <- K1 in E. discriminate.
Qed.
Print Assumptions C16_bytes_determine_contents_refuted.

(** version_put is not ignored when nothing else is filled in ids_properties: the (then non-empty) structure ids_properties is
    part of the hash.  Finding. *)
Definition vp_meta : meta := Meta (strs "eq") KStruct
  [Meta (strs "ids_properties") KStruct [Meta (strs "version_put") KStruct [Meta (strs "data_dictionary") (KLeaf STR 0) []]]].
Definition vp_node : node := NStruct [(strs "ids_properties", NStruct [(strs "version_put",
  NStruct [(strs "data_dictionary", NLeaf (Some (VStr (strs "4.0.0"))))])])].
Theorem C16_version_put_ignored_refuted : exists H m n1 n2, wf_meta m /\ conf m n1 /\ conf m n2 /\
  (forall l o, ~ masked m l -> (item m n1 l o <-> item m n2 l o)) /\ calc_hash H m n1 <> calc_hash H m n2.
Proof.
  exists pad, vp_meta, vp_node, (NStruct []).
  split; [by_check|]. split; [by_check|]. split; [by_check|].
  split; [|vm_compute; discriminate].
  intros l o Hm. split.
  - intros Hi. exfalso. apply Hm. unfold vp_meta, vp_node in *.
    apply item_struct in Hi as (c & ch & l' & -> & Hin & E & Hi). simpl in Hin. destruct Hin as [<-|[]]. simpl in E. inversion E; subst; clear E.
    apply item_struct in Hi as (c & ch & l2 & -> & Hin & E & Hi). simpl in Hin. destruct Hin as [<-|[]].
    apply mk_child; [simpl; auto|]. apply mk_here.
  - intros Hi. apply item_struct in Hi as (c & ch & l' & _ & _ & E & _). discriminate.
Qed.
Print Assumptions C16_version_put_ignored_refuted.

(** Integers outside the 32-bit range have no hash: OverflowError.  Finding (INT_0D accepts any Python int). *)
Theorem C16_hash_total_refuted : exists m n, wf_meta m /\ conf m n /\ forall H, calc_hash H m n = Err HOverflow.
Proof.
  exists (Meta (strs "s") KStruct [Meta (strs "i") (KLeaf INT 0) []]), (NStruct [(strs "i", NLeaf (Some (VInt 2147483648)))]).
  split; [by_check|].
  split; [by_check|]. intros H. vm_compute. reflexivity.
Qed.
Print Assumptions C16_hash_total_refuted.

(** Equal structures may have different hashes: 0.0 and -0.0 compare equal. *)
Definition zero_meta : meta := Meta (strs "s") KStruct [Meta (strs "x") (KLeaf FLT 0) []].
Definition zero_node (f : flt) : node := NStruct [(strs "x", NLeaf (Some (VFlt f)))].
Theorem C16_equal_same_hash_refuted : exists H m n1 n2, wf_meta m /\ conf m n1 /\ conf m n2 /\
  ids_eq {| h_version := []; h_ids := []; h_path := []; h_meta := m; h_node := n1 |}
         {| h_version := []; h_ids := []; h_path := []; h_meta := m; h_node := n2 |} = true /\
  calc_hash H m n1 <> calc_hash H m n2.
Proof.
  exists (fun s => s), zero_meta, (zero_node 0%Z), (zero_node 9223372036854775808%Z).
  split; [by_check|].
  split; [by_check|]. split; [by_check|].
  split; [vm_compute; reflexivity|vm_compute; discriminate].
Qed.
Print Assumptions C16_equal_same_hash_refuted.
