(** C31, C42: writing an IDS to an Access Layer backend and reading it back, for an ideal store. *)
From Verif Require Import Base TreeModel TreeSpec TreeProofs TreeCheck ConvSpec ConvProofs3 ConvProofs4 VmapModel ValProofs
  StoreModel StoreSpec StoreProofs StoreProofs2 StoreProofs3 StoreProofs4 StoreProofs5.
From Verif Require PrimModel.

(** * What is read *)

(** C42: after a get (with or without a version map), the IDS contains exactly what is stored at the positions of its data nodes,
    inside arrays of structures that are stored with enough elements; scalars with the empty value are unset.  Nodes that the map
    removes or that have another type there have no position, like everything inside them; nothing else is skipped. *)
Theorem C42_get_exact : forall dynamic xml_tbp nbc mode s m n, named m -> wf_meta m -> mkind m = KStruct ->
  get_children dynamic xml_tbp nbc mode s m = Ok n ->
  (forall l v, leaf_at m n l v <->
     exists m' dt nd k, loc_ok m l m' /\ mkind m' = KLeaf dt nd /\ position_of dynamic xml_tbp nbc mode false l k /\ s_data s k = Some v /\
       filled_value v /\ (nd = 0 -> PrimModel.is_empty dt v = false) /\ covered dynamic xml_tbp nbc mode s l) /\
  (forall l j, aos_at m n l j <->
     exists m' k, loc_ok m l m' /\ mkind m' = KAoS /\ position_of dynamic xml_tbp nbc mode true l k /\ s_size s k = Some j /\ j > 0 /\
       covered dynamic xml_tbp nbc mode s l).
Proof.
  intros dynamic xml_tbp nbc mode s m n NM W K R. pose proof (get_children_ok dynamic xml_tbp nbc mode s m n NM W K R) as G.
  assert (CV : forall l, bounded dynamic xml_tbp nbc mode s [] [] [] l <-> covered dynamic xml_tbp nbc mode s l).
  { intros l. split.
    - intros B a i b E. destruct (B a i b E) as (c' & q & j & P & S & L). exists (c', q), j. auto.
    - intros B a i b E. destruct (B a i b E) as ([c' q] & j & P & S & L). exists c', q, j. auto. }
  split.
  - intros l v. pose proof (G l (ILeaf v)) as GL. cbn [holds] in GL. rewrite GL. unfold in_store. cbn [app stored item_aos]. split.
    + intros (m' & c' & q & L & P & (dt & nd & Km & D & F & E) & B). exists m', dt, nd, (c', q). rewrite <- CV. auto 8.
    + intros (m' & dt & nd & [c' q] & L & Km & P & D & F & E & B). exists m', c', q. rewrite CV. split; auto. split; auto. split; auto. exists dt, nd. auto.
  - intros l j. pose proof (G l (ISize j)) as GL. cbn [holds] in GL. rewrite GL. unfold in_store. cbn [app stored item_aos]. split.
    + intros (m' & c' & q & L & P & (Km & D & F) & B). exists m', (c', q). rewrite <- CV. auto 8.
    + intros (m' & [c' q] & L & Km & P & D & F & B). exists m', c', q. rewrite CV. auto 10.
Qed.
Print Assumptions C42_get_exact.

(** C42: a get succeeds if the stored values have the types of the data nodes at their positions, and every renamed path in the map
    has a context path and a time base. *)
Theorem C42_get_succeeds : forall dynamic xml_tbp nbc mode s m, named m -> mkind m = KStruct -> (forall ns, target_of nbc ns <> Bad) ->
  (forall l m' dt nd k v, loc_ok m l m' -> mkind m' = KLeaf dt nd -> position_of dynamic xml_tbp nbc mode false l k -> s_data s k = Some v -> typed dt nd v = true) ->
  exists n, get_children dynamic xml_tbp nbc mode s m = Ok n.
Proof.
  intros dynamic xml_tbp nbc mode s m NM K NB T. apply get_children_total; auto. intros l m' dt nd c' q v L KL P S. eapply T; eauto.
Qed.
Print Assumptions C42_get_succeeds.

(** * What is written *)

(** C31: a put of an IDS asks the backend for exactly these writes: the filled data nodes and the sizes of the non-empty arrays of
    structures, at their positions; put_slice leaves out the data nodes that are not dynamic. *)
Theorem C31_put_exact : forall dynamic xml_tbp maxoccur nbc mode is_slice verify m fs calls, named m -> mkind m = KStruct -> conf m (NStruct fs) ->
  put_children dynamic xml_tbp maxoccur nbc mode is_slice verify m (NStruct fs) = (calls, None) ->
  (forall k v, In (Write k v) calls <->
     exists l, leaf_at m (NStruct fs) l v /\ position_of dynamic xml_tbp nbc mode false l k /\ (is_slice = true -> dynamic (loc_names l) = true)) /\
  (forall k j, In (Begin k j) calls <-> exists l, aos_at m (NStruct fs) l j /\ position_of dynamic xml_tbp nbc mode true l k).
Proof.
  intros dynamic xml_tbp maxoccur nbc mode is_slice verify m fs calls NM K CF R.
  pose proof (put_children_ok dynamic xml_tbp maxoccur nbc mode is_slice verify m fs calls NM K CF R) as G. split; intros k v; rewrite G; unfold expected; cbn [app].
  - split.
    + intros (l & [w|w] & c' & q & E & H & P & A); inversion E; subst. exists l. auto.
    + intros (l & H & P & A). destruct k as [c' q]. exists l, (ILeaf v), c', q. auto.
  - split.
    + intros (l & [w|w] & c' & q & E & H & P & A); inversion E; subst. exists l. auto.
    + intros (l & H & P). destruct k as [c' q]. exists l, (ISize v), c', q. cbn. auto.
Qed.
Print Assumptions C31_put_exact.

(** C31: without a version map a put is refused only if an array of structures exceeds the maximum number of occurrences (MDSplus). *)
Theorem C31_put_succeeds : forall dynamic xml_tbp maxoccur mode is_slice verify m fs, named m -> mkind m = KStruct -> conf m (NStruct fs) ->
  (verify = true -> forall l k x, aos_at m (NStruct fs) l k -> maxoccur (loc_names l) = Some (S x) -> k <= S x) ->
  snd (put_children dynamic xml_tbp maxoccur None mode is_slice verify m (NStruct fs)) = None.
Proof. intros. apply put_children_total; auto. intros ns E. discriminate. Qed.
Print Assumptions C31_put_succeeds.

(** C31: put first removes everything stored at or inside a node of the entry's data dictionary, and nothing else. *)
Theorem C31_erases : forall dynamic m s, named m -> mkind m = KStruct -> let s' := delete_children dynamic m s in
  (forall k, erased m k -> s_data s' k = None /\ s_size s' k = None) /\
  (forall k, ~ erased m k -> s_data s' k = s_data s k /\ s_size s' k = s_size s k).
Proof.
  intros dynamic m s NM K s'. pose proof (delete_children_erases dynamic m s NM K) as E. split; intros k H; destruct (E k) as [(D & A)|(D & A)]; auto; contradiction.
Qed.
Print Assumptions C31_erases.

(** * There and back *)

(** a node that is not left out: in time-independent mode, neither the node nor one around it is dynamic *)
Definition kept (dynamic : list str -> bool) (mode : Z) (l : loc) : Prop :=
  forall a nm b, l = a ++ Child nm :: b -> ~ (mode = 2%Z /\ dynamic (loc_names a ++ [nm]) = true).

Lemma val_ok_typed : forall dt nd v, val_ok dt nd v -> typed dt nd v = true.
Proof. intros dt nd v H. destruct H; cbn; auto using Nat.eqb_refl. Qed.

Section RoundTrip.
Variable dynamic : list str -> bool.
Variable xml_tbp : list str -> str.
Variable maxoccur : list str -> option nat.
Variable nbc : option nmap.
Variable mode : Z.
Variable verify : bool.
Variable s0 : store.   (* after delete_children *)
Variable m : meta.
Variable fs : TreeModel.fields.
Notation position_of := (position_of dynamic xml_tbp nbc mode).
Hypothesis NM : named m.
Hypothesis W : wf_meta m.
Hypothesis K : mkind m = KStruct.
Hypothesis CF : conf m (NStruct fs).
Hypothesis ST : settled m (NStruct fs).
Hypothesis NB : forall ns, target_of nbc ns <> Bad.
(** positions are not shared *)
Hypothesis INJ : forall l l' m1 m1' aos k, loc_ok m l m1 -> loc_ok m l' m1' -> mkind m1 <> KStruct -> mkind m1' <> KStruct ->
  position_of aos l k -> position_of aos l' k -> l = l'.
(** nothing is stored there *)
Hypothesis CLEAN : forall l m1 aos k, loc_ok m l m1 -> mkind m1 <> KStruct -> position_of aos l k -> s_data s0 k = None /\ s_size s0 k = None.
Variable calls : list call.
Hypothesis PUT : put_children dynamic xml_tbp maxoccur nbc mode false verify m (NStruct fs) = (calls, None).
Let s' := apply_all s0 calls.

Lemma data_after : forall l m1 k v, loc_ok m l m1 -> mkind m1 <> KStruct -> position_of false l k -> (s_data s' k = Some v <-> leaf_at m (NStruct fs) l v).
Proof.
  intros l m1 k v L KL P. pose proof (proj1 (C31_put_exact _ _ _ _ _ _ _ _ _ _ NM K CF PUT)) as G. split.
  - intros D. apply apply_all_data in D. destruct D as [D|[_ D]]; [|rewrite (proj1 (CLEAN l m1 false k L KL P)) in D; discriminate].
    apply G in D. destruct D as (l' & H & P' & _). destruct (holds_loc m (NStruct fs) l' (ILeaf v) H) as (m2 & L2 & K2).
    assert (l = l') as -> by (eapply INJ; eauto). exact H.
  - intros H. assert (I : In (Write k v) calls) by (apply G; exists l; split; auto; split; auto; discriminate).
    destruct (apply_all_write calls s0 k v I) as (w & D & IW). apply G in IW. destruct IW as (l' & H' & P' & _).
    destruct (holds_loc m (NStruct fs) l' (ILeaf w) H') as (m2 & L2 & K2).
    assert (l = l') as <- by (eapply INJ; eauto). rewrite (holds_fun_leaf m (NStruct fs) l v w W H H'). exact D.
Qed.
Lemma size_after : forall l m1 k j, loc_ok m l m1 -> mkind m1 <> KStruct -> position_of true l k -> (s_size s' k = Some j <-> aos_at m (NStruct fs) l j).
Proof.
  intros l m1 k v L KL P. pose proof (proj2 (C31_put_exact _ _ _ _ _ _ _ _ _ _ NM K CF PUT)) as G. split.
  - intros D. apply apply_all_size in D. destruct D as [D|[_ D]]; [|rewrite (proj2 (CLEAN l m1 true k L KL P)) in D; discriminate].
    apply G in D. destruct D as (l' & H & P'). destruct (holds_loc m (NStruct fs) l' (ISize v) H) as (m2 & L2 & K2).
    assert (l = l') as -> by (eapply INJ; eauto). exact H.
  - intros H. assert (I : In (Begin k v) calls) by (apply G; exists l; auto).
    destruct (apply_all_begin calls s0 k v I) as (w & D & IW). apply G in IW. destruct IW as (l' & H' & P').
    destruct (holds_loc m (NStruct fs) l' (ISize w) H') as (m2 & L2 & K2).
    assert (l = l') as <- by (eapply INJ; eauto). rewrite (holds_fun_size m (NStruct fs) l v w W H H'). exact D.
Qed.
Lemma covered_after : forall l m1 n1 aos k, node_at m (NStruct fs) l m1 n1 -> position_of aos l k -> covered dynamic xml_tbp nbc mode s' l.
Proof.
  intros l m1 n1 aos k N P a i b ->. destruct (position_prefix _ _ _ _ _ _ _ _ _ _ _ P) as [k' P']. apply node_at_split in N. destruct N as (m2 & n2 & N2 & N3).
  inversion N3; subst. assert (A : aos_at m (NStruct fs) a (length els)).
  { exists (Meta nm KAoS cs), els. split; auto. split; auto. split; auto.
    assert (i < length els) by (apply nth_error_Some; congruence). lia. }
  exists k', (length els). split; auto. split; [|apply nth_error_Some; congruence].
  apply (size_after a (Meta nm KAoS cs)); auto; [eapply node_at_loc_ok; eauto|discriminate].
Qed.

Lemma round_trip : exists n', get_children dynamic xml_tbp nbc mode s' m = Ok n' /\
  (forall l v, leaf_at m n' l v <-> leaf_at m (NStruct fs) l v /\ exists k, position_of false l k) /\
  (forall l j, aos_at m n' l j <-> aos_at m (NStruct fs) l j /\ exists k, position_of true l k).
Proof.
  destruct (C42_get_succeeds dynamic xml_tbp nbc mode s' m NM K NB) as [n' G].
  { intros l m' dt nd k v L KL P D. apply (data_after l m' k v L) in D; auto; [|congruence]. destruct D as (m2 & (dt2 & nd2 & K2) & N & F).
    assert (m2 = m') as -> by (eapply loc_ok_fun; [exact W|eapply node_at_loc_ok; eauto|exact L]). apply node_at_conf in N; auto. inversion N; subst. cbn in *.
    apply val_ok_typed. congruence. }
  exists n'. split; auto. destruct (C42_get_exact _ _ _ _ _ _ _ NM W K G) as [GL GA]. split.
  - intros l v. rewrite GL. split.
    + intros (m' & dt & nd & k & L & KL & P & D & _). split; eauto. apply (data_after l m' k v L) in D; auto. congruence.
    + intros [H [k P]]. pose proof H as (m' & (dt & nd & KL) & N & F). exists m', dt, nd, k. pose proof (node_at_loc_ok _ _ _ _ _ N) as L.
      split; auto. split; auto. split; auto. split; [apply (data_after l m' k v L); auto; congruence|]. split; auto. split; [|eapply covered_after; eauto].
      intros ->. eapply ST; eauto.
  - intros l j. rewrite GA. split.
    + intros (m' & k & L & KL & P & D & _). split; eauto. apply (size_after l m' k j L) in D; auto. congruence.
    + intros [H [k P]]. pose proof H as (m' & els & N & KL & E & F). exists m', k. pose proof (node_at_loc_ok _ _ _ _ _ N) as L.
      split; auto. split; auto. split; auto. split; [apply (size_after l m' k j L); auto; congruence|]. split; auto. eapply covered_after; eauto.
Qed.
End RoundTrip.

Definition homogeneous_time : loc := [Child (strs "ids_properties"); Child (strs "homogeneous_time")].

(** C31: whatever was stored before, after a put of an IDS a get returns an IDS with exactly the same filled data nodes and the same sizes
    of arrays of structures; in time-independent mode the dynamic nodes, with everything in them, are left out. *)
Theorem C31_round_trip : forall dynamic xml_tbp maxoccur verify mode m fs s s',
  named m -> wf_meta m -> mkind m = KStruct -> conf m (NStruct fs) -> settled m (NStruct fs) ->
  leaf_at m (NStruct fs) homogeneous_time (VInt mode) -> is_mode mode = true ->
  dynamic [strs "ids_properties"] = false -> dynamic [strs "ids_properties"; strs "homogeneous_time"] = false ->
  al_put dynamic xml_tbp maxoccur None mode verify dynamic m s m (NStruct fs) = (s', None) ->
  exists n', al_get dynamic xml_tbp None s' m = Ok n' /\
    (forall l v, leaf_at m n' l v <-> leaf_at m (NStruct fs) l v /\ kept dynamic mode l) /\
    (forall l k, aos_at m n' l k <-> aos_at m (NStruct fs) l k /\ kept dynamic mode l).
Proof.
  intros dynamic xml_tbp maxoccur verify mode m fs s s' NM W K CF ST HT IM D1 D2 P.
  unfold al_put, al_put_calls in P. cbn [rbind] in P. cbv zeta in P. destruct (put_children _ _ _ _ _ _ _ _ _) as [calls e] eqn:R. inversion P; subst e. clear P.
  set (s0 := delete_children dynamic m s) in *.
  assert (INJ : forall l l' m1 m1' aos k, loc_ok m l m1 -> loc_ok m l' m1' -> mkind m1 <> KStruct -> mkind m1' <> KStruct ->
    position_of dynamic xml_tbp None mode aos l k -> position_of dynamic xml_tbp None mode aos l' k -> l = l').
  { intros l l' m1 m1' aos k L L' K1 K2 P1 P2. eapply (position_inj dynamic xml_tbp mode (length l) l l' m m); eauto. }
  assert (CL : forall l m1 aos k, loc_ok m l m1 -> mkind m1 <> KStruct -> position_of dynamic xml_tbp None mode aos l k -> s_data s0 k = None /\ s_size s0 k = None).
  { intros l m1 aos k L K1 P1. apply (proj1 (C31_erases dynamic m s NM K)). eapply position_erased; eauto. }
  assert (NB : forall ns, target_of None ns <> Bad) by (intros ns E; discriminate).
  assert (MD : s_data (apply_all s0 calls) mode_key = Some (VInt mode)).
  { pose proof HT as (mh & (dt & nd & KH) & N & F).
    apply (data_after dynamic xml_tbp maxoccur None mode verify s0 m fs NM W K CF INJ CL calls R homogeneous_time mh); auto; [eapply node_at_loc_ok; eauto|congruence|].
    unfold position_of, homogeneous_time. apply po_child; [intros [[_ X]|X]; [cbn [app] in X; congruence|discriminate]|].
    apply po_child; [intros [[_ X]|X]; [cbn [app] in X; congruence|discriminate]|].
    unfold mode_key.
    assert (E : (strs "ids_properties/homogeneous_time", []) = homogenised mode (path_of [strs "ids_properties"; strs "homogeneous_time"],
       own_base dynamic xml_tbp false [strs "ids_properties"; strs "homogeneous_time"] [strs "ids_properties"; strs "homogeneous_time"])).
    { unfold own_base. rewrite D2. reflexivity. }
    rewrite E. apply po_here. now apply pl_same. }
  destruct (round_trip dynamic xml_tbp maxoccur None mode verify s0 m fs NM W K CF ST NB INJ CL calls R) as (n' & G & GL & GA).
  assert (KP : forall aos l, (exists k, position_of dynamic xml_tbp None mode aos l k) <-> kept dynamic mode l).
  { intros aos l. unfold position_of. rewrite position_exists. reflexivity. }
  exists n'. split.
  - unfold al_get, read_mode, read. rewrite MD. cbn [typed Nat.eqb rbind]. rewrite IM. exact G.
  - split; intros l x; [rewrite GL|rewrite GA]; rewrite KP; reflexivity.
Qed.
Print Assumptions C31_round_trip.
