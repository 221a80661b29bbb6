(** C51: reading into an IDS that exists, and IDSs as byte buffers. *)
From Verif Require Import Base TreeModel TreeSpec TreeProofs TreeCheck ConvSpec ConvProofs3 VmapModel ValProofs ValProofs5 StoreModel StoreSpec StoreProofs StoreProofs2 StoreProofs3 StoreProofs4 StoreProps StoreProps2 SerModel SerSpec SerProofs.
From Verif Require PrimModel.

(** ** Reading with a destination *)
(** What is read replaces what was there: data nodes, and arrays of structures with everything in them.  Everything else stays. *)
Theorem C51_get_into : forall dynamic xml_tbp nbc s m n g, wf_meta m -> mkind m = KStruct -> conf m n -> al_get dynamic xml_tbp nbc s m = Ok g ->
  exists r, al_get_into dynamic xml_tbp nbc s m n = Ok r /\
    (forall l v, leaf_at m r l v <-> leaf_at m g l v \/ (leaf_at m n l v /\ ~ taken m g l)) /\
    (forall l k, aos_at m r l k <-> aos_at m g l k \/ (aos_at m n l k /\ ~ taken m g l)).
Proof.
  intros dynamic xml_tbp nbc s m n g WF K CF G. unfold al_get, al_get_into in *. destruct (read_mode s) as [mode|]; [|discriminate]. cbn [rbind] in *. destruct (is_mode mode); [|discriminate].
  destruct (into_children_ok dynamic xml_tbp nbc mode s m n WF K CF g G) as (r & R & H). exists r. split; [exact R|]. split.
  - intros l v. exact (H l (ILeaf v)).
  - intros l k. exact (H l (ISize k)).
Qed.
Print Assumptions C51_get_into.
(** Nothing is read, and the destination stays, when the stored occurrence has no time mode: the call raises. *)
Theorem C51_no_ids : forall dynamic xml_tbp nbc s m n,
  (forall v, read s mode_key INT 0 = Ok v -> v <> Some (VInt 0) /\ v <> Some (VInt 1) /\ v <> Some (VInt 2)) ->
  exists e, al_get_into dynamic xml_tbp nbc s m n = Err e /\ (forall v, read s mode_key INT 0 = Ok v -> e = TimeMode).
Proof.
  intros dynamic xml_tbp nbc s m n H. unfold al_get_into, read_mode.
  destruct (read s mode_key INT 0) as [v|e]; cbn [rbind]; [|now exists e].
  destruct (H v eq_refl) as (H0 & H1 & H2). exists TimeMode. split; [|reflexivity].
  assert (M : is_mode (match v with Some (VInt z) => z | _ => EMPTY_INT end) = false).
  { destruct v as [v|]; [|reflexivity]. destruct v; try reflexivity. unfold is_mode.
    match goal with |- context [(?z =? 0)%Z] => destruct (Z.eqb_spec z 0), (Z.eqb_spec z 1), (Z.eqb_spec z 2) end; subst; try reflexivity; congruence. }
  now rewrite M.
Qed.
Example C51_no_ids_ex : forall m n, al_get_into (fun _ => false) (fun _ => []) None empty_store m n = Err TimeMode.
Proof. reflexivity. Qed.
Print Assumptions C51_no_ids.

(** ** Stores with the same contents *)
Definition same_store (a b : store) : Prop := (forall k, s_data a k = s_data b k) /\ (forall k, s_size a k = s_size b k).
Lemma gather_ext : forall cs f g, (forall d, In d cs -> f d = g d) -> gather cs f = gather cs g.
Proof.
  induction cs as [|d cs IH]; intros f g H; [reflexivity|]. unfold gather. fold (gather cs f) (gather cs g). rewrite (H d (or_introl eq_refl)), (IH f g); [reflexivity|]. intros e I. apply H. right. assumption.
Qed.
Lemma rmap_ext : forall A B (f g : A -> result exn B) l, (forall x, f x = g x) -> rmap f l = rmap g l.
Proof.
  intros A B f g l H. induction l as [|x l IH]; [reflexivity|]. change (rmap f (x :: l)) with (do y <- f x; do r <- rmap f l; Ok (y :: r)). change (rmap g (x :: l)) with (do y <- g x; do r <- rmap g l; Ok (y :: r)). rewrite H, IH. reflexivity.
Qed.
Lemma get_node_ext : forall dynamic xml_tbp nbc mode a b, same_store a b -> forall m p c, get_node dynamic xml_tbp nbc mode a m p c = get_node dynamic xml_tbp nbc mode b m p c.
Proof.
  intros dynamic xml_tbp nbc mode a b (D & S). induction m as [nm k cs IH] using meta_ind'. intros p c. rewrite !get_node_unfold. cbv zeta.
  destruct (omitted dynamic mode p (Meta nm k cs)); [reflexivity|]. destruct (locate dynamic xml_tbp nbc mode p (Meta nm k cs)) as [[pl|]|]; cbn [rbind]; [|reflexivity|reflexivity].
  destruct k as [| |dt nd].
  - rewrite (gather_ext cs _ (fun d => get_node dynamic xml_tbp nbc mode b d (below dynamic p (Meta nm KStruct cs)) c)); [reflexivity|]. intros d I. apply IH. assumption.
  - rewrite S. destruct (s_size b (c, pl)) as [[|n]|]; try reflexivity.
    erewrite rmap_ext; [reflexivity|]. intros i. cbn beta. rewrite (gather_ext cs _ (fun d => get_node dynamic xml_tbp nbc mode b d (below dynamic p (Meta nm KAoS cs)) (c ++ [(pl, i)]))); [reflexivity|]. intros d I. apply IH. assumption.
  - unfold read. rewrite D. reflexivity.
Qed.
Lemma al_get_ext : forall dynamic xml_tbp nbc a b m, same_store a b -> al_get dynamic xml_tbp nbc a m = al_get dynamic xml_tbp nbc b m.
Proof.
  intros dynamic xml_tbp nbc a b m E. unfold al_get, read_mode, read. rewrite (proj1 E). destruct (match s_data b mode_key with Some v => _ | None => _ end) as [mode|]; [|reflexivity]. cbn [rbind].
  destruct (is_mode _); [|reflexivity]. unfold get_children. erewrite gather_ext; [reflexivity|]. intros d I. apply get_node_ext. exact E.
Qed.
(** what is read was stored *)
Lemma get_from : forall dynamic xml_tbp nbc mode s m, wf_meta m -> forall p c g, get_node dynamic xml_tbp nbc mode s m p c = Ok (Some g) ->
  forall l m' v, node_at m g l m' (NLeaf (Some v)) -> exists k, s_data s k = Some v.
Proof.
  intros dynamic xml_tbp nbc mode s. induction m as [nm k cs IH] using meta_ind'. intros WF p c g G l m' v N. rewrite get_node_unfold in G. cbv zeta in G. inversion WF as [? ? ? ND W2 W3]; subst.
  destruct (omitted dynamic mode p (Meta nm k cs)); [discriminate|]. destruct (locate dynamic xml_tbp nbc mode p (Meta nm k cs)) as [[pl|]|]; cbn [rbind] in G; try discriminate.
  assert (KIDS : forall c' q fs l, gather cs (fun d => get_node dynamic xml_tbp nbc mode s d q c') = Ok fs -> node_at (Meta nm KStruct cs) (NStruct fs) l m' (NLeaf (Some v)) -> exists k, s_data s k = Some v).
  { intros c' q fs l' GF NF. apply gather_ok in GF; [|assumption]. destruct GF as (GF & _). inversion NF as [|? ? ? d ch l2 ? ? I L N2|]; subst. destruct (GF d I) as (o & E & L2). rewrite L in L2. subst o. eapply IH; eauto. }
  destruct k as [| |dt nd].
  - destruct (gather cs _) as [fs|] eqn:GF; [|discriminate]. injection G as <-. eapply KIDS; eauto.
  - destruct (s_size s (c, pl)) as [[|n]|]; try discriminate. destruct (rmap _ _) as [els|] eqn:RM; [|discriminate]. injection G as <-. inversion N as [| |? ? ? i e l2 ? ? NE N2]; subst.
    apply rmap_ok in RM. destruct RM as (LE & RM). assert (IB : i < length (seq 0 (S n))) by (rewrite <- LE; apply nth_error_Some; congruence).
    destruct (nth_error (seq 0 (S n)) i) as [j|] eqn:NJ; [|apply nth_error_Some in IB; contradiction]. destruct (RM i j NJ) as (y & FY & NY). rewrite NE in NY. injection NY as <-.
    destruct (gather cs _) as [fs|] eqn:GF; [|discriminate]. injection FY as <-. eapply KIDS; eauto.
  - destruct (read s (c, pl) dt nd) as [[w|]|] eqn:RD; try discriminate. injection G as G. destruct ((nd =? 0) && PrimModel.is_empty dt w) eqn:EM; [discriminate|]. injection G as <-. inversion N; subst.
    unfold read in RD. destruct (s_data s (c, pl)) as [u|] eqn:SD; [destruct (typed dt nd u); [|discriminate]; injection RD as <-; eauto|].
    destruct nd; [|discriminate]. injection RD as <-. rewrite default_empty in EM. discriminate.
Qed.

(** ** Buffers *)
(** the time mode of an IDS *)
Lemma conf_child : forall m fs x n, conf m (NStruct fs) -> alookup x fs = Some n -> exists d, In d (mchildren m) /\ mname d = x /\ conf d n /\ mkind m = KStruct.
Proof.
  intros m fs x n CF L. inversion CF as [| |? ? ? H1 H2 H3|]; subst. cbn [mchildren mkind]. assert (I : In x (akeys fs)) by (apply alookup_In in L; unfold akeys; apply in_map_iff; exists (x, n); auto).
  apply H2, in_map_iff in I. destruct I as (d & <- & I). exists d. split; [assumption|]. split; [reflexivity|]. split; [|reflexivity]. eapply H1; eauto.
Qed.
Lemma mode_leaf : forall m n, conf m n -> is_mode (time_mode n) = true -> leaf_at m n homogeneous_time (VInt (time_mode n)).
Proof.
  intros m n CF IM. unfold time_mode in *. destruct n as [fs|els|v]; try discriminate. destruct (alookup (strs "ids_properties") fs) as [[ps|els|v]|] eqn:E1; try discriminate.
  destruct (alookup (strs "homogeneous_time") ps) as [[qs|els|[v|]]|] eqn:E2; try discriminate. destruct v; try discriminate.
  destruct (conf_child _ _ _ _ CF E1) as (d & I & ND & CD & K). destruct (conf_child _ _ _ _ CD E2) as (e & J & NE & CE & K').
  exists e. split; [inversion CE; subst; do 2 eexists; reflexivity|]. split; [|exact Logic.I].
  destruct m as [nm k cs]. cbn in K. subst k. destruct d as [nd kd cd]. cbn in K'. subst kd. unfold homogeneous_time. rewrite <- ND, <- NE. cbn [mname mchildren] in *. rewrite <- ND in E1. rewrite <- NE in E2.
  apply (na_child nm cs fs (Meta nd KStruct cd) (NStruct ps)); auto. apply (na_child nd cd ps e (NLeaf (Some (VInt z)))); auto. constructor.
Qed.
Lemma remove_aset : forall name b f, ~ In name (akeys f) -> remove name (aset name b f) = f.
Proof.
  intros name b f. induction f as [|[k v] f IH]; intros N; cbn [aset remove filter fst].
  - rewrite str_eqb_refl. reflexivity.
  - assert (NK : k <> name) by (intros ->; apply N; left; reflexivity). assert (E : str_eqb name k = false) by (apply str_eqb_neq; congruence). assert (E' : str_eqb k name = false) by (apply str_eqb_neq; congruence).
    rewrite E. cbn [filter fst]. rewrite E'. cbn [negb]. f_equal. apply IH. intros I. apply N. right. exact I.
Qed.

Section Buffers.
Variable dynamic : list str -> bool.
Variable xml_tbp : list str -> str.
Variable maxoccur : list str -> option nat.
Variable verify : bool.
Variable m : meta.
Variable valid : node -> bool.
Variable stamp : node -> node.
Variable ascii_write : store -> bytes.
Variable ascii_read : bytes -> store.
Variable flex_write : store -> bytes.
Variable flex_read : bytes -> store.
Variable flex : bool.
Variable default : Z.
Variable partial : exn -> option bytes.
Notation put_new := (put_new dynamic xml_tbp maxoccur verify m valid stamp).
Notation serialize := (serialize dynamic xml_tbp maxoccur verify m valid stamp ascii_write flex_write flex default partial).
Notation deserialize := (deserialize dynamic xml_tbp m ascii_read flex_read flex).

(** The formats give back what was stored. *)
Definition format_ok (s : store) : Prop :=
  (same_store (ascii_read (ascii_write s)) s /\ ascii_write s <> []) /\
  (same_store (flex_read (flex_write s)) s /\ exists b r, flex_write s = FLEX :: b :: r).
(** [l] is where the IDS [n] has data, or at or inside an array of structures of it (nothing that its time mode leaves out) *)
Definition written_at (n : node) (l : loc) : Prop := exists a b, l = a ++ b /\ kept dynamic (time_mode n) a /\ ((b = [] /\ exists v, leaf_at m n l v) \/ exists k, aos_at m n a k).

Lemma put_read : forall n s, named m -> wf_meta m -> mkind m = KStruct -> conf m (stamp n) -> settled m (stamp n) -> is_mode (time_mode (stamp n)) = true ->
  dynamic [strs "ids_properties"] = false -> dynamic [strs "ids_properties"; strs "homogeneous_time"] = false -> put_new n = Ok s ->
  exists g, al_get dynamic xml_tbp None s m = Ok g /\ (forall l v, leaf_at m g l v <-> leaf_at m (stamp n) l v /\ kept dynamic (time_mode (stamp n)) l) /\
    (forall l k, aos_at m g l k <-> aos_at m (stamp n) l k /\ kept dynamic (time_mode (stamp n)) l) /\
    (forall l, taken m g l <-> written_at (stamp n) l).
Proof.
  intros n s NM WF K CF ST IM D1 D2 P. unfold SerModel.put_new in P. destruct (valid n); [|discriminate]. destruct (is_mode (time_mode n)); [|discriminate]. cbn [negb] in P.
  destruct (al_put _ _ _ _ _ _ _ _ _ _ _) as [s' [e|]] eqn:EP; [discriminate|]. injection P as <-.
  assert (HT := mode_leaf m (stamp n) CF IM). set (mode := time_mode (stamp n)) in *. destruct (stamp n) as [fs|els|v] eqn:ES; [|inversion CF; subst; discriminate|inversion CF; subst; discriminate].
  destruct (C31_round_trip dynamic xml_tbp maxoccur verify mode m fs empty_store s' NM WF K CF ST HT IM D1 D2 EP) as (g & G & GL & GA). exists g. split; [exact G|]. split; [exact GL|]. split; [exact GA|].
  assert (FV : forall k v, s_data s' k = Some v -> filled_value v).
  { intros k v D. unfold al_put, al_put_calls in EP. cbn [rbind] in EP. cbv zeta in EP. destruct (put_children _ _ _ _ _ _ _ _ _) as [calls e] eqn:R. injection EP as EP ->. subst s'. apply apply_all_data in D.
    destruct D as [D|(_ & D)].
    - apply (proj1 (C31_put_exact _ _ _ _ _ _ _ _ _ _ NM K CF R)) in D. destruct D as (l & (m' & _ & _ & F) & _). exact F.
    - exfalso. destruct (C31_erases dynamic m empty_store NM K) as (E1 & E2). cbv zeta in E1, E2.
      destruct (delete_children_erases dynamic m empty_store NM K k) as [(X & _)|(X & _)].
      + destruct (E1 k X) as (Y & _). congruence.
      + destruct (E2 k X) as (Y & _). rewrite Y in D. discriminate. }
  assert (LV : forall l m' v, node_at m g l m' (NLeaf (Some v)) -> filled_value v).
  { intros l m' v N. unfold al_get in G. destruct (read_mode s') as [md|]; [|discriminate]. cbn [rbind] in G. destruct (is_mode md); [|discriminate]. unfold get_children in G. destruct m as [nm k cs]. cbn in K. subst k. cbn [mchildren] in G.
    inversion WF as [? ? ? ND W2 W3]; subst. destruct (gather cs _) as [gs|] eqn:EG; [|discriminate]. injection G as <-. apply gather_ok in EG; [|assumption]. destruct EG as (EG & _).
    inversion N as [|? ? ? d ch l2 ? ? I L N2|]; subst. destruct (EG d I) as (o & E & L2). rewrite L in L2. subst o. destruct (get_from _ _ _ _ _ _ (W2 d I) _ _ _ E _ _ _ N2) as (key & SD). eapply FV; eauto. }
  intros l. split.
  - intros (a & b & -> & H). exists a, b. split; [reflexivity|]. destruct H as [(m' & v & -> & L & N)|(k & A)].
    + assert (X : leaf_at m g a v) by (exists m'; split; [assumption|split; [assumption|eapply LV; eauto]]). apply GL in X. destruct X as (X & KP). split; [exact KP|]. left. split; [reflexivity|]. exists v. rewrite app_nil_r. exact X.
    + apply GA in A. destruct A as (A & KP). split; [exact KP|]. right. eauto.
  - intros (a & b & -> & KP & H). exists a, b. split; [reflexivity|]. destruct H as [(-> & v & X)|(k & A)].
    + left. rewrite app_nil_r in X. destruct (proj2 (GL a v) (conj X KP)) as (m' & L & N & F). eauto.
    + right. exists k. apply GA. auto.
Qed.

(** what [serialize] returns, and what happens to the files and the open entries *)
Lemma serialize_ok : forall w tmp protocol n w' data, serialize w tmp protocol n = (w', Ok data) ->
  exists s, put_new n = Ok s /\ ((data = ASCII :: ascii_write s /\ w' = with_files w (remove tmp (aset tmp (ascii_write s) (w_files w)))) \/ (flex = true /\ data = flex_write s /\ w' = w)).
Proof.
  intros w tmp protocol n w' data H. unfold SerModel.serialize in H. destruct (time_mode n =? EMPTY_INT)%Z; [discriminate|]. destruct (_ =? ASCII)%Z.
  - destruct (put_new n) as [s|e]; [|discriminate]. injection H as <- <-. exists s. split; [reflexivity|]. left. auto.
  - destruct flex; [|discriminate]. destruct (_ && _)%bool; [|discriminate]. destruct (put_new n) as [s|e]; [|discriminate]. injection H as <- <-. exists s. split; [reflexivity|]. right. auto.
Qed.
Lemma same_world : forall w f, f = w_files w -> with_files w f = w.
Proof. intros [f o] f' ->. reflexivity. Qed.

(** A buffer, read into any IDS: the data that were written are there, and what was there before stays where the buffer has nothing. *)
Theorem C51_round_trip : forall w tmp protocol n w' data s, named m -> wf_meta m -> mkind m = KStruct -> conf m (stamp n) -> settled m (stamp n) -> is_mode (time_mode (stamp n)) = true ->
  dynamic [strs "ids_properties"] = false -> dynamic [strs "ids_properties"; strs "homogeneous_time"] = false ->
  serialize w tmp protocol n = (w', Ok data) -> put_new n = Ok s -> format_ok s ->
  forall v tmp' d, conf m d -> exists v' r, deserialize v tmp' data d = (v', Ok r) /\
    (forall l x, leaf_at m r l x <-> (leaf_at m (stamp n) l x /\ kept dynamic (time_mode (stamp n)) l) \/ (leaf_at m d l x /\ ~ written_at (stamp n) l)) /\
    (forall l k, aos_at m r l k <-> (aos_at m (stamp n) l k /\ kept dynamic (time_mode (stamp n)) l) \/ (aos_at m d l k /\ ~ written_at (stamp n) l)).
Proof.
  intros w tmp protocol n w' data s NM WF K CF ST IM D1 D2 S P ((FA & NA) & (FF & b & rest & FB)) v tmp' d CD.
  destruct (put_read n s NM WF K CF ST IM D1 D2 P) as (g & G & GL & GA & GT).
  assert (INTO : forall s', same_store s' s -> exists r, get_into dynamic xml_tbp m s' d = Ok r /\
    (forall l x, leaf_at m r l x <-> (leaf_at m (stamp n) l x /\ kept dynamic (time_mode (stamp n)) l) \/ (leaf_at m d l x /\ ~ written_at (stamp n) l)) /\
    (forall l k, aos_at m r l k <-> (aos_at m (stamp n) l k /\ kept dynamic (time_mode (stamp n)) l) \/ (aos_at m d l k /\ ~ written_at (stamp n) l))).
  { intros s' E. rewrite <- (al_get_ext _ _ _ _ _ _ E) in G. destruct (C51_get_into _ _ _ _ _ _ _ WF K CD G) as (r & R & RL & RA). exists r. unfold get_into. rewrite R. split; [reflexivity|]. split; intros l x.
    - rewrite RL, GL, GT. tauto.
    - rewrite RA, GA, GT. tauto. }
  destruct (serialize_ok _ _ _ _ _ _ S) as (s1 & P1 & H). rewrite P in P1. injection P1 as <-. destruct H as [(-> & _)|(FX & -> & _)].
  - destruct (INTO _ FA) as (r & R & H). unfold SerModel.deserialize. destruct (ascii_write s) as [|y ys] eqn:EW; [contradiction|]. rewrite Z.eqb_refl, R. do 2 eexists. split; [reflexivity|exact H].
  - destruct (INTO _ FF) as (r & R & H). unfold SerModel.deserialize. rewrite FB in *. rewrite FX, R. do 2 eexists. split; [reflexivity|exact H].
Qed.

(** Into a new IDS, and into any IDS that has nothing that the buffer does not have, the IDS that was serialized comes back. *)
Theorem C51_new : forall w tmp protocol n w' data s, named m -> wf_meta m -> mkind m = KStruct -> conf m (stamp n) -> settled m (stamp n) -> is_mode (time_mode (stamp n)) = true ->
  dynamic [strs "ids_properties"] = false -> dynamic [strs "ids_properties"; strs "homogeneous_time"] = false ->
  serialize w tmp protocol n = (w', Ok data) -> put_new n = Ok s -> format_ok s ->
  forall v tmp' d, conf m d -> (forall l x, leaf_at m d l x -> written_at (stamp n) l) -> (forall l k, aos_at m d l k -> written_at (stamp n) l) ->
  exists v' r, deserialize v tmp' data d = (v', Ok r) /\
    (forall l x, leaf_at m r l x <-> leaf_at m (stamp n) l x /\ kept dynamic (time_mode (stamp n)) l) /\
    (forall l k, aos_at m r l k <-> aos_at m (stamp n) l k /\ kept dynamic (time_mode (stamp n)) l).
Proof.
  intros w tmp protocol n w' data s NM WF K CF ST IM D1 D2 S P FO v tmp' d CD HL HA. destruct (C51_round_trip w tmp protocol n w' data s NM WF K CF ST IM D1 D2 S P FO v tmp' d CD) as (v' & r & R & RL & RA). exists v', r. split; [exact R|]. split; intros l x.
  - rewrite RL. split; [intros [H|(H & N)]; [exact H|destruct (N (HL _ _ H))]|auto].
  - rewrite RA. split; [intros [H|(H & N)]; [exact H|destruct (N (HA _ _ H))]|auto].
Qed.

(** The first byte tells the format. *)
Theorem C51_first_byte : forall w tmp protocol n w' data s, serialize w tmp protocol n = (w', Ok data) -> put_new n = Ok s -> format_ok s ->
  let p := match protocol with Some p => p | None => default end in (p = ASCII \/ p = FLEX) /\ exists b rest, data = p :: b :: rest.
Proof.
  intros w tmp protocol n w' data s S P ((_ & NA) & (_ & b & rest & FB)) p. unfold SerModel.serialize in S. fold p in S. destruct (time_mode n =? EMPTY_INT)%Z; [discriminate|]. rewrite P in S. destruct (p =? ASCII)%Z eqn:EA.
  - apply Z.eqb_eq in EA. rewrite EA. injection S as _ <-. split; [auto|]. destruct (ascii_write s) as [|y ys]; [contradiction|eauto].
  - destruct (flex && (p =? FLEX)%Z) eqn:EF; [|discriminate]. apply andb_prop in EF. destruct EF as (_ & EF). apply Z.eqb_eq in EF. rewrite EF. injection S as _ <-. split; [auto|]. eauto.
Qed.

(** No temporary file and no open entry remain, as long as nothing fails; deserialize and the flexbuffers format leave no file in any case. *)
Theorem C51_clean : forall w tmp, ~ In tmp (akeys (w_files w)) ->
  (forall protocol n w' data, serialize w tmp protocol n = (w', Ok data) -> w' = w) /\
  (forall data d w' r, deserialize w tmp data d = (w', Ok r) -> w' = w) /\
  (forall data d w' r, deserialize w tmp data d = (w', r) -> w_files w' = w_files w) /\
  (forall n w' r, serialize w tmp (Some FLEX) n = (w', r) -> w' = w).
Proof.
  intros w tmp N. assert (RM : forall b, with_files w (remove tmp (aset tmp b (w_files w))) = w) by (intros b; apply same_world, remove_aset; assumption). split; [|split; [|split]].
  - intros protocol n w' data H. destruct (serialize_ok _ _ _ _ _ _ H) as (s & _ & [(_ & ->)|(_ & _ & ->)]); auto.
  - intros data d w' r H. unfold SerModel.deserialize in H. destruct data as [|p [|q rest]]; try discriminate. destruct (p =? ASCII)%Z; [destruct (get_into _ _ _ _ _); [|discriminate]; injection H as <- _; apply RM|].
    destruct (flex && (p =? FLEX)%Z); [injection H as <- _; reflexivity|]. destruct (p =? FLEX)%Z; discriminate.
  - intros data d w' r H. unfold SerModel.deserialize in H. destruct data as [|p [|q rest]]; try (injection H as <- _; reflexivity). destruct (p =? ASCII)%Z.
    + destruct (get_into _ _ _ _ _); injection H as <- _; cbn [w_files with_files]; apply remove_aset; assumption.
    + destruct (flex && (p =? FLEX)%Z); [injection H as <- _; reflexivity|]. destruct (p =? FLEX)%Z; injection H as <- _; reflexivity.
  - intros n w' r H. unfold SerModel.serialize in H. destruct (time_mode n =? EMPTY_INT)%Z; [injection H as <- _; reflexivity|]. change (FLEX =? ASCII)%Z with false in H. cbv iota in H.
    destruct (flex && _)%bool; [destruct (put_new n)|]; injection H as <- _; reflexivity.
Qed.

(** Which errors are possible. *)
Theorem C51_errors : forall w tmp data d, match data with
  | [] | [_] => deserialize w tmp data d = (w, Err SNoData)
  | p :: _ => p <> ASCII -> p <> FLEX \/ flex = false -> snd (deserialize w tmp data d) = Err (if (p =? FLEX)%Z then SNotImplemented else SProtocol) /\ fst (deserialize w tmp data d) = w
  end.
Proof.
  intros w tmp [|p [|q rest]] d; try reflexivity. intros NA H. unfold SerModel.deserialize. apply Z.eqb_neq in NA. rewrite NA. destruct H as [H| ->].
  - apply Z.eqb_neq in H. rewrite H, andb_false_r. auto.
  - cbn [andb]. destruct (p =? FLEX)%Z; auto.
Qed.

(** An IDS that is valid and has a time mode can be serialized: only MDSplus has a limit on the number of elements. *)
Theorem C51_succeeds : forall w tmp protocol n, named m -> mkind m = KStruct -> conf m (stamp n) -> valid n = true -> is_mode (time_mode n) = true ->
  (verify = true -> forall l k x, aos_at m (stamp n) l k -> maxoccur (loc_names l) = Some (S x) -> k <= S x) ->
  (let p := match protocol with Some p => p | None => default end in p = ASCII \/ (p = FLEX /\ flex = true)) ->
  exists s w' data, put_new n = Ok s /\ serialize w tmp protocol n = (w', Ok data).
Proof.
  intros w tmp protocol n NM K CF V IM MX P. cbv zeta in P. set (p := match protocol with Some p => p | None => default end) in *.
  assert (PN : exists s, put_new n = Ok s).
  { unfold SerModel.put_new. rewrite V, IM. cbn [negb]. destruct (stamp n) as [fs|els|v] eqn:ES; [|inversion CF; subst; discriminate|inversion CF; subst; discriminate].
    unfold al_put, al_put_calls. cbn [rbind]. cbv zeta. pose proof (C31_put_succeeds dynamic xml_tbp maxoccur (time_mode (NStruct fs)) false verify m fs NM K CF MX) as H.
    destruct (put_children _ _ _ _ _ _ _ _ _) as [calls e]. cbn [snd] in H. subst e. eauto. }
  destruct PN as (s & PN). exists s. unfold SerModel.serialize. fold p. assert (NE : (time_mode n =? EMPTY_INT)%Z = false) by (apply Z.eqb_neq; intros E; rewrite E in IM; discriminate). rewrite NE, PN.
  destruct P as [-> |(-> & ->)].
  - rewrite Z.eqb_refl. do 2 eexists. split; reflexivity.
  - change (FLEX =? ASCII)%Z with false. rewrite Z.eqb_refl. cbn [andb]. cbv iota. do 2 eexists. split; reflexivity.
Qed.
End Buffers.
Print Assumptions C51_round_trip.
Print Assumptions C51_new.
Print Assumptions C51_first_byte.
Print Assumptions C51_clean.
Print Assumptions C51_errors.
Print Assumptions C51_succeeds.

(** ** Examples *)
Definition sx_node : node := NStruct (ex_fields 1).
Definition sx_put : store := fst (al_put ex_dynamic ex_tbp no_max None 1 true ex_dynamic ex_meta empty_store ex_meta sx_node).
(** formats that keep this store *)
Definition sx_ascii (_ : store) : bytes := [7%Z].
Definition sx_flex (_ : store) : bytes := [FLEX; 7%Z].
Definition sx_read (_ : bytes) : store := sx_put.
Definition sx_serialize := serialize ex_dynamic ex_tbp no_max true ex_meta (fun _ => true) (fun n => n) sx_ascii sx_flex true FLEX (fun _ => Some [1%Z]).
Definition sx_deserialize := deserialize ex_dynamic ex_tbp ex_meta sx_read sx_read true.
Definition sx_world : world := {| w_files := [(strs "other", [3%Z])]; w_open := 0 |}.

Example C51_example : named ex_meta /\ wf_meta ex_meta /\ mkind ex_meta = KStruct /\ conf ex_meta sx_node /\ settled ex_meta sx_node /\ is_mode (time_mode sx_node) = true /\
  ex_dynamic [strs "ids_properties"] = false /\ ex_dynamic [strs "ids_properties"; strs "homogeneous_time"] = false /\
  put_new ex_dynamic ex_tbp no_max true ex_meta (fun _ => true) (fun n => n) sx_node = Ok sx_put /\
  format_ok sx_ascii sx_read sx_flex sx_read sx_put /\ ~ In (strs "tmp") (akeys (w_files sx_world)) /\
  sx_serialize sx_world (strs "tmp") (Some ASCII) sx_node = (sx_world, Ok [ASCII; 7%Z]) /\
  sx_serialize sx_world (strs "tmp") None sx_node = (sx_world, Ok [FLEX; 7%Z]) /\
  conf ex_meta (NStruct []) /\
  sx_deserialize sx_world (strs "tmp") [ASCII; 7%Z] (NStruct []) = (sx_world, Ok sx_node).
Proof.
  destruct (C31_example 1 (or_intror (or_introl eq_refl))) as (A & B & C & D & E & F & G & H & I & J).
  do 8 (split; [assumption || reflexivity|]). split.
  { unfold put_new. change (is_mode (time_mode sx_node)) with true. cbn [negb]. change (time_mode sx_node) with 1%Z. unfold sx_put. unfold sx_node in *. destruct (al_put _ _ _ _ _ _ _ _ _ _ _) as [s e]. cbn [snd] in J. subst e. reflexivity. }
  split; [split; (split; [split; reflexivity|]); [discriminate|do 2 eexists; reflexivity]|]. split; [intros [X|[]]; discriminate|].
  split; [vm_compute; reflexivity|]. split; [vm_compute; reflexivity|]. split; [by_check|]. vm_compute. reflexivity.
Qed.

(** Deserializing does not clear the IDS: data that the serialized IDS does not have stay, among the data of the buffer. *)
Definition sx_half : node := NStruct [(N "ids_properties", NStruct [(N "homogeneous_time", NLeaf (Some (VInt 1%Z)))])].
Definition sx_full : node := NStruct [(N "ids_properties", NStruct [(N "homogeneous_time", NLeaf (Some (VInt 0%Z))); (N "comment", NLeaf (Some (VStr (N "old"))))]); (N "slice", NAoS [NStruct []])].
Definition sx_keep : bytes -> store := fun _ => fst (al_put ex_dynamic ex_tbp no_max None 1 true ex_dynamic ex_meta empty_store ex_meta sx_half).
Theorem C51_overwrite_refuted : exists n d data w r s, serialize ex_dynamic ex_tbp no_max true ex_meta (fun _ => true) (fun n => n) sx_ascii sx_flex true FLEX (fun _ => None) sx_world (strs "tmp") None n = (w, Ok data) /\
  put_new ex_dynamic ex_tbp no_max true ex_meta (fun _ => true) (fun n => n) n = Ok s /\ format_ok sx_ascii sx_keep sx_flex sx_keep s /\
  deserialize ex_dynamic ex_tbp ex_meta sx_keep sx_keep true w (strs "tmp") data d = (w, Ok r) /\
  n = sx_half /\ alookup (N "slice") (node_fields r) = Some (NAoS [NStruct []]) /\
  alookup (N "ids_properties") (node_fields r) = Some (NStruct [(N "homogeneous_time", NLeaf (Some (VInt 1%Z))); (N "comment", NLeaf (Some (VStr (N "old"))))]).
Proof.
  exists sx_half, sx_full, [FLEX; 7%Z], sx_world. do 2 eexists. split; [vm_compute; reflexivity|]. split; [|split; [|split; [vm_compute; reflexivity|split; [reflexivity|split; vm_compute; reflexivity]]]].
  - unfold put_new. change (is_mode (time_mode sx_half)) with true. cbn [negb]. change (time_mode sx_half) with 1%Z. instantiate (1 := sx_keep []). unfold sx_keep.
    assert (J : snd (al_put ex_dynamic ex_tbp no_max None 1 true ex_dynamic ex_meta empty_store ex_meta sx_half) = None) by (vm_compute; reflexivity). destruct (al_put _ _ _ _ _ _ _ _ _ _ _) as [s e]. cbn [snd] in J. subst e. reflexivity.
  - split; (split; [split; reflexivity|]); [discriminate|do 2 eexists; reflexivity].
Qed.
Print Assumptions C51_overwrite_refuted.

(** When the put of an ASCII serialization fails, its entry stays open and its file stays on disk; when the get of a deserialization fails, its entry stays open. *)
Definition one_slice (p : list str) : option nat := if str_eqb (path_of p) (N "slice") then Some 1 else None.
Definition sx_bad : bytes -> store := fun _ => {| s_data := fun k => if key_eqb k mode_key then Some (VStr (N "x")) else None; s_size := fun _ => None |}.
Theorem C51_failure_refuted :
  (exists w', serialize ex_dynamic ex_tbp no_max true ex_meta (fun _ => false) (fun n => n) sx_ascii sx_flex true FLEX (fun _ => Some [1%Z]) sx_world (strs "tmp") (Some ASCII) sx_node = (w', Err SNotValid) /\ w_open w' = S (w_open sx_world)) /\
  (exists w' e, serialize ex_dynamic ex_tbp one_slice true ex_meta (fun _ => true) (fun n => n) sx_ascii sx_flex true FLEX (fun _ => Some [1%Z]) sx_world (strs "tmp") (Some ASCII) sx_node = (w', Err (SBackend e)) /\
     w_open w' = S (w_open sx_world) /\ In (strs "tmp") (akeys (w_files w'))) /\
  (exists w' e, deserialize ex_dynamic ex_tbp ex_meta sx_bad sx_bad true sx_world (strs "tmp") [ASCII; 7%Z] (NStruct []) = (w', Err (SBackend e)) /\ w_open w' = S (w_open sx_world)).
Proof. split; [|split]; repeat eexists; vm_compute; auto. Qed.
Print Assumptions C51_failure_refuted.
