(** Storing an IDS and reading it back, with what put assigns. *)
From Verif Require Import Base TreeModel TreeSpec TreeProofs ValProofs PrimModel PrimSpec ConvSpec ConvProofs3 ConvProofs4 ConvModel EndModel StoreModel StoreSpec StoreProofs StoreProofs2 StoreProofs3 StoreProofs4 StoreProofs5 StoreProps SerProps CliModel.
From Verif Require StoreProps2 SerModel IdentProofs.
From Coq Require Import Lia.

(** ** assignment *)
Lemma alookup_aset : forall A k k' (v : A) l, alookup k' (aset k v l) = if str_eqb k' k then Some v else alookup k' l.
Proof.
  intros A k k' v l. destruct (str_eqb k' k) eqn:E.
  - apply str_eqb_eq in E. subst. apply alookup_aset_same.
  - apply alookup_aset_other. intros ->. rewrite str_eqb_refl in E. discriminate.
Qed.
Lemma conf_empty_struct : forall nm cs, conf (Meta nm KStruct cs) (NStruct []).
Proof. intros. constructor; [intros c ch _ E; discriminate|intros k []|constructor]. Qed.
Lemma nodup_aset : forall A k (v : A) l, NoDup (akeys l) -> NoDup (akeys (aset k v l)).
Proof.
  intros A k v. induction l as [|[k0 x] t IH]; cbn [aset]; intros ND; [constructor; [intros []|constructor]|].
  inversion ND as [|? ? NI ND']; subst. destruct (str_eqb k k0) eqn:E.
  - exact ND.
  - cbn. constructor; [|apply IH; assumption]. intros I. apply akeys_aset_In in I. destruct I as [I|I]; [|contradiction]. subst. rewrite str_eqb_refl in E. discriminate.
Qed.
Lemma set_field_ok : forall p m v n nm dt nd cs, wf_meta m -> conf m n -> loc_ok m (map Child p) (Meta nm (KLeaf dt nd) cs) -> val_ok dt nd v -> filled_value v ->
  conf m (set_field p v n) /\
  (forall l x, holds m (set_field p v n) l x <-> (l = map Child p /\ x = ILeaf v) \/ (l <> map Child p /\ holds m n l x)).
Proof.
  induction p as [|y p IH]; intros m v n nm dt nd cs W CF L V F; cbn [map] in L.
  - inversion L; subst. cbn [set_field]. split; [constructor; exact V|]. intros l x. inversion CF; subst; rewrite !holds_leaf; split.
    + intros (-> & w & E & -> & _). injection E as <-. auto.
    + intros [(-> & ->)|(N & E & _)]; [split; eauto|contradiction].
    + intros (-> & w & E & -> & _). injection E as <-. auto.
    + intros [(-> & ->)|(N & E & _)]; [split; eauto|contradiction].
  - apply loc_ok_child in L. destruct L as (mn & ms & c & -> & I & EN & L). inversion CF as [| |? ? fs C1 C2 C3|]; subst. inversion W as [? ? ? ND W2 W3]; subst. cbn [set_field node_fields].
    set (old := match alookup (mname c) fs with Some ch => ch | None => NStruct [] end).
    assert (X : conf c (set_field p v old) /\ forall l x, holds c (set_field p v old) l x <-> (l = map Child p /\ x = ILeaf v) \/ (l <> map Child p /\ exists ch, alookup (mname c) fs = Some ch /\ holds c ch l x)).
    { unfold old. destruct (alookup (mname c) fs) as [ch|] eqn:A.
      - destruct (IH c v ch nm dt nd cs (W2 c I) (C1 c ch I A) L V F) as [H1 H2]. split; [exact H1|]. intros l x. rewrite H2. split; intros [H|(H & H')]; auto; right; split; auto; [eauto|]. destruct H' as (ch' & E & H'). injection E as <-. exact H'.
      - destruct p as [|z p].
        + inversion L; subst. cbn [set_field map]. split; [constructor; exact V|]. intros l x. rewrite holds_leaf. split.
          * intros (-> & w & E & -> & _). injection E as <-. auto.
          * intros [(-> & ->)|(_ & ch & E & _)]; [split; eauto|discriminate].
        + assert (KS : exists n0 c0, c = Meta n0 KStruct c0) by (cbn [map] in L; apply loc_ok_child in L; destruct L as (n0 & c0 & _ & -> & _); eauto). destruct KS as (n0 & c0 & ->).
          destruct (IH (Meta n0 KStruct c0) v (NStruct []) nm dt nd cs (W2 _ I) (conf_empty_struct n0 c0) L V F) as [H1 H2]. split; [exact H1|]. intros l x. rewrite H2. split; intros [H|(H & H')]; auto; right; split; auto.
          * exfalso. apply holds_struct in H'. destruct H' as (d & ch & l' & _ & _ & E & _). discriminate.
          * destruct H' as (ch' & E & _). discriminate. }
    destruct X as [X1 X2]. split.
    + constructor.
      * intros d ch Id A. rewrite alookup_aset in A. destruct (str_eqb (mname d) (mname c)) eqn:E.
        -- apply str_eqb_eq in E. assert (d = c) as -> by (eapply IdentProofs.NoDup_map_inj; eauto). injection A as <-. exact X1.
        -- eauto.
      * intros k Ik. apply akeys_aset_In in Ik. destruct Ik as [->|Ik]; [now apply List.in_map|auto].
      * apply nodup_aset. exact C3.
    + intros l x. rewrite holds_struct. split.
      * intros (d & ch & l' & -> & Id & A & H). rewrite alookup_aset in A. destruct (str_eqb (mname d) (mname c)) eqn:E.
        -- apply str_eqb_eq in E. assert (d = c) as -> by (eapply IdentProofs.NoDup_map_inj; eauto). injection A as <-. apply X2 in H. destruct H as [(-> & ->)|(N & ch & A & H)].
           ++ left. split; reflexivity.
           ++ right. split; [intros Q; injection Q as Q; contradiction|]. apply holds_struct. exists c, ch, l'. auto.
        -- right. split; [intros Q; injection Q as Q _; rewrite Q, str_eqb_refl in E; discriminate|]. apply holds_struct. exists d, ch, l'. auto.
      * intros [(-> & ->)|(N & H)].
        -- exists c, (set_field p v old), (map Child p). split; [reflexivity|]. split; [exact I|]. split; [rewrite alookup_aset, str_eqb_refl; reflexivity|]. apply X2. auto.
        -- apply holds_struct in H. destruct H as (d & ch & l' & -> & Id & A & H). destruct (str_eqb (mname d) (mname c)) eqn:E.
           ++ apply str_eqb_eq in E. assert (d = c) as -> by (eapply IdentProofs.NoDup_map_inj; eauto). exists c, (set_field p v old), l'. split; [reflexivity|]. split; [exact Id|]. split; [rewrite alookup_aset, str_eqb_refl; reflexivity|].
              apply X2. right. split; [intros ->; contradiction|eauto].
           ++ exists d, ch, l'. split; [reflexivity|]. split; [exact Id|]. split; [|exact H]. rewrite alookup_aset, E. exact A.
Qed.
(** a scalar that is set is there *)
Lemma settled_holds : forall m n, conf m n -> (settled m n <-> forall l v, holds m n l (ILeaf v) -> forall dt, val_ok dt 0 v -> is_empty dt v = false).
Proof.
  intros m n CF. split.
  - intros S l v (m' & (dt' & nd & K) & N & F) dt V. pose proof (node_at_conf _ _ _ _ _ N CF) as CN. destruct m' as [nm k cs]. cbn in K. subst k. inversion CN as [|? ? ? ? ? V'| |]; subst.
    assert (dt' = dt /\ nd = 0) as [-> ->] by (inversion V; subst; inversion V'; subst; auto). exact (S l _ _ N dt eq_refl).
  - intros H l m' v N dt K. pose proof (node_at_conf _ _ _ _ _ N CF) as CN. destruct m' as [nm k cs]. cbn in K. subst k. inversion CN as [|? ? ? ? ? V'| |]; subst. apply (H l v); auto.
    exists (Meta nm (KLeaf dt 0) cs). split; [do 2 eexists; reflexivity|]. split; [exact N|]. inversion V'; subst; try exact Logic.I; match goal with H : ?sh <> [], E : length ?sh = 0 |- _ => destruct sh; [contradiction|discriminate] end.
Qed.

(** ** the tree that is read conforms *)
Lemma get_node_conf : forall dynamic xml_tbp nbc mode s m, wf_meta m -> forall p c g, get_node dynamic xml_tbp nbc mode s m p c = Ok (Some g) ->
  (forall l nm dt nd cs v, node_at m g l (Meta nm (KLeaf dt nd) cs) (NLeaf (Some v)) -> val_ok dt nd v) -> conf m g.
Proof.
  intros dynamic xml_tbp nbc mode s. induction m as [nm k cs IH] using meta_ind'. intros WF p c g G V. rewrite get_node_unfold in G. cbv zeta in G. inversion WF as [? ? ? ND W2 W3]; subst.
  destruct (omitted dynamic mode p (Meta nm k cs)); [discriminate|]. destruct (locate dynamic xml_tbp nbc mode p (Meta nm k cs)) as [[pl|]|]; cbn [rbind] in G; try discriminate.
  assert (KIDS : forall c' q fs, gather cs (fun d => get_node dynamic xml_tbp nbc mode s d q c') = Ok fs ->
    (forall l nm' dt nd cs' v, node_at (Meta nm KStruct cs) (NStruct fs) l (Meta nm' (KLeaf dt nd) cs') (NLeaf (Some v)) -> val_ok dt nd v) -> conf (Meta nm KStruct cs) (NStruct fs)).
  { intros c' q fs GF VF. apply gather_ok in GF; [|assumption]. destruct GF as (GF & GK & GN). constructor; auto. intros d ch I L. destruct (GF d I) as (o & E & L2). rewrite L in L2. subst o.
    eapply IH; eauto. intros l nm' dt nd cs' v N. apply (VF (Child (mname d) :: l) nm' dt nd cs' v). econstructor; eauto. }
  destruct k as [| |dt nd].
  3:{ destruct (read s (c, pl) dt nd) as [[v|]|]; cbn [rbind] in G; try discriminate. destruct ((nd =? 0) && is_empty dt v); [discriminate|]. injection G as <-. constructor. eapply V. constructor. }
  - destruct (gather cs _) as [fs|] eqn:GF; cbn [rbind] in G; [|discriminate]. injection G as <-. eapply KIDS; eauto.
  - destruct (s_size s (c, pl)) as [[|n]|]; try discriminate. destruct (rmap _ _) as [els|] eqn:R; cbn [rbind] in G; [|discriminate]. injection G as <-. constructor. intros e I.
    apply In_nth_error in I. destruct I as (i & E). assert (RM : forall A B (f : A -> result exn B) l r, rmap f l = Ok r -> forall i y, nth_error r i = Some y -> exists x, f x = Ok y).
    { clear. induction l as [|x l IH]; intros r H i y E.
      - cbn in H. injection H as <-. destruct i; discriminate.
      - change (rmap f (x :: l)) with (do y <- f x; do r <- rmap f l; Ok (y :: r)) in H. destruct (f x) as [y0|] eqn:F; cbn [rbind] in H; [|discriminate]. destruct (rmap f l) as [r0|] eqn:RR; cbn [rbind] in H; [|discriminate]. injection H as <-.
        destruct i as [|i]; [injection E as <-; eauto|]. eapply IH; eauto. }
    destruct (RM _ _ _ _ _ R i e E) as (j & F). destruct (gather cs _) as [fs|] eqn:GF; cbn [rbind] in F; [|discriminate]. injection F as <-. eapply KIDS; eauto.
    intros l nm' dt nd cs' v N. apply (V (Elem i :: l) nm' dt nd cs' v). econstructor; eauto.
Qed.
Lemma get_children_conf : forall dynamic xml_tbp nbc mode s m g, wf_meta m -> mkind m = KStruct -> get_children dynamic xml_tbp nbc mode s m = Ok g ->
  (forall l nm dt nd cs v, node_at m g l (Meta nm (KLeaf dt nd) cs) (NLeaf (Some v)) -> val_ok dt nd v) -> conf m g.
Proof.
  intros dynamic xml_tbp nbc mode s [nm k cs] g W K G V. cbn in K. subst k. unfold get_children in G. cbn [mchildren] in G. destruct (gather cs _) as [fs|] eqn:GF; cbn [rbind] in G; [|discriminate]. injection G as <-.
  inversion W as [? ? ? ND W2 W3]; subst. apply gather_ok in GF; [|assumption]. destruct GF as (GF & GK & GN). constructor; auto. intros d ch I L. destruct (GF d I) as (o & E & L2). rewrite L in L2. subst o.
  eapply get_node_conf; eauto. intros l nm' dt nd cs' v N. apply (V (Child (mname d) :: l) nm' dt nd cs' v). econstructor; eauto.
Qed.
Lemma get_children_from : forall dynamic xml_tbp nbc mode s m g, wf_meta m -> mkind m = KStruct -> get_children dynamic xml_tbp nbc mode s m = Ok g ->
  forall l m' v, node_at m g l m' (NLeaf (Some v)) -> exists k, s_data s k = Some v.
Proof.
  intros dynamic xml_tbp nbc mode s [nm k cs] g W K G l m' v N. cbn in K. subst k. unfold get_children in G. cbn [mchildren] in G. destruct (gather cs _) as [fs|] eqn:GF; cbn [rbind] in G; [|discriminate]. injection G as <-.
  inversion W as [? ? ? ND W2 W3]; subst. apply gather_ok in GF; [|assumption]. destruct GF as (GF & _). inversion N as [|? ? ? d ch l2 ? ? I L N2|]; subst. destruct (GF d I) as (o & E & L2). rewrite L in L2. subst o. exact (get_from dynamic xml_tbp nbc mode s d (W2 d I) _ _ _ E _ _ _ N2).
Qed.

(** only filled values are stored *)
Definition filled_store (s : store) : Prop := forall k v, s_data s k = Some v -> filled_value v.
Lemma filled_empty : filled_store empty_store.
Proof. intros k v E. discriminate. Qed.

Lemma al_put_data : forall dynamic xml_tbp maxoccur verify mode m fs s s' l v k, named m -> wf_meta m -> mkind m = KStruct -> conf m (NStruct fs) ->
  al_put dynamic xml_tbp maxoccur None mode verify dynamic m s m (NStruct fs) = (s', None) ->
  leaf_at m (NStruct fs) l v -> position_of dynamic xml_tbp None mode false l k -> s_data s' k = Some v.
Proof.
  intros dynamic xml_tbp maxoccur verify mode m fs s s' l v k NM W K CF P H PO.
  unfold al_put, al_put_calls in P. cbn [rbind] in P. cbv zeta in P. destruct (put_children _ _ _ _ _ _ _ _ _) as [calls e] eqn:R. injection P as P ->. subst s'.
  set (s0 := delete_children dynamic m s) in *.
  assert (INJ : forall l l' m1 m1' aos k, loc_ok m l m1 -> loc_ok m l' m1' -> mkind m1 <> KStruct -> mkind m1' <> KStruct ->
    position_of dynamic xml_tbp None mode aos l k -> position_of dynamic xml_tbp None mode aos l' k -> l = l').
  { intros l1 l2 m1 m1' aos k1 L L' K1 K2 P1 P2. eapply (position_inj dynamic xml_tbp mode (length l1) l1 l2 m m); eauto. }
  assert (CL : forall l m1 aos k, loc_ok m l m1 -> mkind m1 <> KStruct -> position_of dynamic xml_tbp None mode aos l k -> s_data s0 k = None /\ s_size s0 k = None).
  { intros l1 m1 aos k1 L K1 P1. apply (proj1 (C31_erases dynamic m s NM K)). eapply position_erased; eauto. }
  pose proof H as (mh & (dt & nd & KH) & N & F).
  apply (data_after dynamic xml_tbp maxoccur None mode verify s0 m fs NM W K CF INJ CL calls R l mh); auto; [eapply node_at_loc_ok; eauto|congruence].
Qed.
(** the place of a leaf outside arrays of structures that does not depend on time *)
Fixpoint inits (p : list str) : list (list str) := match p with [] => [] | x :: t => [x] :: map (cons x) (inits t) end.
Lemma static_position : forall dynamic xml_tbp mode p, p <> [] -> (forall q, In q (inits p) -> dynamic q = false) ->
  position_of dynamic xml_tbp None mode false (map Child p) ([], (path_of p, [])).
Proof.
  intros dynamic xml_tbp mode p NE D. unfold position_of.
  assert (G : forall p q, (p <> [] \/ (q <> [] /\ dynamic q = false)) -> (forall r, In r (inits p) -> dynamic (q ++ r) = false) -> position dynamic xml_tbp None mode false q q (map Child p) ([], (path_of (q ++ p), []))).
  { clear. induction p as [|x p IH]; intros q NE D.
    - destruct NE as [NE|[NE DQ]]; [contradiction|]. rewrite app_nil_r. cbn [map].
      assert (E : (path_of q, []) = homogenised mode (path_of q, own_base dynamic xml_tbp false q q)) by (unfold own_base, homogenised; rewrite DQ; reflexivity).
      rewrite E. apply po_here. apply pl_same. reflexivity.
    - cbn [map]. assert (DX : dynamic (q ++ [x]) = false) by (apply D; left; reflexivity). apply po_child; [intros [[_ X]|X]; [congruence|discriminate]|].
      replace (q ++ x :: p) with ((q ++ [x]) ++ p) by (rewrite <- app_assoc; reflexivity). apply IH; [right; split; [destruct q; discriminate|exact DX]|].
      intros r I. rewrite <- app_assoc. apply D. right. apply (List.in_map (cons x)). exact I. }
  apply (G p []); [left; exact NE|exact D].
Qed.
Lemma al_put_filled : forall dynamic xml_tbp maxoccur verify m n mode s s', named m -> mkind m = KStruct -> conf m n -> filled_store s ->
  al_put dynamic xml_tbp maxoccur None mode verify dynamic m s m n = (s', None) -> filled_store s'.
Proof.
  intros dynamic xml_tbp maxoccur verify m n mode s s' NM K CF FS P k v D. destruct n as [fs|els|w]; [|inversion CF; subst; discriminate|inversion CF; subst; discriminate].
  unfold al_put, al_put_calls in P. cbn [rbind] in P. cbv zeta in P. destruct (put_children _ _ _ _ _ _ _ _ _) as [calls e] eqn:R. injection P as P ->. subst s'. apply apply_all_data in D.
  destruct D as [D|(_ & D)].
  - apply (proj1 (C31_put_exact _ _ _ _ _ _ _ _ _ _ NM K CF R)) in D. destruct D as (l & (m' & _ & _ & F) & _). exact F.
  - destruct (C31_erases dynamic m s NM K) as (E1 & E2). cbv zeta in E1, E2. destruct (delete_children_erases dynamic m s NM K k) as [(X & _)|(X & _)].
    + destruct (E1 k X) as (Y & _). rewrite Y in D. discriminate.
    + destruct (E2 k X) as (Y & _). rewrite Y in D. exact (FS k v D).
Qed.

Lemma al_put_ok : forall dynamic xml_tbp maxoccur verify m n s s', named m -> wf_meta m -> mkind m = KStruct -> conf m n -> settled m n -> is_mode (SerModel.time_mode n) = true ->
  dynamic [strs "ids_properties"] = false -> dynamic [strs "ids_properties"; strs "homogeneous_time"] = false -> filled_store s ->
  al_put dynamic xml_tbp maxoccur None (SerModel.time_mode n) verify dynamic m s m n = (s', None) ->
  filled_store s' /\ read_mode s' = Ok (SerModel.time_mode n) /\ exists g, al_get dynamic xml_tbp None s' m = Ok g /\ conf m g /\ settled m g /\
    forall l x, holds m g l x <-> holds m n l x /\ kept dynamic (SerModel.time_mode n) l.
Proof.
  intros dynamic xml_tbp maxoccur verify m n s s' NM WF K CF ST IM D1 D2 FS P.
  assert (HT := mode_leaf m n CF IM). pose proof (al_put_filled _ _ _ _ _ _ _ _ _ NM K CF FS P) as FS'.
  set (mode := SerModel.time_mode n) in *. destruct n as [fs|els|v] eqn:ES; [|inversion CF; subst; discriminate|inversion CF; subst; discriminate].
  destruct (C31_round_trip dynamic xml_tbp maxoccur verify mode m fs s s' NM WF K CF ST HT IM D1 D2 P) as (g & G & GL & GA).
  split; [exact FS'|].
  assert (HH : forall l x, holds m g l x <-> holds m (NStruct fs) l x /\ kept dynamic mode l) by (intros l [v|k]; [apply GL|apply GA]).
  pose proof G as G'. unfold al_get in G'. destruct (read_mode s') as [md|] eqn:RM; [|discriminate]. cbn [rbind] in G'. destruct (is_mode md) eqn:IMD; [|discriminate].
  assert (LF : forall l m' v, node_at m g l m' (NLeaf (Some v)) -> filled_value v) by (intros l m' v N; destruct (get_children_from _ _ _ _ _ _ _ WF K G' l m' v N) as (k & D); eapply FS'; eauto).
  assert (CG : conf m g).
  { eapply get_children_conf; eauto. intros l nm dt nd cs v N. assert (H : leaf_at m g l v) by (exists (Meta nm (KLeaf dt nd) cs); split; [do 2 eexists; reflexivity|split; [exact N|eapply LF; eauto]]).
    apply GL in H. destruct H as ((m2 & L2 & N2 & F2) & _). assert (E : m2 = Meta nm (KLeaf dt nd) cs) by (eapply loc_ok_fun; [exact WF|eapply node_at_loc_ok; eauto|eapply node_at_loc_ok; eauto]). subst m2.
    pose proof (node_at_conf _ _ _ _ _ N2 CF) as CN. inversion CN; subst. assumption. }
  assert (MD : s_data s' mode_key = Some (VInt mode)).
  { eapply al_put_data; try exact P; eauto. apply (static_position dynamic xml_tbp mode [strs "ids_properties"; strs "homogeneous_time"]); [discriminate|]. intros q [<-|[<-|[]]]; assumption. }
  assert (EM : md = mode) by (unfold read_mode, read in RM; rewrite MD in RM; cbn [typed Nat.eqb rbind] in RM; injection RM as RM; congruence).
  split; [congruence|]. exists g. split; [exact G|]. split; [exact CG|]. split; [|exact HH].
  apply (settled_holds m g CG). intros l v H dt V. apply HH in H. destruct H as (H & _). exact (proj1 (settled_holds m (NStruct fs) CF) ST l v H dt V).
Qed.
Lemma al_put_version : forall dynamic xml_tbp maxoccur verify m fs mode s s' x, named m -> wf_meta m -> mkind m = KStruct -> conf m (NStruct fs) ->
  dynamic [strs "ids_properties"] = false -> dynamic [strs "ids_properties"; strs "version_put"] = false -> dynamic [strs "ids_properties"; strs "version_put"; strs "data_dictionary"] = false ->
  al_put dynamic xml_tbp maxoccur None mode verify dynamic m s m (NStruct fs) = (s', None) ->
  leaf_at m (NStruct fs) (map Child (version_path ++ [strs "data_dictionary"])) (VStr x) -> read_version s' = Ok x.
Proof.
  intros dynamic xml_tbp maxoccur verify m fs mode s s' x NM WF K CF D1 D2 D3 P L.
  assert (E : s_data s' version_key = Some (VStr x)).
  { eapply al_put_data; try exact P; eauto. apply (static_position dynamic xml_tbp mode (version_path ++ [strs "data_dictionary"])); [discriminate|]. intros q [<-|[<-|[<-|[]]]]; assumption. }
  unfold read_version, read. rewrite E. reflexivity.
Qed.
