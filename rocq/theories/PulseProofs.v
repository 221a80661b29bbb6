(** Conversion with a callback: everything that is copied arrives at the place given by the rename map, with the value that the callback
    gives to it.  After ConvProofs2.v and ConvProofs4.v. *)
From Verif Require Import Base PathModel PathSpec PathProofs3 TreeModel TreeSpec TreeProofs TreeProofs2 TreeProofs4 ValModel ValProofs ValProofs2 ValProofs5 PrimModel PrimSpec PrimProps ConvModel ConvSpec ConvProofs ConvProofs2 ConvProofs3 ConvProofs4 PulseModel.
From Verif Require VmapModel.
Import VmapModel(handler(..), nmap).

Section Copy.
Variables (sm tm : meta).
Variable src : node.
Variable rm : nmap.
Variable deepcopy : bool.
Variable str_of : pyval -> str.
Variable parse_float : str -> option flt.
Variable parse_cpx : str -> option (flt * flt).
Variable flt_of_int : Z -> option flt.
Variable np_cast : dtype -> pyval -> result pexn value.
Variable array_items : value -> list pyval.
Variable close : pyval -> pyval -> bool.
Variable np_int32 : flt -> result pexn Z.
Variable enum_of : list str -> option (Z -> option (str * str)).
Variable callback : meta -> node -> loc -> loc -> CM unit.

Notation assign := (assign tm str_of parse_float parse_cpx flt_of_int np_cast array_items).
Notation resize := (resize tm).
Notation type_change := (type_change sm tm src str_of parse_float parse_cpx flt_of_int np_cast array_items close np_int32 enum_of).
Notation post_process := (post_process tm str_of parse_float parse_cpx flt_of_int np_cast array_items).
Notation copy_item := (copy_item_cb sm tm src rm deepcopy str_of parse_float parse_cpx flt_of_int np_cast array_items close np_int32 enum_of callback).
Notation copy_children := (copy_structure_cb sm tm src rm deepcopy str_of parse_float parse_cpx flt_of_int np_cast array_items close np_int32 enum_of callback).
Notation entry := (entry rm).
Notation mapped := (mapped rm).
Notation rule_at := (rule_at rm).
Notation removed := (removed rm).
Notation ruled := (ruled rm).
Notation goes_to := (goes_to tm rm).
Notation by_rule := (by_rule sm tm src rm).
Notation fval := (fval tm).
Notation fsize := (fsize tm).
Notation ctx := (ctx tm rm).
Notation present := (present sm src).
Notation good := (good rm).

(** after the target is found *)
Definition copy_rest_cb (c : meta) (n : node) (sl t : loc) : CM unit :=
  doc r <- match alookup (path_string sl) (VmapModel.m_type rm) with
           | None => cret (Some (n, sl, t))
           | Some None => cfail CType
           | Some (Some h) => type_change h c n sl t
           end;
  match r with
  | None => cret tt
  | Some (n2, sl2, tl2) =>
    doc _ <- match n2 with
      | NAoS els =>
        doc _ <- resize tl2 (length els);
        citer (fun x => copy_children (mchildren c) (node_fields (snd x)) (sl2 ++ [Elem (fst x)]) (tl2 ++ [Elem (fst x)])) (enum els)
      | NStruct fs => copy_children (mchildren c) fs sl2 tl2
      | NLeaf _ => assign tl2 (if deepcopy then None else Some sl2) (of_value (leaf_value c n2))
      end;
    doc _ <- match alookup (path_string sl) (VmapModel.m_post rm) with Some h => post_process h tl2 | None => cret tt end;
    callback c n2 sl2 tl2
  end.
Lemma copy_item_cb_eq : forall name k cs n sl tl, copy_item (Meta name k cs) n sl tl =
  (doc t <- target_item tm rm (path_string sl) name tl;
   match t with None => cret tt | Some t => copy_rest_cb (Meta name k cs) n sl t end).
Proof. reflexivity. Qed.

Section Pres.
Variable R : node -> node -> Prop.
Variable ok : loc -> Prop.
Hypothesis R_refl : forall n, R n n.
Hypothesis R_trans : forall a b c, R a b -> R b c -> R a c.
Hypothesis R_access : forall n l, R n (access tm n l).
Hypothesis R_assign : forall l from p s, ok l -> not_node p -> R (c_tree s) (c_tree (fst (assign l from p s))).
Hypothesis R_resize : forall l k s, (forall r, ok (l ++ r)) -> R (c_tree s) (c_tree (fst (resize l k s))).
Notation pres := (pres R).
Hypothesis R_callback : forall c n sl tl, ok tl -> pres (callback c n sl tl).

Variable t0 : loc.
Hypothesis ok_in : forall l, within t0 l -> ok l.
Hypothesis ok_closed : ok (removelast t0 ++ [Child closed_name]).
Notation stays := (stays tm rm t0).
Notation stays_below := (stays_below tm rm t0).

Lemma pres_copy_rest_cb_of : forall c n sl t, (forall d n sl tl, In d (mchildren c) -> stays d (loc_names sl) -> within t0 tl -> pres (copy_item d n sl tl)) ->
  stays_below c (loc_names sl) -> within t0 t -> pres (copy_rest_cb c n sl t).
Proof.
  intros c n sl t IH ST WT. unfold copy_rest_cb. set (cs := mchildren c) in *.
  assert (KIDS : forall fs sl' tl', loc_names sl' = loc_names sl -> within t0 tl' -> pres (copy_children cs fs sl' tl')).
  { intros fs sl' tl' N W'. unfold copy_structure_cb. apply pres_iter; auto. intros d I. destruct (alookup (mname d) fs); [|apply pres_ret; auto].
    destruct (has_value d n0); [|apply pres_ret; auto]. apply IH; auto. rewrite names_app, N. apply ST; auto. }
  assert (OI : forall l, within t l -> ok l) by (intros l WL; apply ok_in; eapply within_trans; eauto).
  eapply pres_bind_r; eauto.
  { destruct (alookup (path_string sl) (VmapModel.m_type rm)) as [[h|]|]; [|apply pres_fail; auto|apply pres_ret; auto].
    eapply pres_type_change; eauto. apply (ok_next_to ok t0); auto. }
  intros s1 s1' [[[n2 sl2] tl2]|] E; [|apply pres_ret; auto].
  assert (G : within t tl2 /\ loc_names sl2 = loc_names sl).
  { destruct (alookup (path_string sl) (VmapModel.m_type rm)) as [[h|]|].
    - apply type_change_result in E as (A & [(_ & ->)|(e & _ & _ & ->)]); auto. split; auto. apply names_elem.
    - discriminate.
    - injection E as <- <- <- <-. auto with conv. }
  destruct G as (W2 & N2). assert (W3 : within t0 tl2) by (eapply within_trans; eauto).
  eapply pres_bind; eauto.
  - destruct n2 as [fs|els|v].
    + apply KIDS; auto.
    + eapply pres_bind; eauto. { eapply pres_resize; eauto. intros. apply ok_in. auto with conv. }
      intros _. apply pres_iter; auto. intros [j e] _. apply KIDS; auto with conv. simpl. rewrite names_elem. auto.
    + eapply pres_assign; eauto with conv.
  - intros _. eapply pres_bind; eauto.
    destruct (alookup (path_string sl) (VmapModel.m_post rm)); [|apply pres_ret; auto]. eapply pres_post_process; eauto.
    intros l WL. apply ok_in. eapply within_trans; eauto.
Qed.
Theorem pres_copy_item_cb : forall c n sl tl, stays c (loc_names sl) -> within t0 tl -> pres (copy_item c n sl tl).
Proof.
  induction c as [name k cs IH] using meta_ind'. intros n sl tl ST W. rewrite copy_item_cb_eq.
  eapply pres_bind_r; eauto; [apply pres_target_item; auto|]. intros s s' [t|] TI; [|apply pres_ret; auto].
  pose proof (target_item_within _ _ _ _ _ _ _ _ _ _ ST W TI) as WT.
  apply pres_copy_rest_cb_of; auto using stays_child.
Qed.
Theorem pres_copy_rest_cb : forall c n sl t, stays_below c (loc_names sl) -> within t0 t -> pres (copy_rest_cb c n sl t).
Proof. intros. apply pres_copy_rest_cb_of; auto. intros. apply pres_copy_item_cb; auto. Qed.
End Pres.

Hypothesis Wsm : wf_meta sm.
Hypothesis Wtm : wf_meta tm.
Hypothesis Ksm : mkind sm = KStruct.
Hypothesis Ktm : mkind tm = KStruct.
Hypothesis Csrc : conf sm src.
Hypothesis np_same : forall dt v, typed_array dt v -> np_cast dt (PArr v) = Ok v.
Hypothesis proper : forall s nm dt cs v, node_at sm src s (Meta nm (KLeaf dt 0) cs) (NLeaf (Some v)) -> ~ empty dt v.
Hypothesis F : fits sm tm rm.

(** ** What the callback does to the items of some part of the source *)
(** what arrives of a value: nothing known if the callback fails, else the value that is then found, if any *)
Variable arrives : loc -> value -> option (option value).
Variable part : loc -> Prop.
Hypothesis part_in : forall a b, part a -> part (a ++ b).
Hypothesis cb_frame : forall (ok : loc -> Prop) c n sl tl s, ok tl -> R_frame tm ok (c_tree s) (c_tree (fst (callback c n sl tl s))).
Hypothesis cb_other : forall c n sl tl st st', part sl -> node_at sm src sl c n -> (forall v, n <> NLeaf v) -> callback c n sl tl st = (st', Ok tt) -> same_obs tm (c_tree st) (c_tree st').
Hypothesis cb_leaf : forall c sl v t mt dt nd st st', part sl -> node_at sm src sl c (NLeaf (Some v)) -> mkind c = KLeaf dt nd -> leaf_at sm src sl v ->
  loc_ok tm t mt -> mkind mt = KLeaf dt nd -> fval (c_tree st) t = Some v -> fsize (c_tree st) t = None ->
  callback c (NLeaf (Some v)) sl t st = (st', Ok tt) ->
  Some (fval (c_tree st') t) = arrives sl v /\ fsize (c_tree st') t = None.

(** ** What has been copied *)
(** nothing of the source goes to t or to something that contains t *)
Definition unused (t : loc) : Prop := ~ by_rule t /\ forall s t1, present s -> good s -> goes_to s t1 -> ~ within t1 t.
Variable tgt0 : node.
Definition JP (ref : loc -> option value) (P : loc -> Prop) (n : node) : Prop :=
  (forall s v t, P s -> leaf_at sm src s v -> good s -> goes_to s t -> ~ by_rule t -> Some (fval n t) = arrives s v) /\
  (forall s k t, P s -> aos_at sm src s k -> good s -> goes_to s t -> ~ by_rule t -> fsize n t = Some k) /\
  (forall t w, fval n t = Some w -> (exists s v, P s /\ leaf_at sm src s v /\ arrives s v = Some (Some w) /\ good s /\ goes_to s t) \/ by_rule t \/ ref t = Some w) /\
  (forall t k, fsize n t = Some (S k) -> (exists s, P s /\ aos_at sm src s (S k) /\ good s /\ goes_to s t) \/ by_rule t \/ fsize tgt0 t = Some (S k)) /\
  (forall t, unused t -> fval n t = ref t).
Lemma JP_start : JP (fval tgt0) (fun _ => False) tgt0.
Proof. split; [|split; [|split; [|split]]]; intros; try contradiction; auto. Qed.
Lemma JP_ext : forall ref (P P' : loc -> Prop) n, (forall s, P' s -> present s -> good s -> P s) -> (forall s, P s -> P' s) -> JP ref P n -> JP ref P' n.
Proof.
  intros ref P P' n H1 H2 (A & B & C & D & E). split; [|split; [|split; [|split]]]; auto.
  - intros s v t PS LA G. apply A; auto. apply H1; auto. left; eauto.
  - intros s k t PS LA G. apply B; auto. apply H1; auto. right; eauto.
  - intros t v Q. destruct (C t v Q) as [(s & v' & X & Y)|X]; [left; exists s, v'; auto|right; auto].
  - intros t k Q. destruct (D t k Q) as [(s & X & Y)|X]; eauto.
Qed.
Lemma JP_obs : forall ref P n n', same_obs tm n n' -> JP ref P n -> JP ref P n'.
Proof.
  intros ref P n n' O (A & B & C & D & E). split; [|split; [|split; [|split]]]; intros; destruct (O t) as (O1 & O2); rewrite ?O1, ?O2 in *; eauto.
Qed.
Lemma JP_rule : forall ref P n n' t0, (forall l, reach t0 l -> by_rule l) -> R_frame tm (reach t0) n n' -> JP ref P n -> JP ref P n'.
Proof.
  intros ref P n n' t0 BR FR (A & B & C & D & E).
  assert (DEC : forall t, reach t0 t \/ ~ reach t0 t).
  { intros t. destruct (within_dec t0 t); [left; left; auto|]. destruct (loc_dec t (removelast t0 ++ [Child (strs "closed")])); [left; right; auto|].
    right. intros [X|X]; auto. }
  split; [|split; [|split; [|split]]].
  - intros s v t PS LA G GT NB. destruct (FR t) as (-> & _); eauto.
  - intros s k t PS LA G GT NB. destruct (FR t) as (_ & ->); eauto.
  - intros t v Q. destruct (DEC t) as [X|X]; [right; left; auto|]. destruct (FR t X) as (E2 & _). rewrite E2 in Q. auto.
  - intros t k Q. destruct (DEC t) as [X|X]; [right; left; auto|]. destruct (FR t X) as (_ & E2). rewrite E2 in Q. auto.
  - intros t U. destruct (FR t) as (-> & _); auto. destruct U as (NB & _). intros X. apply NB; auto.
Qed.

Definition copies_cb (c : meta) : Prop := forall ref n sl tl P st st', part (sl ++ [Child (mname c)]) ->
  node_at sm src (sl ++ [Child (mname c)]) c n -> has_value c n = true -> ctx sl tl -> ~ ruled (loc_names sl) -> ~ removed (loc_names sl) ->
  JP ref P (c_tree st) -> (forall s, P s -> ~ within (sl ++ [Child (mname c)]) s) ->
  copy_item c n (sl ++ [Child (mname c)]) tl st = (st', Ok tt) ->
  JP ref (fun s => P s \/ within (sl ++ [Child (mname c)]) s) (c_tree st').

Lemma kids_cb : forall ref nm cs fs sl tl, part sl -> (forall d, In d cs -> copies_cb d) -> node_at sm src sl (Meta nm KStruct cs) (NStruct fs) -> ctx sl tl ->
  ~ ruled (loc_names sl) -> ~ removed (loc_names sl) ->
  forall P st st', JP ref P (c_tree st) -> (forall s, P s -> ~ within sl s) -> copy_children cs fs sl tl st = (st', Ok tt) ->
  JP ref (fun s => P s \/ within sl s) (c_tree st').
Proof.
  intros ref nm cs fs sl tl DS IH NA CT NU NR.
  assert (WM : wf_meta (Meta nm KStruct cs)).
  { eapply loc_wf; [exact Wsm|eapply node_at_loc_ok; exact NA]. }
  assert (CF : conf (Meta nm KStruct cs) (NStruct fs)) by (eapply node_at_conf; eauto).
  assert (L : forall ds, incl ds cs -> NoDup (map mname ds) -> forall P st st', JP ref P (c_tree st) ->
    (forall s d, P s -> In d ds -> ~ within (sl ++ [Child (mname d)]) s) -> copy_children ds fs sl tl st = (st', Ok tt) ->
    JP ref (fun s => P s \/ exists d, In d ds /\ within (sl ++ [Child (mname d)]) s) (c_tree st')).
  { induction ds as [|d ds IHd]; intros IN ND P st st' HJ DJ RUN.
    - unfold copy_structure_cb in RUN. simpl in RUN. injection RUN as <-. eapply JP_ext; [| |exact HJ]; auto.
      intros s [H|(d & [] & _)]; auto.
    - unfold copy_structure_cb in RUN. simpl in RUN. apply bind_ok in RUN as ([] & s1 & R1 & R2).
      inversion ND as [|? ? ND1 ND2]; subst. assert (ID : In d cs) by (apply IN; left; auto).
      assert (J1 : JP ref (fun s => P s \/ within (sl ++ [Child (mname d)]) s) (c_tree s1)).
      { assert (SKIP : (forall ch, alookup (mname d) fs = Some ch -> has_value d ch = false) -> forall s, within (sl ++ [Child (mname d)]) s -> ~ present s).
        { intros NO s (r & ->) PR. destruct (present_meta sm tm src Wsm Ksm Ktm _ PR) as (m' & n' & N & _).
          assert (CH : exists ch, alookup (mname d) fs = Some ch /\ (forall l mm nn, node_at sm src (sl ++ [Child (mname d)] ++ l) mm nn -> node_at d ch l mm nn)).
          { rewrite <- app_assoc in N. apply node_at_split in N as (m1 & n1 & N1 & N2). destruct (node_at_inj _ _ _ _ _ NA Wsm _ _ N1) as (<- & <-).
            simpl in N2. inversion N2; subst.
            match goal with H1 : In ?c cs, H2 : mname ?c = mname d |- _ => assert (c = d) by (inversion WM; subst; eapply nodup_name; eauto); subst end.
            eexists; split; eauto. intros l mm nn N3. apply node_at_split in N3 as (m3 & n3 & N3 & N4). destruct (node_at_inj _ _ _ _ _ NA Wsm _ _ N3) as (<- & <-).
            simpl in N4. inversion N4; subst. match goal with H1 : In ?c cs, H2 : mname ?c = mname d |- node_at d _ _ _ _ => assert (c = d) by (inversion WM; subst; eapply nodup_name; eauto); subst end.
            congruence. }
          destruct CH as (ch & A & DOWN).
          assert (NEM : nonempty d ch).
          { exists r. destruct PR as [(v & mm & LF & N3 & FV)|(k & mm & els & N3 & KK)].
            - left. exists v, mm. split; auto. split; auto. apply DOWN. rewrite app_assoc. exact N3.
            - right. exists k, mm, els. split; auto. apply DOWN. rewrite app_assoc. exact N3. }
          inversion CF; subst. apply has_value_nonempty in NEM; [|eauto]. rewrite (NO _ A) in NEM. discriminate. }
        destruct (alookup (mname d) fs) as [ch|] eqn:A.
        - destruct (has_value d ch) eqn:HV.
          + eapply IH; eauto; [|intros s PS; apply (DJ s d); auto; left; auto].
            eapply node_at_app; [exact NA|]. eapply na_child; eauto. constructor.
          + injection R1 as <-. eapply JP_ext; [| |exact HJ]; auto. intros s [H|H] PR _; auto. exfalso. eapply SKIP; eauto. intros ch' E. injection E as <-. auto.
        - injection R1 as <-. eapply JP_ext; [| |exact HJ]; auto. intros s [H|H] PR _; auto. exfalso. eapply SKIP; eauto. discriminate. }
      eapply JP_ext; [| |eapply (IHd _ ND2 _ s1 st' J1)].
      + intros s [H|(d' & [<-|I'] & H)] _ _; [left; left; auto|left; right; auto|right; eauto].
      + intros s [[H|H]|(d' & I' & H)]; [left; auto|right; exists d; split; auto; left; auto|right; exists d'; split; auto; right; auto].
      + intros s d' [H|(r & ->)] I' (r' & E).
        * eapply (DJ s d'); eauto. { right; auto. } exists r'. auto.
        * rewrite <- !app_assoc in E. apply app_inv_head in E. simpl in E. injection E as E _. apply ND1. rewrite E. apply in_map; auto.
      + exact R2.
      Unshelve. intros x I. apply IN. right; auto. }
  intros P st st' HJ DJ RUN. eapply JP_ext; [| |eapply (L cs (incl_refl _)); eauto].
  - intros s [H|(r & ->)] PR _; auto. right. destruct (present_meta sm tm src Wsm Ksm Ktm _ PR) as (m' & n' & N & KK & _).
    apply node_at_split in N as (m1 & n1 & N1 & N2). destruct (node_at_inj _ _ _ _ _ NA Wsm _ _ N1) as (<- & <-).
    inversion N2; subst; [simpl in KK; congruence|]. exists c. split; auto. eexists. rewrite <- app_assoc. reflexivity.
  - intros s [H|(d & _ & W)]; auto. right. eapply within_trans; [|exact W]. exists [Child (mname d)]. reflexivity.
  - inversion WM; subst; auto.
  - intros s d PS _ W. apply (DJ s PS). eapply within_trans; [|exact W]. exists [Child (mname d)]. reflexivity.
Qed.

Lemma elems_cb : forall ref nm cs sl tl all, part sl -> (forall d, In d cs -> copies_cb d) -> node_at sm src sl (Meta nm KAoS cs) (NAoS all) -> goes_to sl tl -> ctx sl tl ->
  ~ ruled (loc_names sl) -> ~ removed (loc_names sl) ->
  forall xs, (forall i e, In (i, e) xs -> nth_error all i = Some e) -> NoDup (map fst xs) ->
  forall P st st', JP ref P (c_tree st) -> (forall s i e, P s -> In (i, e) xs -> ~ within (sl ++ [Elem i]) s) ->
  citer (fun x => copy_children cs (node_fields (snd x)) (sl ++ [Elem (fst x)]) (tl ++ [Elem (fst x)])) xs st = (st', Ok tt) ->
  JP ref (fun s => P s \/ exists i e, In (i, e) xs /\ within (sl ++ [Elem i]) s) (c_tree st').
Proof.
  intros ref nm cs sl tl all DS IH NA GT CT NU NR. induction xs as [|[i e] xs IHx]; intros IN ND P st st' HJ DJ RUN.
  - simpl in RUN. injection RUN as <-. eapply JP_ext; [| |exact HJ]; auto. intros s [H|(i & e & [] & _)]; auto.
  - simpl in RUN. apply bind_ok in RUN as ([] & s1 & R1 & R2). inversion ND as [|? ? ND1 ND2]; subst. simpl in ND1.
    assert (NE : nth_error all i = Some e) by (apply IN; left; auto).
    assert (CE : conf (Meta nm KStruct cs) e).
    { assert (C : conf (Meta nm KAoS cs) (NAoS all)) by (eapply node_at_conf; eauto). inversion C; subst. match goal with H : forall e, In e all -> _ |- _ => apply H end. eapply nth_error_In; eauto. }
    destruct e as [fs|els|v]; [|inversion CE..].
    assert (NC : node_at sm src (sl ++ [Elem i]) (Meta nm KStruct cs) (NStruct fs)).
    { eapply node_at_app; [exact NA|]. econstructor; eauto. constructor. }
    assert (CC : ctx (sl ++ [Elem i]) (tl ++ [Elem i])).
    { split.
      - right. exists sl, i, [], tl, []. auto.
      - rewrite names_elem. intros HA HP. destruct CT as (_ & CT). rewrite (CT HA HP). reflexivity. }
    assert (J1 : JP ref (fun s => P s \/ within (sl ++ [Elem i]) s) (c_tree s1)).
    { eapply kids_cb; eauto; try (rewrite names_elem; auto). intros s PS. eapply DJ; eauto. left; reflexivity. }
    eapply JP_ext; [| |eapply (IHx _ ND2 _ s1 st' J1)].
    + intros s [H|(j & e' & [E|I'] & H)] _ _; [left; left; auto|left; right; congruence|right; eauto].
    + intros s [[H|H]|(j & e' & I' & H)]; [left; auto|right; exists i, (NStruct fs); split; auto; left; auto|right; exists j, e'; split; auto; right; auto].
    + intros s j e' [H|(r & ->)] I' (r' & E).
      * eapply (DJ s j e'); eauto. { right; auto. } exists r'. auto.
      * rewrite <- !app_assoc in E. apply app_inv_head in E. simpl in E. injection E as -> _. apply ND1. change j with (fst (j, e')). apply in_map; auto.
    + exact R2.
    Unshelve. intros j e' I. apply IN. right; auto.
Qed.

Theorem copies_cb_all : forall c, copies_cb c.
Proof.
  induction c as [nm k cs IH] using meta_ind'. unfold copies_cb. intros ref n sl tl P st st' DS NA HV CT NU NR HJ DJ RUN.
  cbn [mname] in *. set (sl' := sl ++ [Child nm]) in *. rewrite copy_item_cb_eq in RUN.
  apply bind_ok in RUN as (o & s1 & TI & RUN).
  assert (OB : same_obs tm (c_tree st) (c_tree s1)).
  { pose proof (pres_target_item tm rm (same_obs tm) (same_obs_refl tm)) as H.
    specialize (H ltac:(intros a b c' A B l; destruct (A l), (B l); split; congruence) ltac:(intros; apply obs_access) (path_string sl') nm tl st).
    rewrite TI in H. exact H. }
  apply (JP_obs _ _ _ _ OB) in HJ. clear OB.
  assert (NMS : loc_names sl' = loc_names sl ++ [nm]) by apply names_child.
  assert (PS : path_string sl' = slashed (loc_names sl ++ [nm])) by (unfold path_string; rewrite NMS; reflexivity).
  destruct o as [t|].
  2:{ (* not copied *)
      injection RUN as <-. eapply JP_ext; [| |exact HJ]; auto. intros s [H|H] _ G; auto. exfalso.
      apply (within_good rm) in H; auto. destruct H as (R & _). apply R. rewrite NMS. exists (loc_names sl ++ [nm]), []. rewrite app_nil_r. split; auto. split; [destruct (loc_names sl); discriminate|].
      unfold target_item in TI. rewrite PS in TI. unfold ConvSpec.entry. destruct (alookup (slashed (loc_names sl ++ [nm])) (VmapModel.m_path rm)) as [[q|]|]; auto.
      - destruct (parse q); [|discriminate]. apply bind_ok in TI as (? & ? & _ & TI). discriminate.
      - apply bind_ok in TI as ([cs'|?|? ?] & ? & _ & TI); try discriminate. destruct (child_meta nm cs'); [|discriminate].
        apply bind_ok in TI as (? & ? & _ & TI). discriminate. }
  assert (NRI : ~ removed (loc_names sl ++ [nm])).
  { intros R. apply removed_child in R as [R|R]; auto. unfold target_item in TI. rewrite PS in TI. unfold ConvSpec.entry in R. rewrite R in TI. discriminate. }
  destruct (item_target sm tm src rm enum_of Wsm Wtm Ksm Ktm F sl tl (Meta nm k cs) n st s1 t NA NRI NU CT TI) as (CT' & GO). cbn [mname mkind] in *. fold sl' in CT', GO.
  assert (RD : rule_at (loc_names sl ++ [nm]) \/ ~ rule_at (loc_names sl ++ [nm])).
  { unfold ConvSpec.rule_at. destruct (alookup _ (VmapModel.m_type rm)); [left; left; discriminate|]. destruct (alookup _ (VmapModel.m_post rm)); [left; right; discriminate|].
    right. intros [H|H]; congruence. }
  destruct RD as [RU|NRU].
  - (* a special rule *)
    destruct (GO (or_intror RU)) as (GT & _).
    assert (BR : forall l, reach t l -> by_rule l).
    { intros l RL. exists sl', t, (Meta nm k cs), n. split; auto. split; [apply has_value_nonempty; auto; eapply node_at_conf; eauto|].
      split; [unfold sl'; destruct sl; discriminate|]. rewrite NMS. auto. }
    assert (FR : R_frame tm (reach t) (c_tree s1) (c_tree st')).
    { pose proof (pres_copy_rest_cb
        (R_frame tm (reach t)) (reach t) (frame_refl tm (reach t)) (frame_trans tm (reach t)) (frame_access tm (reach t))
        (frame_assign tm str_of parse_float parse_cpx flt_of_int np_cast array_items (reach t)) (frame_resize tm (reach t)) (fun c n sl tl O s => cb_frame (reach t) c n sl tl s O) t) as H.
      specialize (H ltac:(intros l WL; left; exact WL) ltac:(right; reflexivity) (Meta nm k cs) n sl' t).
      assert (SB : stays_below tm rm t (Meta nm k cs) (loc_names sl')); [|specialize (H SB ltac:(auto with conv) s1); rewrite RUN in H; exact H].
      intros d ID r mr s ip tl' n1 n2 t' AP EN PA (w & ->) GG. rewrite NMS in EN. cbn [mchildren] in ID.
      assert (API : at_path sm ((loc_names sl ++ [nm]) ++ mname d :: r) mr).
      { eapply at_path_app. { rewrite <- NMS. apply loc_at_path; [eapply node_at_loc_ok; exact NA|apply child_not_elem]. } constructor; auto. }
      assert (TN : loc_names t <> []).
      { destruct (goes_to_path tm rm _ _ GT) as (mt & PT & _). destruct GT as (MP & _). rewrite NMS in MP.
        destruct (ft_target _ _ _ F (loc_names sl ++ [nm]) (Meta nm k cs)) as (q & mq & MQ & QN & AQ & _); auto.
        - rewrite <- NMS. apply loc_at_path; [eapply node_at_loc_ok; exact NA|apply child_not_elem].
        - destruct (loc_names sl); discriminate.
        - intros a b E NB Na RA. apply NU. destruct (exists_last NB) as (b' & y & ->). rewrite app_assoc in E. apply app_inj_tail in E as (E & _). exists a, b'. auto.
        - rewrite (mapped_fun sm tm rm F _ _ _ _ _ MP MQ PT AQ). auto. }
      destruct (goes_to_path tm rm _ _ GT) as (m0 & PT & _). destruct GT as (MP & _). rewrite NMS in MP.
      destruct (ft_inside _ _ _ F (loc_names sl ++ [nm]) (mname d :: r) mr s (loc_names t) m0 API) as (q1 & -> & FN); auto.
      { destruct (loc_names sl); discriminate. }
      { discriminate. }
      { unfold ConvSpec.entry. rewrite <- app_assoc in EN. exact EN. }
      rewrite parse_plain in PA; auto; [|destruct (loc_names t); [congruence|discriminate]]. injection PA as <-. eapply goto_within; eauto. }
    apply (JP_rule ref P _ _ t BR FR) in HJ. eapply JP_ext; [| |exact HJ]; auto. intros s [H|H] _ G; auto. exfalso.
    apply (within_good rm) in H; auto. destruct H as (_ & U). apply U. rewrite NMS. exists (loc_names sl ++ [nm]), []. rewrite app_nil_r. split; auto. split; auto. destruct (loc_names sl); discriminate.
  - (* no special rule *)
    assert (NUI : ~ ruled (loc_names sl')) by (rewrite NMS; intros U; apply ruled_child in U as [U|U]; auto).
    assert (GS : good sl') by (split; [rewrite NMS|]; auto).
    unfold copy_rest_cb in RUN. rewrite PS in RUN.
    assert (N1 : alookup (slashed (loc_names sl ++ [nm])) (VmapModel.m_type rm) = None).
    { destruct (alookup _ (VmapModel.m_type rm)) eqn:E; auto. exfalso. apply NRU. left. congruence. }
    assert (N2 : alookup (slashed (loc_names sl ++ [nm])) (VmapModel.m_post rm) = None).
    { destruct (alookup (slashed (loc_names sl ++ [nm])) (VmapModel.m_post rm)) eqn:E; auto. exfalso. apply NRU. right. congruence. }
    rewrite N1, N2 in RUN. apply bind_ok in RUN as (r & s2 & E2 & RUN). injection E2 as <- <-. cbn [mchildren] in RUN.
    apply bind_ok in RUN as ([] & s3 & RUN & CB). unfold cbind, cret in CB.
    pose proof DS as DS'.
    assert (CF : conf (Meta nm k cs) n) by (eapply node_at_conf; eauto).
    destruct n as [fs|els|v].
    + (* a structure *)
      assert (k = KStruct) as -> by (inversion CF; auto).
      eapply JP_obs; [eapply (cb_other _ _ _ _ _ _ DS' NA); [|exact CB]; intros ?; discriminate|].
      eapply (kids_cb ref nm cs fs sl' t); eauto. rewrite NMS; auto.
    + (* an array of structures *)
      assert (k = KAoS) as -> by (inversion CF; auto).
      eapply JP_obs; [eapply (cb_other _ _ _ _ _ _ DS' NA); [|exact CB]; intros ?; discriminate|].
      apply bind_ok in RUN as ([] & s2 & RZ & RUN). destruct GO as (GT & mt & LT & KT); [left; discriminate|]. specialize (KT NRU).
      assert (AO : aos_at sm src sl' (length els)) by (exists (Meta nm KAoS cs), els; simpl in HV; apply Nat.ltb_lt in HV; auto).
      apply resize_obs in RZ as (Z1 & Z2 & Z3 & Z4).
      assert (J1 : JP ref (fun s => P s \/ s = sl') (c_tree s2)).
      { destruct HJ as (A & B & C & D & E0). split; [|split; [|split; [|split]]].
        - intros s v t1 [Hs| ->] LA G G1 NB.
          + destruct (Z4 t1) as (-> & _); eauto. intros W. eapply (DJ s Hs). eapply (inside_array sm tm src rm Wsm Wtm Ksm Ktm proper F sl' t s t1); eauto. left; eauto.
          + exfalso. destruct LA as (m' & (dt & nd & KL) & NL & _). destruct (node_at_inj _ _ _ _ _ NA Wsm _ _ NL) as (_ & E). discriminate.
        - intros s j t1 [Hs| ->] LA G G1 NB.
          + destruct (Z4 t1) as (_ & ->); eauto. intros W. eapply (DJ s Hs). eapply (inside_array sm tm src rm Wsm Wtm Ksm Ktm proper F sl' t s t1); eauto. right; eauto.
          + rewrite (goes_fun sm tm rm Wtm F _ _ _ G1 GT), Z1. destruct LA as (m' & els' & NL & _ & <- & _). destruct (node_at_inj _ _ _ _ _ NA Wsm _ _ NL) as (_ & E). congruence.
        - intros t1 v E. destruct (within_dec t t1) as [(r & ->)|W].
          + destruct r as [|x r]; [rewrite app_nil_r in E|destruct (Z3 x r) as (E' & _)]; congruence.
          + destruct (Z4 t1 W) as (E' & _). rewrite E' in E. destruct (C _ _ E) as [(s & v' & X & Y)|X]; [left; eauto|right; auto].
        - intros t1 j E. destruct (within_dec t t1) as [(r & ->)|W].
          + destruct r as [|x r]; [|destruct (Z3 x r) as (_ & [E'|E']); congruence]. rewrite app_nil_r in *. left. exists sl'. rewrite Z1 in E. injection E as E. rewrite <- E. auto.
          + destruct (Z4 t1 W) as (_ & E'). rewrite E' in E. destruct (D _ _ E) as [(s & X & Y)|X]; eauto.
        - intros t1 (NB & U). destruct (Z4 t1) as (-> & _); [|apply E0; split; auto]. apply (U sl'); auto. right; eauto. }
      eapply JP_ext; [| |eapply (elems_cb ref nm cs sl' t els)]; eauto.
      * intros s [H|(r & ->)] PR G; auto. destruct r as [|x r]; [rewrite app_nil_r; auto|]. right.
        destruct (present_meta sm tm src Wsm Ksm Ktm _ PR) as (m' & n' & NP & _). apply node_at_split in NP as (m1 & n1 & NP & NQ).
        destruct (node_at_inj _ _ _ _ _ NA Wsm _ _ NP) as (<- & <-). inversion NQ; subst.
        exists i, e. split; [apply enum_In; auto|]. exists r. rewrite <- app_assoc. reflexivity.
      * intros s [[H| ->]|(i & e & _ & (r & ->))]; [left; auto|right; apply within_refl|right; exists (Elem i :: r); rewrite <- app_assoc; reflexivity].
      * rewrite NMS; auto.
      * intros i e I. apply enum_In; auto.
      * unfold enum. rewrite map_fst_combine by apply seq_length. apply seq_NoDup.
      * intros s i e [H| ->] _ W.
        -- apply (DJ s H). eapply within_trans; [|exact W]. exists [Elem i]. reflexivity.
        -- destruct W as (r & E). rewrite <- app_assoc in E. rewrite <- (app_nil_r sl') in E at 1. apply app_inv_head in E. discriminate.
    + (* a data node *)
      destruct k as [| |dt nd]; [inversion CF..|]. destruct GO as (GT & mt & LT & KT); [left; discriminate|]. specialize (KT NRU). cbn [mkind] in KT.
      destruct v as [v|]; [|destruct nd; discriminate HV].
      assert (LV : leaf_at sm src sl' v).
      { exists (Meta nm (KLeaf dt nd) cs). split; [exists dt, nd; reflexivity|]. split; auto. inversion CF; subst. simpl in HV.
        eapply filled_value_len; eauto. }
      destruct LV as (m' & LF & NL & FV). destruct (node_at_inj _ _ _ _ _ NA Wsm _ _ NL) as (<- & _).
      destruct (leaf_at_has sm src parse_float parse_cpx flt_of_int np_int32 enum_of proper _ v dt nd CF eq_refl FV) as (VO & HV').
      cbn [leaf_value] in RUN.
      destruct (assign_same tm str_of parse_float parse_cpx flt_of_int np_cast array_items Wtm np_same t _ v _ _ mt dt nd RUN LT KT VO) as (A1 & A2 & A3); auto.
      { intros ->. eapply proper; eauto. }
      assert (LV : leaf_at sm src sl' v) by (exists (Meta nm (KLeaf dt nd) cs); auto).
      destruct (cb_leaf _ _ _ t mt dt nd _ _ DS' NA eq_refl LV LT KT A1 A2 CB) as (B1 & B2).
      assert (B3 : forall l, l <> t -> fval (c_tree st') l = fval (c_tree s1) l /\ fsize (c_tree st') l = fsize (c_tree s1) l).
      { intros l NL2. destruct (A3 l NL2) as (<- & <-). pose proof (cb_frame (fun l => l = t) (Meta nm (KLeaf dt nd) cs) (NLeaf (Some v)) sl' t s3 eq_refl l NL2) as H.
        rewrite CB in H. exact H. }
      clear A1 A2 A3. rename B1 into A1, B2 into A2, B3 into A3.
      destruct HJ as (A & B & C & D & E0). split; [|split; [|split; [|split]]].
      * intros s v1 t1 [Hs|W] LA G G1 NB.
        -- destruct (A3 t1) as (-> & _); eauto. intros ->. apply (DJ s Hs). rewrite (goes_inj sm tm src rm Wsm Ksm Ktm F s sl' t); auto with conv; left; eauto.
        -- assert (s = sl') as ->.
           { destruct W as (r & ->). destruct LA as (m2 & _ & N3 & _). apply node_at_split in N3 as (m3 & n3 & N3 & N4). destruct (node_at_inj _ _ _ _ _ NA Wsm _ _ N3) as (<- & <-).
             inversion N4; subst. apply app_nil_r. }
           rewrite (goes_fun sm tm rm Wtm F _ _ _ G1 GT), A1. destruct LA as (m2 & _ & N3 & _). destruct (node_at_inj _ _ _ _ _ NA Wsm _ _ N3) as (_ & E). congruence.
      * intros s v1 t1 [Hs|W] LA G G1 NB.
        -- destruct (A3 t1) as (_ & ->); eauto. intros ->. apply (DJ s Hs). rewrite (goes_inj sm tm src rm Wsm Ksm Ktm F s sl' t); auto with conv; [right|left]; eauto.
        -- exfalso. destruct W as (r & ->). destruct LA as (m2 & els & N3 & _). apply node_at_split in N3 as (m3 & n3 & N3 & N4). destruct (node_at_inj _ _ _ _ _ NA Wsm _ _ N3) as (<- & <-).
           inversion N4.
      * intros t1 v1 E. destruct (loc_dec t1 t) as [->|NT].
        -- left. exists sl', v. rewrite E in A1. auto with conv.
        -- destruct (A3 t1 NT) as (E' & _). rewrite E' in E. destruct (C _ _ E) as [(s & v' & X & Y)|X]; [left; eauto|right; auto].
      * intros t1 v1 E. destruct (loc_dec t1 t) as [->|NT]; [congruence|].
        destruct (A3 t1 NT) as (_ & E'). rewrite E' in E. destruct (D _ _ E) as [(s & X & Y)|X]; eauto.
      * intros t1 (NB & U). destruct (A3 t1) as (-> & _); [|apply E0; split; auto]. intros ->. apply (U sl' t); auto with conv. left; eauto.
Qed.
End Copy.
