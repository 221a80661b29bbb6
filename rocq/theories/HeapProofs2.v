(** Preservation of [tidy] by the operations (except deep copy). *)
From Verif Require Import Base TreeModel TreeProofs4 PathModel HeapModel HeapSpec HeapProofs.

Lemma body_of_get : forall h x ob, get h x = Some ob -> body_of h x = Some (o_body ob).
Proof. intros h x ob E. unfold body_of. now rewrite E. Qed.
Lemma get_body_of : forall h x b, body_of h x = Some b -> exists ob, get h x = Some ob /\ o_body ob = b.
Proof. intros h x b E. unfold body_of in E. destruct (get h x) as [ob|]; inversion E. eauto. Qed.
Lemma body_lt : forall h x b, body_of h x = Some b -> x < length (h_objs h).
Proof. intros h x b E. apply get_body_of in E as (ob & G & _). eapply get_lt; eauto. Qed.

(** What [getattr] does *)
Lemma getattr_cases : forall h o name h' r, getattr h o name = (h', r) ->
  (h' = h /\ ((exists e, r = Err e) \/ exists fs x, r = Ok x /\ body_of h o = Some (BStruct fs) /\ alookup name fs = Some x))
  \/ exists ob fs cm, get h o = Some ob /\ o_body ob = BStruct fs /\ alookup name fs = None /\
       child_meta name (mchildren (o_meta ob)) = Some cm /\ r = Ok (length (h_objs h)) /\
       h' = set_body (fst (alloc h (new_child o (o_path ob) cm))) o (BStruct (aset name (length (h_objs h)) fs)).
Proof.
  intros h o name h' r. unfold getattr. destruct (get h o) as [ob|] eqn:G; [|intros E; inversion E; eauto].
  destruct (o_body ob) as [fs| |] eqn:B; try (intros E; inversion E; eauto; fail).
  destruct (alookup name fs) as [x|] eqn:A.
  - intros E. inversion E; subst. left. split; auto. right. exists fs, x. repeat split; auto. rewrite (body_of_get _ _ _ G). now rewrite B.
  - destruct (child_meta name (mchildren (o_meta ob))) as [cm|] eqn:C; [|intros E; inversion E; eauto].
    intros E. inversion E; subst. right. exists ob, fs, cm. auto 10.
Qed.

Lemma tidy_getattr : forall h o name, tidy h -> tidy (fst (getattr h o name)).
Proof.
  intros h o name T. destruct (getattr h o name) as (h', r) eqn:E. simpl.
  apply getattr_cases in E as [(-> & _)|(ob & fs & cm & G & B & A & C & -> & ->)]; auto.
  set (n := length (h_objs h)). set (h1 := fst (alloc h (new_child o (o_path ob) cm))).
  assert (T1 : tidy h1) by (apply tidy_alloc; auto; apply new_body_empty).
  assert (Lo : o < n) by (eapply get_lt; eauto).
  assert (Bo : body_of h1 o = Some (BStruct fs)).
  { unfold h1. rewrite body_of_alloc. destruct (Nat.eqb_spec o (length (h_objs h))); [subst n; lia|]. rewrite (body_of_get _ _ _ G). now rewrite B. }
  pose proof (t_keys _ T _ _ _ G B) as Hn.
  assert (In1 : forall s x, in_body (BStruct (aset name n fs)) s x -> (s = Child name /\ x = n) \/ (slot h o s x /\ x < n)).
  { intros [k|i] x; simpl; [|tauto]. intros H. apply in_aset in H as [(-> & ->)|(N & I)]; auto. right.
    assert (slot h o (Child k) x) by (econstructor; eauto). split; auto. eapply (t_exists _ T); eauto. }
  eapply tidy_body; [exact T1|exact Bo|exact I|..].
  - intros s x I. apply In1 in I as [(-> & ->)|(I & L)].
    + unfold h1. rewrite len_alloc, parent_alloc. fold n. rewrite Nat.eqb_refl. split; [lia|reflexivity].
    + unfold h1. rewrite len_alloc, parent_alloc. fold n. destruct (Nat.eqb_spec x n); [lia|]. split; [lia|]. eapply (t_parent _ T); eauto.
  - intros s s' x I I'. apply In1 in I as [(-> & ->)|(I & L)]; apply In1 in I' as [(-> & E)|(I' & L')]; auto; try lia.
    eapply (t_once _ T); eauto.
  - intros f E. inversion E; subst. apply nodup_aset; auto.
  - intros k x xo I Gx. apply (In1 (Child k)) in I as [(E & ->)|(I & L)].
    + inversion E; subst k. unfold h1 in Gx. rewrite get_alloc in Gx. fold n in Gx. rewrite Nat.eqb_refl in Gx. inversion Gx; subst xo. simpl.
      apply child_meta_Some in C. tauto.
    + unfold h1 in Gx. rewrite get_alloc in Gx. fold n in Gx. destruct (Nat.eqb_spec x n); [lia|]. eapply (t_name _ T); eauto.
  - intros i x [].
  - intros s x I. apply In1 in I as [(-> & ->)|(I & L)].
    + right. intros R. apply reach_empty in R; [lia|]. intros s y Hs. apply slot_alloc in Hs; [|apply new_body_empty].
      apply slot_lt in Hs. fold n in Hs. lia.
    + left. exists s. apply slot_alloc; auto. apply new_body_empty.
Qed.

Lemma len_getattr : forall h o name, length (h_objs h) <= length (h_objs (fst (getattr h o name))).
Proof.
  intros h o name. destruct (getattr h o name) as (h', r) eqn:E. simpl.
  apply getattr_cases in E as [(-> & _)|(ob & fs & cm & _ & _ & _ & _ & _ & ->)]; auto. rewrite len_set_body, len_alloc. lia.
Qed.

Lemma py_index_lt : forall n i k, py_index n i = Some k -> k < n.
Proof.
  unfold py_index. intros n i k. destruct ((0 <=? i) && (i <? Z.of_nat n))%Z eqn:E1.
  - intros H. inversion H; subst. apply andb_true_iff in E1 as (A & B). apply Z.leb_le in A. apply Z.ltb_lt in B. lia.
  - destruct ((- Z.of_nat n <=? i) && (i <? 0))%Z eqn:E2; [|discriminate].
    intros H. inversion H; subst. apply andb_true_iff in E2 as (A & B). apply Z.leb_le in A. apply Z.ltb_lt in B. lia.
Qed.
Lemma fst_getitem : forall h a i, fst (aos_getitem h a i) = h.
Proof. intros. unfold aos_getitem. destruct (get h a); auto. destruct (o_body o); auto. destruct (py_index _ _); auto. Qed.

Lemma tidy_setitem : forall h a i v, tidy h -> detached h v -> ~ reach h v a -> is_struct h v -> parent h v = Some a ->
  tidy (fst (aos_setitem h a i v)).
Proof.
  intros h a i v T (Lv & D) Hr Hst Hp. unfold aos_setitem. destruct (get h a) as [ob|] eqn:G; auto.
  destruct (o_body ob) as [|els|] eqn:B; auto. destruct (py_index (length els) i) as [k|] eqn:P; auto. simpl.
  apply py_index_lt in P.
  assert (In1 : forall s x, in_body (BAoS (list_set k v els)) s x -> (s = Elem k /\ x = v) \/ slot h a s x).
  { intros [nm|j] x; simpl; [tauto|]. rewrite nth_error_list_set. destruct (Nat.eqb_spec k j) as [->|].
    - destruct (nth_error els j); intros E; inversion E; auto.
    - intros E. right. econstructor; eauto. }
  eapply tidy_body; [exact T|rewrite (body_of_get _ _ _ G), B; reflexivity|simpl; auto|..].
  - intros s x I. apply In1 in I as [(-> & ->)|I]; [auto|]. split; [eapply (t_exists _ T); eauto|eapply (t_parent _ T); eauto].
  - intros s s' x I I'. apply In1 in I as [(-> & ->)|I]; apply In1 in I' as [(-> & E)|I']; auto.
    + elim (D a). exists s'. auto.
    + subst. elim (D a). exists s. auto.
    + eapply (t_once _ T); eauto.
  - discriminate.
  - simpl. tauto.
  - intros j x I. apply (In1 (Elem j)) in I as [(_ & ->)|I]; auto. eapply (t_elem _ T); eauto.
  - intros s x I. apply In1 in I as [(-> & ->)|I]; auto. left. exists s. auto.
Qed.

Lemma tidy_append1 : forall h a els v, tidy h -> body_of h a = Some (BAoS els) -> detached h v -> ~ reach h v a -> is_struct h v ->
  tidy (set_body (set_parent h v a) a (BAoS (els ++ [v]))).
Proof.
  intros h a els v T B (Lv & D) Hr Hst.
  assert (T1 : tidy (set_parent h v a)) by (apply tidy_parent; auto; intros c Hc; elim (D c Hc)).
  assert (In1 : forall s x, in_body (BAoS (els ++ [v])) s x -> (s = Elem (length els) /\ x = v) \/ slot h a s x).
  { intros [nm|j] x; simpl; [tauto|]. intros E. destruct (Nat.lt_ge_cases j (length els)) as [Lj|Lj].
    - rewrite nth_error_app1 in E by auto. right. apply slot_iff. exists (BAoS els). auto.
    - rewrite nth_error_app2 in E by auto. destruct (j - length els) as [|q] eqn:J; simpl in E; [|destruct q; discriminate].
      inversion E. left. split; auto. f_equal. lia. }
  eapply tidy_body; [exact T1|rewrite body_of_set_parent; exact B|simpl; auto|..].
  - intros s x I. rewrite len_set_parent, parent_set_parent. apply In1 in I as [(-> & ->)|I].
    + rewrite Nat.eqb_refl. destruct (get_some h v Lv) as (ob & ->). auto.
    + destruct (Nat.eqb_spec v x) as [->|]; [elim (D a); exists s; auto|]. split; [eapply (t_exists _ T); eauto|eapply (t_parent _ T); eauto].
  - intros s s' x I I'. apply In1 in I as [(-> & ->)|I]; apply In1 in I' as [(-> & E)|I']; auto.
    + elim (D a). exists s'. auto.
    + subst. elim (D a). exists s. auto.
    + eapply (t_once _ T); eauto.
  - discriminate.
  - simpl. tauto.
  - intros j x I. apply is_struct_iff. rewrite body_of_set_parent. apply is_struct_iff.
    apply (In1 (Elem j)) in I as [(_ & ->)|I]; auto. eapply (t_elem _ T); eauto.
  - intros s x I. apply In1 in I as [(-> & ->)|I].
    + right. intros R. apply Hr. apply reach_rtc in R. apply reach_rtc. eapply rtc_mono; [|exact R].
      intros x y (s & K). exists s. now apply slot_set_parent in K.
    + left. exists s. now apply slot_set_parent.
Qed.

(** A detached node stays so when another one is attached; reachability only grows below the container. *)
Lemma append1_slot : forall h a els v c s x, body_of h a = Some (BAoS els) ->
  slot (set_body (set_parent h v a) a (BAoS (els ++ [v]))) c s x -> slot h c s x \/ (c = a /\ x = v).
Proof.
  intros h a els v c s x B Hs. apply slot_set_body in Hs; [|rewrite len_set_parent; eapply body_lt; eauto].
  destruct Hs as [(-> & I)|(N & K)]; [|left; now apply slot_set_parent in K].
  destruct s as [nm|j]; simpl in I; [tauto|]. destruct (Nat.lt_ge_cases j (length els)) as [Lj|Lj].
  - rewrite nth_error_app1 in I by auto. left. apply slot_iff. exists (BAoS els). auto.
  - rewrite nth_error_app2 in I by auto. destruct (j - length els) as [|q] eqn:J; simpl in I; [|destruct q; discriminate].
    inversion I. auto.
Qed.

Lemma tidy_append : forall vs h a, tidy h -> NoDup vs ->
  (forall v, In v vs -> detached h v /\ ~ reach h v a /\ is_struct h v) -> tidy (fst (append h a vs)).
Proof.
  induction vs as [|v vs IH]; intros h a T Hn Hv; auto. cbn [append].
  destruct (get h a) as [ob|] eqn:G; auto. destruct (o_body ob) as [|els|] eqn:B; auto.
  assert (Bo : body_of h a = Some (BAoS els)) by (rewrite (body_of_get _ _ _ G), B; auto).
  inversion Hn as [|? ? N1 N2]; subst. destruct (Hv v) as (Dv & Rv & Sv); simpl; auto.
  apply IH; auto.
  - apply tidy_append1; auto.
  - intros w Hw. destruct (Hv w) as ((Lw & Dw) & Rw & Sw); simpl; auto. assert (w <> v) by (intros ->; auto).
    split; [split|split].
    + rewrite len_set_body, len_set_parent. auto.
    + intros c (s & K). apply (append1_slot h a els v) in K as [K|(-> & ->)]; auto. apply (Dw c). exists s. auto.
    + intros R. apply reach_rtc in R.
      apply (rtc_new (contained h) _ a) in R; [|].
      * destruct R as [R|(R & _)]; apply Rw; apply reach_rtc; auto.
      * intros x y (s & K). apply (append1_slot h a els v) in K as [K|(-> & ->)]; auto; [left; exists s; auto|].
        right. split; auto. rewrite <- reach_rtc. auto.
    + apply is_struct_iff. rewrite body_of_set_body, body_of_set_parent. destruct (Nat.eqb_spec a w) as [->|]; [|now apply is_struct_iff].
      apply is_struct_iff in Sw as (fs & E). congruence.
Qed.

Lemma alloc_elems_spec : forall k h a p m h' l, alloc_elems h a p m k = (h', l) -> tidy h ->
  tidy h' /\ l = seq (length (h_objs h)) k /\ length (h_objs h') = length (h_objs h) + k /\
  (forall y, y < length (h_objs h) -> get h' y = get h y) /\
  (forall y, In y l -> get h' y = Some (new_elem a p m)) /\ h_bufs h' = h_bufs h.
Proof.
  induction k as [|k IH]; cbn [alloc_elems]; intros h a p m h' l E T.
  - inversion E; subst. split; [exact T|]. split; [reflexivity|]. split; [lia|]. split; auto. split; auto. intros y [].
  - destruct (alloc h (new_elem a p m)) as (h1, x) eqn:A. destruct (alloc_elems h1 a p m k) as (h2, l') eqn:E2. inversion E; subst h' l.
    assert (h1 = fst (alloc h (new_elem a p m))) by now rewrite A.
    assert (x = length (h_objs h)) by (unfold alloc in A; inversion A; auto).
    apply IH in E2 as (T2 & -> & L & G1 & G2 & Eb).
    2:{ subst h1. apply tidy_alloc; auto. intros [k'|i] y; simpl; auto. }
    subst h1 x. rewrite len_alloc in *. split; auto. split; [reflexivity|]. split; [lia|]. split; [|split; [|rewrite Eb; auto]].
    + intros y Hy. rewrite G1 by lia. rewrite get_alloc. destruct (Nat.eqb_spec y (length (h_objs h))); auto. lia.
    + intros y [<-|Hy]; auto. rewrite G1 by lia. rewrite get_alloc, Nat.eqb_refl. auto.
Qed.

Lemma tidy_shrink : forall h a els els', tidy h -> body_of h a = Some (BAoS els) ->
  (forall i x, nth_error els' i = Some x -> nth_error els i = Some x) -> tidy (set_body h a (BAoS els')).
Proof.
  intros h a els els' T B Hs.
  assert (In1 : forall s x, in_body (BAoS els') s x -> slot h a s x).
  { intros [k|i] x; simpl; [tauto|]. intros E. apply slot_iff. exists (BAoS els). simpl. auto. }
  eapply tidy_body; eauto; simpl; auto; try tauto; try discriminate.
  - intros s x I. apply In1 in I. split; [eapply (t_exists _ T); eauto|eapply (t_parent _ T); eauto].
  - intros s s' x I I'. apply In1 in I, I'. eapply (t_once _ T); eauto.
  - intros i x I. apply (In1 (Elem i)) in I. eapply (t_elem _ T); eauto.
  - intros s x I. left. exists s. auto.
Qed.

Lemma tidy_resize : forall h a n keep, tidy h -> tidy (fst (resize h a n keep)).
Proof.
  intros h a n keep T. unfold resize. destruct (n <? 0)%Z; auto. destruct (get h a) as [ob|] eqn:G; auto.
  destruct (o_body ob) as [|els0|] eqn:B; auto.
  assert (Bo : body_of h a = Some (BAoS els0)) by (rewrite (body_of_get _ _ _ G), B; auto).
  set (els := if keep then els0 else []). set (k := Z.to_nat n).
  assert (Hsub : forall i x, nth_error els i = Some x -> nth_error els0 i = Some x).
  { intros i x. unfold els. destruct keep; auto. destruct i; discriminate. }
  destruct (length els <? k) eqn:C1.
  - destruct (alloc_elems h a (o_path ob) (o_meta ob) (k - length els)) as (h1, new) eqn:E. simpl.
    apply alloc_elems_spec in E as (T1 & -> & L & G1 & G2 & _); auto.
    assert (La : a < length (h_objs h)) by (eapply get_lt; eauto).
    set (new := seq (length (h_objs h)) (k - length els)) in *.
    assert (In1 : forall s x, in_body (BAoS (els ++ new)) s x ->
              (slot h a s x /\ x < length (h_objs h)) \/ (In x new /\ s = Elem (length els + (x - length (h_objs h))) /\ length (h_objs h) <= x)).
    { intros [nm|i] x; simpl; [tauto|]. intros I. destruct (Nat.lt_ge_cases i (length els)) as [Li|Li].
      - rewrite nth_error_app1 in I by auto. left. assert (slot h a (Elem i) x) by (apply slot_iff; exists (BAoS els0); simpl; auto).
        split; auto. eapply (t_exists _ T); eauto.
      - rewrite nth_error_app2 in I by auto. right. split; [eapply nth_error_In; eauto|].
        assert (i - length els < k - length els) as Lt.
        { assert (i - length els < length new) as Nn by (apply nth_error_Some; unfold oid in *; congruence). unfold new in Nn. now rewrite seq_length in Nn. }
        unfold new in I. assert (nth (i - length els) (seq (length (h_objs h)) (k - length els)) 0 = x) by (eapply nth_error_nth; eauto).
        rewrite seq_nth in H by auto. subst x. split; [f_equal; lia|lia]. }
    eapply tidy_body; [exact T1|unfold body_of; rewrite G1, G by auto; simpl; rewrite B; reflexivity|exact I|..].
    + intros s x I. rewrite L. apply In1 in I as [(I & Lx)|(I & -> & Lx)].
      * split; [lia|]. unfold parent. rewrite G1 by auto. apply (t_parent _ T _ _ _ I).
      * pose proof I as I'. apply in_seq in I'. split; [lia|]. unfold parent. rewrite G2 by auto. reflexivity.
    + intros s s' x I I'. apply In1 in I as [(I & Lx)|(I & -> & Lx)]; apply In1 in I' as [(I' & Lx')|(I' & -> & Lx')]; try lia; auto.
      eapply (t_once _ T); eauto.
    + discriminate.
    + simpl. tauto.
    + intros i x I. apply is_struct_iff. unfold body_of. apply (In1 (Elem i)) in I as [(I & Lx)|(I & _ & Lx)].
      * rewrite G1 by auto. apply is_struct_iff. eapply (t_elem _ T); eauto.
      * rewrite G2 by auto. simpl. eauto.
    + intros s x I. apply In1 in I as [(I & Lx)|(I & -> & Lx)].
      * left. exists s. apply slot_iff in I as (b & Eb & Ib). apply slot_iff. exists b. split; auto. unfold body_of. now rewrite G1.
      * right. intros R. apply reach_empty in R; [subst; lia|]. intros s y Hs. apply slot_iff in Hs as (b & Eb & Ib).
        unfold body_of in Eb. rewrite G2 in Eb by auto. simpl in Eb. inversion Eb; subst b. destruct s; simpl in Ib; auto.
  - destruct (k <? length els) eqn:C2; simpl.
    + eapply tidy_shrink; eauto. intros i x E. apply Hsub. destruct (Nat.lt_ge_cases i k) as [Li|Li].
      * now rewrite nth_error_firstn in E.
      * assert (nth_error (firstn k els) i <> None) as Nn by congruence. apply nth_error_Some in Nn. rewrite firstn_length in Nn. lia.
    + eapply tidy_shrink; eauto.
Qed.

(** Data nodes *)
Lemma tidy_value : forall h p, tidy h -> tidy (fst (prim_value h p)).
Proof.
  intros h p T. unfold prim_value. destruct (get h p) as [ob|] eqn:G; auto.
  destruct (o_body ob) as [| |[s|]] eqn:B; auto. destruct (mkind (o_meta ob)) as [| |dt [|nd]]; auto. simpl.
  eapply (tidy_prim _ _ None); [eapply tidy_objs; [|exact T]; reflexivity|]. unfold body_of, get in *. simpl. rewrite G. simpl. now rewrite B.
Qed.
(** Only buffers are allocated, and only the body of a data node changes. *)
Lemma objs_value : forall h p h1 r, prim_value h p = (h1, r) -> forall y,
  get h1 y = get h y \/ (y = p /\ exists ob b, get h p = Some ob /\ o_body ob = BPrim None /\ get h1 y = Some (with_body (BPrim (Some (SBuf b))) ob)).
Proof.
  intros h p h1 r. unfold prim_value. destruct (get h p) as [ob|] eqn:G; [|intros E; inversion E; auto].
  destruct (o_body ob) as [| |[s|]] eqn:B; try (intros E; inversion E; auto; fail).
  destruct (mkind (o_meta ob)) as [| |dt [|nd]]; try (intros E; inversion E; auto; fail).
  intros E. inversion E; subst. intros y. rewrite get_set_body. destruct (Nat.eqb_spec p y) as [->|]; auto.
  right. split; auto. exists ob, (length (h_bufs h)). unfold get in *. simpl. rewrite G. auto.
Qed.
Section WithCast.
Variable cast : dtype -> nat -> value -> result exn value.
Lemma objs_store : forall h nd v, h_objs (fst (store h nd v)) = h_objs h.
Proof. intros. destruct nd; auto. Qed.
Lemma objs_cast_stored : forall h dt nd s, h_objs (fst (cast_stored cast h dt nd s)) = h_objs h.
Proof.
  intros. unfold cast_stored. destruct (deref h s) as [v|]; auto.
  assert (X : h_objs (fst (match cast dt nd v with Ok w => let (h1, s1) := store h nd w in (h1, Ok s1) | Err e => (h, Err e) end)) = h_objs h).
  { destruct (cast dt nd v); auto. destruct (store h nd a) as (h1, s1) eqn:E. simpl. replace h1 with (fst (store h nd a)) by now rewrite E. apply objs_store. }
  destruct nd; auto. destruct s; auto. destruct (is_array dt v); auto. destruct (_ =? _); auto.
Qed.
Lemma setter_tidy : forall h dt nd a, tidy h -> tidy (fst (setter_value cast h dt nd a)).
Proof.
  intros h dt nd a T. destruct a as [v|b|q]; cbn [setter_value].
  - destruct (cast dt nd v); auto. destruct (store h nd a) as (h1, s) eqn:E. simpl. eapply tidy_objs; [|exact T].
    replace h1 with (fst (store h nd a)) by now rewrite E. apply objs_store.
  - eapply tidy_objs; [|exact T]. apply objs_cast_stored.
  - destruct (get h q) as [qo|] eqn:G; auto. destruct (o_body qo) eqn:B; auto. destruct (mkind (o_meta qo)); auto.
    pose proof (tidy_value h q T) as T1. destruct (prim_value h q) as (h1, r). simpl in T1. destruct r; auto.
    destruct (_ && _); auto. eapply tidy_objs; [|exact T1]. apply objs_cast_stored.
Qed.
Lemma setter_objs : forall h dt nd a h1 r, setter_value cast h dt nd a = (h1, r) -> forall y,
  get h1 y = get h y \/ exists ob b, get h y = Some ob /\ o_body ob = BPrim None /\ get h1 y = Some (with_body (BPrim (Some (SBuf b))) ob).
Proof.
  intros h dt nd a h1 r E y.
  assert (Q : forall h h', h_objs h' = h_objs h -> get h' y = get h y) by (intros ? ? X; unfold get; now rewrite X).
  destruct a as [v|b|q]; cbn [setter_value] in E.
  - left. destruct (cast dt nd v); [|inversion E; auto]. pose proof (objs_store h nd a) as X.
    destruct (store h nd a) as (h2, s). simpl in X. inversion E; subst. apply Q; auto.
  - left. apply Q. pose proof (objs_cast_stored h dt nd (SBuf b)) as X. rewrite E in X. auto.
  - destruct (get h q) as [qo|] eqn:G; [|inversion E; auto]. destruct (o_body qo) eqn:B; try (inversion E; auto; fail).
    destruct (mkind (o_meta qo)); try (inversion E; auto; fail).
    destruct (prim_value h q) as (h2, r2) eqn:E2.
    assert (h_objs h1 = h_objs h2) as Eo.
    { destruct r2 as [s|e]; [|inversion E; auto]. destruct (_ && _); [inversion E; auto|].
      pose proof (objs_cast_stored h2 dt nd s) as X. rewrite E in X. auto. }
    assert (get h1 y = get h2 y) as -> by (apply Q; auto).
    destruct (objs_value _ _ _ _ E2 y) as [->|(-> & ob & b & X)]; eauto.
Qed.
Lemma body_setter : forall h dt nd a h1 r p v, setter_value cast h dt nd a = (h1, r) -> body_of h p = Some (BPrim v) ->
  exists v', body_of h1 p = Some (BPrim v').
Proof.
  intros h dt nd a h1 r p v E B. destruct (setter_objs _ _ _ _ _ _ E p) as [X|(ob & b & G & _ & X)].
  - exists v. unfold body_of in *. now rewrite X.
  - unfold body_of. rewrite X. simpl. eauto.
Qed.
Lemma tidy_prim_set : forall h p a, tidy h -> tidy (fst (prim_set cast h p a)).
Proof.
  intros h p a T. unfold prim_set. destruct (get h p) as [ob|] eqn:G; auto.
  destruct (o_body ob) as [| |v] eqn:B; auto. destruct (mkind (o_meta ob)) as [| |dt nd]; auto.
  pose proof (setter_tidy h dt nd a T) as T1. destruct (setter_value cast h dt nd a) as (h1, r) eqn:E. simpl in T1.
  destruct r as [s|e]; auto. simpl. assert (body_of h p = Some (BPrim v)) as Bp by (rewrite (body_of_get _ _ _ G), B; auto).
  destruct (body_setter _ _ _ _ _ _ _ _ E Bp) as (v' & Bp'). eapply tidy_prim; eauto.
Qed.

Lemma heap_ext : forall h h', h_bufs h = h_bufs h' -> (forall y, get h y = get h' y) -> h = h'.
Proof.
  assert (X : forall {A} (l l' : list A), (forall i, nth_error l i = nth_error l' i) -> l = l').
  { induction l as [|x l IH]; intros [|x' l'] H; auto; try (specialize (H 0); discriminate).
    pose proof (H 0) as H0. simpl in H0. inversion H0. f_equal. apply IH. intros i. exact (H (S i)). }
  intros [o b] [o' b'] Hb Hg. simpl in *. subst. f_equal. apply X. exact Hg.
Qed.
Lemma set_commute : forall h o b v p, set_parent (set_body h o b) v p = set_body (set_parent h v p) o b.
Proof.
  intros. apply heap_ext.
  - now rewrite bufs_set_parent, !bufs_set_body, bufs_set_parent.
  - intros y. rewrite get_set_parent, !get_set_body, !get_set_parent.
    destruct (Nat.eqb_spec v y), (Nat.eqb_spec o v), (Nat.eqb_spec o y), (Nat.eqb_spec v o); subst; auto; try congruence.
    destruct (get h y); auto.
Qed.

Lemma tidy_replace : forall h o fs key v vo, tidy h -> body_of h o = Some (BStruct fs) -> get h v = Some vo ->
  detached h v -> ~ reach h v o -> mname (o_meta vo) = key ->
  tidy (set_parent (set_body h o (BStruct (aset key v fs))) v o).
Proof.
  intros h o fs key v vo T Bo Gv (Lv & D) Hr Hm. rewrite set_commute.
  assert (T1 : tidy (set_parent h v o)) by (apply tidy_parent; auto; intros c Hc; elim (D c Hc)).
  apply get_body_of in Bo as (ob & G & B). pose proof (t_keys _ T _ _ _ G B) as Hn.
  assert (In1 : forall s x, in_body (BStruct (aset key v fs)) s x -> (s = Child key /\ x = v) \/ slot h o s x).
  { intros [k|i] x; simpl; [|tauto]. intros I. apply in_aset in I as [(-> & ->)|(N & I)]; auto. right. econstructor; eauto. }
  eapply tidy_body; [exact T1|rewrite body_of_set_parent, (body_of_get _ _ _ G), B; reflexivity|simpl; auto|..].
  - intros s x I. rewrite len_set_parent, parent_set_parent. apply In1 in I as [(-> & ->)|I].
    + rewrite Nat.eqb_refl, Gv. auto.
    + destruct (Nat.eqb_spec v x) as [->|]; [elim (D o); exists s; auto|]. split; [eapply (t_exists _ T); eauto|eapply (t_parent _ T); eauto].
  - intros s s' x I I'. apply In1 in I as [(-> & ->)|I]; apply In1 in I' as [(-> & E)|I']; auto.
    + elim (D o). exists s'. auto.
    + subst. elim (D o). exists s. auto.
    + eapply (t_once _ T); eauto.
  - intros f E. inversion E; subst. apply nodup_aset; auto.
  - intros k x xo I Gx. rewrite get_set_parent in Gx. apply (In1 (Child k)) in I as [(E & ->)|I].
    + rewrite Nat.eqb_refl, Gv in Gx. inversion Gx; subst xo. simpl. inversion E. congruence.
    + destruct (Nat.eqb_spec v x) as [->|]; [elim (D o); exists (Child k); auto|]. eapply (t_name _ T); eauto.
  - simpl. tauto.
  - intros s x I. apply In1 in I as [(-> & ->)|I].
    + right. intros R. apply Hr. apply reach_rtc in R. apply reach_rtc. eapply rtc_mono; [|exact R].
      intros x y (s & K). exists s. now apply slot_set_parent in K.
    + left. exists s. now apply slot_set_parent.
Qed.
End WithCast.
