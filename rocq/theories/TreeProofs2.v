(** Lemmas about IDS trees: order of iteration, iteration over empty nodes, children read before. *)
From Verif Require Import Base TreeModel TreeSpec TreeProofs.

Lemma new_node_conf : forall m, conf m (new_node m).
Proof.
  intros [n [| |dt nd] cs]; cbn; constructor; simpl; try discriminate; try tauto. constructor.
Qed.

(** ** Order *)
Lemma sorted_app : forall {A} (R : A -> A -> Prop) l1 l2, sorted_by R l1 -> sorted_by R l2 ->
  (forall x y, In x l1 -> In y l2 -> R x y) -> sorted_by R (l1 ++ l2).
Proof.
  induction l1 as [|a l1 IH]; intros l2 H1 H2 H; simpl; auto. inversion H1; subst. constructor.
  - intros y Hy. apply in_app_iff in Hy as [Hy|Hy]; auto. apply H; simpl; auto.
  - apply IH; auto. intros; apply H; simpl; auto.
Qed.

Lemma sorted_map : forall {A B} (R : A -> A -> Prop) (S : B -> B -> Prop) (f : A -> B) l,
  (forall x y, R x y -> S (f x) (f y)) -> sorted_by R l -> sorted_by S (map f l).
Proof.
  intros A B R S f l Hf H. induction H; simpl; constructor; auto.
  intros y Hy. apply in_map_iff in Hy as (x' & <- & Hx). auto.
Qed.

Lemma map_fst_prefix : forall {A} s (l : list (loc * A)), map fst (prefix_items s l) = map (cons s) (map fst l).
Proof. intros. unfold prefix_items. rewrite !map_map. reflexivity. Qed.

Lemma tree_iter_below_nonnil : forall lo ve m n l x, In (l, x) (tree_iter_below lo ve m n) -> l <> [].
Proof.
  intros lo ve [nm k cs] n l x H.
  assert (Hbs : forall fs, In (l, x) (below_struct lo ve cs fs) -> l <> []).
  { intros fs Hb. unfold below_struct in Hb. apply in_flat_map in Hb as (c & _ & Hb). cbn zeta in Hb.
    destruct (alookup (mname c) fs) as [ch|]; [destruct (ve || has_value c ch)|destruct ve];
      try destruct Hb; apply in_prefix in Hb as (l' & -> & _); discriminate. }
  destruct k, n as [fs|els|v]; try destruct H.
  - apply (Hbs fs). exact H.
  - rewrite tree_iter_aos in H. apply in_flat_map in H as (ie & _ & H). apply in_prefix in H as (l' & -> & _). discriminate.
Qed.

Lemma sorted_singleton_below : forall (lo : bool) ve m c x n,
  sorted_by (before m) (map fst (tree_iter_below lo ve c n)) ->
  sorted_by (before m) (map fst ((if lo then [] else [([], x)]) ++ tree_iter_below lo ve c n)).
Proof.
  intros lo ve m c x n H. rewrite map_app. apply sorted_app; auto.
  - destruct lo; simpl; repeat constructor. simpl. tauto.
  - intros a b Ha Hb. destruct lo; [destruct Ha|]. destruct Ha as [<-|[]].
    apply in_map_iff in Hb as ((l & y) & <- & Hb). apply tree_iter_below_nonnil in Hb. simpl.
    destruct l; [congruence|]. constructor.
Qed.

Lemma tree_iter_sorted : forall lo ve m, forall n, sorted_by (before m) (map fst (tree_iter_below lo ve m n)).
Proof.
  intros lo ve m. meta_induction m.
  assert (Hbs : forall nm fs, sorted_by (before (Meta nm KStruct cs)) (map fst (below_struct lo ve cs fs))).
  { intros nm fs.
    assert (G : forall ds a, cs = a ++ ds -> sorted_by (before (Meta nm KStruct cs)) (map fst (below_struct lo ve ds fs)) /\
              forall l, In l (map fst (below_struct lo ve ds fs)) -> exists c l', In c ds /\ l = Child (mname c) :: l').
    { induction ds as [|c ds IHd]; intros a Ha.
      - split; [constructor|simpl; tauto].
      - destruct (IHd (a ++ [c])) as (Hs & Hh). { rewrite <- app_assoc. auto. }
        assert (Hinc : In c cs) by (rewrite Ha; apply in_app_iff; simpl; auto).
        set (hd := below_struct lo ve [c] fs).
        assert (Heq : below_struct lo ve (c :: ds) fs = hd ++ below_struct lo ve ds fs).
        { unfold hd, below_struct. simpl flat_map. rewrite app_nil_r. reflexivity. }
        assert (Hvis : forall ch, sorted_by (before (Meta nm KStruct cs)) (map fst (prefix_items (Child (mname c))
            (match mkind c with
             | KLeaf _ _ => [([], ch)]
             | _ => (if lo then [] else [([], ch)]) ++ tree_iter_below lo ve c ch
             end)))).
        { intros ch. rewrite map_fst_prefix. apply (sorted_map (before c)).
          - intros x y Hxy. apply bf_child_in; auto.
          - destruct (mkind c); try (apply sorted_singleton_below; apply IH; auto).
            simpl. constructor; [simpl; tauto|constructor]. }
        assert (Hhd : sorted_by (before (Meta nm KStruct cs)) (map fst hd)).
        { unfold hd, below_struct. simpl flat_map. rewrite app_nil_r.
          destruct (alookup (mname c) fs) as [ch|]; [destruct (ve || has_value c ch)|destruct ve];
            try apply Hvis; constructor. }
        assert (Hhh : forall l, In l (map fst hd) -> exists l', l = Child (mname c) :: l').
        { intros l Hl. unfold hd, below_struct in Hl. simpl flat_map in Hl. rewrite app_nil_r in Hl.
          apply in_map_iff in Hl as ((l0 & x) & <- & Hl).
          destruct (alookup (mname c) fs) as [ch|]; [destruct (ve || has_value c ch)|destruct ve];
            try destruct Hl; apply in_prefix in Hl as (l' & -> & _); simpl; eauto. }
        rewrite Heq, map_app. split.
        + apply sorted_app; auto. intros x y Hx Hy.
          apply Hhh in Hx as (l1 & ->). apply Hh in Hy as (c2 & l2 & Hin2 & ->).
          apply in_split in Hin2 as (b & d & ->). eapply bf_child. eauto.
        + intros l Hl. apply in_app_iff in Hl as [Hl|Hl].
          * apply Hhh in Hl as (l' & ->). exists c, l'. simpl; auto.
          * apply Hh in Hl as (c' & l' & Hin & ->). exists c', l'. simpl; auto. }
    apply (G cs []). reflexivity. }
  intros x. destruct k as [| |dt nd].
  - destruct x as [fs|els|v]; try constructor. rewrite tree_iter_struct. apply Hbs.
  - destruct x as [fs|els|v]; try constructor. rewrite tree_iter_aos.
    set (f := fun ie : nat * node => prefix_items (Elem (fst ie))
         ((if lo then [] else [([], snd ie)]) ++ below_struct lo ve cs (node_fields (snd ie)))).
    assert (G : forall els s, sorted_by (before (Meta n KAoS cs)) (map fst (flat_map f (combine (seq s (length els)) els))) /\
       forall l, In l (map fst (flat_map f (combine (seq s (length els)) els))) -> exists i l', s <= i /\ l = Elem i :: l').
    { clear els. induction els as [|e els IHe]; intros s; simpl.
      - split; [constructor|tauto].
      - destruct (IHe (S s)) as (H1 & H2). rewrite map_app.
        assert (Hh : sorted_by (before (Meta n KAoS cs)) (map fst (f (s, e)))).
        { unfold f. cbn [fst snd]. rewrite map_fst_prefix. apply (sorted_map (before (Meta n KStruct cs))).
          - intros a b Hab. apply bf_elem_in. auto.
          - rewrite <- (tree_iter_struct lo ve n). apply sorted_singleton_below. rewrite tree_iter_struct. apply Hbs. }
        assert (Hh2 : forall l, In l (map fst (f (s, e))) -> exists l', l = Elem s :: l').
        { intros l Hl. apply in_map_iff in Hl as ((l0 & y) & <- & Hl). apply in_prefix in Hl as (l' & -> & _). simpl; eauto. }
        split.
        + apply sorted_app; auto. intros a b Ha Hb. apply Hh2 in Ha as (l1 & ->). apply H2 in Hb as (i & l2 & Hi & ->).
          apply bf_elem. lia.
        + intros l Hl. apply in_app_iff in Hl as [Hl|Hl].
          * apply Hh2 in Hl as (l1 & ->). exists s, l1. auto.
          * apply H2 in Hl as (i & l2 & Hi & ->). exists i, l2. split; auto. lia. }
    apply (G els 0).
  - destruct x; constructor.
Qed.

Lemma before_irrefl : forall m l, wf_meta m -> ~ before m l l.
Proof.
  assert (G : forall m l1 l2, before m l1 l2 -> wf_meta m -> l1 <> l2).
  { intros m l1 l2 H. induction H; intros Hw Heq; try discriminate.
    - inversion Heq; subst. apply wf_names in Hw. rewrite map_app in Hw. simpl in Hw. rewrite map_app in Hw. simpl in Hw.
      apply NoDup_remove_2 in Hw. apply Hw. rewrite H1. rewrite !in_app_iff. simpl. auto.
    - inversion Heq; subst. eapply IHbefore; eauto. eapply wf_child; eauto.
    - inversion Heq; subst. lia.
    - inversion Heq; subst. eapply IHbefore; eauto. eapply wf_struct; eauto. }
  intros m l Hw H. eapply G; eauto.
Qed.

Lemma sorted_nodup : forall {A} (R : A -> A -> Prop) l, (forall x, ~ R x x) -> sorted_by R l -> NoDup l.
Proof. intros A R l Hi H. induction H; constructor; auto. intros Hin. apply (Hi x). auto. Qed.

(** ** Iteration with visit_empty *)
Lemma tree_iter_below_ve : forall lo m n, conf m n -> forall l x,
  In (l, x) (tree_iter_below lo true m n) <-> l <> [] /\ exists m', vnode_at m n l m' x /\ (lo = true -> is_leaf m').
Proof.
  intros lo m. meta_induction m.
  assert (Hbs : forall nm fs, conf (Meta nm KStruct cs) (NStruct fs) -> forall l x,
    In (l, x) (below_struct lo true cs fs) <->
    l <> [] /\ exists m', vnode_at (Meta nm KStruct cs) (NStruct fs) l m' x /\ (lo = true -> is_leaf m')).
  { intros nm fs Hc l x.
    assert (Hg : In (l, x) (below_struct lo true cs fs) <->
      exists c ch, In c cs /\ (alookup (mname c) fs = Some ch \/ (alookup (mname c) fs = None /\ ch = new_node c)) /\
        In (l, x) (prefix_items (Child (mname c))
            (match mkind c with
             | KLeaf _ _ => [([], ch)]
             | _ => (if lo then [] else [([], ch)]) ++ tree_iter_below lo true c ch
             end))).
    { unfold below_struct. rewrite in_flat_map. cbn [orb]. cbn zeta. split.
      - intros (c & Hin & H). exists c. destruct (alookup (mname c) fs) as [ch|] eqn:E.
        + exists ch. auto.
        + exists (new_node c). auto.
      - intros (c & ch & Hin & [E|(E & ->)] & H); exists c; split; auto; rewrite E; auto. }
    rewrite Hg. clear Hg. split.
    - intros (c & ch & Hin & Hch & H). apply in_prefix in H as (l' & -> & H). split; [discriminate|].
      assert (Hcc : conf c ch).
      { destruct Hch as [E|(E & ->)]; [eapply conf_child; eauto|apply new_node_conf]. }
      assert (Hsub : (l' = [] /\ x = ch /\ (lo = true -> is_leaf c)) \/ In (l', x) (tree_iter_below lo true c ch)).
      { destruct (mkind c) as [| |dt nd] eqn:Ek.
        - apply in_app_iff in H as [H|H]; auto. destruct lo; [destruct H|]. destruct H as [H|[]]. inversion H; subst.
          left. repeat split; auto. discriminate.
        - apply in_app_iff in H as [H|H]; auto. destruct lo; [destruct H|]. destruct H as [H|[]]. inversion H; subst.
          left. repeat split; auto. discriminate.
        - destruct H as [H|[]]. inversion H; subst. left. repeat split; auto. intros _. unfold is_leaf. eauto. }
      destruct Hsub as [(-> & -> & Hk)|Hsub].
      + exists c. split; auto. econstructor; eauto. constructor.
      + apply IH in Hsub; auto. destruct Hsub as (Hne & m' & H1 & H2). exists m'. split; auto. econstructor; eauto.
    - intros (Hne & m' & Hat & Hl). inversion Hat; subst; [congruence|].
      match goal with K : In c cs, K2 : _ \/ _ |- _ => exists c, ch; split; [exact K|]; split; [exact K2|]; rename K2 into Hch end.
      apply in_prefix. exists l0. split; auto.
      assert (Hcc : conf c ch).
      { destruct Hch as [E|(E & ->)]; [eapply conf_child; eauto|apply new_node_conf]. }
      match goal with K : vnode_at c ch l0 m' x |- _ => rename K into Hv end.
      destruct l0 as [|s l0].
      + inversion Hv; subst. destruct (mkind m') eqn:Ek.
        * destruct lo; simpl; auto. destruct (Hl eq_refl) as (? & ? & ?); congruence.
        * destruct lo; simpl; auto. destruct (Hl eq_refl) as (? & ? & ?); congruence.
        * simpl; auto.
      + assert (Hb : In (s :: l0, x) (tree_iter_below lo true c ch)).
        { apply IH; auto. split; [discriminate|]. eauto. }
        destruct (mkind c) as [| |dt nd] eqn:Ek; try (apply in_app_iff; auto).
        exfalso. inversion Hv; subst; simpl in Ek; discriminate. }
  intros x Hc l y. destruct k as [| |dt nd].
  - destruct (conf_struct_inv _ _ _ Hc) as (fs & ->). rewrite tree_iter_struct. apply Hbs. auto.
  - destruct (conf_aos_inv _ _ _ Hc) as (els & ->). rewrite tree_iter_aos, in_flat_map. split.
    + intros ((i & e) & Hin & H). apply in_enum in Hin. apply in_prefix in H as (l' & -> & H).
      assert (Hce : conf (Meta n KStruct cs) e) by (eapply conf_elem; eauto; eapply nth_error_In; eauto).
      split; [discriminate|]. simpl fst in *; simpl snd in *. apply in_app_iff in H as [H|H].
      * destruct lo; [destruct H|]. destruct H as [H|[]]. inversion H; subst.
        exists (Meta n KStruct cs). split; [econstructor; eauto; constructor|discriminate].
      * destruct (conf_struct_inv _ _ _ Hce) as (fs & ->). simpl in H.
        apply (Hbs n fs Hce) in H as (Hne & m' & Ha & Hv). exists m'. split; auto. econstructor; eauto.
    + intros (Hne & m' & Hat & Hl). inversion Hat; subst; [congruence|].
      match goal with K : nth_error els i = Some e |- _ => rename K into Hi end.
      match goal with K : vnode_at _ e l0 _ _ |- _ => rename K into Hv end.
      exists (i, e). split; [now apply in_enum|]. apply in_prefix. exists l0. split; auto. simpl fst; simpl snd.
      assert (Hce : conf (Meta n KStruct cs) e) by (eapply conf_elem; eauto; eapply nth_error_In; eauto).
      apply in_app_iff. destruct l0 as [|s l0].
      * left. inversion Hv; subst. destruct lo; simpl; auto.
        destruct (Hl eq_refl) as (? & ? & Hk); simpl in Hk; discriminate.
      * right. destruct (conf_struct_inv _ _ _ Hce) as (fs & ->). simpl. apply (Hbs n fs Hce). split; [discriminate|]. eauto.
  - split.
    + destruct x; simpl; intros [].
    + intros (Hne & m' & Hat & _). inversion Hat; subst. congruence.
Qed.

(** ** Observations: filled data nodes and sizes of arrays of structures *)
Definition item (m : meta) (n : node) (l : loc) (o : value + nat) : Prop :=
  match o with inl v => leaf_at m n l v | inr k => aos_at m n l k end.

Lemma nonempty_item : forall m n, nonempty m n <-> exists l o, item m n l o.
Proof.
  intros m n. split.
  - intros (l & [(v & H)|(k & H)]); [exists l, (inl v)|exists l, (inr k)]; auto.
  - intros (l & [v|k] & H); exists l; [left|right]; eauto.
Qed.

Lemma item_struct : forall nm cs fs l o, item (Meta nm KStruct cs) (NStruct fs) l o <->
  exists c ch l', l = Child (mname c) :: l' /\ In c cs /\ alookup (mname c) fs = Some ch /\ item c ch l' o.
Proof.
  intros nm cs fs l o. split.
  - destruct o as [v|k]; cbn [item].
    + intros (m' & (dt & nd & Hk) & H & Hf).
      apply node_at_struct_inv in H as [(-> & -> & Hx)|(c & ch & l' & -> & Hin & E & H)]; [discriminate|].
      exists c, ch, l'. repeat split; auto. exists m'. split; [exists dt, nd; auto|]. auto.
    + intros (m' & els & H & Hk & Hl).
      apply node_at_struct_inv in H as [(-> & -> & Hx)|(c & ch & l' & -> & Hin & E & H)]; [discriminate|].
      exists c, ch, l'. repeat split; auto. exists m', els. auto.
  - intros (c & ch & l' & -> & Hin & E & H). destruct o as [v|k]; cbn [item] in *.
    + destruct H as (m' & Hl & H & Hf). exists m'. repeat split; auto. econstructor; eauto.
    + destruct H as (m' & els & H & Hk). exists m', els. split; auto. econstructor; eauto.
Qed.

Lemma item_aos : forall nm cs els l o, item (Meta nm KAoS cs) (NAoS els) l o <->
  (l = [] /\ o = inr (length els) /\ els <> []) \/
  exists i e l', l = Elem i :: l' /\ nth_error els i = Some e /\ item (Meta nm KStruct cs) e l' o.
Proof.
  intros nm cs els l o. split.
  - destruct o as [v|k]; cbn [item].
    + intros (m' & (dt & nd & Hk) & H & Hf).
      apply node_at_aos_inv in H as [(-> & -> & Hx)|(i & e & l' & -> & Hi & H)]; [discriminate|].
      right. exists i, e, l'. repeat split; auto. exists m'. split; [exists dt, nd; auto|]. auto.
    + intros (m' & els' & H & Hk & Hl & Hp).
      apply node_at_aos_inv in H as [(-> & -> & Hx)|(i & e & l' & -> & Hi & H)].
      * left. inversion Hx; subst. repeat split; auto. intros ->. simpl in Hp. lia.
      * right. exists i, e, l'. repeat split; auto. exists m', els'. auto.
  - intros [(-> & -> & Hne)|(i & e & l' & -> & Hi & H)].
    + cbn [item]. exists (Meta nm KAoS cs), els. repeat split; auto; [constructor|]. destruct els; [congruence|simpl; lia].
    + destruct o as [v|k]; cbn [item] in *.
      * destruct H as (m' & Hl & H & Hf). exists m'. repeat split; auto. econstructor; eauto.
      * destruct H as (m' & els' & H & Hk). exists m', els'. split; auto. econstructor; eauto.
Qed.

Lemma item_leaf : forall nm dt nd cs v l o, item (Meta nm (KLeaf dt nd) cs) (NLeaf v) l o <->
  l = [] /\ exists w, v = Some w /\ o = inl w /\ filled_value w.
Proof.
  intros nm dt nd cs v l o. split.
  - destruct o as [w|k]; cbn [item].
    + intros (m' & Hk & H & Hf). apply node_at_leafv_inv in H as (-> & -> & Hx). inversion Hx; subst. eauto.
    + intros (m' & els' & H & Hk & Hl & Hp). apply node_at_leafv_inv in H as (-> & -> & Hx). discriminate.
  - intros (-> & w & -> & -> & Hf). cbn [item]. exists (Meta nm (KLeaf dt nd) cs). repeat split; auto.
    + exists dt, nd. reflexivity.
    + constructor.
Qed.

Lemma item_new : forall m l o, ~ item m (new_node m) l o.
Proof.
  intros [n [| |dt nd] cs] l o; cbn.
  - rewrite item_struct. intros (c & ch & l' & _ & _ & E & _). discriminate.
  - rewrite item_aos. intros [(_ & _ & H)|(i & e & l' & _ & E & _)]; [congruence|]. destruct i; discriminate.
  - rewrite item_leaf. intros (_ & w & H & _). discriminate.
Qed.

Lemma Forall2_nth : forall {A B} (R : A -> B -> Prop) l l', Forall2 R l l' -> forall i,
  match nth_error l i, nth_error l' i with Some a, Some b => R a b | None, None => True | _, _ => False end.
Proof. intros A B R l l' H. induction H; destruct i; simpl; auto. apply IHForall2. Qed.

Lemma Forall2_len : forall {A B} (R : A -> B -> Prop) l l', Forall2 R l l' -> length l = length l'.
Proof. intros A B R l l' H. induction H; simpl; auto. Qed.

Lemma default_not_filled : forall dt nd, nd > 0 -> ~ filled_value (default_value dt nd).
Proof. intros dt nd H. destruct nd; [lia|]. destruct dt; simpl; congruence. Qed.

Lemma touched_item : forall m n n', touched m n n' -> forall l o, item m n l o <-> item m n' l o.
Proof.
  intros m. meta_induction m.
  assert (Hs : forall nm a a', touched (Meta nm KStruct cs) a a' -> forall l o,
             item (Meta nm KStruct cs) a l o <-> item (Meta nm KStruct cs) a' l o).
  { intros nm a a' Ht l o. inversion Ht as [| |? ? fs fs' H1 H2|]; subst. rewrite !item_struct. split.
    - intros (c & ch & l' & -> & Hin & E & Hi). destruct (H1 c Hin ch E) as (ch' & E' & Hch).
      exists c, ch', l'. repeat split; auto. apply (IH c Hin ch ch'); auto.
    - intros (c & ch' & l' & -> & Hin & E' & Hi). destruct (alookup (mname c) fs) as [ch|] eqn:E.
      + destruct (H1 c Hin ch E) as (ch'' & E'' & Hch). assert (ch'' = ch') as -> by congruence.
        exists c, ch, l'. repeat split; auto. apply (IH c Hin ch ch'); auto.
      + specialize (H2 c Hin ch' E E'). apply (IH c Hin _ _ H2) in Hi. exfalso. eapply item_new; eauto. }
  intros a a' Ht l o. destruct k as [| |dt nd]; auto.
  - inversion Ht as [| | |? ? els els' Hf]; subst. rewrite !item_aos.
    assert (Hlen : length els = length els') by (eapply Forall2_len; eauto).
    split; intros [(-> & -> & Hne)|(i & e & l' & -> & Hi & H)].
    + left. repeat split; try congruence. intros ->. destruct els; simpl in *; congruence.
    + pose proof (Forall2_nth _ _ _ Hf i) as Hn. rewrite Hi in Hn. destruct (nth_error els' i) as [e'|] eqn:E; [|destruct Hn].
      right. exists i, e', l'. repeat split; auto. eapply Hs in Hn. apply Hn. auto.
    + left. repeat split; try congruence. intros ->. destruct els'; simpl in *; congruence.
    + pose proof (Forall2_nth _ _ _ Hf i) as Hn. rewrite Hi in Hn. destruct (nth_error els i) as [e'|] eqn:E; [|destruct Hn].
      right. exists i, e', l'. repeat split; auto. eapply Hs in Hn. apply Hn. auto.
  - inversion Ht; subst; [tauto|]. rewrite !item_leaf. split.
    + intros (_ & w & Hw & _). discriminate.
    + intros (_ & w & Hw & _ & Hf). inversion Hw; subst. exfalso. eapply default_not_filled; eauto.
Qed.

Lemma touched_nonempty : forall m n n', touched m n n' -> (nonempty m n <-> nonempty m n').
Proof.
  intros m n n' H. rewrite !nonempty_item. split; intros (l & o & Hi); exists l, o; apply (touched_item _ _ _ H); auto.
Qed.

Lemma touched_has_value : forall m n n', conf m n -> conf m n' -> touched m n n' -> has_value m n = has_value m n'.
Proof.
  intros m n n' Hc Hc' Ht. apply touched_nonempty in Ht.
  pose proof (has_value_nonempty _ _ Hc). pose proof (has_value_nonempty _ _ Hc').
  destruct (has_value m n), (has_value m n'); intuition.
Qed.
