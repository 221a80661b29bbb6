(** Lemmas about IDS trees: emptiness and iteration. *)
From Coq Require Import ZifyBool ZifyNat.
From Verif Require Import Base TreeModel TreeSpec.

(** Induction on metadata *)
Fixpoint meta_rect' (P : meta -> Prop)
  (H : forall n k cs, (forall c, In c cs -> P c) -> P (Meta n k cs)) (m : meta) : P m :=
  match m with
  | Meta n k cs =>
    H n k cs ((fix go l : forall c, In c l -> P c :=
                 match l with
                 | [] => fun c (F : In c []) => match F with end
                 | x :: t => fun c (F : In c (x :: t)) =>
                               match F with
                               | or_introl e => match e in _ = y return P y with eq_refl => meta_rect' P H x end
                               | or_intror i => go t c i
                               end
                 end) cs)
  end.
Ltac meta_induction m := induction m as [?n ?k ?cs ?IH] using meta_rect'.

Lemma filled_value_len : forall dt nd v, val_ok dt nd v -> (leaf_has_value nd (Some v) = true <-> filled_value v).
Proof.
  assert (L : forall A (d : list A), (0 <? length d) = true <-> d <> []).
  { intros A d. rewrite Nat.ltb_lt. destruct d; simpl; split; intros H; [lia|congruence|discriminate|lia]. }
  intros dt nd v H. unfold leaf_has_value, leaf_size. destruct H; cbn [value_len filled_value]; try (simpl; tauto).
  - apply L.
  - destruct sh as [|a sh]; [congruence|]. cbn [length]. rewrite H0. apply L.
  - destruct sh as [|a sh]; [congruence|]. cbn [length]. rewrite H0. apply L.
  - destruct sh as [|a sh]; [congruence|]. cbn [length]. rewrite H0. apply L.
Qed.

Lemma conf_child : forall nm cs fs c ch, conf (Meta nm KStruct cs) (NStruct fs) -> In c cs ->
  alookup (mname c) fs = Some ch -> conf c ch.
Proof. intros nm cs fs c ch H. inversion H; subst; eauto. Qed.

Lemma conf_struct_name : forall n n' cs x, conf (Meta n KStruct cs) x -> conf (Meta n' KStruct cs) x.
Proof. intros n n' cs x H. inversion H; subst. constructor; auto. Qed.

Lemma conf_elem : forall n cs els e, conf (Meta n KAoS cs) (NAoS els) -> In e els -> conf (Meta n KStruct cs) e.
Proof. intros n cs els e H. inversion H; subst. auto. Qed.

Lemma conf_struct_inv : forall n cs x, conf (Meta n KStruct cs) x -> exists fs, x = NStruct fs.
Proof. intros n cs x H. inversion H; subst. eauto. Qed.
Lemma conf_aos_inv : forall n cs x, conf (Meta n KAoS cs) x -> exists els, x = NAoS els.
Proof. intros n cs x H. inversion H; subst. eauto. Qed.
Lemma conf_leaf_inv : forall n dt nd cs x, conf (Meta n (KLeaf dt nd) cs) x ->
  x = NLeaf None \/ exists v, x = NLeaf (Some v) /\ val_ok dt nd v.
Proof. intros n dt nd cs x H. inversion H; subst; eauto. Qed.

Lemma node_at_struct_inv : forall nm cs fs l m' n', node_at (Meta nm KStruct cs) (NStruct fs) l m' n' ->
  (l = [] /\ m' = Meta nm KStruct cs /\ n' = NStruct fs) \/
  exists c ch l', l = Child (mname c) :: l' /\ In c cs /\ alookup (mname c) fs = Some ch /\ node_at c ch l' m' n'.
Proof. intros nm cs fs l m' n' H. inversion H; subst; [left; auto|right]. exists c, ch, l0. auto. Qed.
Lemma node_at_aos_inv : forall nm cs els l m' n', node_at (Meta nm KAoS cs) (NAoS els) l m' n' ->
  (l = [] /\ m' = Meta nm KAoS cs /\ n' = NAoS els) \/
  exists i e l', l = Elem i :: l' /\ nth_error els i = Some e /\ node_at (Meta nm KStruct cs) e l' m' n'.
Proof. intros nm cs els l m' n' H. inversion H; subst; [left; auto|right]. exists i, e, l0. auto. Qed.
Lemma node_at_leafv_inv : forall m v l m' n', node_at m (NLeaf v) l m' n' -> l = [] /\ m' = m /\ n' = NLeaf v.
Proof. intros m v l m' n' H. inversion H; subst; auto. Qed.
Lemma node_at_nil_inv : forall m n m' n', node_at m n [] m' n' -> m' = m /\ n' = n.
Proof. intros m n m' n' H. inversion H; subst; auto. Qed.

Lemma node_at_child_intro : forall m fs c ch l m' n', mkind m = KStruct -> In c (mchildren m) ->
  alookup (mname c) fs = Some ch -> node_at c ch l m' n' -> node_at m (NStruct fs) (Child (mname c) :: l) m' n'.
Proof. intros [nm k cs] fs c ch l m' n' Hk Hin E H. simpl in *. subst k. econstructor; eauto. Qed.

Lemma node_at_app : forall m n l1 m1 n1, node_at m n l1 m1 n1 -> forall l2 m2 n2,
  node_at m1 n1 l2 m2 n2 -> node_at m n (l1 ++ l2) m2 n2.
Proof.
  intros m n l1 m1 n1 H. induction H; intros; simpl; auto; econstructor; eauto.
Qed.

Lemma node_at_split : forall l1 m n l2 m2 n2, node_at m n (l1 ++ l2) m2 n2 ->
  exists m1 n1, node_at m n l1 m1 n1 /\ node_at m1 n1 l2 m2 n2.
Proof.
  induction l1 as [|s l1 IH]; intros m n l2 m2 n2 H; simpl in H.
  - exists m, n. split; auto. constructor.
  - inversion H; subst.
    + match goal with K : node_at c ch _ _ _ |- _ => apply IH in K as (m1 & n1 & Ha & Hb) end.
      exists m1, n1. split; auto. econstructor; eauto.
    + match goal with K : node_at _ e _ _ _ |- _ => apply IH in K as (m1 & n1 & Ha & Hb) end.
      exists m1, n1. split; auto. econstructor; eauto.
Qed.

Lemma node_at_conf : forall m n l m' n', node_at m n l m' n' -> conf m n -> conf m' n'.
Proof.
  intros m n l m' n' H. induction H as [|nm cs fs c ch l m' n' Hin Hl H IH|nm cs els i e l m' n' Hi H IH]; intros Hc; auto.
  - apply IH. eapply conf_child; eauto.
  - apply IH. eapply conf_elem; eauto. eapply nth_error_In; eauto.
Qed.

Lemma nonempty_up : forall m n l m' n', node_at m n l m' n' -> nonempty m' n' -> nonempty m n.
Proof.
  intros m n l m' n' H (l' & [(v & m2 & H1 & H2 & H3)|(k & m2 & els & H1 & H2 & H3)]).
  - exists (l ++ l'). left. exists v, m2. repeat split; auto. eapply node_at_app; eauto.
  - exists (l ++ l'). right. exists k, m2, els. split; auto. eapply node_at_app; eauto.
Qed.

Lemma nonempty_struct : forall nm cs fs, nonempty (Meta nm KStruct cs) (NStruct fs) <->
  exists c ch, In c cs /\ alookup (mname c) fs = Some ch /\ nonempty c ch.
Proof.
  intros nm cs fs. split.
  - intros (l & [(v & m' & (dt & nd & Hk) & H & Hf)|(k & m' & els & H & Hk & Hl)]).
    + apply node_at_struct_inv in H as [(-> & -> & Hx)|(c & ch & l' & -> & Hin & E & H)]; [discriminate|].
      exists c, ch. repeat split; auto. exists l'. left. exists v, m'. repeat split; auto. exists dt, nd. auto.
    + apply node_at_struct_inv in H as [(-> & -> & Hx)|(c & ch & l' & -> & Hin & E & H)]; [discriminate|].
      exists c, ch. repeat split; auto. exists l'. right. exists k, m', els. auto.
  - intros (c & ch & Hin & E & Hn). eapply nonempty_up; eauto. econstructor; eauto. constructor.
Qed.

Lemma nonempty_aos : forall nm cs els, nonempty (Meta nm KAoS cs) (NAoS els) <-> els <> [].
Proof.
  intros nm cs els. split.
  - intros (l & [(v & m' & (dt & nd & Hk) & H & Hf)|(k & m' & els' & H & Hk & Hl)]).
    + apply node_at_aos_inv in H as [(-> & -> & Hx)|(i & e & l' & -> & Hi & H)]; [discriminate|].
      intros ->. destruct i; discriminate.
    + apply node_at_aos_inv in H as [(-> & -> & Hx)|(i & e & l' & -> & Hi & H)].
      * inversion Hx; subst. intros ->. simpl in Hl. lia.
      * intros ->. destruct i; discriminate.
  - intros Hne. exists []. right. exists (length els), (Meta nm KAoS cs), els. repeat split; auto.
    + constructor.
    + destruct els; [congruence|simpl; lia].
Qed.

Lemma nonempty_leaf : forall nm dt nd cs v, nonempty (Meta nm (KLeaf dt nd) cs) (NLeaf v) <->
  exists w, v = Some w /\ filled_value w.
Proof.
  intros nm dt nd cs v. split.
  - intros (l & [(w & m' & (dt' & nd' & Hk) & H & Hf)|(k & m' & els' & H & Hk & Hl)]).
    + apply node_at_leafv_inv in H as (-> & -> & Hx). inversion Hx; subst. eauto.
    + apply node_at_leafv_inv in H as (-> & -> & Hx). discriminate.
  - intros (w & -> & Hf). exists []. left. exists w, (Meta nm (KLeaf dt nd) cs). repeat split; auto.
    + exists dt, nd. reflexivity.
    + constructor.
Qed.

(** ** Emptiness *)
Lemma has_value_nonempty : forall m n, conf m n -> (has_value m n = true <-> nonempty m n).
Proof.
  intros m. meta_induction m. intros x Hc. destruct k as [| |dt nd].
  - destruct (conf_struct_inv _ _ _ Hc) as (fs & ->). rewrite nonempty_struct. cbn [has_value].
    rewrite existsb_exists. split.
    + intros (c & Hin & Hv). destruct (alookup (mname c) fs) as [ch|] eqn:E; [|discriminate].
      exists c, ch. repeat split; auto. apply IH; auto. eapply conf_child; eauto.
    + intros (c & ch & Hin & E & Hn). exists c. split; auto. rewrite E. apply IH; auto. eapply conf_child; eauto.
  - destruct (conf_aos_inv _ _ _ Hc) as (els & ->). rewrite nonempty_aos. cbn [has_value].
    rewrite Nat.ltb_lt. destruct els; simpl; split; intros H; [lia|congruence|discriminate|lia].
  - destruct (conf_leaf_inv _ _ _ _ _ Hc) as [->|(v & -> & Hv)]; rewrite nonempty_leaf; cbn [has_value].
    + simpl. split; [discriminate|]. intros (w & Hw & _). discriminate.
    + rewrite (filled_value_len dt nd v) by auto. split; [eauto|]. intros (w & Hw & Hf). congruence.
Qed.

Lemma has_value_empty : forall m n, conf m n -> (has_value m n = false <-> ~ nonempty m n).
Proof.
  intros m n Hc. rewrite <- has_value_nonempty by auto. destruct (has_value m n); split; congruence.
Qed.

Lemma elem_nonempty : forall l m n i m' n', node_at m n (l ++ [Elem i]) m' n' -> nonempty m n.
Proof.
  intros l m n i m' n' H. apply node_at_split in H as (m1 & n1 & Ha & Hb).
  eapply nonempty_up; eauto. inversion Hb; subst. apply nonempty_aos. intros ->. destruct i; discriminate.
Qed.

Lemma nodup_name : forall cs c c', NoDup (map mname cs) -> In c cs -> In c' cs -> mname c = mname c' -> c = c'.
Proof.
  induction cs as [|a cs IH]; simpl; intros c c' Hnd H H' E; [tauto|].
  inversion Hnd as [|x l Hni Hnd' Hx]; subst. destruct H as [->|H], H' as [->|H']; auto.
  - exfalso. apply Hni. rewrite E. now apply in_map.
  - exfalso. apply Hni. rewrite <- E. now apply in_map.
Qed.

Lemma wf_child : forall n k cs c, wf_meta (Meta n k cs) -> In c cs -> wf_meta c.
Proof. intros n k cs c H. inversion H; subst; auto. Qed.
Lemma wf_names : forall n k cs, wf_meta (Meta n k cs) -> NoDup (map mname cs).
Proof. intros n k cs H. inversion H; subst; auto. Qed.
Lemma wf_struct : forall n k cs n', wf_meta (Meta n k cs) -> wf_meta (Meta n' KStruct cs).
Proof. intros n k cs n' H. inversion H; subst. constructor; auto. intros; discriminate. Qed.

Lemma node_at_inj : forall m n l m1 n1, node_at m n l m1 n1 -> wf_meta m -> forall m2 n2, node_at m n l m2 n2 -> m1 = m2 /\ n1 = n2.
Proof.
  intros m n l m1 n1 H. induction H as [|nm cs fs c ch l m' n' Hin Hl H IH|nm cs els i e l m' n' Hi H IH]; intros Hw m2 n2 H2.
  - apply node_at_nil_inv in H2 as (-> & ->). auto.
  - apply node_at_struct_inv in H2 as [(Hx & _)|(c' & ch' & l' & Hx & Hin' & E & H2)]; [discriminate|].
    inversion Hx; subst.
    assert (c = c') by (eapply nodup_name; eauto using wf_names). subst c'.
    assert (ch' = ch) as -> by congruence. apply IH; auto. eapply wf_child; eauto.
  - apply node_at_aos_inv in H2 as [(Hx & _)|(i' & e' & l' & Hx & Hi' & H2)]; [discriminate|].
    inversion Hx; subst. assert (e' = e) as -> by congruence. apply IH; auto. eapply wf_struct; eauto.
Qed.

(** ** Tree iteration *)
Lemma in_enum : forall {A} (l : list A) i x, In (i, x) (enum l) <-> nth_error l i = Some x.
Proof.
  intros A l i x. unfold enum.
  assert (G : forall l s, In (i, x) (combine (seq s (length l)) l) <-> s <= i /\ nth_error l (i - s) = Some x).
  { clear l. induction l as [|a l IH]; intros s; simpl.
    - split; [tauto|]. intros [_ H]. destruct (i - s); discriminate.
    - rewrite IH. split.
      + intros [H|[H1 H2]].
        * inversion H; subst. split; auto. rewrite Nat.sub_diag. reflexivity.
        * split; [lia|]. replace (i - s) with (S (i - S s)) by lia. auto.
      + intros [H1 H2]. destruct (Nat.eq_dec i s) as [->|Hne].
        * left. rewrite Nat.sub_diag in H2. simpl in H2. congruence.
        * right. split; [lia|]. replace (i - s) with (S (i - S s)) in H2 by lia. auto. }
  rewrite G, Nat.sub_0_r. split; [tauto|]. split; auto. lia.
Qed.

Lemma in_prefix : forall {A} s (l : list (loc * A)) p x, In (p, x) (prefix_items s l) <-> exists p', p = s :: p' /\ In (p', x) l.
Proof.
  intros. unfold prefix_items. rewrite in_map_iff. split.
  - intros ((p' & x') & H & Hin). simpl in H. inversion H; subst. eauto.
  - intros (p' & -> & Hin). exists (p', x). auto.
Qed.

Lemma is_elem_cons : forall s l, l <> [] -> (is_elem (s :: l) <-> is_elem l).
Proof.
  intros s l Hne. split.
  - intros (l' & i & H). destruct l' as [|s' l']; simpl in H.
    + inversion H; subst. congruence.
    + inversion H; subst. exists l', i. auto.
  - intros (l' & i & ->). exists (s :: l'), i. reflexivity.
Qed.

Lemma is_elem_child : forall c, ~ is_elem [Child c].
Proof. intros c ([|s l'] & i & H); simpl in H; inversion H. destruct l'; discriminate. Qed.

Lemma leaf_kind_dec : forall m, is_leaf m \/ ~ is_leaf m.
Proof. intros [n [| |dt nd] cs]; [right|right|left]; unfold is_leaf; simpl; try (intros (? & ? & ?); discriminate). eauto. Qed.

Lemma node_at_leaf : forall m n l m' n', node_at m n l m' n' -> is_leaf m -> l = [] /\ m' = m /\ n' = n.
Proof. intros m n l m' n' H (dt & nd & Hk). inversion H; subst; simpl in Hk; try discriminate. auto. Qed.

(** the children part of the iteration, abstracted *)
Definition below_struct (leaf_only visit_empty : bool) (cs : list meta) (fs : fields) : list (loc * node) :=
  flat_map (fun c =>
    let visit ch :=
      prefix_items (Child (mname c))
        (match mkind c with
         | KLeaf _ _ => [([], ch)]
         | _ => (if leaf_only then [] else [([], ch)]) ++ tree_iter_below leaf_only visit_empty c ch
         end) in
    match alookup (mname c) fs with
    | Some ch => if visit_empty || has_value c ch then visit ch else []
    | None => if visit_empty then visit (new_node c) else []
    end) cs.

Lemma tree_iter_struct : forall lo ve nm cs fs, tree_iter_below lo ve (Meta nm KStruct cs) (NStruct fs) = below_struct lo ve cs fs.
Proof. reflexivity. Qed.
Lemma tree_iter_aos : forall lo ve nm cs els, tree_iter_below lo ve (Meta nm KAoS cs) (NAoS els) =
  flat_map (fun ie => prefix_items (Elem (fst ie))
                  ((if lo then [] else [([], snd ie)]) ++ below_struct lo ve cs (node_fields (snd ie)))) (enum els).
Proof. reflexivity. Qed.

Lemma tree_iter_below_spec : forall lo m n, conf m n -> forall l x,
  In (l, x) (tree_iter_below lo false m n) <-> l <> [] /\ exists m', node_at m n l m' x /\ visible lo m' l x.
Proof.
  intros lo m. meta_induction m.
  assert (Hbs : forall nm fs, conf (Meta nm KStruct cs) (NStruct fs) -> forall l x,
    In (l, x) (below_struct lo false cs fs) <->
    l <> [] /\ exists m', node_at (Meta nm KStruct cs) (NStruct fs) l m' x /\ visible lo m' l x).
  { intros nm fs Hc l x. unfold below_struct. rewrite in_flat_map. split.
    - intros (c & Hin & H). cbn zeta in H. destruct (alookup (mname c) fs) as [ch|] eqn:E; [|destruct H].
      pose proof (conf_child _ _ _ _ _ Hc Hin E) as Hcc.
      simpl orb in H. destruct (has_value c ch) eqn:Hv; [|destruct H].
      apply has_value_nonempty in Hv; auto.
      apply in_prefix in H as (l' & -> & H). split; [discriminate|].
      assert (Hsub : (l' = [] /\ x = ch /\ (is_leaf c \/ lo = false)) \/
                     (~ is_leaf c /\ In (l', x) (tree_iter_below lo false c ch))).
      { destruct (mkind c) as [| |dt nd] eqn:Ek.
        - assert (~ is_leaf c) by (intros (? & ? & ?); congruence).
          apply in_app_iff in H as [H|H]; auto. destruct lo; [destruct H|]. destruct H as [H|[]]. inversion H; auto.
        - assert (~ is_leaf c) by (intros (? & ? & ?); congruence).
          apply in_app_iff in H as [H|H]; auto. destruct lo; [destruct H|]. destruct H as [H|[]]. inversion H; auto.
        - destruct H as [H|[]]. inversion H; subst. left. repeat split; auto. left. unfold is_leaf. eauto. }
      destruct Hsub as [(-> & -> & Hk)|(Hnl & Hsub)].
      + exists c. split; [econstructor; eauto; constructor|]. unfold visible.
        destruct (leaf_kind_dec c) as [Hl|Hl]; [left; auto|]. destruct Hk as [Hk|Hk]; [contradiction|]. right. auto.
      + apply IH in Hsub; auto. destruct Hsub as (Hne & m' & H1 & H2). exists m'. split; [econstructor; eauto|].
        unfold visible in *. rewrite is_elem_cons; auto.
    - intros (Hne & m' & Hat & Hvis).
      apply node_at_struct_inv in Hat as [(-> & _)|(c & ch & l0 & -> & Hin & E & H)]; [congruence|].
      pose proof (conf_child _ _ _ _ _ Hc Hin E) as Hcc.
      exists c. split; auto. cbn zeta. rewrite E.
      assert (Hv : nonempty c ch).
      { destruct Hvis as [(_ & Hn)|(_ & _ & [He|Hn])].
        - eapply nonempty_up; eauto.
        - destruct l0 as [|s l0].
          + exfalso. eapply is_elem_child; eauto.
          + apply (is_elem_cons (Child (mname c)) (s :: l0)) in He; [|discriminate]. destruct He as (l' & i & He). rewrite He in H.
            eapply elem_nonempty; eauto.
        - eapply nonempty_up; eauto. }
      apply has_value_nonempty in Hv; auto. rewrite Hv. cbn [orb]. apply in_prefix. exists l0. split; auto.
      destruct (leaf_kind_dec c) as [Hl|Hl].
      + destruct (node_at_leaf _ _ _ _ _ H Hl) as (-> & -> & ->). destruct Hl as (dt & nd & Hk). rewrite Hk. simpl; auto.
      + assert (Hgoal : In (l0, x) ((if lo then [] else [([], ch)]) ++ tree_iter_below lo false c ch)).
        { apply in_app_iff. destruct l0 as [|s l0].
          - left. inversion H; subst. destruct Hvis as [(Hlf & _)|(-> & _)]; [contradiction|]. simpl; auto.
          - right. apply IH; auto. split; [discriminate|]. exists m'. split; auto.
            unfold visible in *. rewrite is_elem_cons in Hvis; auto. discriminate. }
        destruct (mkind c) as [| |dt nd] eqn:Ek; auto. exfalso. apply Hl. unfold is_leaf. eauto. }
  intros x Hc l y. destruct k as [| |dt nd].
  - destruct (conf_struct_inv _ _ _ Hc) as (fs & ->). rewrite tree_iter_struct. apply Hbs. auto.
  - destruct (conf_aos_inv _ _ _ Hc) as (els & ->). rewrite tree_iter_aos, in_flat_map. split.
    + intros ((i & e) & Hin & H). apply in_enum in Hin. apply in_prefix in H as (l' & -> & H).
      assert (Hce : conf (Meta n KStruct cs) e) by (eapply conf_elem; eauto; eapply nth_error_In; eauto).
      split; [discriminate|]. simpl fst in *; simpl snd in *. apply in_app_iff in H as [H|H].
      * destruct lo; [destruct H|]. destruct H as [H|[]]. inversion H; subst.
        exists (Meta n KStruct cs). split; [econstructor; eauto; constructor|].
        unfold visible. right. repeat split; auto.
        { intros (? & ? & ?). discriminate. } left. exists [], i. reflexivity.
      * destruct (conf_struct_inv _ _ _ Hce) as (fs & ->). simpl in H.
        apply (Hbs n fs Hce) in H as (Hne & m' & Ha & Hv). exists m'. split; [econstructor; eauto|].
        unfold visible in *. rewrite is_elem_cons; auto.
    + intros (Hne & m' & Hat & Hvis).
      apply node_at_aos_inv in Hat as [(-> & _)|(i & e & l0 & -> & Hi & H)]; [congruence|].
      exists (i, e). split; [now apply in_enum|]. apply in_prefix. exists l0. split; auto. simpl fst; simpl snd.
      assert (Hce : conf (Meta n KStruct cs) e) by (eapply conf_elem; eauto; eapply nth_error_In; eauto).
      apply in_app_iff. destruct l0 as [|s l0].
      * left. inversion H; subst. destruct Hvis as [((? & ? & Hk) & _)|(-> & _)]; [simpl in Hk; discriminate|]. simpl; auto.
      * right. destruct (conf_struct_inv _ _ _ Hce) as (fs & ->). simpl. apply (Hbs n fs Hce). split; [discriminate|].
        exists m'. split; auto. unfold visible in *. rewrite is_elem_cons in Hvis; auto. discriminate.
  - split.
    + destruct x; simpl; intros [].
    + intros (Hne & m' & Hat & _). inversion Hat; subst. congruence.
Qed.
