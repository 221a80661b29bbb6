(** Lemmas about IDS trees: reading nodes, equality. *)
From Verif Require Import Base TreeModel TreeSpec TreeProofs TreeProofs2 TreeProofs3.

Lemma child_meta_Some : forall name cs c, child_meta name cs = Some c -> In c cs /\ mname c = name.
Proof. intros name cs c H. apply find_some in H as (H & E). apply str_eqb_eq in E. auto. Qed.

Lemma akeys_aset_NoDup : forall {V} (m : list (str * V)) k v, NoDup (akeys m) -> NoDup (akeys (aset k v m)).
Proof.
  induction m as [|[k' v'] t IH]; intros k v H; simpl.
  - constructor; [simpl; tauto|constructor].
  - inversion H; subst. destruct (str_eqb k k') eqn:E.
    + constructor; auto.
    + change (NoDup (k' :: akeys (aset k v t))). constructor; auto. rewrite akeys_aset_In. intros [->|Hin]; auto.
      rewrite str_eqb_refl in E. discriminate.
Qed.

Lemma nth_error_list_set : forall {A} (l : list A) i j x, nth_error (list_set i x l) j =
  if i =? j then (match nth_error l i with Some _ => Some x | None => None end) else nth_error l j.
Proof.
  induction l as [|a l IH]; intros i j x; simpl.
  - destruct (i =? j); destruct i, j; reflexivity.
  - destruct i as [|i], j as [|j]; simpl; auto.
Qed.

Lemma list_set_length : forall {A} (l : list A) i x, length (list_set i x l) = length l.
Proof. induction l as [|a l IH]; intros [|i] x; simpl; auto. Qed.

Lemma default_val_ok : forall dt nd, val_ok dt (S nd) (default_value dt (S nd)) \/ (dt = STR /\ nd > 0).
Proof.
  intros dt nd. assert (Hl : forall n, length (repeat 0 n) = n) by (intros; apply repeat_length).
  assert (Hp : prod (repeat 0 (S nd)) = 0) by reflexivity.
  destruct dt; cbn [default_value].
  - destruct nd; [left; constructor|right; split; auto; lia].
  - left. rewrite <- (Hl (S nd)) at 1. constructor; auto. discriminate.
  - left. rewrite <- (Hl (S nd)) at 1. constructor; auto. discriminate.
  - left. rewrite <- (Hl (S nd)) at 1. constructor; auto. discriminate.
Qed.

Lemma access_conf : forall l m n, wf_meta m -> str_ok m -> conf m n -> conf m (access m n l).
Proof.
  induction l as [|s l IH]; intros m n Hw Hso Hc.
  - cbn [access]. destruct m as [nm k cs]. cbn [mkind]. destruct k as [| |dt [|nd]]; auto.
    destruct (conf_leaf_inv _ _ _ _ _ Hc) as [->|(v & -> & Hv)]; auto.
    constructor. destruct (default_val_ok dt nd) as [H|(-> & H)]; auto. inversion Hso as [? ? ? Hk]; subst.
    specialize (Hk _ eq_refl). lia.
  - destruct m as [nm k cs]. destruct s as [name|i]; cbn [access mkind mchildren mname].
    + destruct k; auto. destruct (conf_struct_inv _ _ _ Hc) as (fs & ->).
      destruct (child_meta name cs) as [c|] eqn:Ec; auto. apply child_meta_Some in Ec as (Hin & <-).
      inversion Hc as [| |? ? ? H1 H2 H3|]; subst. inversion Hso as [? ? ? _ Hso']; subst.
      constructor.
      * intros c' ch' Hin' E. rewrite alookup_aset in E. destruct (str_eqb (mname c') (mname c)) eqn:En.
        -- apply str_eqb_eq in En. assert (c' = c) by (eapply nodup_name; eauto using wf_names). subst c'.
           inversion E; subst. apply IH; eauto using wf_child.
           destruct (alookup (mname c) fs) eqn:El; [eauto|apply new_node_conf].
        -- eauto.
      * intros k Hk. apply akeys_aset_In in Hk as [->|Hk]; auto. now apply in_map.
      * apply akeys_aset_NoDup; auto.
    + destruct k; auto. destruct (conf_aos_inv _ _ _ Hc) as (els & ->).
      destruct (nth_error els i) as [e|] eqn:Ei; auto.
      constructor. intros e' He'. apply In_nth_error in He' as (j & Hj). rewrite nth_error_list_set in Hj.
      destruct (Nat.eqb_spec i j) as [->|Hne].
      * rewrite Ei in Hj. inversion Hj; subst. apply IH; eauto using wf_struct.
        -- inversion Hso; subst. constructor; auto. discriminate.
        -- eapply conf_elem; eauto. eapply nth_error_In; eauto.
      * eapply conf_elem; eauto. eapply nth_error_In; eauto.
Qed.

Lemma access_item : forall l m n, wf_meta m -> conf m n -> forall p o, item m (access m n l) p o <-> item m n p o.
Proof.
  induction l as [|s l IH]; intros m n Hw Hc p o.
  - cbn [access]. destruct m as [nm k cs]. cbn [mkind]. destruct k as [| |dt [|nd]]; try tauto.
    destruct (conf_leaf_inv _ _ _ _ _ Hc) as [->|(v & -> & Hv)]; try tauto. rewrite !item_leaf. split.
    + intros (_ & w & Hx & _ & Hf). inversion Hx; subst. exfalso. eapply (default_not_filled dt (S nd)); eauto. lia.
    + intros (_ & w & Hx & _). discriminate.
  - destruct m as [nm k cs]. destruct s as [name|i]; cbn [access mkind mchildren mname].
    + destruct k; try tauto. destruct (conf_struct_inv _ _ _ Hc) as (fs & ->).
      destruct (child_meta name cs) as [c|] eqn:Ec; try tauto. apply child_meta_Some in Ec as (Hin & <-).
      assert (Hcc : conf c (match alookup (mname c) fs with Some ch => ch | None => new_node c end)).
      { destruct (alookup (mname c) fs) eqn:El; [eapply conf_child; eauto|apply new_node_conf]. }
      specialize (IH c _ (wf_child _ _ _ _ Hw Hin) Hcc).
      rewrite !item_struct. split.
      * intros (c' & ch' & l' & -> & Hin' & E & Hi). rewrite alookup_aset in E.
        destruct (str_eqb (mname c') (mname c)) eqn:En.
        -- apply str_eqb_eq in En. assert (c' = c) by (eapply nodup_name; eauto using wf_names). subst c'.
           inversion E; subst. apply IH in Hi. destruct (alookup (mname c) fs) eqn:El.
           ++ exists c, n, l'. auto.
           ++ exfalso. eapply item_new; eauto.
        -- exists c', ch', l'. auto.
      * intros (c' & ch' & l' & -> & Hin' & E & Hi).
        destruct (str_eqb (mname c') (mname c)) eqn:En.
        -- apply str_eqb_eq in En. assert (c' = c) by (eapply nodup_name; eauto using wf_names). subst c'.
           rewrite E in IH. exists c, (access c ch' l), l'. rewrite alookup_aset, str_eqb_refl, E.
           repeat split; auto. apply IH. auto.
        -- exists c', ch', l'. rewrite alookup_aset, En. auto.
    + destruct k; try tauto. destruct (conf_aos_inv _ _ _ Hc) as (els & ->).
      destruct (nth_error els i) as [e|] eqn:Ei; try tauto.
      assert (Hce : conf (Meta nm KStruct cs) e) by (eapply conf_elem; eauto; eapply nth_error_In; eauto).
      specialize (IH (Meta nm KStruct cs) e (wf_struct _ _ _ _ Hw) Hce).
      rewrite !item_aos, list_set_length. split; (intros [(-> & -> & Hne)|(j & e' & l' & -> & Hj & Hi)]; [left|right]).
      * repeat split; auto. intros ->. destruct i; discriminate.
      * rewrite nth_error_list_set in Hj. destruct (Nat.eqb_spec i j) as [->|Hij].
        -- rewrite Ei in Hj. inversion Hj; subst. exists j, e, l'. repeat split; auto. apply IH; auto.
        -- exists j, e', l'. auto.
      * repeat split; auto. intros H. apply (f_equal (@length _)) in H. rewrite list_set_length in H.
        destruct els; [congruence|discriminate].
      * destruct (Nat.eq_dec i j) as [<-|Hij].
        -- assert (e' = e) by congruence. subst e'. exists i, (access (Meta nm KStruct cs) e l), l'.
           rewrite nth_error_list_set, Nat.eqb_refl, Ei. repeat split; auto. apply IH; auto.
        -- exists j, e', l'. rewrite nth_error_list_set. apply Nat.eqb_neq in Hij. rewrite Hij. auto.
Qed.

Lemma reads_item : forall ls m n, wf_meta m -> str_ok m -> conf m n ->
  conf m (fold_left (access m) ls n) /\ forall p o, item m (fold_left (access m) ls n) p o <-> item m n p o.
Proof.
  induction ls as [|l ls IH]; intros m n Hw Hso Hc; simpl.
  - split; auto. tauto.
  - destruct (IH m (access m n l)) as (H1 & H2); auto using access_conf. split; auto.
    intros p o. rewrite H2. apply access_item; auto.
Qed.

Lemma has_value_items : forall m n n', conf m n -> conf m n' -> (forall p o, item m n p o <-> item m n' p o) ->
  has_value m n = has_value m n'.
Proof.
  intros m n n' Hc Hc' H. pose proof (has_value_nonempty _ _ Hc) as A. pose proof (has_value_nonempty _ _ Hc') as B.
  rewrite nonempty_item in A, B.
  assert (E : (exists l o, item m n l o) <-> (exists l o, item m n' l o)).
  { split; intros (l & o & K); exists l, o; apply H; auto. }
  destruct (has_value m n), (has_value m n'); intuition.
Qed.

(** two strictly sorted lists with the same elements are equal *)
Lemma sorted_unique : forall {A B} (R : A -> A -> Prop), (forall x, ~ R x x) -> (forall x y, R x y -> R y x -> False) ->
  forall (l l' : list (A * B)), sorted_by R (map fst l) -> sorted_by R (map fst l') ->
  (forall x, In x l <-> In x l') -> l = l'.
Proof.
  intros A B R Hirr Hasym. induction l as [|[a b] l IH]; intros l' Hs Hs' Hin.
  - destruct l' as [|x l']; auto. exfalso. apply (Hin x). simpl; auto.
  - destruct l' as [|[a' b'] l']. { exfalso. apply (Hin (a, b)). simpl; auto. }
    simpl in Hs, Hs'. inversion Hs as [|? ? Hlt Hs1]; subst. inversion Hs' as [|? ? Hlt' Hs1']; subst.
    assert (Heq : (a, b) = (a', b')).
    { destruct (proj1 (Hin (a, b))) as [K|K]; [simpl; auto|auto|].
      destruct (proj2 (Hin (a', b'))) as [K'|K']; [simpl; auto|auto|].
      exfalso. apply (Hasym a a').
      - apply Hlt. apply in_map_iff. exists (a', b'). auto.
      - apply Hlt'. apply in_map_iff. exists (a, b). auto. }
    inversion Heq; subst. f_equal. apply IH; auto. intros x. split; intros Hx.
    + destruct (proj1 (Hin x)) as [K|K]; [simpl; auto| |auto]. subst x. exfalso.
      apply (Hirr a'). apply Hlt. apply in_map_iff. exists (a', b'). auto.
    + destruct (proj2 (Hin x)) as [K|K]; [simpl; auto| |auto]. subst x. exfalso.
      apply (Hirr a'). apply Hlt'. apply in_map_iff. exists (a', b'). auto.
Qed.

Lemma nodup_order : forall (cs : list meta) a c1 b c2 d a' b' d', NoDup (map mname cs) ->
  cs = a ++ c1 :: b ++ c2 :: d -> cs = a' ++ c2 :: b' ++ c1 :: d' -> False.
Proof.
  intros cs a c1 b c2 d a' b' d' Hnd H1 H2.
  assert (Hnd' : NoDup cs) by (eapply NoDup_map_inv; eauto).
  assert (Hu : forall (l : list meta) i j x, NoDup l -> nth_error l i = Some x -> nth_error l j = Some x -> i = j).
  { intros l i j x Hl Hi Hj. apply (proj1 (NoDup_nth_error l) Hl).
    - apply nth_error_Some. congruence.
    - congruence. }
  assert (Hn : forall (l r : list meta) x, nth_error (l ++ x :: r) (length l) = Some x).
  { intros l r x. rewrite nth_error_app2 by lia. rewrite Nat.sub_diag. reflexivity. }
  assert (I1 : nth_error cs (length a) = Some c1) by (rewrite H1; apply Hn).
  assert (I2 : nth_error cs (length (a ++ c1 :: b)) = Some c2).
  { rewrite H1. replace (a ++ c1 :: b ++ c2 :: d) with ((a ++ c1 :: b) ++ c2 :: d) by (rewrite <- app_assoc; reflexivity). apply Hn. }
  assert (J2 : nth_error cs (length a') = Some c2) by (rewrite H2; apply Hn).
  assert (J1 : nth_error cs (length (a' ++ c2 :: b')) = Some c1).
  { rewrite H2. replace (a' ++ c2 :: b' ++ c1 :: d') with ((a' ++ c2 :: b') ++ c1 :: d') by (rewrite <- app_assoc; reflexivity). apply Hn. }
  pose proof (Hu _ _ _ _ Hnd' I1 J1) as E1. pose proof (Hu _ _ _ _ Hnd' I2 J2) as E2.
  rewrite app_length in E1, E2. simpl in E1, E2. lia.
Qed.

Lemma before_child_inv : forall nm cs x y l1 l2, before (Meta nm KStruct cs) (Child x :: l1) (Child y :: l2) ->
  (exists a c1 b c2 d, cs = a ++ c1 :: b ++ c2 :: d /\ mname c1 = x /\ mname c2 = y) \/
  (exists c, In c cs /\ mname c = x /\ mname c = y /\ before c l1 l2).
Proof.
  intros nm cs x y l1 l2 H. inversion H; subst.
  - left. do 5 eexists. eauto.
  - right. eexists. eauto.
Qed.

Lemma before_asym : forall m l1 l2, wf_meta m -> before m l1 l2 -> before m l2 l1 -> False.
Proof.
  intros m l1 l2 Hw H. revert Hw. induction H as [|nm cs a c1 b c2 d l1 l2 Hcs|nm cs c l1 l2 Hin H IH|nm cs i j l1 l2 Hij|nm cs i l1 l2 H IH]; intros Hw K.
  - inversion K.
  - pose proof (wf_names _ _ _ Hw) as Hnd.
    assert (I1 : In c1 cs) by (rewrite Hcs, in_app_iff; simpl; auto).
    assert (I2 : In c2 cs) by (rewrite Hcs, in_app_iff; simpl; rewrite in_app_iff; simpl; auto).
    apply before_child_inv in K as [(a' & x & b' & y & d' & Hcs' & E1 & E2)|(c & Hc & E1 & E2 & _)].
    + assert (x = c2).
      { eapply nodup_name with (cs := cs); eauto. rewrite Hcs', in_app_iff; simpl; auto. }
      assert (y = c1).
      { eapply nodup_name with (cs := cs); eauto. rewrite Hcs', in_app_iff; simpl; rewrite in_app_iff; simpl; auto. }
      subst x y. eapply (nodup_order cs a c1 b c2 d a' b' d'); eauto.
    + assert (c1 = c2) by (eapply nodup_name; eauto; congruence). subst c2.
      eapply (nodup_order cs a c1 b c1 d a b d); eauto.
  - pose proof (wf_names _ _ _ Hw) as Hnd.
    apply before_child_inv in K as [(a' & x & b' & y & d' & Hcs' & E1 & E2)|(c' & Hc & E1 & E2 & K)].
    + assert (x = y).
      { eapply nodup_name with (cs := cs); eauto; try congruence; rewrite Hcs', in_app_iff; simpl; auto. rewrite in_app_iff; simpl; auto. }
      subst y. eapply (nodup_order cs a' x b' x d' a' b' d'); eauto.
    + assert (c' = c) by (eapply nodup_name; eauto). subst c'. eauto using wf_child.
  - inversion K; subst; lia.
  - inversion K; subst; [lia|]. eauto using wf_struct.
Qed.

Lemma leaf_iter_items : forall m n n', conf m n -> conf m n' -> (forall p o, item m n p o <-> item m n' p o) ->
  wf_meta m -> tree_iter_below true false m n = tree_iter_below true false m n'.
Proof.
  intros m n n' Hc Hc' H Hw.
  eapply (sorted_unique (before m)); eauto using tree_iter_sorted, before_irrefl, before_asym.
  intros (l & x). rewrite !in_leaf_iter by auto. split; intros (Hne & v & -> & Hl); split; auto; exists v; split; auto.
  - apply (H l (inl v)); auto.
  - apply (H l (inl v)); auto.
Qed.

(** ** differences between two structures *)
Lemma aos_at_present : forall m n l k, aos_at m n l k -> present m n l.
Proof.
  intros m n l k (m' & els & H & Hk & Hl & Hp). exists m', (NAoS els). split; auto.
  destruct m' as [mn mk mc]. simpl in Hk. subst mk. apply nonempty_aos. intros ->. simpl in Hl. lia.
Qed.

Lemma not_hidden_present : forall m n1 n2 l, present m n2 l -> ~ hidden m n1 n2 l.
Proof.
  intros m n1 n2 l Hp (p & nm & q & mp & np & -> & Hq & Hat & Hk & Hno). apply Hno.
  apply (present_prefix m n2 (p ++ [Child nm]) q). rewrite <- app_assoc. exact Hp.
Qed.

Lemma nonempty_cases : forall m n, conf m n -> mkind m <> KStruct -> nonempty m n ->
  (is_leaf m /\ exists v, n = NLeaf (Some v) /\ filled_value v) \/ (mkind m = KAoS /\ exists els, n = NAoS els /\ els <> []).
Proof.
  intros [nm [| |dt nd] cs] n Hc Hk Hn; [simpl in Hk; congruence| |].
  - right. split; auto. destruct (conf_aos_inv _ _ _ Hc) as (els & ->). apply nonempty_aos in Hn. eauto.
  - left. split; [exists dt, nd; auto|]. destruct (conf_leaf_inv _ _ _ _ _ Hc) as [->|(v & -> & Hv)].
    + apply nonempty_leaf in Hn as (w & Hw & _). discriminate.
    + apply nonempty_leaf in Hn as (w & Hw & Hf). inversion Hw; subst. eauto.
Qed.

Lemma real_not_agree : forall m n1 n2 pre d, wf_meta m -> conf m n1 -> conf m n2 -> real m n1 n2 pre d -> ~ agree m n1 n2.
Proof.
  assert (Hone : forall m n1 n2 l m' a, wf_meta m -> conf m n1 -> node_at m n1 l m' a -> nonempty m' a -> mkind m' <> KStruct ->
     ~ present m n2 l -> (mkind m' = KAoS -> ~ hidden m n1 n2 l) -> leaves_in m n1 n2 -> sizes_in_visible m n1 n2 -> False).
  { intros m n1 n2 l m' a Hw Hc Hat Hn Hk Hnp Hh Hl Hs.
    destruct (nonempty_cases m' a) as [(Hlf & v & -> & Hf)|(Hk' & els & -> & Hne)]; eauto using node_at_conf.
    - destruct (Hl l v) as (w & Hw2 & _); [exists m'; auto|]. apply Hnp. eapply leaf_at_present; eauto.
    - destruct (Hs l (length els)) as [Hx|Hx].
      + exists m', els. repeat split; auto. destruct els; [congruence|simpl; lia].
      + apply Hnp. eapply aos_at_present; eauto.
      + apply (Hh Hk'); auto. }
  intros m n1 n2 pre d Hw Hc1 Hc2 (l & H) (L1 & L2 & S1 & S2).
  destruct H as [(m' & x & y & -> & H1 & H2 & H3)|[(m' & x & -> & H1 & H2 & H3 & H4 & H5)|(m' & x & -> & H1 & H2 & H3 & H4 & H5)]].
  - destruct H3 as [(v & w & -> & -> & Hlf & Hf1 & Hf2 & Hns)|(e1 & e2 & -> & -> & Hk & Hlen & Hn2 & Hn1)].
    + destruct (L1 l v) as (w' & (m2 & _ & Hat & _) & Hsv); [exists m'; auto|].
      destruct (node_at_inj _ _ _ _ _ H2 Hw _ _ Hat) as (_ & E). inversion E; subst. auto.
    + destruct m' as [mn mk mc]. simpl in Hk. subst mk. apply nonempty_aos in Hn1.
      destruct (S1 l (length e1)) as [Hx|Hx].
      * exists (Meta mn KAoS mc), e1. repeat split; auto. destruct e1; [congruence|simpl; lia].
      * destruct Hx as (m2 & els & Hat & _ & Hl2 & _). destruct (node_at_inj _ _ _ _ _ H2 Hw _ _ Hat) as (_ & E).
        inversion E; subst. congruence.
      * revert Hx. apply not_hidden_present. exists (Meta mn KAoS mc), (NAoS e2). auto.
  - eapply (Hone m n1 n2); eauto.
  - eapply (Hone m n2 n1); eauto.
Qed.

(** decidability of the observations *)
Lemma present_dec : forall m n l, wf_meta m -> conf m n -> present m n l \/ ~ present m n l.
Proof.
  assert (Hnode : forall l m n, (exists m' n', node_at m n l m' n') \/ ~ (exists m' n', node_at m n l m' n')).
  { induction l as [|s l IH]; intros m n; [left; exists m, n; constructor|].
    destruct m as [nm k cs]. destruct s as [name|i].
    - destruct k; try (right; intros (m' & n' & H); inversion H; fail).
      destruct n as [fs|els|v]; try (right; intros (m' & n' & H); inversion H; fail).
      destruct (alookup name fs) as [ch|] eqn:E.
      2:{ right. intros (m' & n' & H). apply node_at_struct_inv in H as [(Hx & _)|(c & ch & l' & Hx & _ & E' & _)]; [discriminate|].
          inversion Hx; subst. congruence. }
      assert (Hd : forall ds, (exists c m' n', In c ds /\ mname c = name /\ node_at c ch l m' n') \/
                              ~ (exists c m' n', In c ds /\ mname c = name /\ node_at c ch l m' n')).
      { induction ds as [|c ds IHd]. { right. intros (c & m' & n' & [] & _). }
        destruct IHd as [(c' & m' & n' & H1 & H2)|Hno]; [left; exists c', m', n'; simpl; auto|].
        destruct (str_dec (mname c) name) as [En|En].
        - destruct (IH c ch) as [(m' & n' & H)|Hn].
          + left. exists c, m', n'. simpl; auto.
          + right. intros (c' & m' & n' & [->|Hin] & H2 & H3); [apply Hn; eauto|]. apply Hno. exists c', m', n'. auto.
        - right. intros (c' & m' & n' & [->|Hin] & H2 & H3); [auto|]. apply Hno. exists c', m', n'. auto. }
      destruct (Hd cs) as [(c & m' & n' & H1 & <- & H3)|Hno].
      + left. exists m', n'. econstructor; eauto.
      + right. intros (m' & n' & H). apply node_at_struct_inv in H as [(Hx & _)|(c & ch' & l' & Hx & Hin & E' & H)]; [discriminate|].
        inversion Hx; subst. apply Hno. exists c, m', n'. repeat split; auto. congruence.
    - destruct k; try (right; intros (m' & n' & H); inversion H; fail).
      destruct n as [fs|els|v]; try (right; intros (m' & n' & H); inversion H; fail).
      destruct (nth_error els i) as [e|] eqn:E.
      2:{ right. intros (m' & n' & H). apply node_at_aos_inv in H as [(Hx & _)|(j & e & l' & Hx & E' & _)]; [discriminate|].
          inversion Hx; subst. congruence. }
      destruct (IH (Meta nm KStruct cs) e) as [(m' & n' & H)|Hn].
      + left. exists m', n'. econstructor; eauto.
      + right. intros (m' & n' & H). apply node_at_aos_inv in H as [(Hx & _)|(j & e' & l' & Hx & E' & H)]; [discriminate|].
        inversion Hx; subst. apply Hn. exists m', n'. congruence. }
  intros m n l Hw Hc. destruct (Hnode l m n) as [(m' & n' & H)|Hno].
  - destruct (has_value m' n') eqn:E.
    + left. exists m', n'. split; auto. apply has_value_nonempty; eauto using node_at_conf.
    + right. intros (m2 & n2 & H2 & Hn). destruct (node_at_inj _ _ _ _ _ H Hw _ _ H2) as (-> & ->).
      apply has_value_empty in E; eauto using node_at_conf.
  - right. intros (m' & n' & H & _). apply Hno. eauto.
Qed.

Lemma hidden_dec : forall m n1 n2 l, wf_meta m -> conf m n1 -> conf m n2 -> present m n1 l -> hidden m n1 n2 l \/ ~ hidden m n1 n2 l.
Proof.
  intros m n1 n2 l Hw Hc1 Hc2 Hp.
  assert (G : forall r p, l = p ++ r -> (exists nm q mp np p2, r = p2 ++ Child nm :: q /\ q <> [] /\
        node_at m n1 ((p ++ p2) ++ [Child nm]) mp np /\ mkind mp = KStruct /\
        ~ (exists mp' np', node_at m n2 ((p ++ p2) ++ [Child nm]) mp' np' /\ nonempty mp' np')) \/
      ~ (exists nm q mp np p2, r = p2 ++ Child nm :: q /\ q <> [] /\
        node_at m n1 ((p ++ p2) ++ [Child nm]) mp np /\ mkind mp = KStruct /\
        ~ (exists mp' np', node_at m n2 ((p ++ p2) ++ [Child nm]) mp' np' /\ nonempty mp' np'))).
  { induction r as [|s r IH]; intros p Hl.
    - right. intros (nm & q & mp & np & p2 & E & _). destruct p2; discriminate.
    - destruct (IH (p ++ [s])) as [(nm & q & mp & np & p2 & -> & H)|Hno].
      { rewrite <- app_assoc. auto. }
      + left. exists nm, q, mp, np, (s :: p2). split; auto. replace (p ++ s :: p2) with ((p ++ [s]) ++ p2) by (rewrite <- app_assoc; reflexivity). auto.
      + assert (Hrest : forall nm q mp np p2, s :: r = p2 ++ Child nm :: q -> p2 <> [] -> q <> [] ->
          node_at m n1 ((p ++ p2) ++ [Child nm]) mp np -> mkind mp = KStruct ->
          ~ (exists mp' np', node_at m n2 ((p ++ p2) ++ [Child nm]) mp' np' /\ nonempty mp' np') -> False).
        { intros nm q mp np p2 E Hne Hq Hat Hk Hn. destruct p2 as [|s' p2]; [congruence|]. simpl in E. inversion E; subst.
          apply Hno. exists nm, q, mp, np, p2.
          replace ((p ++ [s']) ++ p2) with (p ++ s' :: p2) by (rewrite <- app_assoc; reflexivity). auto. }
        assert (Hhere : (exists nm mp np, s = Child nm /\ r <> [] /\ node_at m n1 (p ++ [Child nm]) mp np /\ mkind mp = KStruct /\
             ~ present m n2 (p ++ [Child nm])) \/
             ~ (exists nm mp np, s = Child nm /\ r <> [] /\ node_at m n1 (p ++ [Child nm]) mp np /\ mkind mp = KStruct /\
             ~ present m n2 (p ++ [Child nm]))).
        { destruct s as [nm|i]. 2:{ right. intros (nm & mp & np & E & _). discriminate. }
          destruct r as [|s2 r]. { right. intros (nm' & mp & np & _ & E & _). congruence. }
          destruct Hp as (m' & n' & Hat & Hn). rewrite Hl in Hat.
          replace (p ++ Child nm :: s2 :: r) with ((p ++ [Child nm]) ++ s2 :: r) in Hat by (rewrite <- app_assoc; reflexivity).
          apply node_at_split in Hat as (mp & np & Ha & Hb).
          destruct (present_dec m n2 (p ++ [Child nm]) Hw Hc2) as [Hpr|Hnp].
          - right. intros (nm' & mp' & np' & E & _ & _ & _ & K). inversion E; subst. auto.
          - destruct (mkind mp) eqn:Ek.
            + left. exists nm, mp, np. repeat split; auto. discriminate.
            + right. intros (nm' & mp' & np' & E & _ & K & Kk & _). inversion E; subst.
              destruct (node_at_inj _ _ _ _ _ Ha Hw _ _ K) as (-> & _). congruence.
            + right. intros (nm' & mp' & np' & E & _ & K & Kk & _). inversion E; subst.
              destruct (node_at_inj _ _ _ _ _ Ha Hw _ _ K) as (-> & _). congruence. }
        destruct Hhere as [(nm & mp & np & -> & Hr & Hat & Hk & Hnp)|Hnh].
        * left. exists nm, r, mp, np, []. rewrite app_nil_r. repeat split; auto.
        * right. intros (nm & q & mp & np & p2 & E & Hq & Hat & Hk & Hn). destruct p2 as [|s' p2].
          -- simpl in E. inversion E; subst. rewrite app_nil_r in *. apply Hnh. exists nm, mp, np. repeat split; auto.
          -- eapply Hrest; eauto. discriminate. }
  destruct (G l [] eq_refl) as [(nm & q & mp & np & p2 & H)|Hno].
  - left. exists p2, nm, q, mp, np. exact H.
  - right. intros (p & nm & q & mp & np & H). apply Hno. exists nm, q, mp, np, p. exact H.
Qed.

Lemma val_ok_filled_dec : forall m n l v, wf_meta m -> conf m n -> leaf_at m n l v ->
  forall n2, conf m n2 -> (exists w, leaf_at m n2 l w /\ same_value v w) \/ ~ (exists w, leaf_at m n2 l w /\ same_value v w).
Proof.
  intros m n l v Hw Hc Hl n2 Hc2. destruct (present_dec m n2 l Hw Hc2) as [(m' & n' & Hat & Hn)|Hnp].
  - destruct Hl as (mv & (dt & nd & Hk) & Hatv & Hf). destruct mv as [mn mk mc]. simpl in Hk. subst mk.
    assert (Hv : val_ok dt nd v).
    { pose proof (node_at_conf _ _ _ _ _ Hatv Hc) as K. destruct (conf_leaf_inv _ _ _ _ _ K) as [E|(v' & E & Hv)]; [discriminate|].
      inversion E; subst; auto. }
    assert (Hm : forall m0 n0, node_at m n2 l m0 n0 -> m0 = Meta mn (KLeaf dt nd) mc).
    { clear - Hatv Hw. intros m0 n0 H. revert n2 m0 n0 H Hw.
      remember (Meta mn (KLeaf dt nd) mc) as mm. remember (NLeaf (Some v)) as nn. clear Heqmm Heqnn.
      induction Hatv as [|nm cs fs c ch l m' n' Hin E H IH|nm cs els i e l m' n' E H IH]; intros x2 m0 n0 K Hw.
      - apply node_at_nil_inv in K as (-> & _). auto.
      - inversion K; subst. assert (c0 = c) by (eapply nodup_name; eauto using wf_names). subst c0. eapply IH; eauto using wf_child.
      - inversion K; subst. eapply IH; eauto using wf_struct. }
    pose proof (Hm _ _ Hat) as ->.
    destruct (conf_leaf_inv _ _ _ _ _ (node_at_conf _ _ _ _ _ Hat Hc2)) as [->|(w & -> & Hv2)].
    { apply nonempty_leaf in Hn as (w & E & _). discriminate. }
    apply nonempty_leaf in Hn as (w' & E & Hf2). inversion E; subst w'.
    destruct (leaf_eq v w) eqn:El.
    + left. exists w. split; [|apply (leaf_eq_spec dt nd); auto]. exists (Meta mn (KLeaf dt nd) mc). repeat split; auto. exists dt, nd; auto.
    + right. intros (w' & (m2 & _ & Hat2 & _) & Hs). destruct (node_at_inj _ _ _ _ _ Hat Hw _ _ Hat2) as (_ & E2). inversion E2; subst.
      apply (leaf_eq_spec dt nd) in Hs; auto. congruence.
  - right. intros (w & Hw2 & _). apply Hnp. eapply leaf_at_present; eauto.
Qed.

Lemma aos_at_dec : forall m n l k, wf_meta m -> conf m n -> aos_at m n l k \/ ~ aos_at m n l k.
Proof.
  intros m n l k Hw Hc. destruct (present_dec m n l Hw Hc) as [(m' & n' & Hat & Hn)|Hnp].
  - destruct m' as [mn mk mc]. destruct mk as [| |dt nd].
    + right. intros (m2 & els & Hat2 & Hk & _). destruct (node_at_inj _ _ _ _ _ Hat Hw _ _ Hat2) as (<- & _). discriminate.
    + destruct (conf_aos_inv _ _ _ (node_at_conf _ _ _ _ _ Hat Hc)) as (els & ->). apply nonempty_aos in Hn.
      destruct (Nat.eq_dec (length els) k) as [<-|Hne].
      * left. exists (Meta mn KAoS mc), els. repeat split; auto. destruct els; [congruence|simpl; lia].
      * right. intros (m2 & els' & Hat2 & Hk & Hl & _). destruct (node_at_inj _ _ _ _ _ Hat Hw _ _ Hat2) as (_ & E). inversion E; subst. auto.
    + right. intros (m2 & els & Hat2 & Hk & _). destruct (node_at_inj _ _ _ _ _ Hat Hw _ _ Hat2) as (<- & _). discriminate.
  - right. intros H. apply Hnp. eapply aos_at_present; eauto.
Qed.

Lemma not_differs_agree : forall m n1 n2, wf_meta m -> conf m n1 -> conf m n2 ->
  (forall l, ~ differs m n1 n2 l) -> leaves_in m n1 n2 /\ sizes_in_visible m n1 n2.
Proof.
  intros m n1 n2 Hw Hc1 Hc2 H. split.
  - intros l v Hl. destruct (val_ok_filled_dec m n1 l v Hw Hc1 Hl n2 Hc2) as [K|K]; auto.
    exfalso. apply (H l). left. exists v. auto.
  - intros l k Hl. destruct (aos_at_dec m n2 l k Hw Hc2) as [K|K]; auto.
    destruct (hidden_dec m n1 n2 l Hw Hc1 Hc2) as [Hh|Hh]; [eapply aos_at_present; eauto|auto|].
    exfalso. apply (H l). right. exists k. auto.
Qed.

Lemma diff_nil_iff : forall nm cs n1 n2 pre, wf_meta (Meta nm KStruct cs) ->
  conf (Meta nm KStruct cs) n1 -> conf (Meta nm KStruct cs) n2 ->
  (diff_child pre (Meta nm KStruct cs) n1 (Meta nm KStruct cs) n2 = [] <-> agree (Meta nm KStruct cs) n1 n2).
Proof.
  intros nm cs n1 n2 pre Hw Hc1 Hc2.
  assert (Hleaf : is_leaf (Meta nm KStruct cs) -> nonempty (Meta nm KStruct cs) n1 /\ nonempty (Meta nm KStruct cs) n2).
  { intros (? & ? & K). discriminate. }
  split.
  - intros Hd.
    assert (Hnd : forall l, ~ (differs (Meta nm KStruct cs) n1 n2 l \/ differs (Meta nm KStruct cs) n2 n1 l)).
    { intros l K. destruct (diff_reported _ Hw n1 n2 pre l Hc1 Hc2 Hleaf K) as (p & q & a & b & _ & Hin).
      rewrite Hd in Hin. destruct Hin. }
    destruct (not_differs_agree _ n1 n2 Hw Hc1 Hc2) as (L1 & S1); [intros l K; apply (Hnd l); auto|].
    destruct (not_differs_agree _ n2 n1 Hw Hc2 Hc1) as (L2 & S2); [intros l K; apply (Hnd l); auto|].
    unfold agree. auto.
  - intros Ha. destruct (diff_child pre (Meta nm KStruct cs) n1 (Meta nm KStruct cs) n2) as [|d ds] eqn:E; auto.
    exfalso. revert Ha. eapply real_not_agree; eauto. eapply (diff_real _ Hw); eauto.
    + discriminate.
    + rewrite E. simpl; auto.
Qed.

Lemma list_eqb_str : forall l l', list_eqb str_eqb l l' = true <-> l = l'.
Proof.
  induction l as [|a l IH]; destruct l' as [|b l']; simpl; split; intros K; try discriminate; auto.
  - apply andb_true_iff in K as (K1 & K2). apply str_eqb_eq in K1. apply IH in K2. congruence.
  - inversion K; subst. rewrite str_eqb_refl. apply IH. auto.
Qed.

Lemma idsdiffgen_nil : forall dd a b, handle_ok dd a -> handle_ok dd b ->
  (idsdiffgen a b = [] <-> same_place a b /\ agree (struct_view (h_meta a)) (h_node a) (h_node b)).
Proof.
  intros dd a b (Da & Wa & Ca & Pa) (Db & Wb & Cb & Pb). unfold idsdiffgen, same_place.
  destruct (str_eqb (h_version a) (h_version b)) eqn:E1.
  2:{ apply str_eqb_neq in E1. split; [discriminate|]. intros ((K & _) & _). congruence. }
  destruct (str_eqb (h_ids a) (h_ids b)) eqn:E2.
  2:{ apply str_eqb_neq in E2. split; [discriminate|]. intros ((_ & K & _) & _). congruence. }
  destruct (list_eqb str_eqb (h_path a) (h_path b)) eqn:E3.
  2:{ split; [discriminate|]. intros ((_ & _ & K) & _). apply list_eqb_str in K. congruence. }
  apply str_eqb_eq in E1, E2. apply list_eqb_str in E3. cbn [app].
  assert (Hm : h_meta b = h_meta a) by congruence. rewrite Hm in *.
  unfold idsdiff_struct.
  assert (W : wf_meta (Meta (mname (h_meta a)) KStruct (mchildren (h_meta a)))).
  { destruct (h_meta a) as [n k c]. simpl. eapply wf_struct; eauto. }
  transitivity (diff_child (removelast (h_path a)) (struct_view (h_meta a)) (h_node a) (struct_view (h_meta a)) (h_node b) = []).
  - unfold struct_view. destruct (h_path a); [|tauto]. split.
    + apply map_eq_nil.
    + intros ->. reflexivity.
  - unfold struct_view in *. rewrite diff_nil_iff by auto. tauto.
Qed.

Lemma solid_sizes : forall m n1 n2, wf_meta m -> solid m n1 -> leaves_in m n1 n2 -> sizes_in_visible m n1 n2 -> sizes_in m n1 n2.
Proof.
  intros m n1 n2 Hw Hso Hl Hs l k Ha. destruct (Hs l k Ha) as [H|(p & nm & q & mp & np & -> & Hq & Hat & Hk & Hno)]; auto.
  exfalso. assert (Hn : nonempty mp np).
  { apply aos_at_present in Ha. destruct Ha as (m' & n' & Ha & Hn).
    replace (p ++ Child nm :: q) with ((p ++ [Child nm]) ++ q) in Ha by (rewrite <- app_assoc; reflexivity).
    apply node_at_split in Ha as (m1 & x1 & A & B). destruct (node_at_inj _ _ _ _ _ Hat Hw _ _ A) as (<- & <-).
    eapply nonempty_up; eauto. }
  destruct (Hso _ _ _ _ Hat Hk Hn) as (l2 & v & m2 & Hlf & H2 & Hf).
  destruct (Hl ((p ++ [Child nm]) ++ l2) v) as (w & Hw2 & _).
  { exists m2. repeat split; auto. eapply node_at_app; eauto. }
  apply Hno. apply leaf_at_present in Hw2. apply present_prefix in Hw2. exact Hw2.
Qed.

Lemma agree_refl : forall m n, agree m n n.
Proof.
  intros m n. repeat split; try (intros l v H; exists v; split; auto; apply same_value_refl); intros l k H; auto.
Qed.

Lemma agree_sym : forall m a b, agree m a b -> agree m b a.
Proof. intros m a b (H1 & H2 & H3 & H4). repeat split; auto. Qed.

Lemma meta_at_det : forall m n l m1 x1, node_at m n l m1 x1 -> wf_meta m -> forall n' m2 x2, node_at m n' l m2 x2 -> m1 = m2.
Proof.
  intros m n l m1 x1 H. induction H as [|nm cs fs c ch l m' n' Hin E H IH|nm cs els i e l m' n' E H IH]; intros Hw x2 m0 n0 K.
  - apply node_at_nil_inv in K as (-> & _). auto.
  - inversion K; subst. assert (c0 = c) by (eapply nodup_name; eauto using wf_names). subst c0. eapply IH; eauto using wf_child.
  - inversion K; subst. eapply IH; eauto using wf_struct.
Qed.

Lemma item_node : forall m n l o, item m n l o -> exists m' n', node_at m n l m' n'.
Proof. intros m n l [v|k]; cbn; [intros (m' & _ & H & _)|intros (m' & els & H & _)]; eauto. Qed.

Lemma item_app : forall m n l m' n' l' o, node_at m n l m' n' -> item m' n' l' o -> item m n (l ++ l') o.
Proof.
  intros m n l m' n' l' [v|k] H; cbn.
  - intros (m2 & Hl & H2 & Hf). exists m2. repeat split; auto. eapply node_at_app; eauto.
  - intros (m2 & els & H2 & Hk). exists m2, els. split; auto. eapply node_at_app; eauto.
Qed.

Lemma item_split : forall m n l l' o, item m n (l ++ l') o -> exists m' n', node_at m n l m' n' /\ item m' n' l' o.
Proof.
  intros m n l l' [v|k]; cbn.
  - intros (m2 & Hl & H2 & Hf). apply node_at_split in H2 as (m1 & n1 & A & B). exists m1, n1. split; auto. exists m2. auto.
  - intros (m2 & els & H2 & Hk). apply node_at_split in H2 as (m1 & n1 & A & B). exists m1, n1. split; auto. exists m2, els. auto.
Qed.

Lemma present_item : forall m n l, present m n l <-> exists l' o, item m n (l ++ l') o.
Proof.
  intros m n l. split.
  - intros (m' & n' & H & Hn). apply nonempty_item in Hn as (l' & o & Hi). exists l', o. eapply item_app; eauto.
  - intros (l' & o & Hi). apply item_split in Hi as (m' & n' & H & Hi). exists m', n'. split; auto. apply nonempty_item. eauto.
Qed.

Lemma sizes_visible_items : forall m n1 n2 n1' n2', wf_meta m -> (forall p o, item m n1 p o <-> item m n1' p o) ->
  (forall p o, item m n2 p o <-> item m n2' p o) -> sizes_in_visible m n1 n2 -> sizes_in_visible m n1' n2'.
Proof.
  intros m n1 n2 n1' n2' Hw H1 H2 Hs l k Hl. assert (Hl' : aos_at m n1 l k) by (apply (H1 l (inr k)); auto).
  destruct (Hs l k Hl') as [H|(p & nm & q & mp & np & E & Hq & Hat & Hk & Hno)].
  - left. apply (H2 l (inr k)); auto.
  - right. subst l.
    assert (Hi : item m n1' ((p ++ [Child nm]) ++ q) (inr k)) by (rewrite <- app_assoc; exact Hl).
    apply item_split in Hi as (m' & n' & Hat' & _). pose proof (meta_at_det _ _ _ _ _ Hat Hw _ _ _ Hat') as <-.
    exists p, nm, q, mp, n'. repeat split; auto. intros (mp' & np' & Hp). apply Hno.
    assert (Hpr : present m n2' (p ++ [Child nm])) by (exists mp', np'; auto).
    apply present_item in Hpr as (l' & o & Hi). apply H2 in Hi.
    apply (proj2 (present_item m n2 (p ++ [Child nm]))). eauto.
Qed.

Lemma leaves_items : forall m n1 n2 n1' n2', (forall p o, item m n1 p o <-> item m n1' p o) ->
  (forall p o, item m n2 p o <-> item m n2' p o) -> leaves_in m n1 n2 -> leaves_in m n1' n2'.
Proof.
  intros m n1 n2 n1' n2' H1 H2 Hl l v Hv. apply (H1 l (inl v)) in Hv. destruct (Hl l v Hv) as (w & Hw & Hs).
  exists w. split; auto. apply (H2 l (inl w)). auto.
Qed.

Lemma agree_items : forall m n1 n2 n1' n2', wf_meta m -> (forall p o, item m n1 p o <-> item m n1' p o) ->
  (forall p o, item m n2 p o <-> item m n2' p o) -> agree m n1 n2 -> agree m n1' n2'.
Proof.
  intros m n1 n2 n1' n2' Hw H1 H2 (A & B & C & D). repeat split.
  - eapply leaves_items; [| |exact A]; auto.
  - eapply leaves_items; [| |exact B]; auto.
  - eapply sizes_visible_items; [| | |exact C]; auto.
  - eapply sizes_visible_items; [| | |exact D]; auto.
Qed.
