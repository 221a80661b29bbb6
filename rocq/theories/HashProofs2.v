(** The content hash determines the contents up to collisions, and is determined by them. *)
From Coq Require Import Permutation.
From Verif Require Import Base TreeModel TreeSpec TreeProofs TreeProofs2 TreeProofs3 TreeProofs4 HashModel HashSpec HashProofs.

(** ** Same contents, one direction *)
Record incl_hashed (m : meta) (n1 n2 : node) : Prop := {
  ih_item : forall l o, ~ masked m l -> item m n1 l o -> item m n2 l o;
  ih_present : forall l x, ~ masked m (l ++ [Child x]) -> present m n1 (l ++ [Child x]) -> present m n2 (l ++ [Child x])
}.

Lemma same_incl : forall m n1 n2, same_hashed m n1 n2 <-> incl_hashed m n1 n2 /\ incl_hashed m n2 n1.
Proof.
  intros m n1 n2. split.
  - intros [A B C]. split; constructor.
    + intros l [v|k] Hm; simpl; [apply A|apply B]; auto.
    + intros l x Hm. apply C. auto.
    + intros l [v|k] Hm; simpl; [apply A|apply B]; auto.
    + intros l x Hm. apply C. auto.
  - intros ([A B] & [C D]). constructor.
    + intros l v Hm. split; [apply (A l (inl v))|apply (C l (inl v))]; auto.
    + intros l k Hm. split; [apply (A l (inr k))|apply (C l (inr k))]; auto.
    + intros l x Hm. split; auto.
Qed.

Lemma present_nil : forall m n, present m n [] <-> nonempty m n.
Proof.
  intros m n. split.
  - intros (m' & n' & Hat & Hn). apply node_at_nil_inv in Hat as (-> & ->). auto.
  - intros Hn. exists m, n. split; [constructor|auto].
Qed.
Lemma present_struct : forall nm cs fs s l, present (Meta nm KStruct cs) (NStruct fs) (s :: l) <->
  exists c ch, s = Child (mname c) /\ In c cs /\ alookup (mname c) fs = Some ch /\ present c ch l.
Proof.
  intros nm cs fs s l. split.
  - intros (m' & n' & Hat & Hn). apply node_at_struct_inv in Hat as [(E & _)|(c & ch & l' & E & Hin & El & Hat)]; [discriminate|].
    inversion E; subst. exists c, ch. repeat split; auto. exists m', n'. auto.
  - intros (c & ch & -> & Hin & E & (m' & n' & Hat & Hn)). exists m', n'. split; auto. econstructor; eauto.
Qed.
Lemma present_aos : forall nm cs els s l, present (Meta nm KAoS cs) (NAoS els) (s :: l) <->
  exists i e, s = Elem i /\ nth_error els i = Some e /\ present (Meta nm KStruct cs) e l.
Proof.
  intros nm cs els s l. split.
  - intros (m' & n' & Hat & Hn). apply node_at_aos_inv in Hat as [(E & _)|(i & e & l' & E & Hi & Hat)]; [discriminate|].
    inversion E; subst. exists i, e. repeat split; auto. exists m', n'. auto.
  - intros (i & e & -> & Hi & (m' & n' & Hat & Hn)). exists m', n'. split; auto. econstructor; eauto.
Qed.

Lemma skipped_true : forall a b, skipped a b = true <-> a = strs "ids_properties" /\ b = strs "version_put".
Proof. intros a b. unfold skipped. rewrite andb_true_iff, !str_eqb_eq. tauto. Qed.

Lemma masked_child : forall nm cs c l, NoDup (map mname cs) -> In c cs ->
  (masked (Meta nm KStruct cs) (Child (mname c) :: l) <-> skipped nm (mname c) = true \/ masked c l).
Proof.
  intros nm cs c l Hnd Hin. split.
  - intros Hm. remember (Meta nm KStruct cs) as m eqn:Em. remember (Child (mname c) :: l) as l0 eqn:El.
    destruct Hm as [cs' l'|nm' cs' c' l' Hin' Hm|nm' cs' i l' Hm]; try discriminate.
    + injection Em as E1 E2. injection El as E3 E4. left. apply skipped_true. auto.
    + injection Em as E1 E2. injection El as E3 E4. subst. right.
      assert (c' = c) as -> by (eapply nodup_name; eauto). auto.
  - intros [Hs|Hm]; [|constructor; auto]. apply skipped_true in Hs as (-> & ->). constructor.
Qed.
Lemma masked_elem : forall nm cs i l, masked (Meta nm KAoS cs) (Elem i :: l) <-> masked (Meta nm KStruct cs) l.
Proof.
  intros nm cs i l. split; [|constructor; auto]. intros Hm.
  remember (Meta nm KAoS cs) as m eqn:Em. remember (Elem i :: l) as l0 eqn:El.
  destruct Hm as [cs' l'|nm' cs' c' l' Hin' Hm|nm' cs' j l' Hm]; try discriminate.
  injection Em as E1 E2. injection El as E3 E4. subst. auto.
Qed.
Lemma masked_nil : forall m, ~ masked m [].
Proof. intros m Hm. remember [] as l. destruct Hm; discriminate. Qed.

Lemma item_nonempty : forall m n l o, item m n l o -> nonempty m n.
Proof. intros. apply nonempty_item. eauto. Qed.

Lemma struct_incl : forall nm cs f1 f2, NoDup (map mname cs) ->
  (forall c, In c cs -> skipped nm (mname c) = false -> forall ch1, alookup (mname c) f1 = Some ch1 -> nonempty c ch1 ->
     exists ch2, alookup (mname c) f2 = Some ch2 /\ nonempty c ch2 /\ incl_hashed c ch1 ch2) ->
  incl_hashed (Meta nm KStruct cs) (NStruct f1) (NStruct f2).
Proof.
  intros nm cs f1 f2 Hnd Hc.
  assert (Hs : forall c l, In c cs -> ~ masked (Meta nm KStruct cs) (Child (mname c) :: l) -> skipped nm (mname c) = false /\ ~ masked c l).
  { intros c l Hin Hm. rewrite masked_child in Hm by auto. split; [|tauto]. destruct (skipped nm (mname c)); tauto. }
  constructor.
  - intros l o Hm Hi. rewrite item_struct in Hi. destruct Hi as (c & ch & l' & -> & Hin & E & Hi).
    destruct (Hs c l' Hin Hm) as (S1 & S2).
    destruct (Hc c Hin S1 ch E (item_nonempty _ _ _ _ Hi)) as (ch2 & E2 & _ & [A _]).
    apply item_struct. exists c, ch2, l'. repeat split; auto.
  - intros l x Hm Hp. destruct l as [|s l]; simpl app in *.
    + apply present_struct in Hp as (c & ch & E & Hin & El & Hp). rewrite E in *. destruct (Hs c [] Hin Hm) as (S1 & S2).
      apply present_nil in Hp. destruct (Hc c Hin S1 ch El Hp) as (ch2 & E2 & Hn & _).
      apply present_struct. exists c, ch2. repeat split; auto. now apply present_nil.
    + apply present_struct in Hp as (c & ch & -> & Hin & El & Hp). destruct (Hs c _ Hin Hm) as (S1 & S2).
      destruct (Hc c Hin S1 ch El (present_nonempty _ _ _ Hp)) as (ch2 & E2 & Hn & [_ B]).
      apply present_struct. exists c, ch2. repeat split; auto.
Qed.

Lemma aos_incl : forall nm cs e1 e2, length e1 = length e2 ->
  (forall i a b, nth_error e1 i = Some a -> nth_error e2 i = Some b -> incl_hashed (Meta nm KStruct cs) a b) ->
  incl_hashed (Meta nm KAoS cs) (NAoS e1) (NAoS e2).
Proof.
  intros nm cs e1 e2 Hl Hc.
  assert (Hx : forall i a, nth_error e1 i = Some a -> exists b, nth_error e2 i = Some b).
  { intros i a Hi. destruct (nth_error e2 i) eqn:E; eauto. apply nth_error_None in E.
    assert (i < length e1) by (apply nth_error_Some; congruence). lia. }
  constructor.
  - intros l o Hm Hi. rewrite item_aos in Hi. apply item_aos. destruct Hi as [(-> & -> & Hne)|(i & a & l' & -> & Ha & Hi)].
    + left. rewrite Hl. repeat split; auto. intros ->. destruct e1; [congruence|discriminate].
    + right. rewrite masked_elem in Hm. destruct (Hx i a Ha) as (b & Hb). exists i, b, l'. repeat split; auto.
      apply (Hc i a b Ha Hb); auto.
  - intros l x Hm Hp. destruct l as [|s l]; simpl app in *.
    + apply present_aos in Hp as (i & a & E & _). discriminate.
    + apply present_aos in Hp as (i & a & -> & Ha & Hp). rewrite masked_elem in Hm. destruct (Hx i a Ha) as (b & Hb).
      apply present_aos. exists i, b. repeat split; auto. apply (Hc i a b Ha Hb); auto.
Qed.

(** ... and back *)
Lemma struct_incl_inv : forall nm cs f1 f2 c ch1, NoDup (map mname cs) -> incl_hashed (Meta nm KStruct cs) (NStruct f1) (NStruct f2) ->
  In c cs -> skipped nm (mname c) = false -> alookup (mname c) f1 = Some ch1 -> nonempty c ch1 ->
  exists ch2, alookup (mname c) f2 = Some ch2 /\ nonempty c ch2 /\ incl_hashed c ch1 ch2.
Proof.
  intros nm cs f1 f2 c ch1 Hnd [A B] Hin Hs E Hn.
  assert (Hm : forall l, ~ masked c l -> ~ masked (Meta nm KStruct cs) (Child (mname c) :: l)).
  { intros l Hm. rewrite masked_child by auto. rewrite Hs. intros [?|?]; [discriminate|auto]. }
  assert (P : present (Meta nm KStruct cs) (NStruct f2) [Child (mname c)]).
  { apply (B [] (mname c)); simpl app; [apply Hm, masked_nil|]. apply present_struct. exists c, ch1. repeat split; auto. now apply present_nil. }
  apply present_struct in P as (c' & ch2 & E' & Hin' & El & P). injection E' as E'.
  assert (c' = c) as -> by (eapply nodup_name; eauto). apply present_nil in P.
  exists ch2. repeat split; auto.
  - intros l o Ho Hi. assert (X : item (Meta nm KStruct cs) (NStruct f2) (Child (mname c) :: l) o).
    { apply A; auto. apply item_struct. exists c, ch1, l. auto. }
    apply item_struct in X as (c2 & ch & l' & X1 & X2 & X3 & X4). injection X1 as X1 ->.
    assert (c2 = c) as -> by (eapply nodup_name; eauto). congruence.
  - intros l x Ho Hp. assert (X : present (Meta nm KStruct cs) (NStruct f2) ((Child (mname c) :: l) ++ [Child x])).
    { apply B; [apply Hm; auto|]. simpl app. apply present_struct. exists c, ch1. auto. }
    simpl app in X. apply present_struct in X as (c2 & ch & X1 & X2 & X3 & X4). injection X1 as X1.
    assert (c2 = c) as -> by (eapply nodup_name; eauto). congruence.
Qed.

Lemma aos_incl_inv : forall nm cs e1 e2 i a b, incl_hashed (Meta nm KAoS cs) (NAoS e1) (NAoS e2) ->
  nth_error e1 i = Some a -> nth_error e2 i = Some b -> incl_hashed (Meta nm KStruct cs) a b.
Proof.
  intros nm cs e1 e2 i a b [A B] Ha Hb. constructor.
  - intros l o Hm Hi. assert (X : item (Meta nm KAoS cs) (NAoS e2) (Elem i :: l) o).
    { apply A; [rewrite masked_elem; auto|]. apply item_aos. right. exists i, a, l. auto. }
    apply item_aos in X as [(X & _)|(j & e & l' & X1 & X2 & X3)]; [discriminate|]. injection X1 as -> ->. congruence.
  - intros l x Hm Hp. assert (X : present (Meta nm KAoS cs) (NAoS e2) ((Elem i :: l) ++ [Child x])).
    { apply B; simpl app; [rewrite masked_elem; auto|]. apply present_aos. exists i, a. auto. }
    simpl app in X. apply present_aos in X as (j & e & X1 & X2 & X3). injection X1 as ->. congruence.
Qed.

Lemma aos_incl_length : forall nm cs e1 e2, incl_hashed (Meta nm KAoS cs) (NAoS e1) (NAoS e2) ->
  incl_hashed (Meta nm KAoS cs) (NAoS e2) (NAoS e1) -> length e1 = length e2.
Proof.
  intros nm cs e1 e2 [A _] [B _].
  assert (G : forall e, e <> [] -> item (Meta nm KAoS cs) (NAoS e) [] (inr (length e))) by (intros; apply item_aos; auto).
  assert (K : forall e k, item (Meta nm KAoS cs) (NAoS e) [] (inr k) -> k = length e).
  { intros e k Hi. apply item_aos in Hi as [(_ & E & _)|(i & x & l' & E & _)]; [congruence|discriminate]. }
  destruct e1 as [|x e1].
  - destruct e2 as [|y e2]; auto. exfalso. specialize (B [] (inr (length (y :: e2))) (masked_nil _) (G (y :: e2) ltac:(discriminate))). apply K in B. discriminate.
  - specialize (A [] (inr (length (x :: e1))) (masked_nil _) (G (x :: e1) ltac:(discriminate))). apply K in A. auto.
Qed.

(** ** Sorting *)
Lemma insert_perm : forall {A} x (l : list (str * A)), Permutation (insert x l) (x :: l).
Proof.
  induction l as [|y l IH]; simpl; auto. destruct (str_leb (fst x) (fst y)); auto.
  rewrite IH. apply perm_swap.
Qed.
Lemma isort_perm : forall {A} (l : list (str * A)), Permutation (isort l) l.
Proof. induction l as [|x l IH]; simpl; auto. rewrite insert_perm. auto. Qed.
Lemma in_isort : forall {A} x (l : list (str * A)), In x (isort l) <-> In x l.
Proof. intros A x l. split; apply Permutation_in; [|symmetry]; apply isort_perm. Qed.

Section H.
Variable H : str -> str.

Definition pieces (name : str) (fs : fields) (cs : list meta) : list (str * result hash_exn str) :=
  flat_map (fun c => if skipped name (mname c) then []
                     else match alookup (mname c) fs with
                          | Some ch => if has_value c ch then [(mname c, do b <- enc H c ch; Ok (H b))] else []
                          | None => []
                          end) cs.
Lemma enc_struct : forall nm cs fs, enc H (Meta nm KStruct cs) (NStruct fs) = join_pieces (isort (pieces nm fs cs)).
Proof. reflexivity. Qed.
Lemma enc_aos : forall nm cs els, enc H (Meta nm KAoS cs) (NAoS els) =
  do l <- to_bytes 8 (Z.of_nat (length els));
  do ds <- rmap (fun e => do b <- join_pieces (isort (pieces nm (node_fields e) cs)); Ok (H b)) els;
  Ok (l ++ concat ds).
Proof. reflexivity. Qed.

Lemma in_pieces : forall nm fs cs x r, In (x, r) (pieces nm fs cs) <->
  exists c ch, In c cs /\ skipped nm (mname c) = false /\ alookup (mname c) fs = Some ch /\ has_value c ch = true /\
    x = mname c /\ r = (do b <- enc H c ch; Ok (H b)).
Proof.
  intros nm fs cs x r. unfold pieces. rewrite in_flat_map. split.
  - intros (c & Hin & Hx). destruct (skipped nm (mname c)) eqn:Es; [destruct Hx|].
    destruct (alookup (mname c) fs) as [ch|] eqn:El; [|destruct Hx].
    destruct (has_value c ch) eqn:Eh; [|destruct Hx]. destruct Hx as [Hx|[]]. inversion Hx; subst.
    exists c, ch. auto 10.
  - intros (c & ch & Hin & Es & El & Eh & -> & ->). exists c. split; auto. rewrite Es, El, Eh. left. auto.
Qed.

Lemma join_ok_in : forall l s x r, join_pieces l = Ok s -> In (x, r) l -> exists d, r = Ok d.
Proof.
  induction l as [|[y d] l IH]; simpl; intros s x r E Hin; [tauto|]. unfold rbind in E.
  destruct d as [d'|]; [|discriminate]. destruct (join_pieces l) as [t|] eqn:Ej; [|discriminate].
  destruct Hin as [Hin|Hin]; [inversion Hin; subst; eauto|eauto].
Qed.

Hypothesis H8 : forall s, length (H s) = 8.

Definition confused (l1 l2 : list (str * result hash_exn str)) : Prop :=
  exists a d b d' r, In (a, Ok d) l1 /\ In (b, Ok d') l2 /\ b = a ++ r /\ r <> [] /\ common_start d r.

Lemma join_inj : forall l1 l2 s, (forall x d, In (x, Ok d) l1 -> length d = 8) -> (forall x d, In (x, Ok d) l2 -> length d = 8) ->
  join_pieces l1 = Ok s -> join_pieces l2 = Ok s -> l1 = l2 \/ confused l1 l2 \/ confused l2 l1.
Proof.
  induction l1 as [|[a d] l1 IH]; intros [|[b d'] l2] s L1 L2 E1 E2; simpl in *; auto.
  - exfalso. unfold rbind in E2. destruct d' as [d'|]; [|discriminate]. destruct (join_pieces l2); [|discriminate].
    specialize (L2 b d' (or_introl eq_refl)). inversion E1; subst. inversion E2 as [E]. apply (f_equal (@length ascii)) in E.
    rewrite !app_length in E. simpl in E. lia.
  - exfalso. unfold rbind in E1. destruct d as [d|]; [|discriminate]. destruct (join_pieces l1); [|discriminate].
    specialize (L1 a d (or_introl eq_refl)). inversion E2; subst. inversion E1 as [E]. apply (f_equal (@length ascii)) in E.
    rewrite !app_length in E. simpl in E. lia.
  - unfold rbind in E1, E2. destruct d as [d|]; [|discriminate]. destruct (join_pieces l1) as [t1|] eqn:J1; [|discriminate].
    destruct d' as [d'|]; [|discriminate]. destruct (join_pieces l2) as [t2|] eqn:J2; [|discriminate].
    inversion E1; subst. inversion E2 as [E]. clear E1 E2.
    destruct (str_dec a b) as [->|Nab].
    + apply app_inv_head in E. apply app_split in E; [|rewrite (L1 b d), (L2 b d'); auto]. destruct E as (-> & ->).
      destruct (IH l2 t1) as [->|[(a' & x & b' & y & r & A & B & C)|(a' & x & b' & y & r & A & B & C)]]; auto.
      * intros; eapply L1; eauto.
      * intros; eapply L2; eauto.
      * right; left. exists a', x, b', y, r. simpl. tauto.
      * right; right. exists a', x, b', y, r. simpl. tauto.
    + right. apply app_eq_app in E as (r & [(-> & E)|(-> & E)]).
      * left. exists a, d, (a ++ r), d', r. simpl. repeat split; auto.
        -- intros ->. apply Nab. rewrite app_nil_r. auto.
        -- exists t1, (d' ++ t2). auto.
      * right. exists b, d', (b ++ r), d, r. simpl. repeat split; auto.
        -- intros ->. apply Nab. rewrite app_nil_r. auto.
        -- exists t2, (d ++ t1). auto.
Qed.

(** ** Lifting hashed strings to the parent *)
Lemma hashed_child : forall nm cs fs c ch x, NoDup (map mname cs) -> In c cs -> skipped nm (mname c) = false ->
  alookup (mname c) fs = Some ch -> nonempty c ch -> hashed H c ch x -> hashed H (Meta nm KStruct cs) (NStruct fs) x.
Proof.
  intros nm cs fs c ch x Hnd Hin Hs E Hn Hx.
  assert (Hm : forall l, ~ masked c l -> ~ masked (Meta nm KStruct cs) (Child (mname c) :: l)).
  { intros l Hm. rewrite masked_child by auto. rewrite Hs. intros [?|?]; [discriminate|auto]. }
  destruct Hx as [m n l m' n' x Ho Hat Hv He|m n l ss x Ho Hl Hi].
  - apply hd_node with (l := Child (mname m) :: l) (m' := m') (n' := n'); auto.
    + econstructor; eauto.
    + destruct Hv as [Hv|[Hv| ->]]; auto.
      * right; left. destruct Hv as (l' & i & ->). exists (Child (mname m) :: l'), i. auto.
      * left. apply node_at_nil_inv in Hat as (-> & ->). auto.
  - apply hd_str with (l := Child (mname m) :: l) (ss := ss); auto.
    apply (proj2 (item_struct nm cs fs (Child (mname m) :: l) (inl (VStrs ss)))). exists m, n, l. auto.
Qed.
Lemma hashed_elem : forall nm cs els i e x, nth_error els i = Some e -> hashed H (Meta nm KStruct cs) e x ->
  hashed H (Meta nm KAoS cs) (NAoS els) x.
Proof.
  intros nm cs els i e x Hi Hx. remember (Meta nm KStruct cs) as m0 eqn:Em.
  destruct Hx as [m n l m' n' x Ho Hat Hv He|m n l ss x Ho Hl Hin]; subst m.
  - apply hd_node with (l := Elem i :: l) (m' := m') (n' := n'); auto.
    + rewrite masked_elem. auto.
    + econstructor; eauto.
    + destruct Hv as [Hv|[Hv| ->]]; auto; right; left.
      * destruct Hv as (l' & j & ->). exists (Elem i :: l'), j. auto.
      * exists [], i. auto.
  - apply hd_str with (l := Elem i :: l) (ss := ss); auto.
    + rewrite masked_elem. auto.
    + apply (proj2 (item_aos nm cs els (Elem i :: l) (inl (VStrs ss)))). right. exists i, n, l. auto.
Qed.

Definition bad (m : meta) (n1 n2 : node) : Prop := collision H m n1 n2 \/ confusion H m n1 n2.

Lemma bad_child : forall nm cs f1 f2 c a b, NoDup (map mname cs) -> In c cs -> skipped nm (mname c) = false ->
  alookup (mname c) f1 = Some a -> alookup (mname c) f2 = Some b -> nonempty c a -> nonempty c b -> bad c a b ->
  bad (Meta nm KStruct cs) (NStruct f1) (NStruct f2).
Proof.
  intros nm cs f1 f2 c a b Hnd Hin Hs E1 E2 N1 N2 [(x & y & A & B & C)|(m' & c1 & c2 & r & x & S & I1 & I2 & Er & Hr & Hx & Hc)].
  - left. exists x, y. repeat split; try tauto; eapply hashed_child; eauto.
  - right. exists m', c1, c2, r, x. repeat split; auto.
    + econstructor; eauto.
    + destruct Hx as [Hx|Hx]; [left|right]; eapply hashed_child; eauto.
Qed.
Lemma sub_meta_aos : forall nm cs m', sub_meta (Meta nm KStruct cs) m' -> exists m'', sub_meta (Meta nm KAoS cs) m'' /\ mchildren m'' = mchildren m'.
Proof.
  intros nm cs m' S. remember (Meta nm KStruct cs) as m eqn:Em. destruct S as [m|n k cs' c m' Hin S]; subst.
  - eexists; split; [constructor|reflexivity].
  - inversion Em; subst. exists m'. split; auto. econstructor; eauto.
Qed.
Lemma bad_elem : forall nm cs e1 e2 i a b, nth_error e1 i = Some a -> nth_error e2 i = Some b -> bad (Meta nm KStruct cs) a b ->
  bad (Meta nm KAoS cs) (NAoS e1) (NAoS e2).
Proof.
  intros nm cs e1 e2 i a b E1 E2 [(x & y & A & B & C)|(m' & c1 & c2 & r & x & S & I1 & I2 & Er & Hr & Hx & Hc)].
  - left. exists x, y. repeat split; try tauto; eapply hashed_elem; eauto.
  - right. apply sub_meta_aos in S as (m'' & S & Em). rewrite <- Em in *. exists m'', c1, c2, r, x. repeat split; auto.
    destruct Hx as [Hx|Hx]; [left|right]; eapply hashed_elem; eauto.
Qed.

Lemma all_or : forall {A} (P : A -> Prop) (B : Prop) l, (forall x, In x l -> P x \/ B) -> (forall x, In x l -> P x) \/ B.
Proof.
  induction l as [|a l IH]; simpl; intros Hl; [left; tauto|].
  destruct (Hl a (or_introl eq_refl)) as [Ha|Hb]; auto. destruct IH as [IH|IH]; auto. left. intros x [<-|Hx]; auto.
Qed.

Lemma storable_child : forall nm cs fs c ch, all_storable (Meta nm KStruct cs) (NStruct fs) -> In c cs ->
  alookup (mname c) fs = Some ch -> all_storable c ch.
Proof.
  intros nm cs fs c ch Hs Hin E l v Hv. apply (Hs (Child (mname c) :: l)).
  apply (proj2 (item_struct nm cs fs (Child (mname c) :: l) (inl v))). exists c, ch, l. auto.
Qed.
Lemma storable_elem : forall nm cs els i e, all_storable (Meta nm KAoS cs) (NAoS els) -> nth_error els i = Some e ->
  all_storable (Meta nm KStruct cs) e.
Proof.
  intros nm cs els i e Hs E l v Hv. apply (Hs (Elem i :: l)).
  apply (proj2 (item_aos nm cs els (Elem i :: l) (inl v))). right. exists i, e, l. auto.
Qed.

Definition determines (m : meta) : Prop := forall n1 n2 s, wf_meta m -> conf m n1 -> conf m n2 ->
  all_storable m n1 -> all_storable m n2 -> (is_leaf m -> nonempty m n1 /\ nonempty m n2) ->
  enc H m n1 = Ok s -> enc H m n2 = Ok s -> same_hashed m n1 n2 \/ bad m n1 n2.

(** Facts of one structure *)
Lemma struct_determines : forall nm cs f1 f2 s, wf_meta (Meta nm KStruct cs) ->
  conf (Meta nm KStruct cs) (NStruct f1) -> conf (Meta nm KStruct cs) (NStruct f2) ->
  all_storable (Meta nm KStruct cs) (NStruct f1) -> all_storable (Meta nm KStruct cs) (NStruct f2) ->
  (forall c, In c cs -> determines c) ->
  enc H (Meta nm KStruct cs) (NStruct f1) = Ok s -> enc H (Meta nm KStruct cs) (NStruct f2) = Ok s ->
  same_hashed (Meta nm KStruct cs) (NStruct f1) (NStruct f2) \/ bad (Meta nm KStruct cs) (NStruct f1) (NStruct f2).
Proof.
  intros nm cs f1 f2 s Hw C1 C2 S1 S2 IH E1 E2. rewrite enc_struct in E1, E2.
  pose proof (wf_names _ _ _ Hw) as Hnd.
  assert (P8 : forall f x d, In (x, Ok d) (isort (pieces nm f cs)) -> length d = 8).
  { intros f x d Hin. rewrite in_isort in Hin. apply in_pieces in Hin as (c & ch & _ & _ & _ & _ & _ & Hd).
    unfold rbind in Hd. destruct (enc H c ch); [|discriminate]. inversion Hd; subst. apply H8. }
  assert (PH : forall f, conf (Meta nm KStruct cs) (NStruct f) -> forall x d, In (x, Ok d) (isort (pieces nm f cs)) ->
     exists c b, In c cs /\ x = mname c /\ d = H b /\ hashed H (Meta nm KStruct cs) (NStruct f) b).
  { intros f Cf x d Hin. rewrite in_isort in Hin. apply in_pieces in Hin as (c & ch & Hc & Es & El & Eh & -> & Hd).
    unfold rbind in Hd. destruct (enc H c ch) as [b|] eqn:Eb; [|discriminate]. inversion Hd; subst. exists c, b. repeat split; auto.
    assert (Hn : nonempty c ch) by (apply has_value_nonempty; auto; eapply conf_child; eauto).
    eapply hashed_child; eauto. apply hd_node with (l := []) (m' := c) (n' := ch); auto; [apply masked_nil|constructor]. }
  assert (CF : forall f g, conf (Meta nm KStruct cs) (NStruct f) -> conf (Meta nm KStruct cs) (NStruct g) ->
     confused (isort (pieces nm f cs)) (isort (pieces nm g cs)) ->
     exists m' c c' r x, sub_meta (Meta nm KStruct cs) m' /\ In c (mchildren m') /\ In c' (mchildren m') /\ mname c' = mname c ++ r /\ r <> [] /\
       hashed H (Meta nm KStruct cs) (NStruct f) x /\ common_start (H x) r).
  { intros f g Cf Cg (a & d & b & d' & r & A & B & -> & Hr & Hs).
    destruct (PH f Cf _ _ A) as (c & x & Hc & -> & -> & Hx). destruct (PH g Cg _ _ B) as (c' & x' & Hc' & Ec' & -> & Hx').
    exists (Meta nm KStruct cs), c, c', r, x. repeat split; auto. constructor. }
  destruct (join_inj _ _ _ (P8 f1) (P8 f2) E1 E2) as [E|[Cn|Cn]].
  2:{ right; right. destruct (CF f1 f2 C1 C2 Cn) as (m' & c & c' & r & x & A & B & C & D & G & Hx & K). exists m', c, c', r, x. auto 10. }
  2:{ right; right. destruct (CF f2 f1 C2 C1 Cn) as (m' & c & c' & r & x & A & B & C & D & G & Hx & K). exists m', c, c', r, x. auto 10. }
  assert (Q : forall x r, In (x, r) (pieces nm f1 cs) <-> In (x, r) (pieces nm f2 cs)) by (intros; rewrite <- (in_isort _ (pieces nm f1 cs)), <- (in_isort _ (pieces nm f2 cs)), E; tauto).
  assert (G : forall f g, (forall x r, In (x, r) (pieces nm f cs) -> In (x, r) (pieces nm g cs)) ->
     conf (Meta nm KStruct cs) (NStruct f) -> conf (Meta nm KStruct cs) (NStruct g) -> join_pieces (isort (pieces nm f cs)) = Ok s ->
     forall c a, In c cs -> skipped nm (mname c) = false -> alookup (mname c) f = Some a -> nonempty c a ->
     exists b u v, alookup (mname c) g = Some b /\ nonempty c b /\ enc H c a = Ok u /\ enc H c b = Ok v /\ H u = H v).
  { intros f g Hsub Cf Cg Hj c a Hc Hs El Hn.
    assert (Ca : conf c a) by exact (conf_child _ _ _ _ _ Cf Hc El).
    assert (X : In (mname c, do b <- enc H c a; Ok (H b)) (pieces nm f cs)).
    { apply in_pieces. exists c, a. repeat split; auto. now apply has_value_nonempty. }
    destruct (join_ok_in _ _ _ _ Hj (proj2 (in_isort _ _) X)) as (d & Ed).
    apply Hsub in X. apply in_pieces in X as (c' & b & Hc' & _ & Elb & Hvb & En & Er).
    assert (c' = c) as -> by (symmetry; eapply nodup_name; eauto).
    assert (Cb : conf c b) by exact (conf_child _ _ _ _ _ Cg Hc Elb).
    rewrite Ed in Er. unfold rbind in Ed, Er. destruct (enc H c a) as [u|] eqn:Eu; [|discriminate].
    destruct (enc H c b) as [v|] eqn:Ev; [|discriminate]. exists b, u, v. repeat split; auto; [now apply has_value_nonempty|congruence]. }
  assert (R : forall c, In c cs -> (skipped nm (mname c) = false ->
      (forall a, alookup (mname c) f1 = Some a -> nonempty c a -> exists b, alookup (mname c) f2 = Some b /\ nonempty c b /\ same_hashed c a b) /\
      (forall b, alookup (mname c) f2 = Some b -> nonempty c b -> exists a, alookup (mname c) f1 = Some a /\ nonempty c a /\ same_hashed c a b))
      \/ bad (Meta nm KStruct cs) (NStruct f1) (NStruct f2)).
  { intros c Hc. destruct (skipped nm (mname c)) eqn:Hs; [left; discriminate|].
    assert (K : forall a b u v, alookup (mname c) f1 = Some a -> alookup (mname c) f2 = Some b -> nonempty c a -> nonempty c b ->
       enc H c a = Ok u -> enc H c b = Ok v -> H u = H v -> same_hashed c a b \/ bad (Meta nm KStruct cs) (NStruct f1) (NStruct f2)).
    { intros a b u v Ela Elb Na Nb Eu Ev Euv. destruct (str_dec u v) as [<-|Nuv].
      - assert (Xd : determines c) by auto. destruct (Xd a b u) as [X|X]; auto.
        + eapply wf_child; eauto.
        + exact (conf_child _ _ _ _ _ C1 Hc Ela).
        + exact (conf_child _ _ _ _ _ C2 Hc Elb).
        + exact (storable_child _ _ _ _ _ S1 Hc Ela).
        + exact (storable_child _ _ _ _ _ S2 Hc Elb).
        + right. exact (bad_child _ _ _ _ _ _ _ Hnd Hc Hs Ela Elb Na Nb X).
      - right; left. exists u, v. repeat split; auto.
        + eapply hashed_child; [exact Hnd|exact Hc|exact Hs|exact Ela|exact Na|]. apply hd_node with (l := []) (m' := c) (n' := a); auto; [apply masked_nil|constructor].
        + eapply hashed_child; [exact Hnd|exact Hc|exact Hs|exact Elb|exact Nb|]. apply hd_node with (l := []) (m' := c) (n' := b); auto; [apply masked_nil|constructor]. }
    destruct (alookup (mname c) f1) as [a|] eqn:Ela.
    - destruct (has_value c a) eqn:Hva.
      + assert (Ca : conf c a) by exact (conf_child _ _ _ _ _ C1 Hc Ela). apply has_value_nonempty in Hva; auto.
        destruct (G f1 f2 (fun x r => proj1 (Q x r)) C1 C2 E1 c a Hc Hs Ela Hva) as (b & u & v & Elb & Nb & Eu & Ev & Euv).
        destruct (K a b u v eq_refl Elb Hva Nb Eu Ev Euv) as [X|X]; auto. left. intros _. split.
        * intros a' E' _. inversion E'; subst. eauto.
        * intros b' E' _. rewrite Elb in E'. inversion E'; subst. eauto.
      + assert (Ca : conf c a) by exact (conf_child _ _ _ _ _ C1 Hc Ela). apply has_value_empty in Hva; auto. left. intros _. split.
        * intros a' E' Hn. inversion E'; subst. tauto.
        * intros b Elb Nb. destruct (G f2 f1 (fun x r => proj2 (Q x r)) C2 C1 E2 c b Hc Hs Elb Nb) as (a' & u & v & Ela' & Na & _).
          rewrite Ela in Ela'. inversion Ela'; subst. tauto.
    - left. intros _. split; [discriminate|]. intros b Elb Nb.
      destruct (G f2 f1 (fun x r => proj2 (Q x r)) C2 C1 E2 c b Hc Hs Elb Nb) as (a' & u & v & Ela' & Na & _). congruence. }
  apply all_or in R as [R|R]; auto. left. apply same_incl. split; apply struct_incl; auto.
  - intros c Hc Hs a Ela Na. destruct (proj1 (R c Hc Hs) a Ela Na) as (b & A & B & C). exists b. repeat split; auto; apply same_incl in C; apply C.
  - intros c Hc Hs b Elb Nb. destruct (proj2 (R c Hc Hs) b Elb Nb) as (a & A & B & C). exists a. repeat split; auto; apply same_incl in C; apply C.
Qed.

Lemma rmap_nth : forall {E A B} (f : A -> result E B) l r i, rmap f l = Ok r ->
  match nth_error l i with Some a => exists b, f a = Ok b /\ nth_error r i = Some b | None => nth_error r i = None end.
Proof.
  induction l as [|a l IH]; intros r i E1; simpl in E1.
  - inversion E1; subst. destruct i; reflexivity.
  - destruct (f a) as [b|] eqn:Ef; [|discriminate]. destruct (rmap f l) as [bs|] eqn:Er; [|discriminate]. inversion E1; subst.
    destruct i; simpl; eauto. apply IH. auto.
Qed.
Lemma rmap_length : forall {E A B} (f : A -> result E B) l r, rmap f l = Ok r -> length r = length l.
Proof.
  induction l as [|a l IH]; intros r E1; simpl in E1; [inversion E1; auto|].
  destruct (f a); [|discriminate]. destruct (rmap f l) eqn:Er; [|discriminate]. inversion E1; subst. simpl. f_equal. auto.
Qed.

Theorem enc_determines : forall m, determines m.
Proof.
  intros m. meta_induction m. intros n1 n2 s Hw C1 C2 S1 S2 Hlf E1 E2. destruct k as [| |dt nd].
  - destruct (conf_struct_inv _ _ _ C1) as (f1 & ->). destruct (conf_struct_inv _ _ _ C2) as (f2 & ->).
    eapply struct_determines; eauto.
  - destruct (conf_aos_inv _ _ _ C1) as (e1 & ->). destruct (conf_aos_inv _ _ _ C2) as (e2 & ->).
    rewrite enc_aos in E1, E2. unfold rbind in E1, E2.
    destruct (to_bytes 8 (Z.of_nat (length e1))) as [b1|] eqn:B1; [|discriminate].
    destruct (to_bytes 8 (Z.of_nat (length e2))) as [b2|] eqn:B2; [|discriminate].
    match type of E1 with context [rmap ?f e1] => set (g := f) in *; destruct (rmap g e1) as [d1|] eqn:R1; [|discriminate] end.
    match type of E2 with context [rmap ?f e2] => change f with g in E2; destruct (rmap g e2) as [d2|] eqn:R2; [|discriminate] end.
    inversion E1; subst. inversion E2 as [E]. clear E1 E2.
    apply app_split in E; [|rewrite (to_bytes_length _ _ _ B1), (to_bytes_length _ _ _ B2); auto]. destruct E as (-> & E).
    assert (Hl : length e1 = length e2) by (apply Nat2Z.inj; eapply to_bytes_inj; eauto).
    assert (D8 : forall l d, rmap g l = Ok d -> forall x, In x d -> length x = 8).
    { intros l d Hr x Hx. apply In_nth_error in Hx as (i & Hi). pose proof (rmap_nth g l d i Hr) as K.
      destruct (nth_error l i); [|congruence]. destruct K as (b & Hb & Hbi). assert (x = b) by congruence. subst x.
      unfold g in Hb. destruct (join_pieces _); [|discriminate]. inversion Hb. apply H8. }
    assert (Ed : d2 = d1).
    { rewrite <- (app_nil_r (concat d2)), <- (app_nil_r (concat d1)) in E. apply (concat_fixed _ _ 8) in E; [tauto|eauto|eauto|].
      rewrite (rmap_length _ _ _ R1), (rmap_length _ _ _ R2). auto. }
    subst d2.
    assert (R : forall i, In i (seq 0 (length e1)) ->
        (forall a b, nth_error e1 i = Some a -> nth_error e2 i = Some b -> same_hashed (Meta n KStruct cs) a b)
        \/ bad (Meta n KAoS cs) (NAoS e1) (NAoS e2)).
    { intros i _. pose proof (rmap_nth g _ _ i R1) as K1. pose proof (rmap_nth g _ _ i R2) as K2.
      destruct (nth_error e1 i) as [a|] eqn:Ea; [|left; discriminate]. destruct (nth_error e2 i) as [b|] eqn:Eb; [|left; discriminate].
      destruct K1 as (x & Gx & Xi). destruct K2 as (y & Gy & Yi). assert (y = x) as -> by congruence. unfold g in Gx, Gy.
      assert (Ca : conf (Meta n KStruct cs) a) by exact (conf_elem _ _ _ _ C1 (nth_error_In _ _ Ea)).
      assert (Cb : conf (Meta n KStruct cs) b) by exact (conf_elem _ _ _ _ C2 (nth_error_In _ _ Eb)).
      destruct (conf_struct_inv _ _ _ Ca) as (fa & ->). destruct (conf_struct_inv _ _ _ Cb) as (fb & ->).
      cbn [node_fields] in Gx, Gy. rewrite <- enc_struct in Gx, Gy.
      destruct (enc H (Meta n KStruct cs) (NStruct fa)) as [u|] eqn:Eu; [|discriminate].
      destruct (enc H (Meta n KStruct cs) (NStruct fb)) as [v|] eqn:Ev; [|discriminate].
      assert (Ehv : H u = H v) by congruence.
      destruct (str_dec u v) as [<-|Nuv].
      - destruct (struct_determines n cs fa fb u) as [X|X]; auto.
        + eapply wf_struct; eauto.
        + exact (storable_elem _ _ _ _ _ S1 Ea).
        + exact (storable_elem _ _ _ _ _ S2 Eb).
        + left. intros a' b' Ha' Hb'. inversion Ha'; inversion Hb'; subst. auto.
        + right. exact (bad_elem _ _ _ _ _ _ _ Ea Eb X).
      - right; left. exists u, v. repeat split; auto.
        + eapply hashed_elem; [exact Ea|]. apply hd_node with (l := []) (m' := Meta n KStruct cs) (n' := NStruct fa); auto; [apply masked_nil|constructor].
        + eapply hashed_elem; [exact Eb|]. apply hd_node with (l := []) (m' := Meta n KStruct cs) (n' := NStruct fb); auto; [apply masked_nil|constructor]. }
    apply all_or in R as [R|R]; auto. left.
    assert (R' : forall i a b, nth_error e1 i = Some a -> nth_error e2 i = Some b -> same_hashed (Meta n KStruct cs) a b).
    { intros i a b Ea Eb. apply (R i); auto. apply in_seq. split; [lia|]. simpl. apply nth_error_Some. congruence. }
    apply same_incl. split; apply aos_incl; auto.
    + intros i a b Ea Eb. specialize (R' i a b Ea Eb). apply same_incl in R'. apply R'.
    + intros i a b Ea Eb. specialize (R' i b a Eb Ea). apply same_incl in R'. apply R'.
  - destruct Hlf as (N1 & N2); [exists dt, nd; auto|].
    destruct (conf_leaf_inv _ _ _ _ _ C1) as [->|(v & -> & V1)].
    { apply nonempty_leaf in N1 as (v & Ev & _). discriminate. }
    destruct (conf_leaf_inv _ _ _ _ _ C2) as [->|(w & -> & V2)].
    { apply nonempty_leaf in N2 as (w & Ew & _). discriminate. }
    apply nonempty_leaf in N1 as (v' & Ev & F1). inversion Ev; subst v'. apply nonempty_leaf in N2 as (w' & Ew & F2). inversion Ew; subst w'.
    cbn [enc] in E1, E2.
    assert (L1 : leaf_at (Meta n (KLeaf dt nd) cs) (NLeaf (Some v)) [] v) by (apply (proj2 (item_leaf n dt nd cs (Some v) [] (inl v))); eauto).
    assert (L2 : leaf_at (Meta n (KLeaf dt nd) cs) (NLeaf (Some w)) [] w) by (apply (proj2 (item_leaf n dt nd cs (Some w) [] (inl w))); eauto).
    destruct (enc_value_inj H H8 dt nd v w s V1 V2 (S1 _ _ L1) (S2 _ _ L2) E1 E2) as [->|(l1 & l2 & x & y & -> & -> & A & B & C & D)].
    + left. constructor; intros; tauto.
    + right; left. exists x, y. repeat split; auto; eapply hd_str; eauto using masked_nil.
Qed.

(** ** Same contents give the same hash *)
Theorem enc_determined : forall m n1 n2, wf_meta m -> conf m n1 -> conf m n2 -> (is_leaf m -> nonempty m n1 /\ nonempty m n2) ->
  same_hashed m n1 n2 -> enc H m n1 = enc H m n2.
Proof.
  intros m. meta_induction m. intros n1 n2 Hw C1 C2 Hlf Hs. apply same_incl in Hs as (I1 & I2).
  assert (Hst : forall f1 f2, conf (Meta n KStruct cs) (NStruct f1) -> conf (Meta n KStruct cs) (NStruct f2) ->
     incl_hashed (Meta n KStruct cs) (NStruct f1) (NStruct f2) -> incl_hashed (Meta n KStruct cs) (NStruct f2) (NStruct f1) ->
     pieces n f1 cs = pieces n f2 cs).
  { intros f1 f2 D1 D2 J1 J2. pose proof (wf_names _ _ _ Hw) as Hnd.
    assert (X : forall cs', incl cs' cs -> pieces n f1 cs' = pieces n f2 cs').
    { induction cs' as [|c cs' IHc]; intros Hi; auto. unfold pieces in *. cbn [flat_map]. rewrite IHc by (intros x Hx; apply Hi; simpl; auto).
      f_equal. destruct (skipped n (mname c)) eqn:Es; auto.
      assert (Hc : In c cs) by (apply Hi; simpl; auto).
      assert (Y : forall f g, conf (Meta n KStruct cs) (NStruct f) -> conf (Meta n KStruct cs) (NStruct g) ->
         incl_hashed (Meta n KStruct cs) (NStruct f) (NStruct g) -> incl_hashed (Meta n KStruct cs) (NStruct g) (NStruct f) ->
         forall a, alookup (mname c) f = Some a -> has_value c a = true ->
         exists b, alookup (mname c) g = Some b /\ has_value c b = true /\ enc H c a = enc H c b).
      { intros f g Cf Cg Jf Jg a Ea Hv. assert (Ca : conf c a) by exact (conf_child _ _ _ _ _ Cf Hc Ea).
        apply has_value_nonempty in Hv; auto.
        destruct (struct_incl_inv _ _ _ _ _ _ Hnd Jf Hc Es Ea Hv) as (b & Eb & Nb & Ib).
        assert (Cb : conf c b) by exact (conf_child _ _ _ _ _ Cg Hc Eb).
        destruct (struct_incl_inv _ _ _ _ _ _ Hnd Jg Hc Es Eb Nb) as (a' & Ea' & _ & Ia).
        assert (a' = a) as -> by congruence.
        exists b. split; auto. split; [now apply has_value_nonempty|]. apply IH; auto; [eapply wf_child; eauto|]. apply same_incl. auto. }
      destruct (alookup (mname c) f1) as [a|] eqn:Ea.
      - destruct (has_value c a) eqn:Hva.
        + destruct (Y f1 f2 D1 D2 J1 J2 a Ea Hva) as (b & Eb & Hvb & Ee). rewrite Eb, Hvb, Ee. auto.
        + destruct (alookup (mname c) f2) as [b|] eqn:Eb; auto. destruct (has_value c b) eqn:Hvb; auto.
          destruct (Y f2 f1 D2 D1 J2 J1 b Eb Hvb) as (a' & Ea' & Hva' & _). congruence.
      - destruct (alookup (mname c) f2) as [b|] eqn:Eb; auto. destruct (has_value c b) eqn:Hvb; auto.
        destruct (Y f2 f1 D2 D1 J2 J1 b Eb Hvb) as (a' & Ea' & Hva' & _). congruence. }
    apply X. intros x Hx. auto. }
  destruct k as [| |dt nd].
  - destruct (conf_struct_inv _ _ _ C1) as (f1 & ->). destruct (conf_struct_inv _ _ _ C2) as (f2 & ->).
    rewrite !enc_struct. f_equal. f_equal. apply Hst; auto.
  - destruct (conf_aos_inv _ _ _ C1) as (e1 & ->). destruct (conf_aos_inv _ _ _ C2) as (e2 & ->).
    rewrite !enc_aos. pose proof (aos_incl_length _ _ _ _ I1 I2) as Hl. rewrite Hl. unfold rbind at 1 3.
    destruct (to_bytes 8 (Z.of_nat (length e2))) as [tb|]; auto.
    match goal with |- context [rmap ?f e1] => set (g := f) end.
    assert (Hr : rmap g e1 = rmap g e2).
    { assert (Hp : forall i a b, nth_error e1 i = Some a -> nth_error e2 i = Some b -> g a = g b).
      { intros i a b Ea Eb. unfold g.
        assert (Ca : conf (Meta n KStruct cs) a) by exact (conf_elem _ _ _ _ C1 (nth_error_In _ _ Ea)).
        assert (Cb : conf (Meta n KStruct cs) b) by exact (conf_elem _ _ _ _ C2 (nth_error_In _ _ Eb)).
        destruct (conf_struct_inv _ _ _ Ca) as (fa & ->). destruct (conf_struct_inv _ _ _ Cb) as (fb & ->). cbn [node_fields].
        rewrite (Hst fa fb); auto; [exact (aos_incl_inv _ _ _ _ _ _ _ I1 Ea Eb)|exact (aos_incl_inv _ _ _ _ _ _ _ I2 Eb Ea)]. }
      clear - Hl Hp. revert e2 Hl Hp. induction e1 as [|a e1 IH]; intros [|b e2] Hl Hp; simpl in *; try discriminate; auto.
      rewrite (Hp 0 a b eq_refl eq_refl). destruct (g b); auto. rewrite (IH e2); auto. intros i x y Hx Hy. apply (Hp (S i)); auto. }
    rewrite Hr. auto.
  - destruct Hlf as (N1 & N2); [exists dt, nd; auto|].
    destruct (conf_leaf_inv _ _ _ _ _ C1) as [->|(v & -> & V1)].
    { apply nonempty_leaf in N1 as (v & Ev & _). discriminate. }
    destruct (conf_leaf_inv _ _ _ _ _ C2) as [->|(w & -> & V2)].
    { apply nonempty_leaf in N2 as (w & Ew & _). discriminate. }
    apply nonempty_leaf in N1 as (v' & Ev & F1). inversion Ev; subst v'.
    assert (X : item (Meta n (KLeaf dt nd) cs) (NLeaf (Some w)) [] (inl v)).
    { apply I1; [apply masked_nil|]. apply item_leaf. eauto. }
    apply item_leaf in X as (_ & w' & Ew & Ex & _). congruence.
Qed.
End H.
