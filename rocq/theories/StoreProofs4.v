(** The ideal store; positions without a version map are distinct; deletion; progress of get and put. *)
From Verif Require Import Base TreeModel TreeSpec TreeProofs ConvSpec ConvProofs3 VmapModel ValProofs ValProofs5 StoreModel StoreSpec StoreProofs StoreProofs2 StoreProofs3.
From Verif Require PrimModel.

(** ** store *)
Lemma place_eqb_eq : forall a b, place_eqb a b = true <-> a = b.
Proof.
  intros [a1 a2] [b1 b2]. unfold place_eqb. cbn [fst snd]. rewrite andb_true_iff, !str_eqb_eq. split; [intros [-> ->]; auto|intros E; inversion E; auto].
Qed.
Lemma key_eqb_eq : forall a b, key_eqb a b = true <-> a = b.
Proof.
  intros [c p] [c' p']. unfold key_eqb. cbn [fst snd]. rewrite andb_true_iff, place_eqb_eq.
  assert (L : forall x y : ctx, list_eqb (fun x y => place_eqb (fst x) (fst y) && Nat.eqb (snd x) (snd y)) x y = true <-> x = y).
  { induction x as [|[q i] x IH]; intros [|[q' i'] y]; cbn; split; intros H; try discriminate; auto.
    - apply andb_true_iff in H. destruct H as [H H2]. apply andb_true_iff in H. destruct H as [H H1]. apply place_eqb_eq in H. apply Nat.eqb_eq in H1. apply IH in H2. congruence.
    - inversion H; subst. rewrite (proj2 (place_eqb_eq q' q') eq_refl), Nat.eqb_refl. cbn. now apply IH. }
  rewrite L. split; [intros [-> ->]; auto|intros E; inversion E; auto].
Qed.
Lemma key_eqb_refl : forall k, key_eqb k k = true.
Proof. intros. now apply key_eqb_eq. Qed.

Lemma apply_all_data : forall calls s k v, s_data (apply_all s calls) k = Some v -> In (Write k v) calls \/ ((forall w, ~ In (Write k w) calls) /\ s_data s k = Some v).
Proof.
  unfold apply_all. induction calls as [|c t IH]; intros s k v H; cbn in H; [right; split; auto|]. apply IH in H. destruct H as [H|[N H]]; [left; now right|].
  destruct c as [k' w|k' w]; cbn in H.
  - destruct (key_eqb k' k) eqn:E.
    + apply key_eqb_eq in E. inversion H; subst. left; now left.
    + right. split; auto. intros u [X|X]; [inversion X; subst; rewrite key_eqb_refl in E; discriminate|now apply (N u)].
  - right. split; auto. intros u [X|X]; [discriminate|now apply (N u)].
Qed.
Lemma apply_all_write : forall calls s k v, In (Write k v) calls -> exists w, s_data (apply_all s calls) k = Some w /\ In (Write k w) calls.
Proof.
  intros calls s k v I.
  assert (G : exists w, s_data (apply_all s calls) k = Some w).
  { unfold apply_all. revert s I. induction calls as [|c t IH]; intros s I; [destruct I|]. cbn.
    assert (K : forall t s, (exists w, s_data s k = Some w) -> exists w, s_data (fold_left apply t s) k = Some w).
    { clear. induction t as [|c t IH]; intros s H; auto. cbn. apply IH. destruct c; cbn; auto. destruct (key_eqb k0 k); eauto. }
    destruct I as [->|I]; [|auto]. apply K. cbn. rewrite key_eqb_refl. eauto. }
  destruct G as [w G]. exists w. split; auto. apply apply_all_data in G. destruct G as [G|[N _]]; auto. destruct (N v I).
Qed.
Lemma apply_all_size : forall calls s k v, s_size (apply_all s calls) k = Some v -> In (Begin k v) calls \/ ((forall w, ~ In (Begin k w) calls) /\ s_size s k = Some v).
Proof.
  unfold apply_all. induction calls as [|c t IH]; intros s k v H; cbn in H; [right; split; auto|]. apply IH in H. destruct H as [H|[N H]]; [left; now right|].
  destruct c as [k' w|k' w]; cbn in H.
  - right. split; auto. intros u [X|X]; [discriminate|now apply (N u)].
  - destruct (key_eqb k' k) eqn:E.
    + apply key_eqb_eq in E. inversion H; subst. left; now left.
    + right. split; auto. intros u [X|X]; [inversion X; subst; rewrite key_eqb_refl in E; discriminate|now apply (N u)].
Qed.
Lemma apply_all_begin : forall calls s k v, In (Begin k v) calls -> exists w, s_size (apply_all s calls) k = Some w /\ In (Begin k w) calls.
Proof.
  intros calls s k v I.
  assert (G : exists w, s_size (apply_all s calls) k = Some w).
  { unfold apply_all. revert s I. induction calls as [|c t IH]; intros s I; [destruct I|]. cbn.
    assert (K : forall t s, (exists w, s_size s k = Some w) -> exists w, s_size (fold_left apply t s) k = Some w).
    { clear. induction t as [|c t IH]; intros s H; auto. cbn. apply IH. destruct c; cbn; auto. destruct (key_eqb k0 k); eauto. }
    destruct I as [->|I]; [|auto]. apply K. cbn. rewrite key_eqb_refl. eauto. }
  destruct G as [w G]. exists w. split; auto. apply apply_all_size in G. destruct G as [G|[N _]]; auto. destruct (N v I).
Qed.

(** ** typed locations *)
Lemma named_loc : forall m l m', loc_ok m l m' -> named m -> named m' /\ forall x, In x (loc_names l) -> x <> [] /\ ~ In "/"%char x.
Proof.
  induction 1 as [m|nm cs c l m' I L IH|nm cs i l m' L IH]; intros NM.
  - split; [auto|intros x []].
  - inversion NM; subst. destruct (IH (H4 c I)) as [A B]. split; auto. cbn. intros x [<-|X]; auto. specialize (H4 c I). inversion H4; subst; auto.
  - inversion NM; subst. destruct IH as [A B]; [constructor; auto|]. split; auto.
Qed.
Lemma loc_names_children : forall ns, loc_names (map Child ns) = ns.
Proof. induction ns; cbn; auto. now f_equal. Qed.
Lemma loc_names_app : forall a b, loc_names (a ++ b) = loc_names a ++ loc_names b.
Proof. intros. unfold loc_names. apply flat_map_app. Qed.

Section Positions.
Variable dynamic : list str -> bool.
Variable xml_tbp : list str -> str.
Variable nbc : option nmap.
Variable mode : Z.
Notation placed := (placed dynamic xml_tbp nbc mode).
Notation position := (position dynamic xml_tbp nbc mode).
Notation skipped := (skipped dynamic nbc mode).

Lemma position_split : forall aos l names rel c q, position aos names rel l (c, q) ->
  (exists ns, l = map Child ns /\ c = [] /\ placed aos (names ++ ns) (rel ++ ns) q) \/
  (exists ns i l2 p c2, l = map Child ns ++ Elem i :: l2 /\ c = (p, i) :: c2 /\ placed true (names ++ ns) (rel ++ ns) p /\ position aos (names ++ ns) [] l2 (c2, q)).
Proof.
  induction l as [|st l IH]; intros names rel c q H; inversion H; subst.
  - left. exists []. rewrite !app_nil_r. auto.
  - match goal with H : StoreSpec.position _ _ _ _ _ _ _ l _ |- _ => apply IH in H; destruct H as [(ns & -> & -> & P)|(ns & i & l2 & p & c2 & -> & -> & P & Q)] end.
    + left. exists (nm :: ns). rewrite <- !app_assoc in P. auto.
    + right. exists (nm :: ns), i, l2, p, c2. rewrite <- !app_assoc in *. auto.
  - right. exists [], i, l. do 2 eexists. rewrite !app_nil_r. split; [reflexivity|]. split; [reflexivity|]. auto.
Qed.

(** a prefix that ends at an array of structures has a position too *)
Lemma position_prefix : forall aos a i b names rel k, position aos names rel (a ++ Elem i :: b) k -> exists k', position true names rel a k'.
Proof.
  induction a as [|st a IH]; intros i b names rel k H; inversion H; subst.
  - eexists. constructor. eassumption.
  - match goal with H : StoreSpec.position _ _ _ _ _ _ _ (a ++ _) _ |- _ => apply IH in H; destruct H as [k' P] end. exists k'. now constructor.
  - match goal with H : StoreSpec.position _ _ _ _ _ _ _ (a ++ _) _ |- _ => apply IH in H; destruct H as [[c' q'] P] end. eexists. econstructor; eauto.
Qed.
End Positions.

Section Native.
Variable dynamic : list str -> bool.
Variable xml_tbp : list str -> str.
Variable mode : Z.
Notation placed := (placed dynamic xml_tbp None mode).
Notation position := (position dynamic xml_tbp None mode).

Lemma placed_native : forall aos names rel p, placed aos names rel p -> fst p = path_of rel.
Proof. intros aos names rel p H. inversion H; subst; [reflexivity|discriminate]. Qed.

Lemma path_inj : forall a b, a <> [] -> b <> [] -> (forall x, In x a -> ~ In "/"%char x) -> (forall x, In x b -> ~ In "/"%char x) -> path_of a = path_of b -> a = b.
Proof. intros a b A B SA SB E. rewrite <- (split_join "/"%char a), <- (split_join "/"%char b); auto. unfold path_of in E. now rewrite E. Qed.

Lemma child_path : forall ns m rest m', loc_ok m (map Child ns ++ rest) m' -> named m ->
  exists m1, loc_ok m (map Child ns) m1 /\ loc_ok m1 rest m' /\ named m1 /\ forall x, In x ns -> ~ In "/"%char x.
Proof.
  intros ns m rest m' L NM. apply loc_ok_split in L. destruct L as (m1 & A & B). exists m1. split; auto. split; auto.
  destruct (named_loc _ _ _ A NM) as [N S]. split; auto. rewrite loc_names_children in S. intros x X. now apply S.
Qed.

Theorem position_inj : forall n l l' m m' m1 m1' aos names k, length l <= n -> named m -> named m' -> mkind m = KStruct -> mkind m' = KStruct ->
  loc_ok m l m1 -> loc_ok m' l' m1' -> mkind m1 <> KStruct -> mkind m1' <> KStruct ->
  position aos names [] l k -> position aos names [] l' k -> l = l'.
Proof.
  induction n as [|n IH]; intros l l' m m' m1 m1' aos names [c q] LE NM NM' K K' LO LO' E E' P P'.
  { destruct l; [|cbn in LE; lia]. inversion LO; subst. congruence. }
  apply position_split in P. apply position_split in P'.
  destruct P as [(ns & -> & -> & PL)|(ns & i & l2 & p & c2 & -> & -> & PL & PO)]; destruct P' as [(ns' & -> & C & PL')|(ns' & i' & l2' & p' & c2' & -> & C & PL' & PO')]; try discriminate.
  - f_equal. destruct (named_loc _ _ _ LO NM) as [_ S]. destruct (named_loc _ _ _ LO' NM') as [_ S']. rewrite loc_names_children in *.
    apply path_inj; [intros ->; inversion LO; subst; congruence|intros ->; inversion LO'; subst; congruence|intros x X; now apply S|intros x X; now apply S'|].
    apply placed_native in PL. apply placed_native in PL'. cbn [app] in PL, PL'. congruence.
  - inversion C; subst. destruct (child_path _ _ _ _ LO NM) as (ma & A & B & NA & SA). destruct (child_path _ _ _ _ LO' NM') as (mb & A' & B' & NB & SB).
    assert (ns = ns').
    { apply path_inj; auto.
      - intros ->. inversion A; subst. inversion B; subst. discriminate.
      - intros ->. inversion A'; subst. inversion B'; subst. discriminate.
      - apply placed_native in PL. apply placed_native in PL'. cbn [app] in PL, PL'. congruence. }
    subst ns'. inversion B as [| |nm cs ? ? ? B1]; subst. inversion B' as [| |nm' cs' ? ? ? B1']; subst. f_equal. f_equal.
    rewrite app_length in LE. cbn in LE.
    eapply (IH l2 l2' (Meta nm KStruct cs) (Meta nm' KStruct cs')); eauto; [lia|inversion NA; subst; constructor; auto|inversion NB; subst; constructor; auto].
Qed.

(** every position of a node is erased by a put *)
Theorem position_erased : forall m l m1 aos k, named m -> mkind m = KStruct -> loc_ok m l m1 -> mkind m1 <> KStruct -> position aos [] [] l k -> erased m k.
Proof.
  intros m l m1 aos [c q] NM K LO E P. apply position_split in P. destruct P as [(ns & -> & -> & PL)|(ns & i & l2 & p & c2 & -> & -> & PL & PO)].
  - exists ns, m1. split; [intros ->; inversion LO; subst; congruence|]. split; auto. split; auto. symmetry. apply (placed_native _ _ _ _ PL).
  - destruct (child_path _ _ _ _ LO NM) as (ma & A & B & NA & SA). inversion B; subst. exists ns, (Meta nm KAoS cs).
    split; [intros ->; inversion A; subst; discriminate|]. split; auto. split; [discriminate|]. symmetry. apply (placed_native _ _ _ _ PL).
Qed.

(** a node has a position unless it is inside or itself a dynamic node, in time-independent mode *)
Lemma position_exists : forall aos l names rel, 
  (exists k, position aos names rel l k) <-> forall a nm b, l = a ++ Child nm :: b -> ~ (mode = 2%Z /\ dynamic (names ++ loc_names a ++ [nm]) = true).
Proof.
  intros aos. induction l as [|st l IH]; intros names rel.
  - split; [intros _ [|? ?] nm b E; discriminate|]. intros _. eexists. apply po_here. now apply pl_same.
  - destruct st as [nm|i].
    + split.
      * intros [k H]. inversion H; subst. intros a nm' b E X. destruct a as [|s0 a]; inversion E; subst.
        -- match goal with N : ~ StoreSpec.skipped _ _ _ _ |- _ => apply N end. left. exact X.
        -- match goal with P : StoreSpec.position _ _ _ _ _ _ _ (_ ++ _) _ |- _ => pose proof (proj1 (IH (names ++ [nm]) (rel ++ [nm])) (ex_intro _ k P) a nm' b eq_refl) as Q end.
           apply Q. rewrite <- app_assoc. exact X.
      * intros H. destruct (proj2 (IH (names ++ [nm]) (rel ++ [nm]))) as [k P].
        { intros a nm' b -> X. apply (H (Child nm :: a) nm' b eq_refl). rewrite <- app_assoc in X. exact X. }
        exists k. constructor; auto. intros [X|X]; [|discriminate]. apply (H [] nm l eq_refl). exact X.
    + split.
      * intros [k H]. inversion H; subst. intros a nm' b E X. destruct a as [|s0 a]; inversion E; subst.
        match goal with P : StoreSpec.position _ _ _ _ _ _ _ (_ ++ _) _ |- _ => pose proof (proj1 (IH names []) (ex_intro _ _ P) a nm' b eq_refl) as Q end.
        apply Q. exact X.
      * intros H. destruct (proj2 (IH names [])) as [[c q] P].
        { intros a nm' b -> X. apply (H (Elem i :: a) nm' b eq_refl). exact X. }
        eexists. econstructor; [now apply pl_same|eassumption].
Qed.
End Native.

(** ** deletion *)
Definition head_path (k : key) : str := match fst k with [] => fst (snd k) | (p, _) :: _ => fst p end.
Lemma under_head : forall path k, under path k = str_eqb path (head_path k).
Proof. intros path [[|[p i] c] q]; reflexivity. Qed.

Definition erases (s s' : store) (D : key -> Prop) : Prop :=
  forall k, (D k /\ s_data s' k = None /\ s_size s' k = None) \/ (~ D k /\ s_data s' k = s_data s k /\ s_size s' k = s_size s k).
Lemma erases_list : forall A (f : A -> store -> store) (D : A -> key -> Prop) l s, (forall x s, In x l -> erases s (f x s) (D x)) ->
  erases s (fold_left (fun s x => f x s) l s) (fun k => exists x, In x l /\ D x k).
Proof.
  intros A f D. induction l as [|x t IH]; intros s H k; cbn.
  - right. split; [intros (? & [] & _)|auto].
  - assert (IH' := IH (f x s) (fun y s' I => H y s' (or_intror I)) k). destruct IH' as [((y & I & Dy) & E1 & E2)|(N & E1 & E2)].
    + left. split; eauto.
    + rewrite E1, E2. destruct (H x s (or_introl eq_refl) k) as [(Dx & F1 & F2)|(Nx & F1 & F2)].
      * left. split; eauto.
      * right. split; auto. intros (y & [<-|I] & Dy); [auto|apply N; eauto].
Qed.
Lemma delete_erases : forall path s, erases s (delete path s) (fun k => path = head_path k).
Proof.
  intros path s k. unfold delete. cbn. rewrite under_head. destruct (str_eqb path (head_path k)) eqn:E.
  - left. apply str_eqb_eq in E. auto.
  - right. split; auto. intros X. rewrite X, str_eqb_refl in E. discriminate.
Qed.
Lemma erases_iff : forall s s' D D', (forall k, D k <-> D' k) -> erases s s' D -> erases s s' D'.
Proof. intros s s' D D' H E k. destruct (E k) as [(A & B)|(A & B)]; [left|right]; split; auto; rewrite <- H; auto. Qed.

Section Delete.
Variable dynamic : list str -> bool.
Lemma delete_node_erases : forall m p names s, named m -> inv dynamic p names names ->
  erases s (delete_node dynamic m p s) (fun k => exists ns m', loc_ok m (map Child ns) m' /\ mkind m' <> KStruct /\ path_of (names ++ mname m :: ns) = head_path k).
Proof.
  intros m. induction m as [nm k cs IH] using meta_ind'. intros p names s NM I.
  assert (LEAF : k <> KStruct -> erases s (delete (ctx_path p nm) s) (fun ky => exists ns m', loc_ok (Meta nm k cs) (map Child ns) m' /\ mkind m' <> KStruct /\ path_of (names ++ nm :: ns) = head_path ky)).
  { intros NK. eapply erases_iff; [|apply delete_erases]. intros ky. rewrite (ctx_path_inv dynamic p names names nm I). split.
    - intros E. exists [], (Meta nm k cs). split; [constructor|]. split; auto.
    - intros (ns & m' & L & N & E). destruct ns as [|x ns]; [auto|]. inversion L; subst. congruence. }
  destruct k as [| |dt nd]; cbn [delete_node]; try (apply LEAF; discriminate).
  inversion NM as [? ? ? N1 N2 N3]; subst.
  assert (IB := inv_below dynamic (fun _ => []) p names names (Meta nm KStruct cs) I N1). cbn in IB.
  eapply erases_iff; [|apply (erases_list _ (fun d s => delete_node dynamic d (below dynamic p (Meta nm KStruct cs)) s)
     (fun d k => exists ns m', loc_ok d (map Child ns) m' /\ mkind m' <> KStruct /\ path_of ((names ++ [nm]) ++ mname d :: ns) = head_path k))].
  - intros k. split.
    + intros (d & D & ns & m' & L & N & E). exists (mname d :: ns), m'. rewrite <- app_assoc in E. split; [now constructor|auto].
    + intros (ns & m' & L & N & E). destruct ns as [|x ns]; inversion L; subst; [now destruct N|]. exists c. split; auto. exists ns, m'. rewrite <- app_assoc. auto.
  - intros d s0 D. apply IH; auto.
Qed.

Theorem delete_children_erases : forall m s, named m -> mkind m = KStruct -> erases s (delete_children dynamic m s) (erased m).
Proof.
  intros [nm k cs] s NM K. cbn in K. subst k. inversion NM as [? ? ? N1 N2 N3]; subst. unfold delete_children. cbn [mchildren].
  eapply erases_iff; [|apply (erases_list _ (fun d s => delete_node dynamic d top s)
     (fun d k => exists ns m', loc_ok d (map Child ns) m' /\ mkind m' <> KStruct /\ path_of ([] ++ mname d :: ns) = head_path k))].
  - intros k. unfold erased. fold (head_path k). split.
    + intros (d & D & ns & m' & L & N & E). exists (mname d :: ns), m'. split; [discriminate|]. split; [now constructor|auto].
    + intros (ns & m' & NE & L & N & E). destruct ns as [|x ns]; [congruence|]. inversion L; subst. exists c. split; auto. exists ns, m'. auto.
  - intros d s0 D. apply delete_node_erases; auto. apply inv_top.
Qed.
End Delete.
