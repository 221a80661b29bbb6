(** The whole tree read back from a written group. *)
From Verif Require Import Base TreeModel TreeSpec TreeProofs ValProofs ValProofs5 StoreProofs2 NcMetaModel NcMetaSpec NcMetaProofs NcMetaProofs2 NcMetaProofs3 NcMetaProofs4 NcFileModel NcFileSpec NcFileProofs NcFileProofs2 NcFileProofs3 NcFileProofs4 NcFileProofs5 NcFileProofs6 NcFileProofs7.
From Verif Require NcMetaProps.
From Coq Require Import Lia.

(** trees with the same sizes of arrays of structures and values that agree; b: the node is inside an array of structures *)
Inductive sim : bool -> meta -> node -> node -> Prop :=
| si_leaf : forall b nm dt nd cs x y,
    (forall v, filled_value v -> (b = true -> ~ looks_unset v) -> x = Some v -> y = Some v) -> (forall v, filled_value v -> (b = true -> ~ is_complex v) -> y = Some v -> x = Some v) -> sim b (Meta nm (KLeaf dt nd) cs) (NLeaf x) (NLeaf y)
| si_struct : forall b nm cs fs fs', (forall c, In c cs -> sim b c (field c fs) (field c fs')) -> sim b (Meta nm KStruct cs) (NStruct fs) (NStruct fs')
| si_aos : forall b nm cs els els', length els = length els' ->
    (forall i x y, nth_error els i = Some x -> nth_error els' i = Some y -> sim true (Meta nm KStruct cs) x y) -> sim b (Meta nm KAoS cs) (NAoS els) (NAoS els').

Lemma below_child : forall m names parent lv p c a n d, below m names parent lv p c a n -> In d (mchildren c) -> (forall dt nd, mkind c <> KLeaf dt nd) ->
  below m names parent lv (p ++ [mname d]) d (fst (inner c p a n)) (snd (inner c p a n)).
Proof.
  intros m names parent lv p c a n d B I K. unfold inner. induction B as [nm k cs names parent lv c J|nm k cs names parent lv c p c' a n J K' B IH|nm k cs names parent lv c p c' a n J K' B IH].
  - destruct (mkind c) as [| |dt nd] eqn:Kc; cbn [fst snd].
    + eapply bl_struct; eauto. destruct c as [cn ck cc]. now constructor.
    + eapply bl_aos; eauto. destruct c as [cn ck cc]. now constructor.
    + exfalso. eapply K; eauto.
  - eapply bl_struct; eauto.
  - eapply bl_aos; eauto.
Qed.

Lemma inside_cons : forall i l, inside_aos (Elem i :: l). Proof. intros i l. exists i. now left. Qed.
Lemma inside_child : forall nm l, inside_aos l -> inside_aos (Child nm :: l). Proof. intros nm l (i & I). exists i. now right. Qed.
(** what is found in x is found in y *)
Lemma sim_into : forall m b x y, sim b m x y -> forall l z, holds m x l z -> (forall v, z = ILeaf v -> b = true \/ inside_aos l -> ~ looks_unset v) -> holds m y l z.
Proof.
  induction m as [nm k cs IH] using meta_ind'. intros b x y S' l z H T.
  assert (ST : forall b' fs fs' l', (forall c, In c cs -> sim b' c (field c fs) (field c fs')) -> (forall v, z = ILeaf v -> b' = true \/ inside_aos l' -> ~ looks_unset v) ->
     holds (Meta nm KStruct cs) (NStruct fs) l' z -> holds (Meta nm KStruct cs) (NStruct fs') l' z).
  { intros b' fs fs' l0 F T'. rewrite !holds_field. intros (d & l' & -> & I & Q). exists d, l'. split; auto. split; auto. apply (IH d I b' _ _ (F d I) l' z Q).
    intros v E [B|B]; apply T'; auto. right. now apply inside_child. }
  inversion S' as [? ? dt nd ? x' y' E1 E2|? ? ? fs fs' F|? ? ? els els' LE EL]; subst.
  - apply holds_leaf. apply holds_leaf in H. destruct H as (-> & v & -> & -> & FV). split; auto. exists v. split; auto.
  - apply (ST b fs fs' l); auto.
  - apply holds_aos. apply holds_aos in H. rewrite LE in H. destruct H as [Q|(i & e & l' & -> & A & Q)]; [now left|right].
    destruct (nth_error els' i) as [e'|] eqn:A'; [|apply nth_error_None in A'; assert (i < length els) by (apply nth_error_Some; congruence); lia]. exists i, e', l'. split; auto. split; auto.
    pose proof (EL i e e' A A') as SS. inversion SS as [|? ? ? fu fv FF|]; subst. apply (ST true fu fv l'); auto. intros v E _. apply T; auto. right. apply inside_cons.
Qed.
(** and the other way around *)
Lemma sim_back : forall m b x y, sim b m x y -> forall l z, holds m y l z -> (forall v, z = ILeaf v -> b = true \/ inside_aos l -> ~ is_complex v) -> holds m x l z.
Proof.
  induction m as [nm k cs IH] using meta_ind'. intros b x y S' l z H T.
  assert (ST : forall b' fs fs' l', (forall c, In c cs -> sim b' c (field c fs) (field c fs')) -> (forall v, z = ILeaf v -> b' = true \/ inside_aos l' -> ~ is_complex v) ->
     holds (Meta nm KStruct cs) (NStruct fs') l' z -> holds (Meta nm KStruct cs) (NStruct fs) l' z).
  { intros b' fs fs' l0 F T'. rewrite !holds_field. intros (d & l' & -> & I & Q). exists d, l'. split; auto. split; auto. apply (IH d I b' _ _ (F d I) l' z Q).
    intros v E [B|B]; apply T'; auto. right. now apply inside_child. }
  inversion S' as [? ? dt nd ? x' y' E1 E2|? ? ? fs fs' F|? ? ? els els' LE EL]; subst.
  - apply holds_leaf. apply holds_leaf in H. destruct H as (-> & v & -> & -> & FV). split; auto. exists v. split; auto.
  - apply (ST b fs fs' l); auto.
  - apply holds_aos. apply holds_aos in H. rewrite <- LE in H. destruct H as [Q|(i & e & l' & -> & A & Q)]; [now left|right].
    destruct (nth_error els i) as [e'|] eqn:A'; [|apply nth_error_None in A'; assert (i < length els') by (apply nth_error_Some; congruence); lia]. exists i, e', l'. split; auto. split; auto.
    pose proof (EL i e' e A' A) as SS. inversion SS as [|? ? ? fu fv FF|]; subst. apply (ST true fu fv l'); auto. intros v E _. apply T; auto. right. apply inside_cons.
Qed.

Lemma sim_intro : forall b m fs fs', mkind m = KStruct -> (forall c, In c (mchildren m) -> sim b c (field c fs) (field c fs')) -> sim b m (NStruct fs) (NStruct fs').
Proof. intros b [mn mk cs] fs fs' K H. cbn in K. subst mk. now constructor. Qed.
Lemma new_unset : forall c, has_value c (new_node c) = false.
Proof.
  intros [nm k cs]. destruct k; cbn; auto. induction cs; auto.
Qed.
Lemma conf_new : forall c, conf c (new_node c).
Proof.
  intros [nm k cs]. destruct k as [| |dt nd]; cbn [new_node mkind].
  - constructor; [intros c ch I A; discriminate|intros q []|constructor].
  - constructor. intros e [].
  - constructor.
Qed.

Section Tree.
Variable at_ : path -> nattr.
Variable fuel : nat.
Variable m : meta.
Variable r : ncmeta.
Hypothesis W : wf_meta m.
Hypothesis R : nc_metadata at_ fuel m = Ok r.
Hypothesis NO : names_ok m.
Hypothesis SD : small_dims m.
Hypothesis KR : mkind m = KStruct.
Variable n : node.
Hypothesis C : conf m n.
Variable h : bool.
Variable units : path -> str.
Variable g : group.
Hypothesis WG : written m r n h units g.
Notation items := (items m n).
Notation data p := (data_of items p).
Notation ds := (dim_sizes m r h items).

(** the index lies within the dimensions of the enclosing arrays of structures *)
Definition rng (a : option path) (idx : list nat) : Prop := exists A, sizes FKey ds (parent_dims r h a) = Ok A /\ in_range A idx = true.

Lemma unfilled_var : forall p c a lv, in_ids m p c a lv -> ~ (exists ix x, In (p, ix, x) items) -> in_vars (g_vars g) (dotted p) = None.
Proof.
  intros p c a lv I N. apply in_vars_none. rewrite (w_names _ _ _ _ _ _ WG). intros Q. unfold filled_variables in Q. apply in_map_iff in Q. destruct Q as (q & E & Q). apply (filled_path at_ fuel m r W R KR n C) in Q.
  destruct Q as (ix & x & Q). destruct (item_meta m KR n C q ix x Q) as (c' & a' & lv' & I' & _). assert (q = p) by (eapply (dotted_path_inj m W NO); eauto). subst q. apply N. eauto.
Qed.
Lemma filled_dec : forall p, (exists ix x, In (p, ix, x) items) \/ forall idx, iget idx (data p) = None.
Proof.
  intros p. destruct (data p) as [|[ix x] t] eqn:D; [right; reflexivity|]. left. exists ix, x. apply data_In. rewrite D. now left.
Qed.

Lemma val_den : forall p c a lv dt nd idx, in_ids m p c a lv -> mkind c = KLeaf dt nd -> rng a idx ->
  agrees (is_some a) (match iget idx (data p) with Some (FLeaf v) => Some v | _ => None end) (val_at g (g_vars g) p dt nd idx).
Proof.
  intros p c a lv dt nd idx I K (A & SA & RG). unfold val_at. destruct (filled_dec p) as [FP|U].
  - destruct (w_get _ _ _ _ _ _ WG p c a lv I FP) as (sp & SP & GV & SH). change (in_vars (g_vars g) (dotted p)) with (get_var g (dotted p)). rewrite GV.
    destruct (item_sized at_ fuel m r W R NO SD KR n C h p c a lv I ltac:(congruence) FP) as (A' & F & own & Z). pose proof (z_A _ _ _ _ _ _ _ _ _ _ _ Z) as ZA. rewrite SA in ZA. inversion ZA; subst A'.
    destruct (leaf_read at_ fuel m r W R NO SD KR n C h units g WG p c a lv dt nd A F own sp idx I K FP Z RG SP SH) as (o & EO & VO). rewrite EO. auto.
  - rewrite (unfilled_var p c a lv I); [rewrite U; apply agrees_refl|]. intros (ix & x & J). apply (iget_In m W n C) in J. rewrite U in J. discriminate.
Qed.
Lemma size_den : forall p c a lv idx, in_ids m p c a lv -> mkind c = KAoS -> rng a idx ->
  size_at r g h (g_vars g) p idx = match iget idx (data p) with Some (FAoS k) => k | _ => 0 end.
Proof.
  intros p c a lv idx I K (A & SA & RG). unfold size_at. destruct (filled_dec p) as [FP|U].
  - destruct (w_get _ _ _ _ _ _ WG p c a lv I FP) as (sp & SP & GV & SH). change (in_vars (g_vars g) (dotted p)) with (get_var g (dotted p)). rewrite GV.
    destruct (item_sized at_ fuel m r W R NO SD KR n C h p c a lv I ltac:(congruence) FP) as (A' & F & own & Z). pose proof (z_A _ _ _ _ _ _ _ _ _ _ _ Z) as ZA. rewrite SA in ZA. inversion ZA; subst A'.
    rewrite (aos_read at_ fuel m r W R NO SD KR n C h units g WG p c a lv A F own sp idx I K FP Z RG SP SH). reflexivity.
  - rewrite (unfilled_var p c a lv I); [now rewrite U|]. intros (ix & x & J). apply (iget_In m W n C) in J. rewrite U in J. discriminate.
Qed.
Lemma rng_elem : forall p c a lv idx k i, in_ids m p c a lv -> mkind c = KAoS -> In (p, idx, FAoS k) items -> i < k -> rng (Some p) (idx ++ [i]).
Proof.
  intros p c a lv idx k i I K J L. destruct (item_sized at_ fuel m r W R NO SD KR n C h p c a lv I ltac:(congruence) ltac:(eauto)) as (A & F & own & Z).
  exists (A ++ F). cbn [parent_dims]. rewrite (z_dims _ _ _ _ _ _ _ _ _ _ _ Z). split; [apply sizes_app; [apply (z_A _ _ _ _ _ _ _ _ _ _ _ Z)|apply (z_F _ _ _ _ _ _ _ _ _ _ _ Z)]|].
  pose proof (z_fits _ _ _ _ _ _ _ _ _ _ _ Z _ _ J) as FT. cbn [content_shape fits_in] in FT. destruct F as [|K' [|? ?]]; try discriminate; [|rewrite Bool.andb_false_r in FT; discriminate].
  apply in_range_snoc; [eapply (z_range _ _ _ _ _ _ _ _ _ _ _ Z); eauto|]. apply Bool.andb_true_iff in FT. destruct FT as [FT _]. apply Nat.leb_le in FT. lia.
Qed.

(** ** equal contents *)
Definition covers (c : meta) (ch : node) (p : path) (idx : list nat) : Prop := forall t ix x, In (p ++ t, idx ++ ix, x) items <-> ent c ch t ix x.
Definition covers_below (c : meta) (ch : node) (p : path) (idx : list nat) : Prop := forall t ix x, t <> [] -> (In (p ++ t, idx ++ ix, x) items <-> ent c ch t ix x).
Lemma covers_child : forall nm cs fs d p idx, NoDup (map mname cs) -> In d cs -> covers_below (Meta nm KStruct cs) (NStruct fs) p idx -> covers d (field d fs) (p ++ [mname d]) idx.
Proof.
  intros nm cs fs d p idx ND I H t ix x. rewrite <- app_assoc. cbn [app]. rewrite (H (mname d :: t) ix x) by discriminate. unfold field. split; intros E.
  - inversion E as [|? ? ? d' ch t' ? ? I' A E'|]; subst. assert (d' = d) by (eapply name_inj; eauto). subst d'. rewrite A. exact E'.
  - destruct (alookup (mname d) fs) as [ch|] eqn:A; [eapply en_struct; eauto|]. apply ent_value in E. rewrite new_unset in E. discriminate.
Qed.

Lemma leaf_filled : forall dt nd v, val_ok dt nd v -> filled_value v -> leaf_has_value nd (Some v) = true.
Proof.
  intros dt nd v V F. assert (Cv : conf (Meta [] (KLeaf dt nd) []) (NLeaf (Some v))) by (now constructor). change (has_value (Meta [] (KLeaf dt nd) []) (NLeaf (Some v)) = true). apply has_value_nonempty; auto.
  exists []. left. exists v. exists (Meta [] (KLeaf dt nd) []). split; [exists dt, nd; reflexivity|]. split; [constructor|exact F].
Qed.

Lemma den_sim : forall c p a lv idx ch, in_ids m p c a lv -> wf_meta c -> conf c ch -> rng a idx -> covers c ch p idx -> sim (is_some a) c ch (den r g h (g_vars g) c p idx).
Proof.
  induction c as [nm k cs IH] using meta_ind'. intros p a lv idx ch I Wc Cc RG CV. inversion Wc as [? ? ? ND WC LF]; subst.
  assert (BE : forall fs a' lv' idx', (forall d, In d cs -> in_ids m (p ++ [mname d]) d a' lv') -> conf (Meta nm KStruct cs) (NStruct fs) -> rng a' idx' -> covers_below (Meta nm KStruct cs) (NStruct fs) p idx' ->
    sim (is_some a') (Meta nm KStruct cs) (NStruct fs) (NStruct (den_fields r g h (g_vars g) cs p idx'))).
  { intros fs a' lv' idx' J Cf RG' CB. constructor. intros d Id. rewrite den_field by auto. eapply IH; eauto.
    - unfold field. destruct (alookup (mname d) fs) as [c'|] eqn:A; [eapply conf_child; eauto|apply conf_new].
    - eapply covers_child; eauto. }
  destruct k as [| |dt nd]; cbn [den].
  - inversion Cc as [| |? ? fs|]; subst. apply (BE fs a lv idx); auto; [|intros t ix x _; apply CV].
    intros d Id. apply (below_child _ _ _ _ _ _ _ _ d I); [exact Id|discriminate].
  - inversion Cc as [| | |? ? els CE]; subst.
    assert (SZ : size_at r g h (g_vars g) p idx = length els).
    { rewrite (size_den p _ a lv idx I eq_refl RG). pose proof (CV [] []) as CV0. rewrite !app_nil_r in CV0. destruct (iget idx (data p)) as [x|] eqn:G.
      - apply (iget_In m W n C) in G. apply CV0 in G. apply ent_nil in G. destruct G as (_ & -> & _). reflexivity.
      - destruct els as [|e els]; auto. exfalso. apply (proj1 (iget_none m W n C p idx) G (FAoS (length (e :: els)))). apply CV0. change (FAoS (length (e :: els))) with (content_of (NAoS (e :: els))). now constructor. }
    rewrite SZ. constructor; [now rewrite map_length, seq_length|]. intros i x y Ax Ay. rewrite nth_error_map in Ay.
    assert (Li : i < length els) by (apply nth_error_Some; congruence). rewrite seq_nth_error in Ay by auto. cbn in Ay. inversion Ay; subst y. clear Ay.
    assert (Ce : conf (Meta nm KStruct cs) x) by (apply CE; eapply nth_error_In; eauto). inversion Ce as [| |? ? fs|]; subst.
    apply (BE fs (Some p) (S lv) (idx ++ [i])); auto.
    + intros d Id. apply (below_child _ _ _ _ _ _ _ _ d I); [exact Id|discriminate].
    + apply (rng_elem p (Meta nm KAoS cs) a lv idx (length els) i I eq_refl); auto. pose proof (CV [] []) as CV0. rewrite !app_nil_r in CV0. apply CV0. change (FAoS (length els)) with (content_of (NAoS els)). constructor. cbn. destruct els; [destruct i; discriminate|reflexivity].
    + intros t ix x NT. rewrite <- app_assoc. cbn [app]. rewrite (CV t (i :: ix) x). split; intros E.
      * inversion E as [| |? ? ? i' e' ? ? ? A' E']; subst. rewrite A' in Ax. inversion Ax; subst. exact E'.
      * eapply en_elem; eauto.
  - pose proof (val_den p _ a lv dt nd idx I eq_refl RG) as (A1 & A2). pose proof (CV [] []) as CV0; rewrite !app_nil_r in CV0. inversion Cc as [|? ? ? ? v V| |]; subst; constructor; intros w FW T E.
    + discriminate.
    + apply A2 in E; auto. destruct (iget idx (data p)) as [x|] eqn:G; [|discriminate]. apply (iget_In m W n C) in G. apply CV0 in G. apply ent_nil in G. destruct G as (_ & _ & Q). discriminate.
    + inversion E; subst w. assert (J : In (p, idx, FLeaf v) items). { apply CV0. change (FLeaf v) with (content_of (NLeaf (Some v))). constructor. eapply leaf_filled; eauto. }
      apply (iget_In m W n C) in J. apply A1; auto. now rewrite J.
    + apply A2 in E; auto. destruct (iget idx (data p)) as [x|] eqn:G; [|discriminate]. apply (iget_In m W n C) in G. apply CV0 in G. apply ent_nil in G. destruct G as (_ & -> & _). cbn in E. exact E.
Qed.

Lemma root_rng : rng None []. Proof. exists []. auto. Qed.
Lemma root_child : forall d, In d (mchildren m) -> in_ids m [mname d] d None 0.
Proof. intros d I. destruct m as [mn mk cs]. apply (bl_child mn mk cs [] None 0 d I). Qed.
Theorem tree_sim : sim false m n (NStruct (den_fields r g h (g_vars g) (mchildren m) [] [])).
Proof.
  assert (EM : exists mn cs fs, m = Meta mn KStruct cs /\ n = NStruct fs /\ NoDup (map mname cs) /\ (forall d, In d cs -> wf_meta d)).
  { clear - W C KR. destruct m as [mn mk cs]. cbn in KR. subst mk. inversion W; subst. inversion C; subst. exists mn, cs, fs. auto. }
  destruct EM as (mn & cs & fs & EM & EN & ND & WC). rewrite EN. apply sim_intro; [exact KR|]. intros d Id. assert (MC : mchildren m = cs) by now rewrite EM. rewrite MC in *. rewrite den_field by auto.
  change false with (is_some (@None path)). eapply den_sim with (p := [] ++ [mname d]); [apply root_child; now rewrite MC|auto| |apply root_rng|].
  - unfold field. destruct (alookup (mname d) fs) as [c'|] eqn:A; [|apply conf_new]. apply (conf_child mn cs fs); auto. now rewrite <- EM, <- EN.
  - eapply (covers_child mn cs fs d [] []); auto. intros t ix x NT. cbn [app]. rewrite (items_ent _ _ C). rewrite <- EM, <- EN. tauto.
Qed.

(** ** reading succeeds *)
Lemma visited_range : forall cs names idx p idx', visited r g h (g_vars g) cs names idx p idx' -> forall a lv c, (forall d, In d cs -> in_ids m (names ++ [mname d]) d a lv) -> rng a idx ->
  meta_at (Meta [] KStruct cs) p = Some c -> exists a' lv', in_ids m (names ++ p) c a' lv' /\ rng a' idx'.
Proof.
  intros cs names idx p idx' V. induction V as [cs names idx nm|cs names idx nm p d idx' F K V IH|cs names idx nm p d i idx' F K L V IH]; intros a lv c H RG M; cbn [meta_at mchildren] in M.
  - destruct (List.find (fun d => str_eqb (mname d) nm) cs) as [d|] eqn:F; [|discriminate]. apply find_some in F. destruct F as [I E]. apply str_eqb_eq in E. subst nm. inversion M; subst. exists a, lv. auto.
  - rewrite F in M. apply find_some in F. destruct F as [I E]. apply str_eqb_eq in E. subst nm. destruct (IH a lv c) as (a' & lv' & B & RG'); auto.
    + intros d' Id'. pose proof (below_child _ _ _ _ _ _ _ _ d' (H d I) Id' ltac:(congruence)) as Q. unfold inner in Q. rewrite K in Q. exact Q.
    + destruct d as [dn dk dc]. cbn in K. subst dk. destruct p; [inversion V|exact M].
    + exists a', lv'. rewrite <- app_assoc in B. auto.
  - rewrite F in M. apply find_some in F. destruct F as [I E]. apply str_eqb_eq in E. subst nm. destruct (IH (Some (names ++ [mname d])) (S lv) c) as (a' & lv' & B & RG'); auto.
    + intros d' Id'. pose proof (below_child _ _ _ _ _ _ _ _ d' (H d I) Id' ltac:(congruence)) as Q. unfold inner in Q. rewrite K in Q. exact Q.
    + rewrite (size_den _ d a lv idx (H d I) K RG) in L. destruct (iget idx (data (names ++ [mname d]))) as [[|k|v]|] eqn:G; try lia. apply (iget_In m W n C) in G. eapply rng_elem; eauto.
    + destruct d as [dn dk dc]. cbn in K. subst dk. destruct p; [inversion V|exact M].
    + exists a', lv'. rewrite <- app_assoc in B. auto.
Qed.

(** the names of the variables are different *)
Lemma written_nodup : NoDup (map v_name (g_vars g)).
Proof.
  rewrite (w_names _ _ _ _ _ _ WG). unfold filled_variables. pose proof (filled_nodup at_ fuel m r W R n) as FN.
    assert (X : forall p, In p (filled_paths r items) -> exists c a lv, in_ids m p c a lv).
    { intros p Q. apply (filled_path at_ fuel m r W R KR n C) in Q. destruct Q as (ix & x & Q). destruct (item_meta m KR n C p ix x Q) as (c & a & lv & B & _). eauto. }
    revert X FN. generalize (filled_paths r items). induction l as [|p l IH]; intros X FN; cbn [map]; [constructor|]. inversion FN as [|? ? NI FN']; subst. constructor; [|apply IH; auto; intros; apply X; now right].
    intros Q. apply in_map_iff in Q. destruct Q as (q & E & Q). destruct (X p (or_introl eq_refl)) as (c & a & lv & B). destruct (X q (or_intror Q)) as (c' & a' & lv' & B'). assert (q = p) by (eapply (dotted_path_inj m W NO); eauto). congruence.
Qed.

Theorem tree_read : exists fs, read_vars m r g h (sorted_vars g) [] = Ok fs /\
  (forall l x, holds m n l x -> (forall v, x = ILeaf v -> inside_aos l -> ~ looks_unset v) -> holds m (NStruct fs) l x) /\
  (forall l x, holds m (NStruct fs) l x -> (forall v, x = ILeaf v -> inside_aos l -> ~ is_complex v) -> holds m n l x).
Proof.
  pose proof written_nodup as ND.
  pose proof (clean_m m W NO) as CL.
  destruct (read_total m r g W KR CL h ND) as [fs RV].
  - intros v Iv. destruct (w_var _ _ _ _ _ _ WG v Iv) as (p & c & a & lv & sp & I & FP & SP & ->). change (v_name (var_of m r n h units p c sp)) with (dotted p). rewrite (var_path m W NO p c a lv I).
    exists c. rewrite (meta_at_in m W p c a lv I). split; auto. intros idx nd0 NK V.
    assert (RM : meta_at (Meta [] KStruct (mchildren m)) p = Some c). { transitivity (meta_at m p); [symmetry; apply meta_at_root; destruct (path_nodot m W NO p c a lv I); auto|exact (meta_at_in m W p c a lv I)]. }
    destruct (visited_range _ _ _ _ _ V None 0 c root_child root_rng RM) as (a' & lv' & I' & (A & SA & RG)). cbn [app] in I'. destruct (in_ids_fun m W _ _ _ _ _ _ _ I I') as (_ & <- & <-).
    destruct (w_get _ _ _ _ _ _ WG p c a lv I FP) as (sp' & SP' & GV & SH). pose proof (sparse_of_fun m r n h p c sp sp' SP SP') as <-.
    destruct (item_sized at_ fuel m r W R NO SD KR n C h p c a lv I NK FP) as (A' & F & own & Z). pose proof (z_A _ _ _ _ _ _ _ _ _ _ _ Z) as ZA. rewrite SA in ZA. inversion ZA; subst A'.
    unfold read_node. destruct (mkind c) as [| |dt nd] eqn:K.
    + eauto.
    + rewrite (aos_read at_ fuel m r W R NO SD KR n C h units g WG p c a lv A F own sp idx I K FP Z RG SP SH). cbn [rbind]. eauto.
    + destruct (leaf_read at_ fuel m r W R NO SD KR n C h units g WG p c a lv dt nd A F own sp idx I K FP Z RG SP SH) as (o & EO & VO). rewrite EO. cbn [rbind]. eauto.
  - exists fs. split; auto. pose proof (same_holds _ _ _ (read_all m r g W KR CL h ND fs RV)) as SH. split; intros l x H T.
    + apply SH. apply (sim_into _ _ _ _ tree_sim l x H). intros v E [B|B]; [discriminate|now apply T].
    + apply SH in H. apply (sim_back _ _ _ _ tree_sim l x H). intros v E [B|B]; [discriminate|now apply T].
Qed.
End Tree.
