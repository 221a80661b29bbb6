(** Reading a group that has been checked. *)
From Verif Require Import Base TreeModel TreeSpec TreeProofs ValProofs StoreProofs2 ConvSpec ConvProofs3 NcMetaModel NcMetaSpec NcMetaProofs NcMetaProofs2 NcMetaProofs3 NcMetaProofs4 NcFileModel NcFileSpec NcFileProofs NcFileProofs2 NcFileProofs3 NcFileProofs4 NcFileProofs5 NcFileProofs6 NcFileProofs8 NcConvProofs NcConvProofs2 NcConvProofs3 NcConvProofs4 NcValidModel NcValidSpec NcValidProofs.
From Verif Require NcMetaProps NcFileProps.
From Coq Require Import Lia.

(** ** arrays *)
Lemma nth_ravel : forall A sh jx (F : list nat -> A) d, in_range sh jx = true -> nth (ravel sh jx) (map F (indices sh)) d = F jx.
Proof.
  intros A sh jx F d R. apply indices_range in R. destruct (In_nth _ _ [] R) as (i & L & E). pose proof (ravel_indices sh) as RI.
  assert (EI : ravel sh jx = i).
  { apply (f_equal (fun l => nth i l 0)) in RI. rewrite (nth_indep _ 0 (ravel sh [])) in RI by (now rewrite map_length). rewrite map_nth, E in RI. rewrite seq_nth in RI; [exact RI|].
    rewrite <- (seq_length (prod sh) 0), <- ravel_indices, map_length. exact L. }
  rewrite EI. rewrite (nth_indep _ d (F [])) by (now rewrite map_length). now rewrite map_nth, E.
Qed.
Lemma indices_length : forall sh, length (indices sh) = prod sh.
Proof. intros sh. rewrite <- (map_length (ravel sh)), ravel_indices. apply seq_length. Qed.
Lemma build_shape : forall dt nd sh f, length sh = nd -> (dt = STR -> nd <= 1) -> value_shape (build dt nd sh f) = sh.
Proof.
  intros dt nd sh f L S1. destruct nd as [|nd]; [destruct sh; [|discriminate]; destruct dt; reflexivity|]. destruct dt; cbn [build value_shape]; auto.
  specialize (S1 eq_refl). destruct sh as [|k [|? ?]]; cbn in L; try lia. rewrite map_length, indices_length. cbn. f_equal. lia.
Qed.
Lemma build_cell : forall dt nd sh f, length sh = nd -> (dt = STR -> nd <= 1) -> (forall jx, typed dt (f jx)) -> forall jx, in_range sh jx = true -> value_cell (build dt nd sh f) jx = f jx.
Proof.
  intros dt nd sh f L S1 T jx R. unfold value_cell. rewrite (build_shape dt nd sh f L S1). specialize (T jx). destruct nd as [|nd].
  - destruct sh; [|discriminate]. destruct jx; [|discriminate]. destruct dt; cbn [build value_cells value_shape ravel nth] in *; destruct (f []); cbn in *; try contradiction; reflexivity.
  - destruct dt; cbn [build value_cells]; rewrite map_map, nth_ravel by auto; destruct (f jx); cbn in *; try contradiction; reflexivity.
Qed.
Lemma slice_prefix : forall z n, prefix_len z n (slice_len z n).
Proof. intros z n. unfold prefix_len, slice_len. destruct (z <? 0)%Z eqn:E; [apply Z.ltb_lt in E|apply Z.ltb_ge in E]; split; intros; try lia. Qed.
Lemma prefix_fun : forall z n k k', prefix_len z n k -> prefix_len z n k' -> k = k'.
Proof. intros z n k k' [A B] [A' B']. destruct (Z.le_gt_cases 0 z); [specialize (A H); specialize (A' H)|specialize (B H); specialize (B' H)]; lia. Qed.
Lemma sliced_lens : forall zs sh, length zs = length sh -> sliced zs sh (slice_lens zs sh).
Proof. induction zs as [|z zs IH]; intros [|n sh] L; try discriminate; cbn [slice_lens]; constructor; [apply slice_prefix|apply IH; cbn in L; lia]. Qed.
Lemma sliced_fun : forall zs sh ks, sliced zs sh ks -> ks = slice_lens zs sh.
Proof. intros zs sh ks H. induction H as [|z n k zs ns ks P S1 IH]; [reflexivity|]. cbn [slice_lens]. rewrite <- IH. f_equal. eapply prefix_fun; [exact P|apply slice_prefix]. Qed.
Lemma sliced_length : forall zs sh ks, sliced zs sh ks -> length ks = length sh.
Proof. intros zs sh ks H. induction H; cbn; auto. Qed.
Lemma sliced_nonzero : forall zs sh ks, sliced zs sh ks -> (forall k, In k ks -> k > 0) -> forallb (fun z => negb (Z.eqb z 0)) zs = true.
Proof.
  intros zs sh ks H. induction H as [|z n k zs ns ks P S1 IH]; intros Q; [reflexivity|]. cbn [forallb]. rewrite IH by (intros; apply Q; now right). rewrite Bool.andb_true_r. destruct (Z.eqb z 0) eqn:E; [|reflexivity].
  apply Z.eqb_eq in E. subst z. destruct P as [P _]. specialize (P ltac:(lia)). specialize (Q k (or_introl eq_refl)). lia.
Qed.
Lemma cell_ne_iff : forall a o, cell_ne a o = true <-> forall f, o = Some f -> differs a f.
Proof.
  intros a [f|]; [|split; [discriminate|destruct a; reflexivity]]. split.
  - intros H f' E. injection E as <-. destruct a as [s|z|x|x y], f as [s'|z'|x'|x' y']; cbn [cell_ne differs] in *; try discriminate.
    + intros Q. injection Q as ->. rewrite str_eqb_refl in H. discriminate.
    + intros Q. injection Q as ->. rewrite Z.eqb_refl in H. discriminate.
    + destruct (feq x x'); [discriminate|reflexivity].
    + destruct (feq x x'), (feq y y'); auto.
  - intros H. specialize (H f eq_refl). destruct a as [s|z|x|x y], f as [s'|z'|x'|x' y']; cbn [cell_ne differs] in *; try reflexivity.
    + destruct (str_eqb s s') eqn:E; [|reflexivity]. apply str_eqb_eq in E. congruence.
    + destruct (Z.eqb z z') eqn:E; [|reflexivity]. apply Z.eqb_eq in E. congruence.
    + now rewrite H.
    + destruct H as [-> | ->]; [reflexivity|]. now rewrite Bool.andb_false_r.
Qed.

Section Read.
Variables (at_ : path -> nattr) (fuel : nat) (m : meta) (r : ncmeta) (units : path -> str) (g : group) (h : bool).
Hypothesis W : wf_meta m.
Hypothesis KR : mkind m = KStruct.
Hypothesis R : nc_metadata at_ fuel m = Ok r.
Hypothesis NO : names_ok m.
Hypothesis N : netcdf g.
Hypothesis V : valid_contents m r units g h.
Notation pdims a := (parent_dims r h a).

Lemma valid_at : forall p c a n v, in_ids m p c a n -> In v (g_vars g) -> v_name v = dotted p -> valid_variable r units g h v p c a.
Proof.
  intros p c a n v I Iv E. destruct V as [_ V2]. destruct (V2 v Iv) as (p' & c' & a' & n' & I' & E' & Q). assert (p' = p) by (eapply (dotted_path_inj m W NO); eauto; congruence). subst p'.
  destruct (in_ids_fun m W _ _ _ _ _ _ _ I I') as (<- & <- & <-). exact Q.
Qed.
Lemma dims_split : forall p c a n, in_ids m p c a n -> mkind c <> KStruct -> exists own, get_dimensions r h p = pdims a ++ own /\ length own = ndim c /\ length (pdims a) = n.
Proof.
  intros p c a n I K. destruct (dims_shape at_ fuel m r W R h p c a n I K) as (own & L & E). exists own. split; [exact E|]. split; auto. eapply parent_length; eauto.
Qed.
Lemma in_vars_iff : forall nm v, in_vars (g_vars g) nm = Some v <-> In v (g_vars g) /\ v_name v = nm.
Proof. intros nm v. apply (get_var_iff g nm v N). Qed.
Lemma shape_sizes : forall s, In s (g_shapes g) -> exists A, sizes FKey (g_sizes g) (s_dims s) = Ok A.
Proof. intros s I. apply sizes_total. intros d Id. eapply n_shapes; eauto. Qed.
Lemma shapes_at_iff : forall nm ix zs, shapes_at g nm ix = Ok zs <-> exists s, In s (g_shapes g) /\ s_name s = nm /\ index_in g (s_dims s) ix /\ s_data s ix = zs.
Proof.
  intros nm ix zs. unfold shapes_at. split.
  - destruct (get_shape g nm) as [s|] eqn:G; [|discriminate]. apply get_shape_iff in G; auto. destruct G as [I E]. destruct (shape_sizes s I) as [A SA]. rewrite SA. cbn [rbind]. destruct (index_ok A ix) eqn:X; [|discriminate].
    intros H. injection H as H. exists s. split; auto. split; auto. split; auto. now apply (index_sizes g (s_dims s) A ix SA).
  - intros (s & I & E & X & D). rewrite (proj2 (get_shape_iff g nm s N) (conj I E)). destruct (shape_sizes s I) as [A SA]. rewrite SA. cbn [rbind]. rewrite (proj1 (index_sizes g (s_dims s) A ix SA) X). now rewrite D.
Qed.

(** sizes of arrays of structures *)
Lemma aos_size_iff : forall p ix k, file_size r h g p ix k <-> exists v, in_vars (g_vars g) (dotted p) = Some v /\ aos_size r g h v p ix = Ok k.
Proof.
  intros p ix k. unfold file_size, aos_size. split.
  - intros (v & I & E & Q). exists v. split; [now apply in_vars_iff|]. destruct (v_sparse v).
    + destruct Q as (s & t & Is & Es & X & D). rewrite (proj2 (shapes_at_iff (v_name v) ix (Z.of_nat k :: t))); [|exists s; split; [exact Is|]; split; [congruence|]; split; [exact X|exact D]]. cbn [rbind]. destruct (Z.of_nat k <? 0)%Z eqn:L; [apply Z.ltb_lt in L; lia|]. now rewrite Nat2Z.id.
    + destruct Q as (outer & d & E' & S1). rewrite E', rev_app_distr. cbn [rev app]. unfold size_of in S1. now rewrite S1.
  - intros (v & I & Q). apply in_vars_iff in I. destruct I as [I E]. exists v. split; auto. split; auto. destruct (v_sparse v).
    + destruct (shapes_at g (v_name v) ix) as [zs|] eqn:Z; [|discriminate]. cbn [rbind] in Q. destruct zs as [|z t]; [discriminate|]. destruct (z <? 0)%Z eqn:L; [discriminate|]. apply Z.ltb_ge in L. injection Q as <-.
      apply shapes_at_iff in Z. destruct Z as (s & Is & Es & X & D). exists s, t. split; auto. split; [congruence|]. split; auto. rewrite Z2Nat.id by auto. exact D.
    + destruct (rev (get_dimensions r h p)) as [|d t] eqn:RV; [discriminate|]. destruct (sget d (g_sizes g)) as [k'|] eqn:S1; [|discriminate]. injection Q as ->. exists (rev t), d. split; auto.
      rewrite <- (rev_involutive (get_dimensions r h p)), RV. reflexivity.
Qed.
Lemma size_at_iff : forall p ix k, k > 0 -> (size_at r g h (g_vars g) p ix = k <-> file_size r h g p ix k).
Proof.
  intros p ix k G. rewrite aos_size_iff. unfold size_at. split.
  - destruct (in_vars (g_vars g) (dotted p)) as [v|]; [|lia]. destruct (aos_size r g h v p ix) as [k'|] eqn:E; [|lia]. intros ->. eauto.
  - intros (v & -> & ->). reflexivity.
Qed.
Lemma exist_iff : forall l, elements_exist r h g l <-> in_sizes (size_at r g h (g_vars g)) [] [] l.
Proof.
  intros l. rewrite in_sizes_iff. cbn [app]. unfold elements_exist. split; intros H a i b E; specialize (H a i b E).
  - destruct H as (k & F & L). apply size_at_iff in F; [|lia]. lia.
  - exists (size_at r g h (g_vars g) (loc_names a) (loc_idx a)). split; [|exact H]. apply size_at_iff; [lia|reflexivity].
Qed.

(** values *)
Lemma var_sizes_ok : forall v, In v (g_vars g) -> exists A, var_sizes g v = Ok A.
Proof. intros v I. apply sizes_total. intros d Id. eapply n_dims; eauto. Qed.
Lemma row_length : forall v p c a n s ix, in_ids m p c a n -> In v (g_vars g) -> v_name v = dotted p -> v_sparse v = true -> ndim c > 0 -> In s (g_shapes g) -> s_name s = dotted p -> length (s_data s ix) = ndim c.
Proof.
  intros v p c a n s ix I Iv E SP G Is Es. destruct (valid_at p c a n v I Iv E) as (_ & _ & _ & Q). destruct (Q SP G) as (s' & d & Is' & Es' & _ & SZ & SD).
  assert (s' = s). { assert (X : Some s' = Some s); [|congruence]. rewrite <- (proj2 (get_shape_iff g (dotted p) s' N) (conj Is' (eq_trans Es' E))). now apply (get_shape_iff g (dotted p) s N). } subst s'.
  eapply n_rows; eauto.
Qed.
Section Values.
Hypothesis ST : forall p c nd a n, in_ids m p c a n -> mkind c = KLeaf STR nd -> nd <= 1.
Lemma value_iff : forall p c a n dt nd ix x, in_ids m p c a n -> mkind c = KLeaf dt nd -> length ix = n -> filled_value x ->
  (val_at g (g_vars g) p dt nd ix = Some x <-> file_value g p dt nd ix x).
Proof.
  intros p c a n dt nd ix x I K LI FX. unfold val_at, file_value. assert (S1 : dt = STR -> nd <= 1) by (intros ->; eapply ST; eauto). assert (ND : ndim c = nd) by (unfold ndim; now rewrite K).
  assert (FULL : forall v A, In v (g_vars g) -> v_name v = dotted p -> var_sizes g v = Ok A -> length (skipn (length ix) A) = nd /\ Forall2 (size_of g) (skipn (length ix) (v_dims v)) (skipn (length ix) A) /\ forall jx, typed dt (v_data v jx)).
  { intros v A Iv E SA. destruct (valid_at p c a n v I Iv E) as (VA & _). unfold valid_attributes in VA. rewrite K in VA. destruct VA as (VT & VD & _). unfold var_sizes in SA. pose proof (sizes_length _ _ _ _ _ SA) as LA.
    split; [|split].
    - rewrite skipn_length, LA, VD. rewrite (dims_length at_ fuel m r W R h p c a n I) by congruence. lia.
    - apply sizes_forall2 in SA. apply (forall2_skipn _ _ _ (length ix)) in SA. exact SA.
    - intros jx. eapply n_cells; eauto. }
  split.
  - intros H. destruct (in_vars (g_vars g) (dotted p)) as [v|] eqn:IV; [|discriminate]. apply in_vars_iff in IV. destruct IV as [Iv E]. unfold leaf_value in H. destruct (var_sizes g v) as [A|] eqn:SA; [|discriminate]. cbn [rbind] in H.
    destruct (FULL v A Iv E SA) as (LF & FA & TY). set (full := skipn (length ix) A) in *. exists v, full. split; auto. split; auto. destruct (v_sparse v) eqn:SP.
    + destruct nd as [|nd'].
      * destruct (index_ok A ix) eqn:X; [|discriminate]. destruct (cell_ne (v_data v ix) (v_fill v)) eqn:CN; [|discriminate]. assert (EX : x = build dt 0 [] (fun jx => v_data v (ix ++ jx))) by congruence. subst x.
        split; [now apply (index_sizes g (v_dims v) A ix SA)|]. split; [exact FA|]. split; [now apply build_val_ok|]. split; [|now apply cell_ne_iff]. rewrite build_shape by auto. intros jx RJ. apply (build_cell dt 0 [] (fun jx => v_data v (ix ++ jx))); auto.
      * destruct (shapes_at g (v_name v) ix) as [zs|] eqn:Z; [|discriminate]. cbn [rbind] in H. destruct (forallb _ zs) eqn:FB; [|discriminate]. destruct (index_ok A ix) eqn:X; [|discriminate].
        apply shapes_at_iff in Z. destruct Z as (s & Is & Es & XS & D). rewrite E in Es. assert (LZ : length zs = S nd') by (rewrite <- D, <- ND; eapply row_length; eauto; lia).
        assert (SL : sliced zs full (slice_lens zs full)) by (apply sliced_lens; lia). assert (LS : length (slice_lens zs full) = S nd') by (rewrite (sliced_length _ _ _ SL); exact LF).
        assert (EX : x = build dt (S nd') (slice_lens zs full) (fun jx => v_data v (ix ++ jx))) by congruence. subst x.
        split; [now apply (index_sizes g (v_dims v) A ix SA)|]. split; [exact FA|]. split; [now apply build_val_ok|]. rewrite build_shape by auto. split; [intros jx RJ; apply (build_cell dt (S nd') (slice_lens zs full) (fun jx => v_data v (ix ++ jx))); auto|]. exists s. rewrite D. auto.
    + destruct (index_ok A ix) eqn:X; [|discriminate]. assert (EX : x = build dt nd full (fun jx => v_data v (ix ++ jx))) by congruence. subst x.
      split; [now apply (index_sizes g (v_dims v) A ix SA)|]. split; [exact FA|]. split; [now apply build_val_ok|]. rewrite build_shape by auto. split; [intros jx RJ; apply (build_cell dt nd full (fun jx => v_data v (ix ++ jx))); auto|reflexivity].
  - intros (v & full & Iv & E & X & F2 & VO & CE & Q). rewrite (proj2 (in_vars_iff (dotted p) v) (conj Iv E)). destruct (var_sizes_ok v Iv) as [A SA]. destruct (FULL v A Iv E SA) as (LF & FA & TY).
    assert (EF : full = skipn (length ix) A).
    { clear - F2 FA. revert full F2. induction FA as [|d k ds ks S1 F IH]; intros full F2; inversion F2 as [|? k' ? fs S2 F']; subst; auto. unfold size_of in *. f_equal; [congruence|auto]. }
    assert (B : build dt nd (value_shape x) (fun jx => v_data v (ix ++ jx)) = x) by (apply build_value; [exact VO|intros jx RJ; symmetry; now apply CE]).
    unfold leaf_value. rewrite SA. cbn [rbind]. rewrite (proj1 (index_sizes g (v_dims v) A ix SA) X). destruct (v_sparse v) eqn:SP.
    + destruct nd as [|nd'].
      * rewrite (proj2 (cell_ne_iff (v_data v ix) (v_fill v)) Q). pose proof (val_ok_shape _ _ _ VO) as L0. destruct (value_shape x); [|discriminate]. now rewrite B.
      * destruct Q as (s & Is & Es & XS & SL). rewrite (proj2 (shapes_at_iff (v_name v) ix (s_data s ix))); [|exists s; rewrite E; auto]. cbn [rbind]. rewrite (sliced_nonzero _ _ _ SL (filled_shape _ _ _ VO FX)).
        rewrite <- EF, <- (sliced_fun _ _ _ SL). now rewrite B.
    + rewrite <- EF, <- Q. now rewrite B.
Qed.

(** the whole tree *)
Theorem read_holds : forall fs, read_vars m r g h (sorted_vars g) [] = Ok fs ->
  (forall l v, leaf_at m (NStruct fs) l v <-> file_leaf m r h g l v) /\ (forall l k, aos_at m (NStruct fs) l k <-> file_aos m r h g l k).
Proof.
  intros fs RV. assert (CL : clean m) by (eapply clean_m; eauto).
  assert (G : NStruct (den_fields r g h (g_vars g) (mchildren m) [] []) = gen (val_at g (g_vars g)) (size_at r g h (g_vars g)) m [] []).
  { clear - KR. destruct m as [nm k cs]. cbn [mkind] in KR. subst k. cbn [gen mchildren]. unfold den_fields. f_equal. apply map_ext. intros d. now rewrite den_gen. }
  assert (H : forall l x, holds m (NStruct fs) l x <-> exists c1, loc_ok m l c1 /\ in_sizes (size_at r g h (g_vars g)) [] [] l /\ ~ is_elem l /\ item_of (val_at g (g_vars g)) (size_at r g h (g_vars g)) c1 (loc_names l) (loc_idx l) x).
  { intros l x. rewrite (same_holds _ _ _ (read_all m r g W KR CL h (n_names g N) fs RV)). rewrite G. rewrite gen_holds by auto. reflexivity. }
  assert (NEL : forall l c, loc_ok m l c -> mkind c <> KStruct -> ~ is_elem l).
  { intros l c L KC (a & i & ->). clear - L KC. remember (a ++ [Elem i]) as l eqn:E. revert a E. induction L as [m|nm cs c l m' I L IH|nm cs j l m' L IH]; intros a E.
    - destruct a; discriminate.
    - destruct a as [|y a]; [discriminate|]. apply (IH KC a). now injection E.
    - destruct a as [|y a]; [|apply (IH KC a); now injection E]. injection E as -> ->. inversion L; subst. cbn in KC. congruence. }
  assert (LV : forall l c, loc_ok m l c -> mkind c <> KStruct -> exists a, in_ids m (loc_names l) c a (length (loc_idx l))).
  { intros l c L KC. destruct (loc_below (length l) l m c [] None 0 (le_n _) L) as [a B]; auto; [eapply NEL; eauto|intros ->; inversion L; subst; congruence|]. exists a. exact B. }
  split.
  - intros l v. change (leaf_at m (NStruct fs) l v) with (holds m (NStruct fs) l (ILeaf v)). rewrite H. unfold file_leaf. split.
    + intros (c & L & S1 & NE & dt & nd & K & VV & FV). exists c, dt, nd. split; auto. split; auto. split; [now apply exist_iff|]. split; auto. destruct (LV l c L ltac:(congruence)) as [a B]. now apply (value_iff _ c a _ dt nd _ v B K eq_refl FV).
    + intros (c & dt & nd & L & K & EX & VV & FV). exists c. split; auto. split; [now apply exist_iff|]. split; [eapply NEL; eauto; congruence|]. exists dt, nd. split; auto. split; auto. destruct (LV l c L ltac:(congruence)) as [a B]. now apply (value_iff _ c a _ dt nd _ v B K eq_refl FV).
  - intros l k. change (aos_at m (NStruct fs) l k) with (holds m (NStruct fs) l (ISize k)). rewrite H. unfold file_aos. split.
    + intros (c & L & S1 & NE & K & VV & FV). exists c. split; auto. split; auto. split; [now apply exist_iff|]. split; auto. now apply size_at_iff.
    + intros (c & L & K & EX & VV & FV). exists c. split; auto. split; [now apply exist_iff|]. split; [eapply NEL; eauto; congruence|]. split; auto. split; auto. now apply size_at_iff.
Qed.

End Values.

(** ** reading succeeds *)
Section Succeeds.
Hypothesis FS : fitting_sizes m r h g.
Definition rng (a : option path) (idx : list nat) : Prop := within g (pdims a) idx.
Lemma within_snoc : forall dims d ix i k, within g dims ix -> size_of g d k -> i < k -> within g (dims ++ [d]) (ix ++ [i]).
Proof. intros dims d ix i k X S1 L. apply Forall2_app; [exact X|]. constructor; [eauto|constructor]. Qed.
Lemma within_index : forall dims own ix, within g dims ix -> index_in g (dims ++ own) ix.
Proof. intros dims own ix X. unfold index_in. assert (L : length dims = length ix) by (clear - X; induction X; cbn; auto). rewrite <- L, firstn_app, Nat.sub_diag, firstn_all, firstn_O, app_nil_r. exact X. Qed.
Lemma aos_fits : forall p c a n v idx, in_ids m p c a n -> mkind c = KAoS -> In v (g_vars g) -> v_name v = dotted p -> rng a idx ->
  exists k d K, aos_size r g h v p idx = Ok k /\ get_dimensions r h p = pdims a ++ [d] /\ size_of g d K /\ k <= K.
Proof.
  intros p c a n v idx I K Iv E RG. destruct (FS p c a n v I K Iv E) as (outer & d & k & ED & SD & SP). destruct (dims_split p c a n I ltac:(congruence)) as (own & EO & LO & LP).
  assert (NDc : ndim c = 1) by (unfold ndim; now rewrite K). rewrite NDc in LO. destruct own as [|d' [|? ?]]; try discriminate. rewrite EO in ED. apply app_inj_tail in ED. destruct ED as [<- <-].
  unfold aos_size. destruct (v_sparse v) eqn:SV.
  - destruct (valid_at p c a n v I Iv E) as (_ & _ & _ & Q). destruct (Q SV ltac:(lia)) as (s & d2 & Is & Es & _ & SZ & SD2).
    assert (SA : shapes_at g (v_name v) idx = Ok (s_data s idx)). { apply shapes_at_iff. exists s. split; auto. split; auto. split; auto. rewrite SD2. apply within_index. exact RG. }
    rewrite SA. cbn [rbind]. assert (LR : length (s_data s idx) = 1) by (rewrite <- NDc; eapply row_length; eauto; [lia|congruence]).
    destruct (s_data s idx) as [|z [|? ?]] eqn:D; try discriminate. specialize (SP eq_refl s idx z Is (eq_trans Es E) RG). rewrite D in SP. specialize (SP (or_introl eq_refl)).
    destruct (z <? 0)%Z eqn:LZ; [apply Z.ltb_lt in LZ; lia|]. exists (Z.to_nat z), d', k. split; auto. split; auto. split; auto. lia.
  - rewrite EO, rev_app_distr. cbn [rev app]. unfold size_of in SD. rewrite SD. exists k, d', k. auto.
Qed.
Lemma visited_rng : forall cs names idx p idx', visited r g h (g_vars g) cs names idx p idx' -> forall a lv c, (forall d, In d cs -> in_ids m (names ++ [mname d]) d a lv) -> rng a idx ->
  meta_at (Meta [] KStruct cs) p = Some c -> exists a' lv', in_ids m (names ++ p) c a' lv' /\ rng a' idx'.
Proof.
  intros cs names idx p idx' VV. induction VV as [cs names idx nm|cs names idx nm p d idx' F K VV IH|cs names idx nm p d i idx' F K L VV IH]; intros a lv c H RG M; cbn [meta_at mchildren] in M.
  - destruct (List.find (fun d => str_eqb (mname d) nm) cs) as [d|] eqn:F; [|discriminate]. apply find_some in F. destruct F as [I E]. apply str_eqb_eq in E. subst nm. injection M as <-. exists a, lv. auto.
  - rewrite F in M. apply find_some in F. destruct F as [I E]. apply str_eqb_eq in E. subst nm. destruct (IH a lv c) as (a' & lv' & B & RG'); auto.
    + intros d' Id'. pose proof (below_child _ _ _ _ _ _ _ _ d' (H d I) Id' ltac:(congruence)) as Q. unfold inner in Q. rewrite K in Q. exact Q.
    + destruct d as [dn dk dc]. cbn in K. subst dk. destruct p; [inversion VV|exact M].
    + exists a', lv'. rewrite <- app_assoc in B. auto.
  - rewrite F in M. apply find_some in F. destruct F as [I E]. apply str_eqb_eq in E. subst nm. destruct (IH (Some (names ++ [mname d])) (S lv) c) as (a' & lv' & B & RG'); auto.
    + intros d' Id'. pose proof (below_child _ _ _ _ _ _ _ _ d' (H d I) Id' ltac:(congruence)) as Q. unfold inner in Q. rewrite K in Q. exact Q.
    + unfold size_at in L. destruct (in_vars (g_vars g) (dotted (names ++ [mname d]))) as [v|] eqn:IV; [|lia]. apply in_vars_iff in IV. destruct IV as [Iv EV].
      destruct (aos_fits _ d a lv v idx (H d I) K Iv EV RG) as (k & dd & KK & SA & ED & SD & LE). rewrite SA in L. unfold rng. cbn [parent_dims]. change (dims_of r h (names ++ [mname d])) with (get_dimensions r h (names ++ [mname d])). rewrite ED.
      eapply within_snoc; eauto. lia.
    + destruct d as [dn dk dc]. cbn in K. subst dk. destruct p; [inversion VV|exact M].
    + exists a', lv'. rewrite <- app_assoc in B. auto.
Qed.
Lemma child_of_root : forall d, In d (mchildren m) -> in_ids m ([] ++ [mname d]) d None 0.
Proof. clear. intros d I. destruct m as [mn mk cs]. apply (bl_child mn mk cs [] None 0 d I). Qed.
Theorem read_ok : exists fs, read_vars m r g h (sorted_vars g) [] = Ok fs.
Proof.
  assert (CL : clean m) by (eapply clean_m; eauto). apply (read_total m r g W KR CL h (n_names g N)). intros v Iv. destruct V as [_ V2]. destruct (V2 v Iv) as (p & c & a & n & I & E & VA).
  rewrite E, (NcFileProofs4.var_path m W NO p c a n I). exists c. rewrite (meta_at_in m W p c a n I). split; auto. intros idx n0 NK VV.
  assert (RM : meta_at (Meta [] KStruct (mchildren m)) p = Some c). { transitivity (meta_at m p); [symmetry; apply meta_at_root; destruct (path_nodot m W NO p c a n I); auto|exact (meta_at_in m W p c a n I)]. }
  destruct (visited_rng _ _ _ _ _ VV None 0 c child_of_root ltac:(constructor) RM) as (a' & lv' & I' & RG). cbn [app] in I'. destruct (in_ids_fun m W _ _ _ _ _ _ _ I I') as (_ & <- & <-).
  unfold read_node. destruct (mkind c) as [| |dt nd] eqn:K; [congruence| |].
  - destruct (aos_fits p c a n v idx I K Iv E RG) as (k & d & KK & SA & _). rewrite SA. cbn [rbind]. eauto.
  - unfold leaf_value. destruct (var_sizes_ok v Iv) as [A SA]. rewrite SA. cbn [rbind]. destruct VA as (VA & _ & _ & SP). unfold valid_attributes in VA. rewrite K in VA. destruct VA as (VT & VD & _).
    destruct (dims_split p c a n I ltac:(congruence)) as (own & EO & LO & LP).
    assert (X : index_ok A idx = true). { apply (index_sizes g (v_dims v) A idx SA). rewrite VD, EO. now apply within_index. }
    rewrite X. destruct (v_sparse v) eqn:SV; [|cbn [rbind]; eauto]. destruct nd as [|nd'].
    + destruct (cell_ne _ _); cbn [rbind]; eauto.
    + destruct (SP eq_refl) as (s & d2 & Is & Es & _ & SZ & SD2); [unfold ndim; rewrite K; lia|].
      assert (SAt : shapes_at g (v_name v) idx = Ok (s_data s idx)). { apply shapes_at_iff. exists s. split; auto. split; auto. split; auto. rewrite SD2. apply within_index. exact RG. }
      rewrite E in SAt. rewrite E, SAt. cbn [rbind]. destruct (forallb _ _); cbn [rbind]; eauto.
Qed.
End Succeeds.
End Read.
