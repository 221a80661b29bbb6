(** The arrays of to_xarray, for a set of included paths (the lemmas about sizes are those of NcFileProofs6.v for a part of the nodes). *)
From Verif Require Import Base TreeModel TreeSpec TreeProofs ValProofs ValProofs5 StoreProofs2 NcMetaModel NcMetaSpec NcMetaProofs NcMetaProofs2 NcMetaProofs3 NcMetaProofs4 NcFileModel NcFileSpec NcFileProofs NcFileProofs2 NcFileProofs4 NcFileProofs5 XarrayModel XarraySpec XarrayProofs.
From Verif Require NcMetaProps.
From Verif Require Import NcFileProofs6.
From Coq Require Import Lia.

Section Items.
Variable at_ : path -> nattr.
Variable fuel : nat.
Variable m : meta.
Variable r : ncmeta.
Hypothesis W : wf_meta m.
Hypothesis R : nc_metadata at_ fuel m = Ok r.
Hypothesis KR : mkind m = KStruct.
Variable n : node.
Hypothesis C : conf m n.
Variable h : bool.
Variable inc : path -> Prop.
Variable items : list entry.
Hypothesis IT : forall p ix x, In (p, ix, x) items <-> inc p /\ p <> [] /\ ent m n p ix x.

Lemma items_ent : forall p ix x, In (p, ix, x) items -> p <> [] /\ ent m n p ix x.
Proof. intros p ix x I. now apply IT in I. Qed.
Lemma item_meta : forall p ix x, In (p, ix, x) items -> exists c a lv, in_ids m p c a lv /\ fits c x /\ lv = length ix.
Proof.
  intros p ix x I. apply items_ent in I. destruct I as [NE E]. destruct (ent_below _ _ _ _ _ E C NE [] None 0) as (c & a & lv & B & F & L).
  unfold inner in B. rewrite KR in B. cbn [fst snd] in B. exists c, a, lv. auto.
Qed.
Lemma item_fits : forall p ix x c a lv, In (p, ix, x) items -> in_ids m p c a lv -> fits c x /\ lv = length ix.
Proof. intros p ix x c a lv I B. destruct (item_meta p ix x I) as (c' & a' & lv' & B' & F & L). destruct (in_ids_fun m W _ _ _ _ _ _ _ B B') as (-> & -> & ->). auto. Qed.
Lemma item_fun : forall p ix x x', In (p, ix, x) items -> In (p, ix, x') items -> x = x'.
Proof. intros p ix x x' I I'. apply items_ent in I. apply items_ent in I'. eapply ent_fun; [apply I|exact W|apply I']. Qed.
Notation data p := (data_of items p).
Lemma data_In : forall p ix x, In (ix, x) (data p) <-> In (p, ix, x) items.
Proof.
  intros p ix x. unfold data_of. rewrite in_flat_map. split.
  - intros ([[p' ix'] x'] & I & H). cbn [fst snd] in H. destruct (path_dec p' p) as [->|N]; [|destruct H]. destruct H as [H|[]]. inversion H; subst. exact I.
  - intros I. exists (p, ix, x). split; auto. cbn [fst snd]. destruct (path_dec p p); [now left|congruence].
Qed.
Lemma iget_In : forall p ix x, iget ix (data p) = Some x <-> In (p, ix, x) items.
Proof.
  intros p ix x. split; intros H.
  - apply data_In. unfold iget in H. now apply dget_In in H.
  - destruct (iget ix (data p)) as [y|] eqn:G.
    + f_equal. unfold iget in G. apply dget_In in G. apply data_In in G. eapply item_fun; eauto.
    + exfalso. unfold iget in G. assert (Q : dget ix_dec ix (data p) <> None). { apply dget_keys. apply data_In in H. now apply (List.in_map fst) in H. } congruence.
Qed.
Lemma iget_none : forall p ix, iget ix (data p) = None <-> forall x, ~ In (p, ix, x) items.
Proof.
  intros p ix. split.
  - intros H x I. apply iget_In in I. congruence.
  - intros H. destruct (iget ix (data p)) as [x|] eqn:G; auto. apply iget_In in G. exfalso. eapply H; eauto.
Qed.
Lemma filled_path : forall p, In p (filled_paths r items) <-> exists ix x, In (p, ix, x) items.
Proof.
  intros p. unfold filled_paths. rewrite filter_In. unfold is_filled. split.
  - intros [_ F]. destruct (data p) as [|[ix x] t] eqn:D; [discriminate|]. exists ix, x. apply data_In. rewrite D. now left.
  - intros (ix & x & I). split.
    + apply (paths_in at_ fuel m r W R). destruct (item_meta p ix x I) as (c & a & lv & B & _). eauto.
    + apply data_In in I. destruct (data p); [destruct I|auto].
Qed.
Lemma filled_nodup : NoDup (filled_paths r items).
Proof. apply NoDup_filter. eapply paths_nodup; eauto. Qed.

(** ** shapes of contents *)
Lemma content_rank : forall c x, fits c x -> length (content_shape x) = ndim c.
Proof.
  intros c x F. unfold ndim. destruct x as [|k|v]; cbn [fits content_shape] in *.
  - rewrite F. reflexivity.
  - destruct F as [-> _]. reflexivity.
  - destruct F as (dt & nd & -> & V & _). eapply val_ok_shape; eauto.
Qed.
Lemma content_pos : forall c x k, fits c x -> In k (content_shape x) -> k > 0.
Proof.
  intros c x k F I. destruct x as [|j|v]; cbn [fits content_shape] in *.
  - destruct I.
  - destruct F as [_ F]. destruct I as [<-|[]]. exact F.
  - destruct F as (dt & nd & _ & V & FV). eapply filled_shape; eauto.
Qed.

Notation ds := (dim_sizes m r h items).
Notation dims p := (dims_of r h p).
Lemma ndim_at : forall p c a lv, in_ids m p c a lv -> ndim_of m p = ndim c.
Proof. intros p c a lv I. unfold ndim_of. now rewrite (meta_at_in m W p c a lv I). Qed.
Lemma own_dims_spec : forall c (a own : list str), length own = ndim c -> ndim c > 0 -> own_dims (ndim c) (a ++ own) = own.
Proof. intros c a own L G. unfold own_dims. rewrite <- L in *. destruct (length own) eqn:E; [lia|]. rewrite <- E. apply skipn_own. Qed.

Lemma ds_pos : forall d k, sget d ds = Some k -> k > 0.
Proof.
  apply sizes_pos; [|discriminate]. intros d k I. apply in_flat_map in I. destruct I as ([[p ix] x] & I & Q). destruct (item_meta p ix x I) as (c & a & lv & B & F & _).
  unfold own_sizes in Q. cbn [fst snd] in Q. destruct (ndim_of m p); [destruct Q|]. apply in_combine_r in Q. eapply content_pos; eauto.
Qed.

Definition parent_dims (a : option path) : list str := match a with Some q => dims q | None => [] end.
(** sizes of the dimensions of a filled node *)
Record sized (p : path) (c : meta) (a : option path) (lv : nat) (A F : list nat) (own : list str) : Prop := {
  z_dims : dims p = parent_dims a ++ own;
  z_own : length own = ndim c;
  z_A : sizes FKey ds (parent_dims a) = Ok A;
  z_F : sizes FKey ds own = Ok F;
  z_range : forall ix x, In (p, ix, x) items -> in_range A ix = true;
  z_fits : forall ix x, In (p, ix, x) items -> fits_in (content_shape x) F = true;
  z_len : length A = lv }.

Lemma parent_kind : forall p c q lv, in_ids m p c (Some q) lv -> exists d b lv', in_ids m q d b lv' /\ mkind d = KAoS /\ lv = S lv'.
Proof.
  intros p c q lv I. destruct (NcMetaProps.below_parent _ _ _ _ _ _ _ _ I) as [[? _]|(q' & d & b & lv' & E1 & E2 & E3 & E4)]; [discriminate|]. inversion E1; subst q'. exists d, b, lv'. auto.
Qed.
Lemma parent_length : forall p c a lv, in_ids m p c a lv -> length (parent_dims a) = lv.
Proof.
  intros p c a lv I. destruct a as [q|]; cbn [parent_dims].
  - destruct (parent_kind p c q lv I) as (d & b & lv' & Iq & Kq & ->). unfold dims_of. rewrite (dims_length at_ fuel m r W R h q d b lv' Iq) by congruence. unfold ndim. rewrite Kq. lia.
  - unfold in_ids in I. apply NcFileProofs6.none_level in I. cbn. congruence.
Qed.

(** * Contents *)
Lemma fits_range : forall sh F ix, fits_in sh F = true -> in_range sh ix = true -> in_range F ix = true.
Proof.
  induction sh as [|a sh IH]; intros [|b F] [|i ix] Q H; cbn [fits_in in_range] in *; try discriminate; auto.
  apply Bool.andb_true_iff in Q, H. destruct Q as [Q1 Q2], H as [H1 H2]. apply Nat.leb_le in Q1. apply Nat.ltb_lt in H1. rewrite (IH F ix Q2 H2). rewrite (proj2 (Nat.ltb_lt i b)) by lia. reflexivity.
Qed.
Lemma sizes_split : forall a b S, sizes FKey ds (a ++ b) = Ok S -> exists A B, S = A ++ B /\ sizes FKey ds a = Ok A /\ sizes FKey ds b = Ok B.
Proof.
  induction a as [|d a IH]; intros b S' H; cbn [app sizes] in *; [exists [], S'; auto|].
  destruct (sget d ds) as [k|]; [|discriminate]. destruct (sizes FKey ds (a ++ b)) as [T|] eqn:Q; [|discriminate]. cbn [rbind] in H. inversion H; subst.
  destruct (IH b T Q) as (A & B & -> & -> & ->). exists (k :: A), B. auto.
Qed.
Lemma leaf_item : forall l v, leaf_at m n l v -> inc (loc_names l) -> In (loc_names l, loc_index l, FLeaf v) items.
Proof.
  intros l v L I. apply IT. split; auto.
  assert (J : In (loc_names l, loc_index l, content_item (ILeaf v)) (filled_iter m n [] [])).
  { apply (filled_iter_spec m W n [] [] _ _ (ILeaf v) C); [congruence|]. exists l. split; [|auto]. intros ->. destruct m as [mn mk mc]. cbn in KR. subst mk. inversion C as [| |? ? fs|]; subst.
    apply (holds_struct mn mc fs [] (ILeaf v)) in L. destruct L as (? & ? & ? & E & _). discriminate. }
  cbn [content_item] in J. apply filled_iter_ent in J; auto. destruct J as (t & ix' & NE & E1 & E2 & E). cbn [app] in E1, E2. subst t ix'. auto.
Qed.
Lemma item_leaf : forall p ix v, In (p, ix, FLeaf v) items -> exists l, leaf_at m n l v /\ p = loc_names l /\ ix = loc_index l.
Proof.
  intros p ix v I. apply items_ent in I. destruct I as [NE E].
  assert (J : In (p, ix, FLeaf v) (filled_iter m n [] [])) by (apply filled_iter_ent; auto; exists p, ix; auto).
  change (FLeaf v) with (content_item (ILeaf v)) in J. apply (filled_iter_spec m W n [] [] p ix (ILeaf v) C) in J; [|congruence].
  destruct J as (l & _ & -> & -> & H). exists l. auto.
Qed.
Lemma missing_missing : forall dt, missing dt (missing_cell dt).
Proof. intros []; vm_compute; auto. Qed.
Lemma own_fits : forall p c a lv own, in_ids m p c a lv -> mkind c <> KStruct -> dims p = parent_dims a ++ own -> length own = ndim c ->
  forall ix x F, In (p, ix, x) items -> sizes FKey ds own = Ok F -> fits_in (content_shape x) F = true.
Proof.
  intros p c a lv own I K E L ix x F' J SF. destruct (item_fits _ _ _ _ _ _ J I) as [F _].
  destruct (fits_sizes ds own (content_shape x)) as (F2 & S2 & Q); [rewrite (content_rank c x F); exact L| |congruence].
  intros d k Q. unfold dim_sizes. apply sizes_grown. apply in_flat_map. exists (p, ix, x). split; auto.
  unfold own_sizes. cbn [fst snd]. rewrite (ndim_at p c a lv I). destruct (ndim c) as [|nd] eqn:N; [destruct own; [destruct Q|discriminate]|]. rewrite <- N, E. rewrite own_dims_spec; auto; [congruence|lia].
Qed.
Theorem var_data : forall p c a lv dt nd sp shape, in_ids m p c a lv -> mkind c = KLeaf dt nd -> inc p -> sparsity_of m r h items p = Ok sp -> sizes FKey ds (dims p) = Ok shape ->
  has_data m n p dt shape (xtensor m r h items dt p).
Proof.
  intros p c a lv dt nd sp shape I K IN SP SZ.
  destruct (dims_shape at_ fuel m r W R h p c a lv I ltac:(congruence)) as (own & L & E). change (get_dimensions r h p) with (dims p) in E. change (match a with Some q => get_dimensions r h q | None => [] end) with (parent_dims a) in E.
  rewrite E in SZ. destruct (sizes_split _ _ _ SZ) as (A & F & -> & SA & SF).
  pose proof (parent_length p c a lv I) as LP. pose proof (sizes_length _ _ _ _ _ SA) as LA. rewrite LP in LA.
  assert (NA : length (dims p) - ndim_of m p = lv) by (rewrite (ndim_at p c a lv I), E, app_length, LP, L; lia).
  assert (RG : forall ix x, In (p, ix, x) items -> in_range A ix = true).
  { intros ix x J. destruct (item_fits _ _ _ _ _ _ J I) as [_ LI]. unfold sparsity_of in SP. destruct (sizes FKey ds (own_dims (ndim_of m p) (dims p))) as [full|]; [|discriminate]. cbn [rbind] in SP.
    destruct (Nat.eqb_spec (length (dims p)) (ndim_of m p)) as [Q|N].
    - assert (Z : lv = 0) by lia. destruct A; [|exfalso; cbn in LA; lia]. destruct ix; [reflexivity|exfalso; cbn in LI; lia].
    - rewrite (aos_at_path at_ fuel m r W R p c a lv I) in SP. destruct a as [q|]; [|discriminate]. cbn [parent_dims] in SA. rewrite SA in SP. cbn [rbind] in SP.
      destruct (forallb (fun x => in_range A (fst x)) (data p)) eqn:FA; [|discriminate]. rewrite forallb_forall in FA. apply (FA (ix, x)). now apply data_In. }
  assert (LV : forall ix x, In (p, ix, x) items -> length ix = lv) by (intros ix x J; destruct (item_fits _ _ _ _ _ _ J I) as [_ LI]; auto).
  constructor.
  - intros l v ix LF <- IX. pose proof (leaf_item l v LF IN) as J. pose proof (LV _ _ J) as LI. split.
    + rewrite in_range_app by now apply in_range_length, (RG _ _ J). rewrite (RG _ _ J). cbn [andb]. eapply fits_range; [|exact IX]. apply (own_fits (loc_names l) c a lv own I ltac:(congruence) E L _ _ F J SF).
    + unfold xtensor. rewrite NA. rewrite <- LI. rewrite firstn_app, firstn_all, Nat.sub_diag, firstn_O, app_nil_r. rewrite (proj2 (iget_In _ _ _) J).
      rewrite skipn_app, skipn_all, Nat.sub_diag, skipn_O. cbn [app]. now rewrite IX.
  - intros jx JR. unfold xtensor. rewrite NA. destruct (iget (firstn lv jx) (data p)) as [[|k|v]|] eqn:G; try (right; apply missing_missing).
    apply iget_In in G. destruct (in_range (value_shape v) (skipn lv jx)) eqn:Q; [|right; apply missing_missing]. left. destruct (item_leaf _ _ _ G) as (l & LF & E1 & E2). exists l, v, (skipn lv jx). split; auto. split; auto. split; auto.
    rewrite <- E2. symmetry. apply firstn_skipn.
Qed.

(** * The dataset *)
Variable units : path -> str.
Definition the_var (p : path) (dt : dtype) (shape : list nat) : xvar :=
  {| x_name := dotted p; x_dims := dims p; x_shape := shape; x_units := match units p with [] => None | u => Some u end;
     x_coords := filter_coordinates r h items p; x_data := xtensor m r h items dt p |}.
Definition is_var (p : path) (v : xvar) : Prop :=
  exists c dt nd sp shape, meta_at m p = Some c /\ mkind c = KLeaf dt nd /\ sparsity_of m r h items p = Ok sp /\ sizes FKey ds (dims p) = Ok shape /\ v = the_var p dt shape.
Lemma make_var_spec : forall p vs, make_var m r units h items p = Ok vs -> vs = [] /\ (forall v, ~ is_var p v) \/ exists v, vs = [v] /\ forall w, is_var p w <-> w = v.
Proof.
  intros p vs H. unfold make_var in H. destruct (meta_at m p) as [c|] eqn:M; [|discriminate].
  destruct (mkind c) as [| |dt nd] eqn:K.
  1,2: inversion H; left; split; auto; intros v (c' & dt & nd & sp & shape & M' & K' & _); congruence.
  destruct (sparsity_of m r h items p) as [sp|] eqn:SP; [|discriminate]. cbn [rbind] in H. destruct (sizes FKey ds (dims p)) as [shape|] eqn:SZ; [|discriminate]. cbn [rbind] in H.
  destruct (sizes FKey ds (skipn (length (dims p) - nd) (dims p))) as [full|]; [|discriminate]. cbn [rbind] in H. destruct (all_ok _ (data p)); [|discriminate]. cbn [rbind] in H.
  right. exists (the_var p dt shape). split; [inversion H; reflexivity|]. intros w. split.
  - intros (c' & dt' & nd' & sp' & shape' & M' & K' & S' & Z' & ->). congruence.
  - intros ->. exists c, dt, nd, sp, shape. auto 6.
Qed.
Lemma make_vars_spec : forall l vs, make_vars m r units h items l = Ok vs -> forall v, In v vs <-> exists p, In p l /\ is_var p v.
Proof.
  induction l as [|p l IH]; intros vs H v; cbn [make_vars] in H.
  - inversion H. split; [intros []|intros (p & [] & _)].
  - destruct (make_var m r units h items p) as [a|] eqn:MV; [|discriminate]. cbn [rbind] in H. destruct (make_vars m r units h items l) as [b|] eqn:MB; [|discriminate]. cbn [rbind] in H. inversion H; subst vs.
    rewrite in_app_iff, (IH b eq_refl v). destruct (make_var_spec p a MV) as [[-> N]|(w & -> & Q)].
    + split; [intros [[]|(p' & I & V)]; exists p'; split; auto; now right|]. intros (p' & [<-|I] & V); [exfalso; eapply N; eauto|]. right. eauto.
    + split.
      * intros [[<-|[]]|(p' & I & V)]; [exists p; split; [now left|now apply Q]|exists p'; split; auto; now right].
      * intros (p' & [<-|I] & V); [left; left; symmetry; now apply Q|]. right. eauto.
Qed.
Lemma is_var_name : forall p v, is_var p v -> x_name v = dotted p.
Proof. intros p v (c & dt & nd & sp & shape & _ & _ & _ & _ & ->). reflexivity. Qed.
Hypothesis NO : names_ok m.
Lemma make_vars_nodup : forall l vs, (forall p, In p l -> exists c a lv, in_ids m p c a lv) -> NoDup l -> make_vars m r units h items l = Ok vs -> NoDup (map x_name vs).
Proof.
  induction l as [|p l IH]; intros vs IA ND H; cbn [make_vars] in H.
  - inversion H. constructor.
  - destruct (make_var m r units h items p) as [a|] eqn:MV; [|discriminate]. cbn [rbind] in H. destruct (make_vars m r units h items l) as [b|] eqn:MB; [|discriminate]. cbn [rbind] in H. inversion H; subst vs.
    inversion ND as [|? ? N1 N2]; subst. assert (NB : NoDup (map x_name b)) by (apply (IH b); auto; intros; apply IA; now right).
    destruct (make_var_spec p a MV) as [[-> _]|(w & -> & Q)]; auto. cbn [app map]. constructor; auto. intros I. apply in_map_iff in I. destruct I as (v & E & I).
    apply (make_vars_spec l b MB v) in I. destruct I as (p' & I & V). apply is_var_name in V. pose proof (is_var_name p w (proj2 (Q w) eq_refl)) as Ew. rewrite V, Ew in E.
    destruct (IA p (or_introl eq_refl)) as (c1 & a1 & l1 & I1). destruct (IA p' (or_intror I)) as (c2 & a2 & l2 & I2).
    pose proof (dotted_path_inj m W NO _ _ _ _ _ _ _ _ I2 I1 E). subst p'. contradiction.
Qed.
Lemma filled_in : forall p, In p (filled_paths r items) -> exists c a lv, in_ids m p c a lv.
Proof. intros p I. apply filled_path in I. destruct I as (ix & x & I). destruct (item_meta p ix x I) as (c & a & lv & B & _). eauto. Qed.

(** a quantity has a variable if it is included and has data *)
Lemma leaf_kind : forall l v, leaf_at m n l v -> inc (loc_names l) -> exists c a lv dt nd, in_ids m (loc_names l) c a lv /\ mkind c = KLeaf dt nd /\ val_ok dt nd v /\ filled_value v.
Proof.
  intros l v L I. pose proof (leaf_item l v L I) as J. destruct (item_meta _ _ _ J) as (c & a & lv & B & F & _). cbn [fits] in F. destruct F as (dt & nd & K & V & FV). exists c, a, lv, dt, nd. auto.
Qed.
Lemma filled_var : forall p vs, make_vars m r units h items (filled_paths r items) = Ok vs ->
  (In (dotted p) (map x_name vs) /\ (exists c a lv, in_ids m p c a lv) <-> inc p /\ filled m n p).
Proof.
  intros p vs H. rewrite in_map_iff. split.
  - intros [(v & E & I) (c & a & lv & B)]. apply (make_vars_spec _ vs H v) in I. destruct I as (p' & I & V). pose proof (is_var_name _ _ V) as N. rewrite N in E. destruct (filled_in p' I) as (c' & a' & lv' & B').
    pose proof (dotted_path_inj m W NO _ _ _ _ _ _ _ _ B' B E). subst p'. destruct V as (c2 & dt & nd & sp & shape & M & K & _). apply filled_path in I. destruct I as (ix & x & J).
    split; [apply IT in J; tauto|]. destruct (item_fits _ _ _ _ _ _ J B) as [F _]. rewrite (meta_at_in m W p c a lv B) in M. inversion M; subst c2. destruct x as [|k|w]; cbn [fits] in F; try (exfalso; destruct F; congruence); [exfalso; congruence|].
    destruct (item_leaf p ix w J) as (l & L & -> & _). exists l, w. auto.
  - intros [I (l & v & L & <-)]. destruct (leaf_kind l v L I) as (c & a & lv & dt & nd & B & K & _). split; [|eauto].
    assert (FP : In (loc_names l) (filled_paths r items)) by (apply filled_path; eauto using leaf_item).
    assert (Q : exists w, is_var (loc_names l) w).
    { clear - H FP B K W. revert vs H. induction (filled_paths r items) as [|p ps IH]; intros vs H; [destruct FP|]. cbn [make_vars] in H. destruct (make_var m r units h items p) as [a'|] eqn:MV; [|discriminate]. cbn [rbind] in H.
      destruct (make_vars m r units h items ps) as [b|] eqn:MB; [|discriminate]. destruct FP as [->|FP]; [|eauto]. clear IH H MB. set (p := loc_names l) in *.
      unfold make_var in MV. rewrite (meta_at_in m W p c a lv B), K in MV. destruct (sparsity_of m r h items p) as [sp|] eqn:SP; [|discriminate]. cbn [rbind] in MV. destruct (sizes FKey ds (dims p)) as [shape|] eqn:SZ; [|discriminate].
      exists (the_var p dt shape), c, dt, nd, sp, shape. rewrite (meta_at_in m W p c a lv B). auto 6. }
    destruct Q as (w & Q). exists w. split; [now apply is_var_name|]. apply (make_vars_spec _ vs H w). eauto.
Qed.

(** sizes of the dimensions are the largest sizes of the data *)
Lemma size_from : forall l ds0 d k, sget d (fold_left add_size l ds0) = Some k -> In (d, k) l \/ sget d ds0 = Some k \/ k = 0.
Proof.
  induction l as [|[d' k'] l IH]; intros ds0 d k H; cbn [fold_left] in H; auto.
  apply IH in H. destruct H as [H|[H|H]]; auto; [left; now right|]. unfold add_size in H. cbn [fst snd] in H. rewrite sget_sset in H. destruct (str_dec d d') as [->|N]; auto.
  inversion H as [Q]. destruct (sget d' ds0) as [k0|] eqn:G.
  - destruct (Nat.max_spec k0 k') as [[_ E]|[_ E]]; rewrite E; auto. left. now left.
  - left. now left.
Qed.
Lemma size_item : forall d k, sget d ds = Some k -> exists p ix x c a lv i, In (p, ix, x) items /\ in_ids m p c a lv /\ nth_error (dims p) (lv + i) = Some d /\ nth_error (content_shape x) i = Some k.
Proof.
  intros d k H. pose proof (ds_pos d k H) as PK. unfold dim_sizes in H. apply size_from in H. destruct H as [H|[H|H]]; [|discriminate|lia]. apply in_flat_map in H. destruct H as ([[p ix] x] & I & Q).
  destruct (item_meta p ix x I) as (c & a & lv & B & F & _). unfold own_sizes in Q. cbn [fst snd] in Q. rewrite (ndim_at p c a lv B) in Q. destruct (ndim c) as [|nd] eqn:ND; [destruct Q|].
  assert (K : mkind c <> KStruct) by (intros K; unfold ndim in ND; rewrite K in ND; discriminate).
  destruct (dims_shape at_ fuel m r W R h p c a lv B K) as (own & L & E). change (get_dimensions r h p) with (dims p) in E. change (match a with Some q => get_dimensions r h q | None => [] end) with (parent_dims a) in E.
  rewrite E, <- ND, own_dims_spec in Q by (auto; lia). apply In_nth_error in Q. destruct Q as (i & Q). pose proof (parent_length p c a lv B) as LP.
  exists p, ix, x, c, a, lv, i. split; auto. split; auto. rewrite E, nth_error_app2 by lia. replace (lv + i - length (parent_dims a)) with i by lia.
  clear - Q. revert i Q. generalize (content_shape x). induction own as [|o own IH]; intros [|s sh] [|i] Q; cbn in *; try discriminate; [inversion Q; auto|]. now apply IH.
Qed.

(** * If the arrays of structures around included quantities are included *)
Hypothesis INC : forall p c q lv, in_ids m p c (Some q) lv -> inc p -> inc q.
Lemma item_parent : forall p ix x c q lv, In (p, ix, x) items -> in_ids m p c (Some q) lv -> exists ix' i k, ix = ix' ++ [i] /\ In (q, ix', FAoS k) items /\ i < k.
Proof.
  intros p ix x c q lv I B. assert (I0 := I). apply items_ent in I. destruct I as [NE E].
  destruct (ent_parent _ _ _ _ _ E C W [] None 0 c q lv) as [[? _]|(u & ix' & i & k & EQ & -> & E' & L)].
  - unfold inner. rewrite KR. exact B.
  - discriminate.
  - cbn [app] in EQ. subst u. exists ix', i, k. split; auto. split; auto. apply IT. split; [eapply INC; eauto; now apply IT in I0|]. split; auto. intros ->. apply ent_nil in E'. destruct E' as (_ & Q & _). destruct m as [mn mk cs]. cbn in KR. subst mk. inversion C; subst; discriminate.
Qed.
Lemma item_sized : forall p c a lv, in_ids m p c a lv -> mkind c <> KStruct -> (exists ix x, In (p, ix, x) items) -> exists A F own, sized p c a lv A F own.
Proof.
  intros p c a lv. revert p c a. induction lv as [lv IH] using lt_wf_ind. intros p c a I K (ix0 & x0 & I0).
  destruct (dims_shape at_ fuel m r W R h p c a lv I K) as (own & L & E). change (get_dimensions r h p) with (dims p) in E. change (match a with Some q => get_dimensions r h q | None => [] end) with (parent_dims a) in E.
  assert (G : forall ix x, In (p, ix, x) items -> exists F, sizes FKey ds own = Ok F /\ fits_in (content_shape x) F = true).
  { intros ix x J. destruct (item_fits _ _ _ _ _ _ J I) as [F _]. apply fits_sizes; [rewrite (content_rank c x F); exact L|]. intros d k Q. unfold dim_sizes. apply sizes_grown. apply in_flat_map. exists (p, ix, x). split; auto.
    unfold own_sizes. cbn [fst snd]. rewrite (ndim_at p c a lv I). destruct (ndim c) as [|nd] eqn:N; [destruct own; [destruct Q|discriminate]|]. rewrite <- N, E. rewrite own_dims_spec; auto; [congruence|lia]. }
  destruct (G ix0 x0 I0) as (F & SF & _).
  assert (GF : forall ix x, In (p, ix, x) items -> fits_in (content_shape x) F = true) by (intros ix x J; destruct (G ix x J) as (F' & SF' & FF); congruence).
  destruct a as [q|].
  - destruct (parent_kind p c q lv I) as (d & b & lv' & Iq & Kq & ->).
    destruct (item_parent p ix0 x0 c q (S lv') I0 I) as (ix' & i & k & -> & J & LT).
    destruct (IH lv' ltac:(lia) q d b Iq ltac:(congruence) ltac:(eauto)) as (A & Fq & ownq & Z).
    destruct Fq as [|K' [|? ?]].
    1,3: exfalso; pose proof (sizes_length _ _ _ _ _ (z_F _ _ _ _ _ _ _ Z)) as Q; rewrite (z_own _ _ _ _ _ _ _ Z) in Q; unfold ndim in Q; rewrite Kq in Q; cbn in Q; discriminate.
    assert (SA : sizes FKey ds (parent_dims (Some q)) = Ok (A ++ [K'])).
    { cbn [parent_dims]. rewrite (z_dims _ _ _ _ _ _ _ Z). apply sizes_app; [apply (z_A _ _ _ _ _ _ _ Z)|apply (z_F _ _ _ _ _ _ _ Z)]. }
    exists (A ++ [K']), F, own. constructor; auto.
    + intros ix x J'. destruct (item_parent p ix x c q (S lv') J' I) as (ix'' & i' & k' & -> & J2 & LT2). apply in_range_snoc; [eapply (z_range _ _ _ _ _ _ _ Z); eauto|].
      pose proof (z_fits _ _ _ _ _ _ _ Z _ _ J2) as Q. cbn in Q. destruct (Nat.leb_spec k' K'); [lia|discriminate].
    + rewrite app_length, (z_len _ _ _ _ _ _ _ Z). cbn. lia.
  - pose proof (NcFileProofs6.none_level _ _ _ _ _ _ I) as ->. exists [], F, own. constructor; auto.
    intros ix x J. destruct (item_fits _ _ _ _ _ _ J I) as [_ LL]. destruct ix; [reflexivity|discriminate].
Qed.

Lemma sized_pos : forall p c a lv A F own, sized p c a lv A F own -> (forall k, In k F -> k > 0).
Proof. intros p c a lv A F own Z k I. destruct (sizes_in _ _ _ _ _ _ (z_F _ _ _ _ _ _ _ Z) I) as (d & _ & G). eapply ds_pos; eauto. Qed.
Lemma sized_full : forall p c a lv A F own, in_ids m p c a lv -> sized p c a lv A F own -> sizes FKey ds (own_dims (ndim c) (dims p)) = Ok (if ndim c =? 0 then A ++ F else F).
Proof.
  intros p c a lv A F own I Z. rewrite (z_dims _ _ _ _ _ _ _ Z). destruct (Nat.eqb_spec (ndim c) 0) as [E|N].
  - rewrite E. cbn [own_dims]. apply sizes_app; [apply (z_A _ _ _ _ _ _ _ Z)|apply (z_F _ _ _ _ _ _ _ Z)].
  - rewrite own_dims_spec; [apply (z_F _ _ _ _ _ _ _ Z)|apply (z_own _ _ _ _ _ _ _ Z)|lia].
Qed.

(** ** sparsity *)
Definition sparse_spec (p : path) (c : meta) (A F : list nat) (sp : sparsity) : Prop :=
  match sp with
  | Dense => forall ix, in_range A ix = true -> exists x, In (p, ix, x) items /\ content_shape x = F
  | Filled => ndim c = 0 /\ length A > 0
  | Shapes f => ndim c > 0 /\ forall ix, in_range A ix = true -> f ix = shape_at m items p ix
  end.
Lemma sparsity_ok : forall p c a lv A F own, in_ids m p c a lv -> mkind c <> KStruct -> (exists ix x, In (p, ix, x) items) -> sized p c a lv A F own ->
  exists sp, sparsity_of m r h items p = Ok sp /\ sparse_spec p c A F sp.
Proof.
  intros p c a lv A F own I K (ix0 & x0 & I0) Z. unfold sparsity_of. rewrite (ndim_at p c a lv I), (sized_full p c a lv A F own I Z). cbn [rbind].
  pose proof (z_len _ _ _ _ _ _ _ Z) as LA. pose proof (sizes_length _ _ _ _ _ (z_F _ _ _ _ _ _ _ Z)) as LF. rewrite (z_own _ _ _ _ _ _ _ Z) in LF.
  assert (LD : length (dims p) = lv + ndim c) by (apply (dims_length at_ fuel m r W R h p c a lv I K)). rewrite LD.
  destruct (Nat.eqb_spec (lv + ndim c) (ndim c)) as [E|N].
  - assert (L0 : lv = 0) by lia. subst lv. destruct A; [|discriminate]. cbn [app].
    pose proof (z_range _ _ _ _ _ _ _ Z _ _ I0) as RG. destruct ix0; [|discriminate]. rewrite (proj2 (iget_In p [] x0) I0).
    replace (if ndim c =? 0 then F else F) with F by (destruct (ndim c =? 0); auto). eexists. split; [reflexivity|]. destruct (list_eqb (content_shape x0) F) eqn:Q.
    + apply list_eqb_eq in Q. cbn [sparse_spec]. intros [|? ?] HR; [|discriminate]. eauto.
    + cbn [sparse_spec]. split.
      * destruct (ndim c) eqn:ND; [|lia]. exfalso. destruct F; [|discriminate]. destruct (item_fits _ _ _ _ _ _ I0 I) as [FT _]. pose proof (content_rank c x0 FT) as LR. rewrite ND in LR. destruct (content_shape x0); discriminate.
      * intros [|? ?] HR; [|discriminate]. unfold shape_at. now rewrite (proj2 (iget_In p [] x0) I0).
  - assert (G : lv > 0) by lia. rewrite (aos_at_path at_ fuel m r W R p c a lv I). destruct a as [q|]; [|exfalso; unfold in_ids in I; apply NcFileProofs6.none_level in I; lia].
    pose proof (z_A _ _ _ _ _ _ _ Z) as SA. cbn [parent_dims] in SA. rewrite SA. cbn [rbind].
    assert (FA : forallb (fun x => in_range A (fst x)) (data p) = true). { apply forallb_forall. intros [ix x] J. apply data_In in J. cbn [fst]. eapply (z_range _ _ _ _ _ _ _ Z); eauto. }
    rewrite FA. destruct (ndim c) as [|nd] eqn:ND; cbn [Nat.eqb].
    + eexists. split; [reflexivity|]. destruct (forallb (fun ix => is_some (iget ix (data p))) (indices A)) eqn:Q.
      * rewrite forallb_forall in Q. cbn [sparse_spec]. intros ix H. apply indices_range in H. specialize (Q ix H). destruct (iget ix (data p)) as [x|] eqn:GG; [|discriminate]. apply iget_In in GG. exists x. split; auto.
        destruct (item_fits _ _ _ _ _ _ GG I) as [FT _]. pose proof (content_rank c x FT) as LR. rewrite ND in LR. destruct (content_shape x); [|discriminate]. destruct F; [auto|discriminate].
      * cbn [sparse_spec]. split; [auto|lia].
    + eexists. split; [reflexivity|]. destruct (forallb (fun ix => list_eqb (shape_at m items p ix) F) (indices A)) eqn:Q.
      * rewrite forallb_forall in Q. cbn [sparse_spec]. intros ix H. apply indices_range in H. specialize (Q ix H). apply list_eqb_eq in Q. unfold shape_at in Q. destruct (iget ix (data p)) as [x|] eqn:GG.
        -- apply iget_In in GG. eauto.
        -- exfalso. rewrite (ndim_at p c (Some q) lv I), ND in Q. cbn [repeat] in Q. assert (0 > 0); [|lia]. apply (sized_pos p c (Some q) lv A F own Z). rewrite <- Q. now left.
      * cbn [sparse_spec]. split; [lia|auto].
Qed.

(** ** Success *)
Hypothesis I64 : forall l v z, leaf_at m n l v -> In z (ints v) -> (-9223372036854775808 <= z < 9223372036854775808)%Z.
Lemma cells_ok64 : forall dt nd v, val_ok dt nd v -> (forall z, In z (ints v) -> (-9223372036854775808 <= z < 9223372036854775808)%Z) -> forallb cell_ok64 (value_cells v) = true.
Proof.
  intros dt nd v V H. apply forallb_forall. intros x I. destruct V; cbn [value_cells ints] in *; try (destruct I as [<-|[]]; cbn [cell_ok64]); auto.
  - apply Bool.andb_true_iff. specialize (H z (or_introl eq_refl)). split; [apply Z.leb_le|apply Z.ltb_lt]; lia.
  - apply in_map_iff in I. destruct I as (y & <- & _). reflexivity.
  - apply in_map_iff in I. destruct I as (y & <- & Q). cbn [cell_ok64]. apply Bool.andb_true_iff. specialize (H y Q). split; [apply Z.leb_le|apply Z.ltb_lt]; lia.
  - apply in_map_iff in I. destruct I as (y & <- & _). reflexivity.
  - apply in_map_iff in I. destruct I as (y & <- & _). reflexivity.
Qed.
Lemma shapes_ok : forall p, In p (filled_paths r items) -> shapes_found m r h items p = Ok tt.
Proof.
  intros p I. apply filled_path in I. destruct I as (ix & x & J). destruct (item_meta p ix x J) as (c & a & lv & B & _). unfold shapes_found. rewrite (meta_at_in m W p c a lv B).
  destruct (mkind c) eqn:K; auto.
  - destruct (item_sized p c a lv B ltac:(congruence) ltac:(eauto)) as (A & F & own & Z). destruct (sparsity_ok p c a lv A F own B ltac:(congruence) ltac:(eauto) Z) as (sp & SP & _). now rewrite SP.
  - destruct (item_sized p c a lv B ltac:(congruence) ltac:(eauto)) as (A & F & own & Z). destruct (sparsity_ok p c a lv A F own B ltac:(congruence) ltac:(eauto) Z) as (sp & SP & _). now rewrite SP.
Qed.
Lemma make_var_ok : forall p, In p (filled_paths r items) -> exists vs, make_var m r units h items p = Ok vs.
Proof.
  intros p I. apply filled_path in I. destruct I as (ix & x & J). destruct (item_meta p ix x J) as (c & a & lv & B & _). unfold make_var. rewrite (meta_at_in m W p c a lv B).
  destruct (mkind c) as [| |dt nd] eqn:K; [eauto|eauto|].
  destruct (item_sized p c a lv B ltac:(congruence) ltac:(eauto)) as (A & F & own & Z). destruct (sparsity_ok p c a lv A F own B ltac:(congruence) ltac:(eauto) Z) as (sp & SP & SS). rewrite SP. cbn [rbind].
  assert (SZ : sizes FKey ds (dims p) = Ok (A ++ F)). { rewrite (z_dims _ _ _ _ _ _ _ Z). apply sizes_app; [apply (z_A _ _ _ _ _ _ _ Z)|apply (z_F _ _ _ _ _ _ _ Z)]. }
  rewrite SZ. cbn [rbind].
  assert (NDc : ndim c = nd) by (unfold ndim; now rewrite K).
  assert (SK : skipn (length (dims p) - nd) (dims p) = own). { rewrite (z_dims _ _ _ _ _ _ _ Z), <- NDc, <- (z_own _ _ _ _ _ _ _ Z). apply skipn_own. }
  rewrite SK, (z_F _ _ _ _ _ _ _ Z). cbn [rbind].
  rewrite all_ok_all; [cbn [rbind]; eauto|].
  intros [ix' x'] J'. apply data_In in J'. cbn [snd]. destruct (item_fits _ _ _ _ _ _ J' B) as [FT _]. destruct x' as [|k|v]; auto. cbn [fits] in FT. destruct FT as (dt' & nd' & K' & V & FV). rewrite K in K'. inversion K'; subst dt' nd'.
  cbn [xassignable]. destruct (item_leaf p ix' v J') as (l & LL & _). rewrite (cells_ok64 dt nd v V); [|intros z; now apply I64 with (l := l)]. cbn [negb].
  assert (Q : (match sp with Shapes _ => fits_in (value_shape v) F | _ => list_eqb (value_shape v) F end) = true); [|now rewrite Q].
  destruct sp as [| |f].
  + destruct (SS ix' (z_range _ _ _ _ _ _ _ Z _ _ J')) as (x2 & J2 & EF). pose proof (item_fun _ _ _ _ J' J2). subst x2. apply list_eqb_eq. exact EF.
  + destruct SS as [N0 _]. pose proof (sizes_length _ _ _ _ _ (z_F _ _ _ _ _ _ _ Z)) as LF. rewrite (z_own _ _ _ _ _ _ _ Z), N0 in LF. pose proof (val_ok_shape dt nd v V) as LV. rewrite <- NDc, N0 in LV.
    destruct F; [|discriminate]. destruct (value_shape v); [reflexivity|discriminate].
  + exact (z_fits _ _ _ _ _ _ _ Z _ _ J').
Qed.
Lemma make_vars_ok : forall l, (forall p, In p l -> In p (filled_paths r items)) -> exists vs, make_vars m r units h items l = Ok vs.
Proof.
  induction l as [|p l IH]; intros H; cbn [make_vars]; [eauto|]. destruct (make_var_ok p (H p (or_introl eq_refl))) as (v & ->). cbn [rbind]. destruct IH as (vs & ->); [intros; apply H; now right|]. cbn [rbind]. eauto.
Qed.
Hypothesis CO : forall p nm, In nm (get_coordinates r h p) -> exists q c a lv dt nd, nm = dotted q /\ in_ids m q c a lv /\ mkind c = KLeaf dt nd.
Theorem dataset_ok : exists d, make_dataset m r units h items = Ok d.
Proof.
  unfold make_dataset. rewrite all_ok_all by exact shapes_ok. cbn [rbind]. destruct (make_vars_ok (filled_paths r items)) as (vs & E); auto. rewrite E. cbn [rbind]. unfold split_coords.
  rewrite all_ok_all; [cbn [rbind]; eauto|]. intros nm I. apply in_flat_map in I. destruct I as (v & Iv & In_).
  apply (make_vars_spec _ vs E v) in Iv. destruct Iv as (p & Ip & c & dt & nd & sp & shape & _ & _ & _ & _ & ->). cbn [x_coords the_var] in In_. unfold filter_coordinates in In_. apply filter_In in In_. destruct In_ as [I1 I2].
  destruct (in_dec str_dec nm (filled_variables r items)) as [I3|]; [|discriminate]. clear I2. destruct (CO p nm I1) as (q & cq & a & lv & dq & nq & -> & B & K).
  unfold filled_variables in I3. apply in_map_iff in I3. destruct I3 as (q' & Eq & I3). destruct (filled_in q' I3) as (c' & a' & lv' & B'). pose proof (dotted_path_inj m W NO _ _ _ _ _ _ _ _ B' B Eq). subst q'.
  destruct (in_dec str_dec (dotted q) (map x_name vs)) as [|N]; auto. exfalso. apply N. apply (filled_var q vs E).
  apply filled_path in I3. destruct I3 as (ix & x & J). assert (J0 := J). apply IT in J0. split; [tauto|]. destruct (item_fits _ _ _ _ _ _ J B) as [F _]. destruct x as [|k|w]; cbn [fits] in F; try (exfalso; destruct F; congruence); [exfalso; congruence|].
  destruct (item_leaf q ix w J) as (l & L & -> & _). exists l, w. auto.
Qed.
End Items.
