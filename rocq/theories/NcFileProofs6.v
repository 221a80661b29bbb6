(** Sizes of the dimensions, sparsity and the variables that are written. *)
From Verif Require Import Base TreeModel TreeSpec TreeProofs ValProofs ValProofs5 StoreProofs2 NcMetaModel NcMetaSpec NcMetaProofs NcMetaProofs2 NcMetaProofs3 NcMetaProofs4 NcFileModel NcFileSpec NcFileProofs NcFileProofs2 NcFileProofs4 NcFileProofs5.
From Verif Require NcMetaProps.
From Coq Require Import Lia.

(** * Sizes *)
Lemma sizes_app : forall E (e : E) ds a b A B, sizes e ds a = Ok A -> sizes e ds b = Ok B -> sizes e ds (a ++ b) = Ok (A ++ B).
Proof.
  induction a as [|d a IH]; intros b A B HA HB; cbn [sizes app] in *; [inversion HA; auto|].
  destruct (sget d ds) as [k|]; [|discriminate]. destruct (sizes e ds a) as [A'|] eqn:S'; [|discriminate]. cbn [rbind] in HA. inversion HA; subst. rewrite (IH b A' B eq_refl HB). reflexivity.
Qed.
Lemma sizes_length : forall E (e : E) ds a A, sizes e ds a = Ok A -> length A = length a.
Proof.
  induction a as [|d a IH]; intros A HA; cbn [sizes] in *; [inversion HA; auto|].
  destruct (sget d ds) as [k|]; [|discriminate]. destruct (sizes e ds a) as [A'|] eqn:S'; [|discriminate]. cbn [rbind] in HA. inversion HA; subst. cbn. f_equal. now apply IH.
Qed.
Lemma sizes_eq : forall E (e : E) ds ds' a, (forall d, In d a -> sget d ds = sget d ds') -> sizes e ds a = sizes e ds' a.
Proof.
  induction a as [|d a IH]; intros H; cbn [sizes]; auto. rewrite (H d) by now left. destruct (sget d ds'); auto. rewrite IH; auto. intros d' I. apply H. now right.
Qed.
Lemma sizes_in : forall E (e : E) ds a A k, sizes e ds a = Ok A -> In k A -> exists d, In d a /\ sget d ds = Some k.
Proof.
  induction a as [|d a IH]; intros A k HA I; cbn [sizes] in *; [inversion HA; subst; destruct I|].
  destruct (sget d ds) as [k'|] eqn:G; [|discriminate]. destruct (sizes e ds a) as [A'|] eqn:S'; [|discriminate]. cbn [rbind] in HA. inversion HA; subst. destruct I as [->|I].
  - exists d. split; [now left|auto].
  - destruct (IH A' k eq_refl I) as (d' & D & G'). exists d'. split; [now right|auto].
Qed.

Definition grown (ds : list (str * nat)) (d : str) (k : nat) : Prop := exists K, sget d ds = Some K /\ k <= K.
Lemma add_grown : forall l ds d k, grown ds d k -> grown (fold_left add_size l ds) d k.
Proof.
  induction l as [|[d' k'] l IH]; intros ds d k H; cbn [fold_left]; auto. apply IH. destruct H as (K & G & L). unfold add_size, grown. cbn [fst snd]. rewrite sget_sset.
  destruct (str_dec d d') as [->|N]; [|eauto]. rewrite G. eexists. split; [reflexivity|]. lia.
Qed.
Lemma sizes_grown : forall l ds d k, In (d, k) l -> grown (fold_left add_size l ds) d k.
Proof.
  induction l as [|[d' k'] l IH]; intros ds d k I; [destruct I|]. cbn [fold_left]. destruct I as [E|I]; [|now apply IH]. inversion E; subst. apply add_grown. unfold add_size, grown. cbn [fst snd].
  rewrite sget_sset. destruct (str_dec d d); [|congruence]. eexists. split; [reflexivity|]. lia.
Qed.
Lemma sizes_pos : forall l ds, (forall d k, In (d, k) l -> k > 0) -> (forall d k, sget d ds = Some k -> k > 0) -> forall d k, sget d (fold_left add_size l ds) = Some k -> k > 0.
Proof.
  induction l as [|[d' k'] l IH]; intros ds P Q d k G; cbn [fold_left] in G; [eauto|]. refine (IH _ (fun d k I => P d k (or_intror I)) _ d k G). intros d2 k2 G2. unfold add_size in G2. cbn [fst snd] in G2. rewrite sget_sset in G2.
  destruct (str_dec d2 d'); [|eauto]. inversion G2. specialize (P d' k' (or_introl eq_refl)). lia.
Qed.
Lemma fits_sizes : forall ds own sh, length own = length sh -> (forall d k, In (d, k) (combine own sh) -> grown ds d k) ->
  exists F, sizes FKey ds own = Ok F /\ fits_in sh F = true.
Proof.
  induction own as [|d own IH]; intros [|k sh] L H; try discriminate; cbn [sizes]; [exists []; auto|].
  destruct (H d k (or_introl eq_refl)) as (K & G & LE). rewrite G. destruct (IH sh) as (F & SF & FF); [cbn in L; lia|intros; apply H; now right|]. rewrite SF. cbn [rbind]. exists (K :: F). split; auto.
  cbn [fits_in]. now rewrite FF, (proj2 (Nat.leb_le k K) LE).
Qed.
Lemma in_range_snoc : forall A ix K i, in_range A ix = true -> i < K -> in_range (A ++ [K]) (ix ++ [i]) = true.
Proof. intros A ix K i H L. rewrite in_range_app by now apply in_range_length. rewrite H. cbn [in_range andb]. now rewrite (proj2 (Nat.ltb_lt i K) L). Qed.
Lemma skipn_own : forall A (a own : list A), skipn (length (a ++ own) - length own) (a ++ own) = own.
Proof. intros A a own. rewrite app_length. replace (length a + length own - length own) with (length a) by lia. rewrite skipn_app, skipn_all, Nat.sub_diag. reflexivity. Qed.

Section Put.
Variable at_ : path -> nattr.
Variable fuel : nat.
Variable m : meta.
Variable r : ncmeta.
Hypothesis W : wf_meta m.
Hypothesis R : nc_metadata at_ fuel m = Ok r.
Hypothesis NO : names_ok m.
Hypothesis SD : small_dims m.
Hypothesis KR : mkind m = KStruct.
Variable n : node.
Hypothesis C : conf m n.
Variable h : bool.
Definition items : list entry := filled_iter m n [] [].

Lemma items_ent : forall p ix x, In (p, ix, x) items <-> p <> [] /\ ent m n p ix x.
Proof.
  intros p ix x. unfold items. rewrite filled_iter_ent by exact C. split.
  - intros (t & ix' & NE & -> & -> & E). auto.
  - intros [NE E]. exists p, ix. auto.
Qed.
Lemma item_meta : forall p ix x, In (p, ix, x) items -> exists c a lv, in_ids m p c a lv /\ fits c x /\ lv = length ix.
Proof.
  intros p ix x I. apply items_ent in I. destruct I as [NE E]. destruct (ent_below _ _ _ _ _ E C NE [] None 0) as (c & a & lv & B & F & L).
  unfold inner in B. rewrite KR in B. cbn [fst snd] in B. exists c, a, lv. auto.
Qed.
Lemma item_fits : forall p ix x c a lv, In (p, ix, x) items -> in_ids m p c a lv -> fits c x /\ lv = length ix.
Proof. intros p ix x c a lv I B. destruct (item_meta p ix x I) as (c' & a' & lv' & B' & F & L). destruct (in_ids_fun m W _ _ _ _ _ _ _ B B') as (-> & -> & ->). auto. Qed.
Lemma item_fun : forall p ix x x', In (p, ix, x) items -> In (p, ix, x') items -> x = x'.
Proof. intros p ix x x' I I'. apply items_ent in I. apply items_ent in I'. eapply ent_fun; [apply I|exact W|apply I']. Qed.
Lemma item_parent : forall p ix x c q lv, In (p, ix, x) items -> in_ids m p c (Some q) lv -> exists ix' i k, ix = ix' ++ [i] /\ In (q, ix', FAoS k) items /\ i < k.
Proof.
  intros p ix x c q lv I B. apply items_ent in I. destruct I as [NE E].
  destruct (ent_parent _ _ _ _ _ E C W [] None 0 c q lv) as [[? _]|(u & ix' & i & k & EQ & -> & E' & L)].
  - unfold inner. rewrite KR. exact B.
  - discriminate.
  - cbn [app] in EQ. subst u. exists ix', i, k. split; auto. split; auto. apply items_ent. split; auto. intros ->. apply ent_nil in E'. destruct E' as (_ & Q & _). destruct m as [mn mk cs]. cbn in KR. subst mk. inversion C; subst; discriminate.
Qed.
Lemma none_level : forall m names lv p c n, below m names None lv p c None n -> n = lv.
Proof.
  intros m0 names lv p c n0 B. destruct (NcMetaProps.below_parent _ _ _ _ _ _ _ _ B) as [[_ E]|(q' & dq & b & lv' & E1 & _)]; [auto|discriminate].
Qed.

Notation data p := (data_of items p).
Lemma data_In : forall p ix x, In (ix, x) (data p) <-> In (p, ix, x) items.
Proof.
  intros p ix x. unfold data_of. rewrite in_flat_map. split.
  - intros ([[p' ix'] x'] & I & H). cbn [fst snd] in H. destruct (path_dec p' p) as [->|N]; [|destruct H]. destruct H as [H|[]]. inversion H; subst. exact I.
  - intros I. exists (p, ix, x). split; auto. cbn [fst snd]. destruct (path_dec p p); [now left|congruence].
Qed.
Lemma iget_In : forall p ix x, iget ix (data p) = Some x <-> In (p, ix, x) items.
Proof.
  intros p ix x. split; intros H.
  - apply data_In. unfold iget in H. now apply dget_In in H.
  - destruct (iget ix (data p)) as [y|] eqn:G.
    + f_equal. unfold iget in G. apply dget_In in G. apply data_In in G. eapply item_fun; eauto.
    + exfalso. unfold iget in G. assert (Q : dget ix_dec ix (data p) <> None). { apply dget_keys. apply data_In in H. now apply (List.in_map fst) in H. } congruence.
Qed.
Lemma iget_none : forall p ix, iget ix (data p) = None <-> forall x, ~ In (p, ix, x) items.
Proof.
  intros p ix. split.
  - intros H x I. apply iget_In in I. congruence.
  - intros H. destruct (iget ix (data p)) as [x|] eqn:G; auto. apply iget_In in G. exfalso. eapply H; eauto.
Qed.
Lemma filled_path : forall p, In p (filled_paths r items) <-> exists ix x, In (p, ix, x) items.
Proof.
  intros p. unfold filled_paths. rewrite filter_In. unfold is_filled. split.
  - intros [_ F]. destruct (data p) as [|[ix x] t] eqn:D; [discriminate|]. exists ix, x. apply data_In. rewrite D. now left.
  - intros (ix & x & I). split.
    + apply (paths_in at_ fuel m r W R). destruct (item_meta p ix x I) as (c & a & lv & B & _). eauto.
    + apply data_In in I. destruct (data p); [destruct I|auto].
Qed.
Lemma filled_nodup : NoDup (filled_paths r items).
Proof. apply NoDup_filter. eapply paths_nodup; eauto. Qed.

(** ** shapes of contents *)
Lemma content_rank : forall c x, fits c x -> length (content_shape x) = ndim c.
Proof.
  intros c x F. unfold ndim. destruct x as [|k|v]; cbn [fits content_shape] in *.
  - rewrite F. reflexivity.
  - destruct F as [-> _]. reflexivity.
  - destruct F as (dt & nd & -> & V & _). eapply val_ok_shape; eauto.
Qed.
Lemma content_pos : forall c x k, fits c x -> In k (content_shape x) -> k > 0.
Proof.
  intros c x k F I. destruct x as [|j|v]; cbn [fits content_shape] in *.
  - destruct I.
  - destruct F as [_ F]. destruct I as [<-|[]]. exact F.
  - destruct F as (dt & nd & _ & V & FV). eapply filled_shape; eauto.
Qed.

Notation ds := (dim_sizes m r h items).
Notation dims p := (dims_of r h p).
Lemma ndim_at : forall p c a lv, in_ids m p c a lv -> ndim_of m p = ndim c.
Proof. intros p c a lv I. unfold ndim_of. now rewrite (meta_at_in m W p c a lv I). Qed.
Lemma own_dims_spec : forall c (a own : list str), length own = ndim c -> ndim c > 0 -> own_dims (ndim c) (a ++ own) = own.
Proof. intros c a own L G. unfold own_dims. rewrite <- L in *. destruct (length own) eqn:E; [lia|]. rewrite <- E. apply skipn_own. Qed.

Lemma ds_pos : forall d k, sget d ds = Some k -> k > 0.
Proof.
  apply sizes_pos; [|discriminate]. intros d k I. apply in_flat_map in I. destruct I as ([[p ix] x] & I & Q). destruct (item_meta p ix x I) as (c & a & lv & B & F & _).
  unfold own_sizes in Q. cbn [fst snd] in Q. destruct (ndim_of m p); [destruct Q|]. apply in_combine_r in Q. eapply content_pos; eauto.
Qed.

Definition parent_dims (a : option path) : list str := match a with Some q => dims q | None => [] end.
(** sizes of the dimensions of a filled node *)
Record sized (p : path) (c : meta) (a : option path) (lv : nat) (A F : list nat) (own : list str) : Prop := {
  z_dims : dims p = parent_dims a ++ own;
  z_own : length own = ndim c;
  z_A : sizes FKey ds (parent_dims a) = Ok A;
  z_F : sizes FKey ds own = Ok F;
  z_range : forall ix x, In (p, ix, x) items -> in_range A ix = true;
  z_fits : forall ix x, In (p, ix, x) items -> fits_in (content_shape x) F = true;
  z_len : length A = lv }.

Lemma parent_kind : forall p c q lv, in_ids m p c (Some q) lv -> exists d b lv', in_ids m q d b lv' /\ mkind d = KAoS /\ lv = S lv'.
Proof.
  intros p c q lv I. destruct (NcMetaProps.below_parent _ _ _ _ _ _ _ _ I) as [[? _]|(q' & d & b & lv' & E1 & E2 & E3 & E4)]; [discriminate|]. inversion E1; subst q'. exists d, b, lv'. auto.
Qed.
Lemma parent_length : forall p c a lv, in_ids m p c a lv -> length (parent_dims a) = lv.
Proof.
  intros p c a lv I. destruct a as [q|]; cbn [parent_dims].
  - destruct (parent_kind p c q lv I) as (d & b & lv' & Iq & Kq & ->). unfold dims_of. rewrite (dims_length at_ fuel m r W R h q d b lv' Iq) by congruence. unfold ndim. rewrite Kq. lia.
  - unfold in_ids in I. apply none_level in I. cbn. congruence.
Qed.

Lemma item_sized : forall p c a lv, in_ids m p c a lv -> mkind c <> KStruct -> (exists ix x, In (p, ix, x) items) -> exists A F own, sized p c a lv A F own.
Proof.
  intros p c a lv. revert p c a. induction lv as [lv IH] using lt_wf_ind. intros p c a I K (ix0 & x0 & I0).
  destruct (dims_shape at_ fuel m r W R h p c a lv I K) as (own & L & E). change (get_dimensions r h p) with (dims p) in E. change (match a with Some q => get_dimensions r h q | None => [] end) with (parent_dims a) in E.
  assert (G : forall ix x, In (p, ix, x) items -> exists F, sizes FKey ds own = Ok F /\ fits_in (content_shape x) F = true).
  { intros ix x J. destruct (item_fits _ _ _ _ _ _ J I) as [F _]. apply fits_sizes; [rewrite (content_rank c x F); exact L|]. intros d k Q. unfold dim_sizes. apply sizes_grown. apply in_flat_map. exists (p, ix, x). split; auto.
    unfold own_sizes. cbn [fst snd]. rewrite (ndim_at p c a lv I). destruct (ndim c) as [|nd] eqn:N; [destruct own; [destruct Q|discriminate]|]. rewrite <- N, E. rewrite own_dims_spec; auto; [congruence|lia]. }
  destruct (G ix0 x0 I0) as (F & SF & _).
  assert (GF : forall ix x, In (p, ix, x) items -> fits_in (content_shape x) F = true) by (intros ix x J; destruct (G ix x J) as (F' & SF' & FF); congruence).
  destruct a as [q|].
  - destruct (parent_kind p c q lv I) as (d & b & lv' & Iq & Kq & ->).
    destruct (item_parent p ix0 x0 c q (S lv') I0 I) as (ix' & i & k & -> & J & LT).
    destruct (IH lv' ltac:(lia) q d b Iq ltac:(congruence) ltac:(eauto)) as (A & Fq & ownq & Z).
    destruct Fq as [|K' [|? ?]].
    1,3: exfalso; pose proof (sizes_length _ _ _ _ _ (z_F _ _ _ _ _ _ _ Z)) as Q; rewrite (z_own _ _ _ _ _ _ _ Z) in Q; unfold ndim in Q; rewrite Kq in Q; cbn in Q; discriminate.
    assert (SA : sizes FKey ds (parent_dims (Some q)) = Ok (A ++ [K'])).
    { cbn [parent_dims]. rewrite (z_dims _ _ _ _ _ _ _ Z). apply sizes_app; [apply (z_A _ _ _ _ _ _ _ Z)|apply (z_F _ _ _ _ _ _ _ Z)]. }
    exists (A ++ [K']), F, own. constructor; auto.
    + intros ix x J'. destruct (item_parent p ix x c q (S lv') J' I) as (ix'' & i' & k' & -> & J2 & LT2). apply in_range_snoc; [eapply (z_range _ _ _ _ _ _ _ Z); eauto|].
      pose proof (z_fits _ _ _ _ _ _ _ Z _ _ J2) as Q. cbn in Q. destruct (Nat.leb_spec k' K'); [lia|discriminate].
    + rewrite app_length, (z_len _ _ _ _ _ _ _ Z). cbn. lia.
  - pose proof (none_level _ _ _ _ _ _ I) as ->. exists [], F, own. constructor; auto.
    intros ix x J. destruct (item_fits _ _ _ _ _ _ J I) as [_ LL]. destruct ix; [reflexivity|discriminate].
Qed.

Lemma sized_pos : forall p c a lv A F own, sized p c a lv A F own -> (forall k, In k F -> k > 0).
Proof. intros p c a lv A F own Z k I. destruct (sizes_in _ _ _ _ _ _ (z_F _ _ _ _ _ _ _ Z) I) as (d & _ & G). eapply ds_pos; eauto. Qed.
Lemma sized_full : forall p c a lv A F own, in_ids m p c a lv -> sized p c a lv A F own -> sizes FKey ds (own_dims (ndim c) (dims p)) = Ok (if ndim c =? 0 then A ++ F else F).
Proof.
  intros p c a lv A F own I Z. rewrite (z_dims _ _ _ _ _ _ _ Z). destruct (Nat.eqb_spec (ndim c) 0) as [E|N].
  - rewrite E. cbn [own_dims]. apply sizes_app; [apply (z_A _ _ _ _ _ _ _ Z)|apply (z_F _ _ _ _ _ _ _ Z)].
  - rewrite own_dims_spec; [apply (z_F _ _ _ _ _ _ _ Z)|apply (z_own _ _ _ _ _ _ _ Z)|lia].
Qed.

(** ** sparsity *)
Definition sparse_spec (p : path) (c : meta) (A F : list nat) (sp : sparsity) : Prop :=
  match sp with
  | Dense => forall ix, in_range A ix = true -> exists x, In (p, ix, x) items /\ content_shape x = F
  | Filled => ndim c = 0 /\ length A > 0
  | Shapes f => ndim c > 0 /\ forall ix, in_range A ix = true -> f ix = shape_at m items p ix
  end.
Lemma sparsity_ok : forall p c a lv A F own, in_ids m p c a lv -> mkind c <> KStruct -> (exists ix x, In (p, ix, x) items) -> sized p c a lv A F own ->
  exists sp, sparsity_of m r h items p = Ok sp /\ sparse_spec p c A F sp.
Proof.
  intros p c a lv A F own I K (ix0 & x0 & I0) Z. unfold sparsity_of. rewrite (ndim_at p c a lv I), (sized_full p c a lv A F own I Z). cbn [rbind].
  pose proof (z_len _ _ _ _ _ _ _ Z) as LA. pose proof (sizes_length _ _ _ _ _ (z_F _ _ _ _ _ _ _ Z)) as LF. rewrite (z_own _ _ _ _ _ _ _ Z) in LF.
  assert (LD : length (dims p) = lv + ndim c) by (apply (dims_length at_ fuel m r W R h p c a lv I K)). rewrite LD.
  destruct (Nat.eqb_spec (lv + ndim c) (ndim c)) as [E|N].
  - assert (L0 : lv = 0) by lia. subst lv. destruct A; [|discriminate]. cbn [app].
    pose proof (z_range _ _ _ _ _ _ _ Z _ _ I0) as RG. destruct ix0; [|discriminate]. rewrite (proj2 (iget_In p [] x0) I0).
    replace (if ndim c =? 0 then F else F) with F by (destruct (ndim c =? 0); auto). eexists. split; [reflexivity|]. destruct (list_eqb (content_shape x0) F) eqn:Q.
    + apply list_eqb_eq in Q. cbn [sparse_spec]. intros [|? ?] HR; [|discriminate]. eauto.
    + cbn [sparse_spec]. split.
      * destruct (ndim c) eqn:ND; [|lia]. exfalso. destruct F; [|discriminate]. destruct (item_fits _ _ _ _ _ _ I0 I) as [FT _]. pose proof (content_rank c x0 FT) as LR. rewrite ND in LR. destruct (content_shape x0); discriminate.
      * intros [|? ?] HR; [|discriminate]. unfold shape_at. now rewrite (proj2 (iget_In p [] x0) I0).
  - assert (G : lv > 0) by lia. rewrite (aos_at_path at_ fuel m r W R p c a lv I). destruct a as [q|]; [|exfalso; unfold in_ids in I; apply none_level in I; lia].
    pose proof (z_A _ _ _ _ _ _ _ Z) as SA. cbn [parent_dims] in SA. rewrite SA. cbn [rbind].
    assert (FA : forallb (fun x => in_range A (fst x)) (data p) = true). { apply forallb_forall. intros [ix x] J. apply data_In in J. cbn [fst]. eapply (z_range _ _ _ _ _ _ _ Z); eauto. }
    rewrite FA. destruct (ndim c) as [|nd] eqn:ND; cbn [Nat.eqb].
    + eexists. split; [reflexivity|]. destruct (forallb (fun ix => is_some (iget ix (data p))) (indices A)) eqn:Q.
      * rewrite forallb_forall in Q. cbn [sparse_spec]. intros ix H. apply indices_range in H. specialize (Q ix H). destruct (iget ix (data p)) as [x|] eqn:GG; [|discriminate]. apply iget_In in GG. exists x. split; auto.
        destruct (item_fits _ _ _ _ _ _ GG I) as [FT _]. pose proof (content_rank c x FT) as LR. rewrite ND in LR. destruct (content_shape x); [|discriminate]. destruct F; [auto|discriminate].
      * cbn [sparse_spec]. split; [auto|lia].
    + eexists. split; [reflexivity|]. destruct (forallb (fun ix => list_eqb (shape_at m items p ix) F) (indices A)) eqn:Q.
      * rewrite forallb_forall in Q. cbn [sparse_spec]. intros ix H. apply indices_range in H. specialize (Q ix H). apply list_eqb_eq in Q. unfold shape_at in Q. destruct (iget ix (data p)) as [x|] eqn:GG.
        -- apply iget_In in GG. eauto.
        -- exfalso. rewrite (ndim_at p c (Some q) lv I), ND in Q. cbn [repeat] in Q. assert (0 > 0); [|lia]. apply (sized_pos p c (Some q) lv A F own Z). rewrite <- Q. now left.
      * cbn [sparse_spec]. split; [lia|auto].
Qed.

(** ** writing *)
Variable units : path -> str.
Hypothesis I32 : int32 m n.

Lemma item_leaf : forall p ix v, In (p, ix, FLeaf v) items -> exists l, leaf_at m n l v /\ p = loc_names l /\ ix = loc_index l.
Proof.
  intros p ix v I. change (FLeaf v) with (content_item (ILeaf v)) in I. apply (filled_iter_spec m W n [] [] p ix (ILeaf v) C) in I; [|congruence].
  destruct I as (l & _ & -> & -> & H). exists l. auto.
Qed.
Lemma cells_ok : forall dt nd v, val_ok dt nd v -> (forall z, In z (ints v) -> (-2147483648 <= z < 2147483648)%Z) -> forallb cell_ok (value_cells v) = true.
Proof.
  intros dt nd v V H. apply forallb_forall. intros x I. destruct V; cbn [value_cells ints] in *; try (destruct I as [<-|[]]; cbn [cell_ok]); auto.
  - apply Bool.andb_true_iff. specialize (H z (or_introl eq_refl)). split; [apply Z.leb_le|apply Z.ltb_lt]; lia.
  - apply in_map_iff in I. destruct I as (y & <- & _). reflexivity.
  - apply in_map_iff in I. destruct I as (y & <- & Q). cbn [cell_ok]. apply Bool.andb_true_iff. specialize (H y Q). split; [apply Z.leb_le|apply Z.ltb_lt]; lia.
  - apply in_map_iff in I. destruct I as (y & <- & _). reflexivity.
  - apply in_map_iff in I. destruct I as (y & <- & _). reflexivity.
Qed.
Lemma all_ok_all : forall A (f : A -> result fexn unit) l, (forall x, In x l -> f x = Ok tt) -> all_ok f l = Ok tt.
Proof. induction l as [|x l IH]; intros H; cbn [all_ok]; auto. rewrite (H x) by now left. cbn [rbind]. apply IH. intros; apply H; now right. Qed.

(** the variables written for a path *)
Definition var_of (p : path) (c : meta) (sp : sparsity) : ncvar :=
  {| v_name := dotted p; v_type := leaf_type c;
     v_dims := match mkind c with KLeaf _ _ => dims p | _ => [] end;
     v_fill := match mkind c with KLeaf dt _ => default_fill dt | _ => None end;
     v_units := match units p with [] => None | u => Some u end;
     v_anc := some_list (filter (fun x => if in_dec str_dec x (filled_variables r items) then true else false) [dotted p ++ upper; dotted p ++ lower]);
     v_coords := match mkind c with KAoS => None | _ => some_list (filter_coordinates r h items p) end;
     v_sparse := match sp with Dense => false | _ => true end;
     v_extra := [];
     v_data := match mkind c with KLeaf dt _ => tensor m r h items dt p | _ => fun _ => CStr [] end |}.
Definition shapes_of (p : path) (c : meta) (a : option path) (sp : sparsity) : list (shvar * nat) :=
  match sp with
  | Shapes f => [({| s_name := dotted p; s_dims := parent_dims a ++ [pseudo (ndim c)]; s_integer := true; s_data := fun ix => map Z.of_nat (f ix) |}, ndim c)]
  | _ => []
  end.
Definition sparse_of (p : path) (c : meta) (sp : sparsity) : Prop := match mkind c with KStruct => sp = Dense | _ => sparsity_of m r h items p = Ok sp end.

Lemma write_path_ok : forall p c a lv, in_ids m p c a lv -> (exists ix x, In (p, ix, x) items) -> exists sp, sparse_of p c sp /\ write_path m r units h items p = Ok (var_of p c sp, shapes_of p c a sp).
Proof.
  intros p c a lv I E0. unfold write_path. rewrite (meta_at_in m W p c a lv I). rewrite (aos_at_path at_ fuel m r W R p c a lv I).
  destruct (mkind c) as [| |dt nd] eqn:K.
  - exists Dense. split; [unfold sparse_of; rewrite K; reflexivity|]. cbn [rbind]. unfold var_of. rewrite K. reflexivity.
  - destruct (item_sized p c a lv I ltac:(congruence) E0) as (A & F & own & Z). destruct (sparsity_ok p c a lv A F own I ltac:(congruence) E0 Z) as (sp & SP & SS). exists sp. unfold sparse_of. rewrite K. split; auto.
    rewrite SP. cbn [rbind]. unfold var_of. rewrite K. reflexivity.
  - destruct (item_sized p c a lv I ltac:(congruence) E0) as (A & F & own & Z). destruct (sparsity_ok p c a lv A F own I ltac:(congruence) E0 Z) as (sp & SP & SS). exists sp. unfold sparse_of. rewrite K. split; auto.
    rewrite SP. cbn [rbind].
    assert (NDc : ndim c = nd) by (unfold ndim; now rewrite K).
    assert (SK : skipn (length (dims p) - nd) (dims p) = own). { rewrite (z_dims _ _ _ _ _ _ _ Z), <- NDc, <- (z_own _ _ _ _ _ _ _ Z). apply skipn_own. }
    rewrite SK, (z_F _ _ _ _ _ _ _ Z). cbn [rbind].
    rewrite all_ok_all; [cbn [rbind]; unfold var_of; rewrite K; reflexivity|].
    intros [ix x] J. apply data_In in J. cbn [snd]. destruct (item_fits _ _ _ _ _ _ J I) as [FT _]. destruct x as [|k|v]; auto. cbn [fits] in FT. destruct FT as (dt' & nd' & K' & V & FV). rewrite K in K'. inversion K'; subst dt' nd'.
    cbn [assignable]. destruct (item_leaf p ix v J) as (l & LL & _). rewrite (cells_ok dt nd v V); [|intros z; now apply I32 with (l := l)]. cbn [negb].
    assert (Q : (match sp with Shapes _ => fits_in (value_shape v) F | _ => list_eqb (value_shape v) F end) = true); [|now rewrite Q].
    destruct sp as [| |f].
    + destruct (SS ix (z_range _ _ _ _ _ _ _ Z _ _ J)) as (x & J' & EF). pose proof (item_fun _ _ _ _ J J'). subst x. apply list_eqb_eq. exact EF.
    + destruct SS as [N0 _]. pose proof (sizes_length _ _ _ _ _ (z_F _ _ _ _ _ _ _ Z)) as LF. rewrite (z_own _ _ _ _ _ _ _ Z), N0 in LF. pose proof (val_ok_shape dt nd v V) as LV. rewrite <- NDc, N0 in LV.
      destruct F; [|discriminate]. destruct (value_shape v); [reflexivity|discriminate].
    + exact (z_fits _ _ _ _ _ _ _ Z _ _ J).
Qed.

(** the written group *)
Record written (g : group) : Prop := {
  w_names : map v_name (g_vars g) = filled_variables r items;
  w_var : forall v, In v (g_vars g) -> exists p c a lv sp, in_ids m p c a lv /\ (exists ix x, In (p, ix, x) items) /\ sparse_of p c sp /\ v = var_of p c sp;
  w_get : forall p c a lv, in_ids m p c a lv -> (exists ix x, In (p, ix, x) items) -> exists sp, sparse_of p c sp /\ get_var g (dotted p) = Some (var_of p c sp) /\
     match sp with Shapes _ => exists s, shapes_of p c a sp = [(s, ndim c)] /\ get_shape g (dotted p) = Some s | _ => True end;
  w_shape : forall s, In s (g_shapes g) -> exists p c a lv f, in_ids m p c a lv /\ (exists ix x, In (p, ix, x) items) /\ sparse_of p c (Shapes f) /\ s_name s = dotted p;
  w_size : forall d, (forall nd, nd <= 6 -> d <> pseudo nd) -> sget d (g_sizes g) = sget d ds;
  w_pseudo : forall p c a lv f, in_ids m p c a lv -> (exists ix x, In (p, ix, x) items) -> sparse_of p c (Shapes f) -> sget (pseudo (ndim c)) (g_sizes g) = Some (ndim c) }.

Lemma sparse_of_fun : forall p c sp sp', sparse_of p c sp -> sparse_of p c sp' -> sp = sp'.
Proof. intros p c sp sp' S1 S2. unfold sparse_of in *. destruct (mkind c); congruence. Qed.
Definition is_written (l : list path) (p : path) (c : meta) (a : option path) (lv : nat) : Prop := In p l /\ in_ids m p c a lv /\ (exists ix x, In (p, ix, x) items).
Lemma write_paths_ok : forall l, (forall p, In p l -> exists ix x, In (p, ix, x) items) -> exists vs shs, write_paths m r units h items l = Ok (vs, shs) /\
  map v_name vs = map dotted l /\
  (forall v, In v vs -> exists p c a lv sp, is_written l p c a lv /\ sparse_of p c sp /\ v = var_of p c sp) /\
  (forall p c a lv, is_written l p c a lv -> exists sp, sparse_of p c sp /\ In (var_of p c sp) vs /\ forall s, In s (shapes_of p c a sp) -> In s shs) /\
  (forall s, In s shs -> exists p c a lv sp, is_written l p c a lv /\ sparse_of p c sp /\ In s (shapes_of p c a sp)).
Proof.
  induction l as [|p l IH]; intros H.
  - exists [], []. cbn [write_paths]. split; auto. split; auto. split; [intros v []|]. split; [intros p c a lv [[] _]|intros s []].
  - destruct IH as (vs & shs & E & N & V1 & V2 & V3); [intros; apply H; now right|]. destruct (H p (or_introl eq_refl)) as (ix & x & I).
    destruct (item_meta p ix x I) as (c & a & lv & B & _). destruct (write_path_ok p c a lv B) as (sp & SP & WP); [eauto|].
    exists (var_of p c sp :: vs), (shapes_of p c a sp ++ shs). cbn [write_paths]. rewrite WP. cbn [rbind]. rewrite E. cbn [rbind fst snd]. split; auto. split; [cbn; now rewrite N|]. split; [|split].
    + intros v [<-|Iv].
      * exists p, c, a, lv, sp. split; auto. split; [now left|eauto].
      * destruct (V1 v Iv) as (p' & c' & a' & lv' & sp' & (J1 & J2 & J3) & J4). exists p', c', a', lv', sp'. split; auto. split; [now right|auto].
    + intros p' c' a' lv' (J1 & J2 & J3). destruct (path_dec p' p) as [->|NE].
      * destruct (in_ids_fun m W _ _ _ _ _ _ _ B J2) as (<- & <- & <-). exists sp. split; auto. split; [now left|]. intros s Is. apply in_or_app. now left.
      * destruct J1 as [J1|J1]; [congruence|]. destruct (V2 p' c' a' lv') as (sp' & S1 & S2 & S3); [split; auto|]. exists sp'. split; auto. split; [now right|]. intros s Is. apply in_or_app. right. auto.
    + intros s Is. apply in_app_or in Is. destruct Is as [Is|Is].
      * exists p, c, a, lv, sp. split; auto. split; [now left|eauto].
      * destruct (V3 s Is) as (p' & c' & a' & lv' & sp' & (J1 & J2 & J3) & J4). exists p', c', a', lv', sp'. split; auto. split; [now right|auto].
Qed.

Lemma pseudo_inj : forall i j, i <= 6 -> j <= 6 -> pseudo i = pseudo j -> i = j.
Proof.
  intros i j Li Lj E. unfold pseudo, digit in E. inversion E as [Q]. apply (f_equal nat_of_ascii) in Q. rewrite !nat_ascii_embedding in Q by lia. lia.
Qed.
Lemma all_sizes_other : forall (shs : list (shvar * nat)) l d, (forall s, In s shs -> d <> pseudo (snd s)) -> sget d (fold_left (fun ds s => sset (pseudo (snd s)) (snd s) ds) shs l) = sget d l.
Proof.
  induction shs as [|s shs IH]; intros l d H; cbn [fold_left]; auto. rewrite IH by (intros; apply H; now right). rewrite sget_sset. destruct (str_dec d (pseudo (snd s))) as [E|]; auto. exfalso. exact (H s (or_introl eq_refl) E).
Qed.
Lemma all_sizes_pseudo : forall (shs : list (shvar * nat)) l k, (forall s, In s shs -> snd s <= 6) -> k <= 6 -> (exists s, In s shs /\ snd s = k) \/ sget (pseudo k) l = Some k ->
  sget (pseudo k) (fold_left (fun ds s => sset (pseudo (snd s)) (snd s) ds) shs l) = Some k.
Proof.
  induction shs as [|s shs IH]; intros l k H L Q; cbn [fold_left].
  - destruct Q as [(s & [] & _)|Q]; auto.
  - apply IH; auto; [intros; apply H; now right|]. rewrite sget_sset. destruct (str_dec (pseudo k) (pseudo (snd s))) as [E|N].
    + right. f_equal. symmetry. apply pseudo_inj; auto. apply H. now left.
    + destruct Q as [(s' & [->|I] & E)|Q]; [congruence|left; eauto|auto].
Qed.

Lemma find_unique : forall A (f : A -> bool) l x, In x l -> f x = true -> (forall y, In y l -> f y = true -> y = x) -> List.find f l = Some x.
Proof.
  intros A f l x I F U. destruct (List.find f l) as [y|] eqn:E.
  - apply find_some in E. destruct E as [I' F']. f_equal. auto.
  - exfalso. pose proof (find_none _ _ E x I). congruence.
Qed.

Theorem write_group_ok : exists g, write_group m r units h items = Ok g /\ written g.
Proof.
  assert (X : forall p, In p (filled_paths r items) -> exists ix x, In (p, ix, x) items) by (intros p; apply filled_path).
  destruct (write_paths_ok (filled_paths r items) X) as (vs & shs & E & N & V1 & V2 & V3). unfold write_group. rewrite E. cbn [rbind fst snd]. eexists. split; [reflexivity|].
  assert (FW : forall p c a lv, in_ids m p c a lv -> (exists ix x, In (p, ix, x) items) -> is_written (filled_paths r items) p c a lv) by (intros p c a lv J1 J2; split; [now apply filled_path|auto]).
  assert (S6 : forall s, In s shs -> snd s <= 6).
  { intros s Is. destruct (V3 s Is) as (p & c & a & lv & sp & (J1 & J2 & J3) & J4 & J5). destruct sp; cbn [shapes_of] in J5; try (destruct J5). subst s. cbn [snd]. eapply SD; eauto. destruct H. }
  constructor; cbn [g_vars g_shapes g_sizes].
  - rewrite N. reflexivity.
  - intros v Iv. destruct (V1 v Iv) as (p & c & a & lv & sp & (J1 & J2 & J3) & J4). exists p, c, a, lv, sp. tauto.
  - intros p c a lv J1 J2. destruct (V2 p c a lv (FW _ _ _ _ J1 J2)) as (sp & S1 & S2 & S3). exists sp. split; auto. split.
    + unfold get_var. cbn [g_vars]. apply find_unique; auto; [cbn; apply str_eqb_refl|]. intros v Iv Ev. apply str_eqb_eq in Ev. destruct (V1 v Iv) as (p' & c' & a' & lv' & sp' & (K1 & K2 & K3) & K4 & ->). cbn in Ev.
      assert (p' = p) by (eapply (dotted_path_inj m W NO); eauto). subst p'. destruct (in_ids_fun m W _ _ _ _ _ _ _ J1 K2) as (<- & <- & <-). now rewrite (sparse_of_fun _ _ _ _ S1 K4).
    + destruct sp as [| |f]; auto. eexists. split; [reflexivity|]. unfold get_shape. cbn [g_shapes]. apply find_unique.
      * apply in_map_iff. eexists. split; [|apply S3; now left]. reflexivity.
      * cbn. apply str_eqb_refl.
      * intros s Is Es. apply str_eqb_eq in Es. apply in_map_iff in Is. destruct Is as (s' & <- & Is). destruct (V3 s' Is) as (p' & c' & a' & lv' & sp' & (K1 & K2 & K3) & K4 & K5).
        destruct sp' as [| |f']; cbn [shapes_of] in K5; try (now destruct K5). destruct K5 as [<-|[]]. cbn [fst s_name] in *.
        assert (p' = p) by (eapply (dotted_path_inj m W NO); eauto). subst p'. destruct (in_ids_fun m W _ _ _ _ _ _ _ J1 K2) as (<- & <- & <-). pose proof (sparse_of_fun _ _ _ _ S1 K4) as Q. inversion Q; subst. reflexivity.
  - intros s Is. apply in_map_iff in Is. destruct Is as (s' & <- & Is). destruct (V3 s' Is) as (p' & c' & a' & lv' & sp' & (K1 & K2 & K3) & K4 & K5).
    destruct sp' as [| |f']; cbn [shapes_of] in K5; try (now destruct K5). destruct K5 as [<-|[]]. exists p', c', a', lv', f'. cbn. tauto.
  - intros d H. unfold all_sizes. apply all_sizes_other. intros s Is. apply H. auto.
  - intros p c a lv f J1 J2 J3. destruct (V2 p c a lv (FW _ _ _ _ J1 J2)) as (sp & S1 & S2 & S3). pose proof (sparse_of_fun _ _ _ _ J3 S1) as <-.
    unfold all_sizes. apply all_sizes_pseudo; auto; [eapply SD; eauto|]. left. eexists. split; [apply S3; now left|]. reflexivity.
Qed.
End Put.
