(** What is read back for one node of a written group. *)
From Verif Require Import Base TreeModel TreeSpec TreeProofs ValProofs ValProofs5 StoreProofs2 NcMetaModel NcMetaSpec NcMetaProofs NcMetaProofs2 NcMetaProofs3 NcMetaProofs4 NcFileModel NcFileSpec NcFileProofs NcFileProofs2 NcFileProofs3 NcFileProofs4 NcFileProofs5 NcFileProofs6.
From Verif Require NcMetaProps.
From Coq Require Import Lia.

Lemma slice_lens_fit : forall sh F, fits_in sh F = true -> slice_lens (map Z.of_nat sh) F = sh.
Proof.
  induction sh as [|k sh IH]; intros [|K F] H; cbn [fits_in slice_lens map] in *; try discriminate; auto. apply Bool.andb_true_iff in H. destruct H as [H1 H2]. apply Nat.leb_le in H1. rewrite IH by auto. f_equal.
  unfold slice_len. destruct (Z.ltb_spec (Z.of_nat k) 0); [lia|]. rewrite Nat2Z.id. lia.
Qed.
Lemma firstn_len : forall A (a b : list A) k, k = length a -> firstn k (a ++ b) = a.
Proof. intros A a b k ->. rewrite firstn_app, firstn_all, Nat.sub_diag. cbn. apply app_nil_r. Qed.
Lemma skipn_len : forall A (a b : list A) k, k = length a -> skipn k (a ++ b) = b.
Proof. intros A a b k ->. rewrite skipn_app, skipn_all, Nat.sub_diag. reflexivity. Qed.
Lemma zeros : forall sh, (forall k, In k sh -> k > 0) -> forallb (fun z => negb (Z.eqb z 0)) (map Z.of_nat sh) = true.
Proof. intros sh H. apply forallb_forall. intros z I. apply in_map_iff in I. destruct I as (k & <- & I). specialize (H k I). destruct (Z.eqb_spec (Z.of_nat k) 0); auto; lia. Qed.

Lemma ok_inj : forall A (a b : A), @Ok fexn A a = Ok b -> a = b. Proof. intros A a b H. now inversion H. Qed.
Section Back.
Variable at_ : path -> nattr.
Variable fuel : nat.
Variable m : meta.
Variable r : ncmeta.
Hypothesis W : wf_meta m.
Hypothesis R : nc_metadata at_ fuel m = Ok r.
Hypothesis NO : names_ok m.
Hypothesis SD : small_dims m.
Hypothesis KR : mkind m = KStruct.
Variable n : node.
Hypothesis C : conf m n.
Variable h : bool.
Variable units : path -> str.
Variable g : group.
Hypothesis WG : written m r n h units g.
Notation items := (items m n).
Notation sized := (sized m r n h).
Notation data p := (data_of items p).
Notation dims p := (dims_of r h p).
Notation var_of := (var_of m r n h units).
Notation sparse_of := (sparse_of m r n h).
Notation filled p := (exists ix x, In (p, ix, x) items).

Lemma g_dims : forall p, sizes FKey (g_sizes g) (dims p) = sizes FKey (dim_sizes m r h items) (dims p).
Proof.
  intros p. apply sizes_eq. intros d I. apply (w_size _ _ _ _ _ _ WG). intros nd L. eapply dims_not_pseudo; eauto.
Qed.
Lemma g_parent : forall a, sizes FKey (g_sizes g) (parent_dims r h a) = sizes FKey (dim_sizes m r h items) (parent_dims r h a).
Proof. intros [q|]; [apply g_dims|reflexivity]. Qed.

Lemma data_at : forall p c a lv A F own dt nd idx ix, in_ids m p c a lv -> mkind c = KLeaf dt nd -> sized p c a lv A F own -> in_range A idx = true ->
  tensor m r h items dt p (idx ++ ix) = match iget idx (data p) with Some (FLeaf v) => if in_range (value_shape v) ix then value_cell v ix else fill_cell dt | _ => fill_cell dt end.
Proof.
  intros p c a lv A F own dt nd idx ix I K Z RG. unfold tensor. rewrite (ndim_at m W p c a lv I).
  assert (LD : length (dims p) = lv + ndim c) by (apply (dims_length at_ fuel m r W R h p c a lv I); congruence). rewrite LD.
  assert (LI : length idx = lv) by (rewrite (in_range_length _ _ RG); apply (z_len _ _ _ _ _ _ _ _ _ _ _ Z)).
  replace (lv + ndim c - ndim c) with (length idx) by lia. rewrite firstn_len, skipn_len by auto. reflexivity.
Qed.

Lemma iget_leaf : forall p c a lv dt nd idx x, in_ids m p c a lv -> mkind c = KLeaf dt nd -> iget idx (data p) = Some x -> exists v, x = FLeaf v /\ val_ok dt nd v /\ filled_value v.
Proof.
  intros p c a lv dt nd idx x I K G. apply (iget_In m W n C) in G. destruct (item_fits m W KR n C _ _ _ _ _ _ G I) as [F _]. destruct x as [|k|v]; cbn [fits] in F.
  - congruence.
  - destruct F; congruence.
  - destruct F as (dt' & nd' & K' & V & FV). rewrite K in K'. inversion K'; subst. eauto.
Qed.
Lemma value_set : forall dt v, val_ok dt 0 v -> ~ looks_unset v -> cell_ne (value_cell v []) (default_fill dt) = true.
Proof.
  intros dt v V NU. remember 0 as nd eqn:E0.
  destruct V as [s|z|f|a b|l0|sh d NS|sh d NS|sh d NS]; try discriminate; try (destruct sh; [congruence|discriminate]);
  cbn [default_fill cell_ne value_cell value_shape value_cells ravel nth fill_cell looks_unset] in *; auto.
  - destruct (str_eqb s []) eqn:E; auto. apply str_eqb_eq in E. tauto.
  - destruct (Z.eqb_spec z FILL_INT); auto.
  - change FILL_FLT with 5160562223013167104%Z. destruct (feq f 5160562223013167104%Z); auto.
Qed.

(** y: value read for x; b: inside an array of structures *)
Definition agrees (b : bool) (x y : option value) : Prop :=
  (forall v, (b = true -> ~ looks_unset v) -> x = Some v -> y = Some v) /\ (forall v, (b = true -> ~ is_complex v) -> y = Some v -> x = Some v).
Lemma agrees_refl : forall b x, agrees b x x. Proof. split; auto. Qed.
Lemma leaf_read : forall p c a lv dt nd A F own sp idx, in_ids m p c a lv -> mkind c = KLeaf dt nd -> filled p -> sized p c a lv A F own -> in_range A idx = true ->
  sparse_of p c sp -> match sp with Shapes _ => exists s, shapes_of r h p c a sp = [(s, ndim c)] /\ get_shape g (dotted p) = Some s | _ => True end ->
  exists o, leaf_value g (var_of p c sp) dt nd idx = Ok o /\ agrees (is_some a) (match iget idx (data p) with Some (FLeaf v) => Some v | _ => None end) o.
Proof.
  intros p c a lv dt nd A F own sp idx I K FP Z RG SP SH. assert (NK : mkind c <> KStruct) by congruence.
  assert (NDc : ndim c = nd) by (unfold ndim; now rewrite K).
  destruct (sparsity_ok at_ fuel m r W R KR n C h p c a lv A F own I NK FP Z) as (sp' & SP' & SS). unfold NcFileProofs6.sparse_of in SP. rewrite K in SP. rewrite SP in SP'. inversion SP'; subst sp'. clear SP'.
  assert (LI : length idx = length A) by now apply in_range_length.
  assert (VS : var_sizes g (var_of p c sp) = Ok (A ++ F)).
  { unfold var_sizes, NcFileProofs6.var_of. cbn [v_dims]. rewrite K, g_dims, (z_dims _ _ _ _ _ _ _ _ _ _ _ Z). apply sizes_app; [apply (z_A _ _ _ _ _ _ _ _ _ _ _ Z)|apply (z_F _ _ _ _ _ _ _ _ _ _ _ Z)]. }
  assert (IO : forall B, index_ok (A ++ B) idx = true) by (intros B; unfold index_ok; rewrite firstn_len by auto; exact RG).
  assert (DT : forall ix, v_data (var_of p c sp) (idx ++ ix) = match iget idx (data p) with Some (FLeaf v) => if in_range (value_shape v) ix then value_cell v ix else fill_cell dt | _ => fill_cell dt end).
  { intros ix. unfold NcFileProofs6.var_of. cbn [v_data]. rewrite K. eapply data_at; eauto. }
  pose proof (sizes_length _ _ _ _ _ (z_F _ _ _ _ _ _ _ _ _ _ _ Z)) as LF. rewrite (z_own _ _ _ _ _ _ _ _ _ _ _ Z), NDc in LF.
  unfold leaf_value. rewrite VS. cbn [rbind]. assert (VSP : v_sparse (var_of p c sp) = match sp with Dense => false | _ => true end) by reflexivity. rewrite VSP. clear VSP. destruct sp as [| |f].
  - rewrite IO, skipn_len by auto. destruct (SS idx RG) as (x & J & EF). pose proof (proj2 (iget_In m W n C p idx x) J) as G. rewrite G in *. destruct (iget_leaf p c a lv dt nd idx x I K G) as (v & -> & V & FV). cbn [content_shape] in EF.
    eexists. split; [reflexivity|]. match goal with |- agrees _ ?x ?y => replace y with x; [apply agrees_refl|] end. f_equal. symmetry. rewrite <- EF. apply build_value; auto. intros ix HR. rewrite DT, HR. reflexivity.
  - destruct SS as [N0 GA]. rewrite NDc in N0. subst nd. rewrite N0 in *. rewrite IO. pose proof (DT []) as D0. rewrite app_nil_r in D0. rewrite D0.
    assert (EA : exists q, a = Some q). { destruct a as [q|]; eauto. exfalso. pose proof (z_len _ _ _ _ _ _ _ _ _ _ _ Z) as LL. unfold in_ids in I. apply none_level in I. lia. }
    destruct EA as [q ->].
    assert (VF : v_fill (var_of p c Filled) = default_fill dt) by (unfold NcFileProofs6.var_of; cbn [v_fill]; now rewrite K). rewrite VF.
    destruct (iget idx (data p)) as [x|] eqn:G.
    + destruct (iget_leaf p c (Some q) lv dt 0 idx x I K G) as (v & -> & V & FV). pose proof (val_ok_shape dt 0 v V) as LV. destruct (value_shape v) eqn:EV; [|discriminate]. cbn [in_range].
      assert (BV : build dt 0 [] (fun ix => v_data (var_of p c Filled) (idx ++ ix)) = v). { rewrite <- EV. apply build_value; auto. intros ix HR. rewrite EV in HR. rewrite DT, HR. reflexivity. }
      rewrite BV. destruct (cell_ne (value_cell v []) (default_fill dt)) eqn:CN; eexists; (split; [reflexivity|]); [apply agrees_refl|]. split; [|discriminate].
      intros w NU E. inversion E; subst w. rewrite (value_set dt v V (NU eq_refl)) in CN. discriminate.
    + destruct dt; try (exists None; split; [reflexivity|apply agrees_refl]). cbn [default_fill cell_ne fill_cell]. eexists. split; [reflexivity|]. split; [discriminate|]. intros w NX E. inversion E. exfalso. apply NX; [reflexivity|]. subst w. cbn [build]. do 2 eexists. reflexivity.
  - destruct SH as (s & ES & GS). destruct SS as [GN FF]. rewrite NDc in GN. destruct nd as [|nd]; [lia|].
    assert (SA : shapes_at g (v_name (var_of p c (Shapes f))) idx = Ok (map Z.of_nat (shape_at m items p idx))).
    { unfold shapes_at. change (v_name (var_of p c (Shapes f))) with (dotted p). rewrite GS. cbn [shapes_of] in ES. inversion ES; subst s. cbn [s_dims s_data].
      assert (SZ : sizes FKey (g_sizes g) (parent_dims r h a ++ [pseudo (ndim c)]) = Ok (A ++ [ndim c])).
      { apply sizes_app; [rewrite g_parent; apply (z_A _ _ _ _ _ _ _ _ _ _ _ Z)|]. cbn [sizes]. erewrite (w_pseudo _ _ _ _ _ _ WG p c a lv f I FP); [reflexivity|]. unfold NcFileProofs6.sparse_of. now rewrite K. }
      rewrite SZ. cbn [rbind]. rewrite IO. now rewrite FF. }
    rewrite SA. cbn [rbind]. rewrite IO, skipn_len by auto. unfold shape_at. destruct (iget idx (data p)) as [x|] eqn:G.
    + destruct (iget_leaf p c a lv dt (S nd) idx x I K G) as (v & -> & V & FV). cbn [content_shape]. rewrite zeros by (intros k; eapply filled_shape; eauto).
      rewrite slice_lens_fit; [|apply (z_fits _ _ _ _ _ _ _ _ _ _ _ Z idx (FLeaf v)); now apply (iget_In m W n C)]. eexists. split; [reflexivity|]. match goal with |- agrees _ ?x ?y => replace y with x; [apply agrees_refl|] end. f_equal. symmetry. apply build_value; auto. intros ix HR. rewrite DT, HR. reflexivity.
    + rewrite (ndim_at m W p c a lv I), NDc. cbn [repeat map forallb Z.of_nat Z.eqb negb andb]. exists None. split; [reflexivity|apply agrees_refl].
Qed.

Lemma aos_read : forall p c a lv A F own sp idx, in_ids m p c a lv -> mkind c = KAoS -> filled p -> sized p c a lv A F own -> in_range A idx = true ->
  sparse_of p c sp -> match sp with Shapes _ => exists s, shapes_of r h p c a sp = [(s, ndim c)] /\ get_shape g (dotted p) = Some s | _ => True end ->
  aos_size r g h (var_of p c sp) p idx = Ok (match iget idx (data p) with Some (FAoS k) => k | _ => 0 end).
Proof.
  intros p c a lv A F own sp idx I K FP Z RG SP SH. assert (NK : mkind c <> KStruct) by congruence.
  assert (NDc : ndim c = 1) by (unfold ndim; now rewrite K).
  destruct (sparsity_ok at_ fuel m r W R KR n C h p c a lv A F own I NK FP Z) as (sp' & SP' & SS). unfold NcFileProofs6.sparse_of in SP. rewrite K in SP. rewrite SP in SP'. inversion SP'; subst sp'. clear SP'.
  assert (LI : length idx = length A) by now apply in_range_length.
  assert (IO : forall B, index_ok (A ++ B) idx = true) by (intros B; unfold index_ok; rewrite firstn_len by auto; exact RG).
  assert (XA : forall x, iget idx (data p) = Some x -> exists k, x = FAoS k /\ k > 0).
  { intros x G. apply (iget_In m W n C) in G. destruct (item_fits m W KR n C _ _ _ _ _ _ G I) as [FT _]. destruct x as [|k|v]; cbn [fits] in FT; [congruence|exists k; tauto|]. destruct FT as (dt' & nd' & K' & _). congruence. }
  unfold aos_size. assert (VSP : v_sparse (var_of p c sp) = match sp with Dense => false | _ => true end) by reflexivity. rewrite VSP. clear VSP. destruct sp as [| |f].
  - destruct (SS idx RG) as (x & J & EF). pose proof (proj2 (iget_In m W n C p idx x) J) as G. rewrite G. destruct (XA x G) as (k & -> & GK). cbn [content_shape] in EF.
    pose proof (z_own _ _ _ _ _ _ _ _ _ _ _ Z) as LO. rewrite NDc in LO. destruct own as [|d [|]]; try discriminate.
    pose proof (g_dims p) as GD. pose proof (z_dims _ _ _ _ _ _ _ _ _ _ _ Z) as ZD. unfold dims_of in ZD. rewrite ZD. rewrite rev_app_distr. cbn [rev app].
    pose proof (z_F _ _ _ _ _ _ _ _ _ _ _ Z) as ZF. cbn [sizes] in ZF.
    assert (SG : sget d (g_sizes g) = sget d (dim_sizes m r h items)). { apply (w_size _ _ _ _ _ _ WG). intros nd L. eapply (dims_not_pseudo at_ fuel m r W R NO SD h p); eauto. rewrite ZD. apply in_or_app. right. now left. }
    rewrite SG. destruct (sget d (dim_sizes m r h items)) as [k'|]; [|discriminate]. cbn [rbind] in ZF. rewrite <- EF in ZF. inversion ZF; subst. reflexivity.
  - destruct SS as [N0 _]. congruence.
  - destruct SH as (s & ES & GS). destruct SS as [GN FF].
    assert (SA : shapes_at g (v_name (var_of p c (Shapes f))) idx = Ok (map Z.of_nat (shape_at m items p idx))).
    { unfold shapes_at. change (v_name (var_of p c (Shapes f))) with (dotted p). rewrite GS. cbn [shapes_of] in ES. inversion ES; subst s. cbn [s_dims s_data].
      assert (SZ : sizes FKey (g_sizes g) (parent_dims r h a ++ [pseudo (ndim c)]) = Ok (A ++ [ndim c])).
      { apply sizes_app; [rewrite g_parent; apply (z_A _ _ _ _ _ _ _ _ _ _ _ Z)|]. cbn [sizes]. erewrite (w_pseudo _ _ _ _ _ _ WG p c a lv f I FP); [reflexivity|]. unfold NcFileProofs6.sparse_of. now rewrite K. }
      rewrite SZ. cbn [rbind]. rewrite IO. now rewrite FF. }
    rewrite SA. cbn [rbind]. unfold shape_at. destruct (iget idx (data p)) as [x|] eqn:G.
    + destruct (XA x eq_refl) as (k & -> & GK). cbn [content_shape map]. destruct (Z.ltb_spec (Z.of_nat k) 0); [lia|]. now rewrite Nat2Z.id.
    + rewrite (ndim_at m W p c a lv I), NDc. reflexivity.
Qed.
End Back.
