(** The written group passes the validation, and the time mode is read back. *)
From Verif Require Import Base TreeModel TreeSpec TreeProofs ValProofs ValProofs5 StoreProofs2 NcMetaModel NcMetaSpec NcMetaProofs NcMetaProofs2 NcMetaProofs3 NcMetaProofs4 NcFileModel NcFileSpec NcFileProofs NcFileProofs2 NcFileProofs3 NcFileProofs4 NcFileProofs5 NcFileProofs6 NcFileProofs7 NcFileProofs8.
From Verif Require NcMetaProps.
From Coq Require Import Lia.

Lemma subset_refl : forall (f : str -> bool) l, subset (filter f l) l = true.
Proof.
  intros f l. unfold subset. apply forallb_forall. intros x I. apply filter_In in I. destruct I as [I _]. destruct (in_dec str_dec x l); auto.
Qed.
Lemma subset_some : forall (f : str -> bool) l, subset (match some_list (filter f l) with Some x => x | None => [] end) l = true.
Proof. intros f l. pose proof (subset_refl f l) as S. destruct (filter f l); exact S. Qed.
Lemma dotted_suffix : forall p b u, dotted (p ++ [b]) ++ u = dotted (p ++ [b ++ u]).
Proof.
  intros p b u. destruct p as [|x p]; [reflexivity|]. rewrite !dotted_app by discriminate. now rewrite <- app_assoc.
Qed.

Section Valid.
Variable at_ : path -> nattr.
Variable fuel : nat.
Variable m : meta.
Variable r : ncmeta.
Hypothesis W : wf_meta m.
Hypothesis R : nc_metadata at_ fuel m = Ok r.
Hypothesis NO : names_ok m.
Hypothesis SD : small_dims m.
Hypothesis KR : mkind m = KStruct.
Hypothesis NE : no_structure_errors m.
Variable n : node.
Hypothesis C : conf m n.
Variable h : bool.
Variable units : path -> str.
Variable g : group.
Hypothesis WG : written m r n h units g.
Notation items := (items m n).
Notation var_of := (var_of m r n h units).
Notation sparse_of := (sparse_of m r n h).

(** structures and arrays of structures have no ancillary variables *)
Lemma no_ancillary : forall p c a lv u, in_ids m p c a lv -> ~ is_data c -> u = upper \/ u = lower -> ~ In (dotted p ++ u) (filled_variables r items).
Proof.
  intros p c a lv u I ND U Q. unfold filled_variables in Q. apply in_map_iff in Q. destruct Q as (q & E & Q). apply (filled_path at_ fuel m r W R KR n C) in Q. destruct Q as (ix & x & Q).
  destruct (item_meta m KR n C q ix x Q) as (c' & a' & lv' & I' & _). apply (NE p c a lv q c' a' lv' I ND I'). destruct (path_nodot m W NO p c a lv I) as [NN FN]. destruct (exists_last NN) as (s & b & ->). exists s, b. split; auto.
  rewrite dotted_suffix in E. apply Forall_app in FN. destruct FN as [FS FB]. inversion FB as [|? ? NB _]; subst.
  assert (NU : nodot u) by (unfold nodot; destruct U as [-> | ->]; vm_compute; intuition congruence).
  assert (X : q = s ++ [b ++ u]).
  { apply dotted_inj; auto; try (destruct s; discriminate).
    - eapply path_nodot; eauto.
    - eapply path_nodot; eauto.
    - apply Forall_app. split; auto. constructor; auto. unfold nodot in *. intros Z. apply in_app_or in Z. tauto. }
  destruct U as [-> | ->]; auto.
Qed.

Lemma valid_var : forall h' p c a lv sp, in_ids m p c a lv -> (exists ix x, In (p, ix, x) items) -> sparse_of p c sp ->
  get_dimensions r h' p = get_dimensions r h p -> get_coordinates r h' p = get_coordinates r h p -> ndim c = 0 \/ h' = h ->
  validate_variable r units g h' (var_of p c sp) p c = Ok tt.
Proof.
  intros h' p c a lv sp I FP SP ED EC EH. unfold validate_variable.
  assert (U : match units p, v_units (var_of p c sp) with [], _ => Ok tt | u, Some w => if str_eqb u w then Ok tt else Err FInvalid | _ :: _, None => Err FInvalid end = Ok tt).
  { cbn [NcFileProofs6.var_of v_units]. destruct (units p) as [|x u]; auto. now rewrite str_eqb_refl. }
  assert (S' : (if v_sparse (var_of p c sp) then validate_sparsity r g h' (var_of p c sp) p c else Ok tt) = Ok tt).
  { cbn [NcFileProofs6.var_of v_sparse]. destruct sp as [| |f]; auto.
    - unfold validate_sparsity. destruct (w_get _ _ _ _ _ _ WG p c a lv I FP) as (sp' & SP' & GV & SH). destruct (ndim c) as [|nd] eqn:N; auto. exfalso.
      unfold NcFileProofs6.sparse_of in SP. destruct (mkind c) as [| |dt nd'] eqn:K; [discriminate| |];
      destruct (item_sized at_ fuel m r W R NO SD KR n C h p c a lv I ltac:(congruence) FP) as (A & F & own & Z); destruct (sparsity_ok at_ fuel m r W R KR n C h p c a lv A F own I ltac:(congruence) FP Z) as (sp2 & SP2 & SS); rewrite SP in SP2; inversion SP2; subst sp2; destruct SS; congruence.
    - destruct EH as [E0| ->].
      + unfold validate_sparsity. now rewrite E0.
      + unfold validate_sparsity. destruct (w_get _ _ _ _ _ _ WG p c a lv I FP) as (sp' & SP' & GV & SH). pose proof (sparse_of_fun m r n h p c _ _ SP SP') as <-. destruct SH as (s & ES & GS).
        destruct (ndim c) as [|nd] eqn:N; auto. change (v_name (NcFileProofs6.var_of m r n h units p c (Shapes f))) with (dotted p). cbn [v_name]. rewrite GS. cbn [shapes_of] in ES. inversion ES; subst s. cbn [s_dims s_integer]. rewrite rev_app_distr. cbn [rev app].
        rewrite rev_involutive. unfold aos_dims. rewrite (aos_at_path at_ fuel m r W R p c a lv I). change (match a with Some q => get_dimensions r h q | None => [] end) with (parent_dims r h a). destruct (dims_dec (parent_dims r h a) (parent_dims r h a)); [|congruence].
        pose proof (w_pseudo _ _ _ _ _ _ WG p c a lv f I FP SP) as WP. rewrite ?N in *. rewrite ?N, WP, Nat.eqb_refl. reflexivity. }
  destruct (mkind c) as [| |dt nd] eqn:K.
  - cbn [rbind]. rewrite U. cbn [rbind]. rewrite S'. cbn [rbind]. cbn [NcFileProofs6.var_of v_coords v_anc v_extra]. rewrite K. unfold filter_coordinates. rewrite (no_coordinates at_ fuel m r W R h p c a lv I) by (unfold entryb; cbn [vc fst snd]; now rewrite K). cbn [filter some_list].
    pose proof (no_ancillary p c a lv upper I) as NU. pose proof (no_ancillary p c a lv lower I) as NL. assert (ND : ~ is_data c) by (intros (dt & nd & Q); congruence).
    destruct (in_dec str_dec (dotted p ++ upper) (filled_variables r items)) as [X|_]; [exfalso; eapply NU; eauto|]. destruct (in_dec str_dec (dotted p ++ lower) (filled_variables r items)) as [X|_]; [exfalso; eapply NL; eauto|]. reflexivity.
  - cbn [rbind]. rewrite U. cbn [rbind]. rewrite S'. cbn [rbind]. cbn [NcFileProofs6.var_of v_coords v_anc v_extra]. rewrite K. cbn [filter].
    pose proof (no_ancillary p c a lv upper I) as NU. pose proof (no_ancillary p c a lv lower I) as NL. assert (ND : ~ is_data c) by (intros (dt & nd & Q); congruence).
    destruct (in_dec str_dec (dotted p ++ upper) (filled_variables r items)) as [X|_]; [exfalso; eapply NU; eauto|]. destruct (in_dec str_dec (dotted p ++ lower) (filled_variables r items)) as [X|_]; [exfalso; eapply NL; eauto|]. reflexivity.
  - rewrite U, S'. cbn [NcFileProofs6.var_of v_type v_dims v_coords v_anc v_extra v_name leaf_type]. unfold leaf_type. rewrite K. destruct (dtype_dec dt dt); [|congruence]. unfold dims_of. rewrite ED, EC. destruct (dims_dec (get_dimensions r h p) (get_dimensions r h p)); [|congruence].
    unfold filter_coordinates. rewrite subset_some, subset_some. cbn [rbind]. repeat match goal with |- context [some_list ?x] => destruct (some_list x) end; reflexivity.
Qed.

Lemma valid_group : validate_variables m r units g h = Ok tt.
Proof.
  unfold validate_variables. rewrite all_ok_all.
  - cbn [rbind]. apply all_ok_all. intros v Iv. destruct (w_var _ _ _ _ _ _ WG v Iv) as (p & c & a & lv & sp & I & FP & SP & ->). unfold validate_var, var_meta. change (v_name (var_of p c sp)) with (dotted p).
    rewrite (var_path m W NO p c a lv I), (meta_at_in m W p c a lv I). cbn [option_map]. eapply valid_var; eauto.
  - intros s Is. destruct (w_shape _ _ _ _ _ _ WG s Is) as (p & c & a & lv & f & I & FP & SP & E). unfold validate_shape. rewrite E. destruct (w_get _ _ _ _ _ _ WG p c a lv I FP) as (sp' & SP' & GV & SH). rewrite GV.
    pose proof (sparse_of_fun m r n h p c _ _ SP SP') as <-. reflexivity.
Qed.
End Valid.

(** * The time mode *)
Section Mode.
Variable at_ : path -> nattr.
Variable fuel : nat.
Variable m : meta.
Variable r : ncmeta.
Hypothesis W : wf_meta m.
Hypothesis R : nc_metadata at_ fuel m = Ok r.
Hypothesis NO : names_ok m.
Hypothesis SD : small_dims m.
Hypothesis KR : mkind m = KStruct.
Hypothesis NE : no_structure_errors m.
Variable n : node.
Hypothesis C : conf m n.
Variable units : path -> str.
Hypothesis TM : time_mode m n.

Lemma mode_of : exists z, homogeneous_of n = (z =? 1)%Z /\ (z = 0 \/ z = 1 \/ z = 2)%Z /\ In (HOMOGENEOUS_TIME, [], FLeaf (VInt z)) (items m n).
Proof.
  destruct TM as (z & L & Z). exists z. split; [|split; auto].
  - destruct L as (m' & _ & NA & _). unfold homogeneous_of. set (ip := strs "ids_properties") in *. set (ht := strs "homogeneous_time") in *. clearbody ip ht.
    inversion NA as [|? ? fs d ch ? ? ? Id A NA2 E1 E2|]; subst. cbn [node_fields]. rewrite A. inversion NA2 as [|? ? fs2 d2 ch2 ? ? ? Id2 A2 NA3 E3 E4|]; subst. rewrite A2. inversion NA3; subst. reflexivity.
  - apply (filled_iter_spec m W n [] [] HOMOGENEOUS_TIME [] (ILeaf (VInt z)) C); [congruence|]. exists [Child (strs "ids_properties"); Child (strs "homogeneous_time")]. split; [discriminate|]. split; auto.
Qed.
Lemma mode_meta : exists c, in_ids m HOMOGENEOUS_TIME c None 0 /\ mkind c = KLeaf INT 0.
Proof.
  destruct mode_of as (z & _ & _ & I). destruct (item_meta m KR n C _ _ _ I) as (c & a & lv & B & F & L). cbn in L. subst lv. destruct F as (dt & nd & K & V & _). exists c. destruct a as [q|].
  - exfalso. destruct (item_parent at_ fuel m r W R NO SD KR n C _ _ _ _ _ _ I B) as (ix' & i & k & E & _). destruct ix'; discriminate.
  - split; auto. rewrite K. inversion V; subst; reflexivity.
Qed.

Variable g : group.
Notation h := (homogeneous_of n).
Hypothesis WG : written m r n h units g.
Lemma mode_read : read_homogeneous m r units g = Ok h.
Proof.
  destruct mode_of as (z & EH & Z & I). destruct mode_meta as (c & B & K). unfold read_homogeneous. destruct (w_get _ _ _ _ _ _ WG HOMOGENEOUS_TIME c None 0 B) as (sp & SP & GV & _); [eauto|].
  rewrite GV, (meta_at_in m W _ _ _ _ B).
  assert (ND : ndim c = 0) by (unfold ndim; now rewrite K).
  assert (D0 : forall h', get_dimensions r h' HOMOGENEOUS_TIME = []). { intros h'. pose proof (dims_length at_ fuel m r W R h' _ _ _ _ B ltac:(congruence)) as L. rewrite ND in L. destruct (get_dimensions r h' HOMOGENEOUS_TIME); auto; discriminate. }
  assert (EB : entryb (HOMOGENEOUS_TIME, c, None, 0) = false) by (unfold entryb; cbn [vc va fst snd]; rewrite K, ND; reflexivity).
  rewrite (valid_var at_ fuel m r W R NO SD KR NE n C h units g WG true _ _ _ _ sp B); auto; [|eauto|now rewrite !D0|now rewrite !(no_coordinates at_ fuel m r W R _ _ _ _ _ B EB)].
  cbn [rbind]. assert (VD : v_data (var_of m r n h units HOMOGENEOUS_TIME c sp) [] = CInt z).
  { cbn [var_of v_data]. rewrite K. unfold tensor, dims_of. rewrite D0. cbn [length Nat.sub firstn skipn]. rewrite (proj2 (iget_In m W n C HOMOGENEOUS_TIME [] (FLeaf (VInt z))) I). reflexivity. }
  rewrite VD, EH. destruct Z as [-> | [-> | ->]]; reflexivity.
Qed.
End Mode.
