(** What is in the IDS after a netCDF file is read with another version of the data dictionary. *)
From Verif Require Import Base PathSpec TreeModel TreeSpec TreeProofs ValProofs StoreProofs2 ConvSpec ConvProofs3 NcMetaModel NcMetaSpec NcMetaProofs2
  NcFileModel NcFileSpec NcFileProofs NcFileProofs2 NcFileProofs3 NcFileProofs4 NcConvModel NcConvSpec NcConvProofs NcConvProofs2 NcConvProofs3.
From Verif Require ConvProofs2 ConvProofs4 NcFileProps.
From Verif Require VmapModel.
From Coq Require Import Lia Permutation.
Import VmapModel(nmap).

Lemma idx_arrays : forall m l c, wf_meta m -> mkind m = KStruct -> loc_ok m l c -> ~ is_elem l -> length (loc_idx l) = length (arrays m [] (loc_names l)).
Proof. intros m l c W K L N. rewrite (arrays_root m l c W K L N), map_length, befores_len. reflexivity. Qed.

Section Whole.
Variables (at_ : path -> nattr) (fuel : nat) (m : meta) (r : ncmeta) (m' : meta) (rm : nmap) (cast : meta -> value -> result fexn value) (g : group) (h : bool).
Hypothesis W : wf_meta m.
Hypothesis W' : wf_meta m'.
Hypothesis K : mkind m = KStruct.
Hypothesis K' : mkind m' = KStruct.
Hypothesis R : nc_metadata at_ fuel m = Ok r.
Hypothesis NO : names_ok m.
Hypothesis ND : NoDup (map v_name (g_vars g)).
Hypothesis F : fits m m' rm.
Hypothesis ST : forall p c nd, at_path m p c -> mkind c = KLeaf STR nd -> nd <= 1.
Hypothesis CAST : forall c dt nd v, mkind c = KLeaf dt nd -> val_ok dt nd v -> cast c v = Ok v.
Hypothesis HANDLED : forall v c, In v (g_vars g) -> at_path m (pv v) c -> mkind c <> KStruct -> skipped rm (pv v) \/ kept rm (pv v).
Hypothesis DIMS : forall v c dt nd, In v (g_vars g) -> at_path m (pv v) c -> mkind c = KLeaf dt nd -> v_dims v = get_dimensions r h (pv v).

Lemma in_sorted : incl (sorted_vars g) (g_vars g).
Proof. intros v I. apply (Permutation_in _ (sorted_perm g)). exact I. Qed.
Lemma item_kind : forall val size c1 q ix x, item_of val size c1 q ix x -> mkind c1 <> KStruct.
Proof. intros val size c1 q ix [v|k] H; [destruct H as (dt & nd & E & _)|destruct H as (E & _)]; congruence. Qed.
Lemma root_names : forall mm l c, wf_meta mm -> mkind mm = KStruct -> loc_ok mm l c -> mkind c <> KStruct -> loc_names l <> [].
Proof.
  intros mm l c Wm Km L KC E. inversion L; subst; try discriminate; cbn in E; try discriminate. congruence. 
Qed.

Lemma conv_holds : forall fs, read_vars m r g h (sorted_vars g) [] = Ok fs ->
  exists fs', conv_vars m r m' rm cast g h (sorted_vars g) [] = Ok fs' /\
    forall t x, holds m' (NStruct fs') t x <-> exists s, holds m (NStruct fs) s x /\ kept rm (loc_names s) /\ goes_to m' rm s t.
Proof.
  intros fs RV. set (sv := sorted_vars g).
  assert (CL : clean m) by (eapply clean_m; eauto).
  destruct (conv_all at_ fuel m r m' rm cast g h W W' K K' R NO ND F ST CAST HANDLED DIMS sv [] [] fs []) as (fs' & C & RS); [reflexivity|apply reads_nil; auto|apply reads_nil'; auto|exact RV|].
  exists fs'. split; [exact C|].
  assert (SM : same m (NStruct fs) (gen (val_at g sv) (size_at r g h sv) m [] [])).
  { assert (RS0 : reads m r g h sv fs) by (apply (read_vars_spec m r g W K CL h ND sv [] [] fs eq_refl); [apply reads_nil; auto|exact RV]). clear RV C RS HANDLED DIMS F NO R CL ST.
    destruct m as [nm k cs] eqn:Em. cbn [mkind] in K. subst k. cbn [gen]. constructor. intros c I.
    assert (ND1 : NoDup (map mname cs)) by (inversion W; auto). pose proof (gen_field (val_at g sv) (size_at r g h sv) cs [] [] c ND1 I) as GF. unfold gen_fields in GF. cbn [app] in *. rewrite GF. rewrite <- den_gen. apply RS0. exact I. }
  assert (ST' : same m' (NStruct fs') (gen (val' m m' rm g sv) (size' m r m' rm g h sv) m' [] [])).
  { unfold reads' in RS. fold sv in RS. revert RS. generalize (val' m m' rm g sv) (size' m r m' rm g h sv). intros vv ss RS.
    destruct m' as [nm k cs] eqn:Em. cbn [mkind] in K'. subst k. cbn [gen]. constructor. intros c I.
    assert (ND1 : NoDup (map mname cs)) by (inversion W'; auto). pose proof (gen_field vv ss cs [] [] c ND1 I) as GF. unfold gen_fields in GF. cbn [app] in *. rewrite GF. apply RS. exact I. }
  intros t x. rewrite (same_holds _ _ _ ST' t x), (gen_holds _ _ m' W' [] [] t x). cbn [app]. split.
  - intros (c' & L & IS & NE & IT). pose proof (item_kind _ _ _ _ _ _ IT) as KC'. pose proof (loc_at_path _ _ _ L NE) as AQ.
    assert (SV : exists v, src m m' rm sv (loc_names t) = Some v).
    { destruct (src m m' rm sv (loc_names t)) as [v|] eqn:E; [eauto|]. exfalso. destruct x as [v|k]; cbn [item_of] in IT.
      - destruct IT as (dt & nd & _ & V & _). unfold val' in V. rewrite E in V. discriminate.
      - destruct IT as (_ & S1 & S2). unfold size' in S1. rewrite E in S1. lia. }
    destruct SV as (v & SV). destruct (src_some m m' rm sv _ _ SV) as (Iv & T). pose proof (in_sorted v Iv) as Ig.
    destruct (tgt_some m m' rm g W W' F HANDLED v _ Ig T) as (c & c2 & AP & KC & KP & MP & AQ2 & EK & FA).
    assert (c2 = c') by (eapply at_path_fun; eauto). subst c2.
    assert (NP : pv v <> []) by (apply split_on_nonnil).
    destruct (make_loc (pv v) m [] c (loc_idx t) W K AP) as (s & S1 & S2 & S3 & S4).
    { rewrite (idx_arrays m' t c' W' K' L NE). symmetry. exact (Forall2_len _ _ _ _ _ FA). }
    exists s. split; [|split; [rewrite S2; exact KP|split; [rewrite S2; exact MP|split; [exact S3|split; eauto]]]].
    apply (same_holds _ _ _ SM). apply gen_holds; auto. cbn [app]. exists c. split; [exact S1|]. split; [|split; [exact S4|]].
    + apply (proj2 (sizes_match m r m' rm g h W W' K K' NO F HANDLED sv (pv v) c (loc_names t) c' (loc_idx t) s t c c' in_sorted AP KC KP AQ FA S1 L S4 NE S2 eq_refl S3 eq_refl)). exact IS.
    + rewrite S2, S3. destruct x as [y|k]; cbn [item_of] in IT |- *.
      * destruct IT as (dt & nd & KL & V & FV). exists dt, nd. split; [congruence|]. split; [|exact FV]. rewrite <- V. symmetry. eapply val_eq; eauto using in_sorted.
      * destruct IT as (KL & V & FV). split; [congruence|]. split; [|exact FV]. rewrite <- V. symmetry. eapply size_eq; eauto using in_sorted.
  - intros (s & HS & KP & MP & EI & NT & c' & L). apply (same_holds _ _ _ SM) in HS. apply gen_holds in HS; auto. cbn [app] in HS. destruct HS as (c & Ls & IS & NE & IT).
    pose proof (item_kind _ _ _ _ _ _ IT) as KC. pose proof (loc_at_path _ _ _ Ls NE) as AP. pose proof (loc_at_path _ _ _ L NT) as AQ.
    pose proof (root_names m s c W K Ls KC) as NP.
    destruct (kept_target m m' rm W W' F (loc_names s) c AP NP KC KP) as (q & mt & fl & _ & _ & NQ & MP' & AQ' & EK & FA & _).
    assert (q = loc_names t) by (eapply ConvProofs4.mapped_fun; eauto). subst q. assert (mt = c') by (eapply at_path_fun; eauto). subst mt.
    exists c'. split; [exact L|]. split; [|split; [exact NT|]].
    + apply (proj1 (sizes_match m r m' rm g h W W' K K' NO F HANDLED sv (loc_names s) c (loc_names t) c' (loc_idx t) s t c c' in_sorted AP KC KP AQ FA Ls L NE NT eq_refl eq_refl EI eq_refl)). exact IS.
    + rewrite <- EI. destruct x as [y|k]; cbn [item_of] in IT |- *.
      * destruct IT as (dt & nd & KL & V & FV). exists dt, nd. split; [congruence|]. split; [|exact FV]. rewrite <- V. eapply val_eq; eauto using in_sorted.
      * destruct IT as (KL & V & FV). split; [congruence|]. split; [|exact FV]. rewrite <- V. eapply size_eq; eauto using in_sorted.
Qed.
End Whole.

(** The time mode: the metadata matters only by its type. *)
Lemma validate_kind : forall r units units' g h v p c c', mkind c = mkind c' -> units p = units' p -> validate_variable r units g h v p c = validate_variable r units' g h v p c'.
Proof. intros r units units' g h v p c c' E U. unfold validate_variable, validate_sparsity, ndim. now rewrite E, U. Qed.
Lemma mode_same : forall m m' r units units' g c c', wf_meta m -> wf_meta m' -> at_path m HOMOGENEOUS_TIME c -> at_path m' HOMOGENEOUS_TIME c' -> mkind c = mkind c' -> units HOMOGENEOUS_TIME = units' HOMOGENEOUS_TIME ->
  read_homogeneous m' r units' g = read_homogeneous m r units g.
Proof.
  intros m m' r units units' g c c' W W' A A' E U. unfold read_homogeneous. rewrite (proj2 (meta_at_path _ m c W) A), (proj2 (meta_at_path _ m' c' W') A'). 
  destruct (get_var g (dotted HOMOGENEOUS_TIME)) as [v|]; auto. now rewrite (validate_kind r units' units g true v HOMOGENEOUS_TIME c' c).
Qed.
Lemma valid_dims : forall m r units g h, wf_meta m -> validate_variables m r units g h = Ok tt ->
  forall v c dt nd, In v (g_vars g) -> at_path m (pv v) c -> mkind c = KLeaf dt nd -> v_dims v = get_dimensions r h (pv v).
Proof.
  intros m r units g h W V v c dt nd I A KC. unfold validate_variables in V. destruct (all_ok (validate_shape g) (g_shapes g)); [|discriminate]. cbn [rbind] in V.
  pose proof (NcFileProps.all_ok_inv _ _ _ V v I) as Q. unfold validate_var, var_meta in Q. fold (pv v) in Q. rewrite (proj2 (meta_at_path (pv v) m c W) A) in Q. cbn [option_map] in Q.
  unfold validate_variable in Q. rewrite KC in Q. destruct (v_type v) as [t|]; [|discriminate]. destruct (dtype_dec t dt); [|discriminate]. destruct (dims_dec (v_dims v) (get_dimensions r h (pv v))); [exact e0|discriminate].
Qed.
Lemma str_ok_at : forall m p c, str_ok m -> at_path m p c -> str_ok c.
Proof. intros m p c S A. induction A as [m|m c p m' I A IH]; auto. apply IH. inversion S as [? ? ? _ H]; subst. auto. Qed.
Lemma str_dims : forall m, str_ok m -> forall p c nd, at_path m p c -> mkind c = KLeaf STR nd -> nd <= 1.
Proof. intros m S p c nd A E. pose proof (str_ok_at _ _ _ S A) as Q. inversion Q as [? ? ? H _]; subst. apply H. exact E. Qed.
(** what is read comes from a variable *)
Lemma read_var_of : forall m r g h, wf_meta m -> mkind m = KStruct -> names_ok m -> NoDup (map v_name (g_vars g)) -> forall fs, read_vars m r g h (sorted_vars g) [] = Ok fs ->
  forall s x, holds m (NStruct fs) s x -> exists v c, In v (g_vars g) /\ pv v = loc_names s /\ at_path m (pv v) c /\ mkind c <> KStruct /\ loc_ok m s c /\ ~ is_elem s.
Proof.
  intros m r g h W K NO ND fs RV s x HS. assert (CL : clean m) by (eapply clean_m; eauto).
  apply (same_holds _ _ _ (read_all m r g W K CL h ND fs RV)) in HS.
  assert (G : NStruct (den_fields r g h (g_vars g) (mchildren m) [] []) = gen (val_at g (g_vars g)) (size_at r g h (g_vars g)) m [] []).
  { destruct m as [nm k cs]. cbn [mkind] in K. subst k. cbn [gen mchildren]. unfold den_fields. f_equal. apply map_ext. intros d. now rewrite den_gen. }
  rewrite G in HS. apply gen_holds in HS; auto. destruct HS as (c & L & _ & NE & IT). cbn [app] in IT. pose proof (item_kind _ _ _ _ _ _ IT) as KC. pose proof (loc_at_path _ _ _ L NE) as A.
  assert (IV : exists v, in_vars (g_vars g) (dotted (loc_names s)) = Some v).
  { destruct (in_vars (g_vars g) (dotted (loc_names s))) as [v|] eqn:E; eauto. exfalso. destruct x as [y|k]; cbn [item_of] in IT.
    - destruct IT as (dt & nd & _ & V & _). unfold val_at in V. rewrite E in V. discriminate.
    - destruct IT as (_ & V & V2). unfold size_at in V. rewrite E in V. lia. }
  destruct IV as (v & IV). apply in_vars_some in IV. destruct IV as [Iv E].
  assert (P : pv v = loc_names s) by (unfold pv; rewrite E; eapply pv_nodots; eauto; eapply root_names; eauto).
  exists v, c. split; [exact Iv|]. split; [exact P|]. rewrite P. auto.
Qed.
Lemma read_var_of_get : forall m r units g n, wf_meta m -> mkind m = KStruct -> names_ok m -> NoDup (map v_name (g_vars g)) -> get m r units g = Ok n ->
  forall s x, holds m n s x -> exists v c, In v (g_vars g) /\ pv v = loc_names s /\ at_path m (pv v) c /\ mkind c <> KStruct /\ loc_ok m s c /\ ~ is_elem s.
Proof.
  intros m r units g n W K NO ND G. unfold get in G. destruct (read_homogeneous m r units g) as [h|]; [|discriminate]. cbn [rbind] in G.
  destruct (validate_variables m r units g h) as [u|]; [|discriminate]. cbn [rbind] in G. destruct (read_vars m r g h (sorted_vars g) []) as [fs|] eqn:RV; [|discriminate].
  cbn [rbind] in G. assert (EN : NStruct fs = n) by congruence. rewrite <- EN. eapply read_var_of; eauto.
Qed.

