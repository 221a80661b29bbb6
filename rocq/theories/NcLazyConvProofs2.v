(** A file that is read with another version of the data dictionary: what the variables give for each node of the lazily loaded IDS. *)
From Verif Require Import Base PathSpec TreeModel TreeSpec TreeProofs ValProofs StoreProofs2 ConvSpec ConvProofs3 NcMetaModel NcMetaSpec NcMetaProofs2
  NcFileModel NcFileSpec NcFileProofs NcFileProofs2 NcFileProofs3 NcFileProofs4 NcConvModel NcConvSpec NcConvProofs NcConvProofs2 NcConvProofs3 NcConvProofs4 NcConvProofs5
  NcLazyModel NcLazyProofs NcLazyConvModel NcLazyConvSpec NcLazyConvProofs.
From Verif Require ConvProofs2 ConvProofs4 NcMetaProofs3 NcMetaProofs4 NcMetaProps NcLazyProofs2.
From Verif Require VmapModel.
From Coq Require Import Lia Permutation.
Import VmapModel(nmap).

Lemma in_sizes_app : forall size a p idx b, in_sizes size p idx (a ++ b) <-> in_sizes size p idx a /\ in_sizes size (p ++ loc_names a) (idx ++ loc_idx a) b.
Proof.
  intros size. induction a as [|[x|i] a IH]; intros p idx b; cbn [app in_sizes loc_names loc_idx flat_map].
  - rewrite !app_nil_r. tauto.
  - rewrite IH, <- app_assoc. cbn [app]. tauto.
  - rewrite IH, <- app_assoc. cbn [app]. tauto.
Qed.
(** what can be read at a location *)
Lemma readable_down : forall r g h vs c l c1, loc_ok c l c1 -> forall p idx, readable r g h vs c p idx -> in_sizes (size_at r g h vs) p idx l ->
  readable r g h vs c1 (p ++ loc_names l) (idx ++ loc_idx l).
Proof.
  intros r g h vs c l c1 L. induction L as [c|nm cs d l c1 I L IH|nm cs i l c1 L IH]; intros p idx RD IS; cbn [in_sizes loc_names loc_idx flat_map app] in *.
  - now rewrite !app_nil_r.
  - inversion RD as [|? ? ? ? RC|]; subst. specialize (IH _ _ (RC d I) IS). rewrite <- app_assoc in IH. exact IH.
  - destruct IS as [Li IS]. inversion RD as [| |? ? ? ? _ RC]; subst. specialize (IH p (idx ++ [i]) ltac:(constructor; auto) IS). rewrite <- app_assoc in IH. exact IH.
Qed.
Lemma names_app : forall a b, loc_names (a ++ b) = loc_names a ++ loc_names b. Proof. intros. apply flat_map_app. Qed.
Lemma idx_app : forall a b, loc_idx (a ++ b) = loc_idx a ++ loc_idx b. Proof. intros. apply flat_map_app. Qed.
Lemma child_not_elem : forall l x, ~ is_elem (l ++ [Child x]).
Proof. intros l x (l' & i & E). apply app_inj_tail in E. destruct E; discriminate. Qed.

Section Whole.
Variables (at_ : path -> nattr) (fuel : nat) (m : meta) (r : ncmeta) (m' : meta) (rm : nmap) (cast : meta -> value -> result fexn value) (g : group) (h : bool).
Hypothesis W : wf_meta m.
Hypothesis W' : wf_meta m'.
Hypothesis K : mkind m = KStruct.
Hypothesis K' : mkind m' = KStruct.
Hypothesis R : nc_metadata at_ fuel m = Ok r.
Hypothesis NO : names_ok m.
Hypothesis ND : NoDup (map v_name (g_vars g)).
Hypothesis F : fits m m' rm.
Hypothesis ST : forall p c nd, at_path m p c -> mkind c = KLeaf STR nd -> nd <= 1.
Hypothesis CAST : forall c dt nd v, mkind c = KLeaf dt nd -> val_ok dt nd v -> cast c v = Ok v.
Hypothesis HANDLED : forall v c, In v (g_vars g) -> at_path m (pv v) c -> mkind c <> KStruct -> skipped rm (pv v) \/ kept rm (pv v).
Hypothesis DIMS : forall v c dt nd, In v (g_vars g) -> at_path m (pv v) c -> mkind c = KLeaf dt nd -> v_dims v = get_dimensions r h (pv v).
Notation moved := (moved m rm g).
Hypothesis NEW : forall q, moved q -> forall c, ~ at_path m q c.

Notation tgt := (tgt m m' rm).
Notation src := (src m m' rm).
Notation val' := (val' m m' rm g (g_vars g)).
Notation size' := (size' m r m' rm g h (g_vars g)).

Lemma tgt_inj : forall v w q, In v (g_vars g) -> In w (g_vars g) -> tgt v = Some q -> tgt w = Some q -> v = w.
Proof.
  intros v w q I J T U. destruct (tgt_some m m' rm g W W' F HANDLED v q I T) as (c & c' & A & KC & KP & MP & _).
  destruct (tgt_some m m' rm g W W' F HANDLED w q J U) as (d & d' & B & KD & KQ & MQ & _). destruct KP as [R1 R2]. destruct KQ as [R3 R4].
  assert (E : pv v = pv w) by (apply (ft_inj _ _ _ F (pv v) (pv w) c d q); auto).
  eapply NcMetaProofs3.nodup_map_inj; eauto. rewrite <- (pv_dotted v), <- (pv_dotted w). now rewrite E.
Qed.
Lemma src_iff : forall vs q v, incl vs (g_vars g) -> (src vs q = Some v <-> In v vs /\ tgt v = Some q).
Proof.
  intros vs q v IN. split; [apply src_some|]. intros [I T]. destruct (src vs q) as [w|] eqn:E.
  - apply src_some in E. destruct E as [J U]. f_equal. eapply tgt_inj; eauto.
  - exfalso. unfold NcConvProofs3.src in E. pose proof (find_none _ _ E v I) as Q. cbn in Q. apply (goes_iff m m' rm q v) in T. congruence.
Qed.
Lemma src_sorted : forall q, src (sorted_vars g) q = src (g_vars g) q.
Proof.
  intros q. pose proof (in_sorted g) as IS. destruct (src (g_vars g) q) as [v|] eqn:E.
  - apply src_iff in E; [|apply incl_refl]. apply src_iff; [exact IS|]. destruct E as [I T]. split; auto. apply (Permutation_in _ (Permutation_sym (sorted_perm g))). exact I.
  - destruct (src (sorted_vars g) q) as [v|] eqn:E2; auto. apply src_iff in E2; [|exact IS]. destruct E2 as [I T]. assert (X : src (g_vars g) q = Some v) by (apply src_iff; [apply incl_refl|auto]). congruence.
Qed.

Lemma targets_ok : forall l acc, (forall v, In v l -> exists a b, conv_var m r m' rm cast g h v a = Ok b) ->
  exists L, lazy_targets m m' rm l acc = Ok (L ++ acc) /\ forall q v, In (q, v) L <-> In v l /\ tgt v = Some q.
Proof.
  induction l as [|v l IH]; intros acc H; cbn [lazy_targets].
  - exists []. split; [reflexivity|]. intros; cbn; tauto.
  - destruct (H v (or_introl eq_refl)) as (a & b & CV). unfold conv_var in CV. destruct (var_meta m (v_name v)) as [[p c]|] eqn:VM; [|discriminate].
    assert (H' : forall w, In w l -> exists a b, conv_var m r m' rm cast g h w a = Ok b) by (intros w I; apply H; now right).
    assert (SKIP : forall acc, tgt v = None -> exists L, lazy_targets m m' rm l acc = Ok (L ++ acc) /\ forall q w, In (q, w) L <-> In w (v :: l) /\ tgt w = Some q).
    { intros acc' T. destruct (IH acc' H') as (L & E & S). exists L. split; auto. intros q w. rewrite S. cbn [In]. split; [tauto|]. intros [[->|I] U]; [congruence|auto]. }
    destruct (match mkind c with KStruct => true | _ => false end) eqn:IK.
    { destruct (mkind c) eqn:KC; try discriminate. apply SKIP. unfold NcConvProofs3.tgt. rewrite VM, KC. reflexivity. }
    assert (TV : tgt v = match target_of m m' rm p with Ok (Some fl) => Some (map fst fl) | _ => None end) by (unfold NcConvProofs3.tgt; rewrite VM; destruct (mkind c); [discriminate|reflexivity|reflexivity]).
    assert (CV' : exists y, target_of m m' rm p = Ok y) by (destruct (mkind c); [discriminate| |]; destruct (target_of m m' rm p); cbn [rbind] in CV; eauto; discriminate). destruct CV' as (y & TO).
    rewrite TO in TV. rewrite TO. cbn [rbind].
    assert (GO : exists L, match y with Some fl => lazy_targets m m' rm l ((map fst fl, v) :: acc) | None => lazy_targets m m' rm l acc end = Ok (L ++ acc) /\ forall q w, In (q, w) L <-> In w (v :: l) /\ tgt w = Some q).
    { destruct y as [fl|]; [|apply SKIP; exact TV]. destruct (IH ((map fst fl, v) :: acc) H') as (L & E & S). exists (L ++ [(map fst fl, v)]). split; [rewrite <- app_assoc; exact E|].
      intros q w. rewrite in_app_iff, S. cbn [In]. split.
      - intros [[I U]|[E1|[]]]; [auto|]. inversion E1; subst. auto.
      - intros [[->|I] U]; [|auto]. right. left. rewrite TV in U. assert (map fst fl = q) by congruence. now subst q. }
    destruct (mkind c); [discriminate| |]; destruct y; exact GO.
Qed.
Lemma target_var_iff : forall L q v, (forall q v w, In (q, v) L -> In (q, w) L -> v = w) -> target_var L q = Some v <-> In (q, v) L.
Proof.
  intros L q v U. unfold target_var. split.
  - match goal with |- context [option_map snd ?t] => destruct t as [[q' w]|] eqn:E end; [|discriminate]. apply find_some in E. cbn [fst snd option_map] in *. destruct E as [I E]. destruct (list_eq_dec str_dec q' q) as [->|]; [|discriminate]. intros Q. inversion Q; subst. exact I.
  - intros I. match goal with |- context [option_map snd ?t] => destruct t as [[q' w]|] eqn:E end.
    + apply find_some in E. cbn [fst snd option_map] in *. destruct E as [J E]. destruct (list_eq_dec str_dec q' q) as [->|]; [|discriminate]. f_equal. eauto.
    + exfalso. pose proof (find_none _ _ E (q, v) I) as Q. cbn [fst] in Q. destruct (list_eq_dec str_dec q q); [discriminate|congruence].
Qed.

(** the map that is made finds the source of every path *)
Lemma lazy_map_src : forall fs fs', conv_vars m r m' rm cast g h (sorted_vars g) fs = Ok fs' ->
  exists L, lazy_targets m m' rm (sorted_vars g) [] = Ok L /\ forall q, target_var L q = src (g_vars g) q.
Proof.
  intros fs fs' C. pose proof (in_sorted g) as IS. destruct (targets_ok (sorted_vars g) []) as (L & E & S). { intros v I. eapply conv_vars_each; eauto. }
  rewrite app_nil_r in E. exists L. split; auto. intros q. rewrite <- src_sorted.
  assert (U : forall q v w, In (q, v) L -> In (q, w) L -> v = w). { intros q0 v w I J. apply S in I, J. destruct I, J. eapply tgt_inj; eauto. }
  destruct (src (sorted_vars g) q) as [v|] eqn:E2.
  - apply src_iff in E2; [|exact IS]. apply target_var_iff; auto. apply S. exact E2.
  - destruct (target_var L q) as [v|] eqn:E3; auto. apply target_var_iff in E3; auto. apply S in E3. apply (src_iff (sorted_vars g) q v IS) in E3. congruence.
Qed.

Lemma all_good : forall fs, read_vars m r g h (sorted_vars g) [] = Ok fs -> forall lm, (forall q, lm q = src (g_vars g) q) -> good r g h lm val' size' moved m' [] [].
Proof.
  intros fs RV lm LM. assert (CL : clean m) by (eapply clean_m; eauto).
  pose proof (all_readable m r g W K CL h ND fs RV) as RD.
  assert (SRC : forall t c' v, loc_ok m' t c' -> ~ is_elem t -> in_sizes size' [] [] t -> src (g_vars g) (loc_names t) = Some v ->
    exists c, at_path m (pv v) c /\ mkind c = mkind c' /\ mkind c <> KStruct /\ mapped rm (pv v) (loc_names t) /\ length (loc_idx t) = length (arrays m [] (pv v)) /\ readable r g h (g_vars g) c (pv v) (loc_idx t) /\ in_vars (g_vars g) (dotted (pv v)) = Some v).
  { intros t c' v L NE IS SV. pose proof (loc_at_path _ _ _ L NE) as AQ. destruct (src_some m m' rm (g_vars g) _ _ SV) as (Ig & T).
    destruct (tgt_some m m' rm g W W' F HANDLED v _ Ig T) as (c & c2 & AP & KC & KP & MP & AQ2 & EK & FA).
    assert (c2 = c') by (eapply at_path_fun; eauto). subst c2. exists c. split; auto. split; [congruence|]. split; auto. split; auto.
    assert (LL : length (loc_idx t) = length (arrays m [] (pv v))) by (rewrite (idx_arrays m' t c' W' K' L NE); symmetry; exact (Forall2_len _ _ _ _ _ FA)). split; auto.
    destruct (make_loc (pv v) m [] c (loc_idx t) W K AP LL) as (s & S1 & S2 & S3 & S4).
    pose proof (proj2 (sizes_match m r m' rm g h W W' K K' NO F HANDLED (g_vars g) (pv v) c (loc_names t) c' (loc_idx t) s t c c' (incl_refl _) AP KC KP AQ FA S1 L S4 NE S2 eq_refl S3 eq_refl) IS) as IS2.
    pose proof (readable_down r g h (g_vars g) m s c S1 [] [] RD IS2) as Q. cbn [app] in Q. rewrite S2, S3 in Q. split; [exact Q|].
    rewrite pv_dotted. destruct (in_vars (g_vars g) (v_name v)) as [w|] eqn:E; [apply in_vars_some in E; destruct E as [J E]; f_equal; eapply NcMetaProofs3.nodup_map_inj; eauto|].
    apply in_vars_none in E. exfalso. apply E. now apply List.in_map. }
  assert (X : forall c' t, loc_ok m' t c' -> ~ is_elem t -> in_sizes size' [] [] t -> good r g h lm val' size' moved c' (loc_names t) (loc_idx t)).
  { induction c' as [nm k cs IH] using meta_ind'. intros t L NE IS. destruct k as [| |dt nd].
    - constructor. intros d I. specialize (IH d I (t ++ [Child (mname d)])). rewrite names_app, idx_app in IH. cbn [loc_names loc_idx flat_map app] in IH. rewrite app_nil_r in IH. apply IH.
      + eapply loc_ok_app; eauto. constructor; auto. constructor.
      + apply child_not_elem.
      + apply in_sizes_app. split; auto. cbn. auto.
    - constructor.
      + intros v LV. rewrite LM in LV. pose proof (SRC t _ v L NE IS LV) as SR. destruct SR as (c & AP & EK & KC & MP & LL & RC & IV). cbn [mkind] in EK.
        destruct c as [nc kc cc]. cbn [mkind] in *. subst kc. inversion RC as [| |? ? ? ? RS _]; subst. destruct (RS v IV) as [kk Z].
        assert (SZ : size' (loc_names t) (loc_idx t) = kk) by (unfold NcConvProofs3.size'; now rewrite LV, Z). rewrite SZ.
        pose proof (NcLazyProofs2.lazy_size_eq r g h v (pv v) (loc_idx t) kk Z) as LZ.
        destruct (v_sparse v) eqn:SP; [left; rewrite <- LZ; unfold lazy_size; rewrite SP; reflexivity|]. destruct (path_dec (loc_names t) (pv v)) as [E|N]; [left; rewrite E; exact LZ|]. right.
        assert (MV : moved (loc_names t)). { exists v, (Meta nc KAoS cc). split; [apply (proj1 (src_some m m' rm _ _ _ LV))|]. split; auto. split; auto. split; auto. split; auto. split; auto. exact (ft_names_t _ _ _ F _ _ (loc_at_path _ _ _ L NE)). }
        split; [exact MV|]. unfold lazy_size. rewrite SP. unfold get_dimensions. rewrite (NcMetaProps.dims_none at_ m W fuel r R); [reflexivity|].
        intros c a n IN. exfalso. apply (NEW _ MV c). apply meta_at_path; auto. exact (NcMetaProofs4.meta_at_in m W _ _ _ _ IN).
      + intros LV. rewrite LM in LV. unfold NcConvProofs3.size'. now rewrite LV.
      + intros i Li d I. specialize (IH d I (t ++ [Elem i; Child (mname d)])). rewrite names_app, idx_app in IH. cbn [loc_names loc_idx flat_map app] in IH. apply IH.
        * eapply loc_ok_app; eauto. constructor. constructor; auto. constructor.
        * change [Elem i; Child (mname d)] with ([Elem i] ++ [Child (mname d)]). rewrite app_assoc. apply child_not_elem.
        * apply in_sizes_app. split; auto. cbn. auto.
    - constructor.
      + intros v LV. rewrite LM in LV. pose proof (SRC t _ v L NE IS LV) as SR. destruct SR as (c & AP & EK & KC & MP & LL & RC & IV). cbn [mkind] in EK.
        pose proof (proj1 (src_some m m' rm _ _ _ LV)) as Ig.
        assert (LEN : length (v_dims v) = length (arrays m [] (pv v)) + nd).
        { pose proof AP as M. apply (meta_at_path (pv v) m c W) in M. destruct (meta_at_below (pv v) m [] None 0 c W (split_on_nonnil _ _) M) as (a & n & B). cbn [app] in B.
          rewrite (DIMS v c dt nd Ig AP EK), (dims_length at_ fuel m r W R h (pv v) c a n B KC).
          destruct (arrays_below _ _ _ _ _ _ _ _ B W) as (tt & Et & _ & _ & En & _ & _). cbn [app] in Et. rewrite <- Et in *. unfold ndim. rewrite EK. lia. }
        destruct c as [nc kc cc]. cbn [mkind] in *. subst kc. inversion RC as [? ? ? ? ? ? RL| |]; subst. destruct (RL v IV) as [x Z].
        unfold conv_lazy_value. replace (length (v_dims v) - nd) with (length (loc_idx t)) by lia. rewrite Nat.eqb_refl, NcLazyProofs2.lazy_value_eq. unfold NcConvProofs3.val'. now rewrite LV, Z.
      + intros LV. rewrite LM in LV. unfold NcConvProofs3.val'. now rewrite LV. }
  apply (X m' []); [constructor| |exact I]. intros (l' & i & E). destruct l'; discriminate.
Qed.

(** everything together *)
Lemma conv_facts : forall fs, read_vars m r g h (sorted_vars g) [] = Ok fs -> exists fs' L,
  conv_vars m r m' rm cast g h (sorted_vars g) [] = Ok fs' /\ lazy_targets m m' rm (sorted_vars g) [] = Ok L /\
  good r g h (target_var L) val' size' moved m' [] [] /\ same m' (NStruct fs') (gen val' size' m' [] []).
Proof.
  intros fs RV. assert (CL : clean m) by (eapply clean_m; eauto).
  destruct (conv_all at_ fuel m r m' rm cast g h W W' K K' R NO ND F ST CAST HANDLED DIMS (sorted_vars g) [] [] fs []) as (fs' & C & RS); [reflexivity|apply reads_nil; auto|apply reads_nil'; auto|exact RV|].
  destruct (lazy_map_src [] fs' C) as (L & EL & SL). exists fs', L. split; [exact C|]. split; [exact EL|]. split; [eapply all_good; eauto|].
  apply (reads_ext' m r m' rm g h (sorted_vars g) (g_vars g) fs' src_sorted) in RS. unfold reads' in RS. revert RS. generalize val' size'. intros vv ss RS.
  clear - RS K' W'. destruct m' as [nm k cs]. cbn [mkind] in K'. subst k. cbn [gen]. constructor. intros c I. cbn [mchildren] in RS.
  assert (ND1 : NoDup (map mname cs)) by (inversion W'; auto). pose proof (gen_field vv ss cs [] [] c ND1 I) as GF. unfold gen_fields in GF. cbn [app] in *. rewrite GF. apply RS. exact I.
Qed.
End Whole.
