(** Conversion: everything that is copied arrives at the place given by the rename map. *)
From Verif Require Import Base PathModel PathSpec PathProofs3 TreeModel TreeSpec TreeProofs TreeProofs2 TreeProofs4 ValModel ValProofs ValProofs2 ValProofs5 PrimModel PrimSpec PrimProps ConvModel ConvSpec ConvProofs ConvProofs2 ConvProofs3.
From Verif Require VmapModel.
Import VmapModel(handler(..), nmap).

Lemma map_fst_combine : forall A B (l : list A) (l' : list B), length l = length l' -> map fst (combine l l') = l.
Proof. induction l; destruct l'; simpl; intros; try discriminate; f_equal; auto. Qed.

Section Copy.
Variables (sm tm : meta).
Variable src : node.
Variable rm : nmap.
Variable deepcopy : bool.
Variable str_of : pyval -> str.
Variable parse_float : str -> option flt.
Variable parse_cpx : str -> option (flt * flt).
Variable flt_of_int : Z -> option flt.
Variable np_cast : dtype -> pyval -> result pexn value.
Variable array_items : value -> list pyval.
Variable close : pyval -> pyval -> bool.
Variable np_int32 : flt -> result pexn Z.
Variable enum_of : list str -> option (Z -> option (str * str)).

Notation assign := (assign tm str_of parse_float parse_cpx flt_of_int np_cast array_items).
Notation resize := (resize tm).
Notation copy_item := (copy_item sm tm src rm deepcopy str_of parse_float parse_cpx flt_of_int np_cast array_items close np_int32 enum_of).
Notation copy_children := (copy_children sm tm src rm deepcopy str_of parse_float parse_cpx flt_of_int np_cast array_items close np_int32 enum_of).
Notation copy_rest := (copy_rest sm tm src rm deepcopy str_of parse_float parse_cpx flt_of_int np_cast array_items close np_int32 enum_of).
Notation copy_toplevel := (copy_toplevel sm tm src rm deepcopy str_of parse_float parse_cpx flt_of_int np_cast array_items close np_int32 enum_of).
Notation entry := (entry rm).
Notation mapped := (mapped rm).
Notation rule_at := (rule_at rm).
Notation removed := (removed rm).
Notation ruled := (ruled rm).
Notation goes_to := (goes_to tm rm).
Notation by_rule := (by_rule sm tm src rm).
Notation fval := (fval tm).
Notation fsize := (fsize tm).

Hypothesis Wsm : wf_meta sm.
Hypothesis Wtm : wf_meta tm.
Hypothesis Ksm : mkind sm = KStruct.
Hypothesis Ktm : mkind tm = KStruct.
Hypothesis Csrc : conf sm src.
Hypothesis np_same : forall dt v, typed_array dt v -> np_cast dt (PArr v) = Ok v.
Hypothesis proper : forall s nm dt cs v, node_at sm src s (Meta nm (KLeaf dt 0) cs) (NLeaf (Some v)) -> ~ empty dt v.
Hypothesis F : fits sm tm rm.

(** ** Where an item goes *)
Lemma mapped_fun : forall p q1 q2 m1 m2, mapped p q1 -> mapped p q2 -> at_path tm q1 m1 -> at_path tm q2 m2 -> q1 = q2.
Proof.
  intros p q1 q2 m1 m2 [A|(A & ->)] [B|(B & E)] P1 P2; try congruence.
  rewrite A in B. injection B as B. apply slashed_inj; auto; eapply ft_names_t; eauto.
Qed.
Lemma goes_to_path : forall s t, goes_to s t -> exists mt, at_path tm (loc_names t) mt /\ loc_ok tm t mt.
Proof. intros s t (_ & _ & NE & mt & L). exists mt. split; auto. apply loc_at_path; auto. Qed.

Definition aligned (sl tl : loc) : Prop :=
  (exists b x, sl = map Child b /\ tl = map Child x) \/
  (exists a i b ta x, sl = a ++ Elem i :: map Child b /\ goes_to a ta /\ tl = ta ++ Elem i :: map Child x).
Definition ctx (sl tl : loc) : Prop :=
  aligned sl tl /\
  ((forall a b, loc_names sl = a ++ b -> a <> [] -> entry a = None) -> (exists m, at_path tm (loc_names sl) m) -> tl = sl).

Lemma child_not_elem : forall l x, ~ is_elem (l ++ [Child x]).
Proof. intros l x (l' & i & E). apply app_inj_tail in E as (_ & E). discriminate. Qed.
Lemma names_child : forall l x, loc_names (l ++ [Child x]) = loc_names l ++ [x].
Proof. intros. rewrite names_app. reflexivity. Qed.

(** a renamed item *)
Lemma mapped_item : forall sl tl nm mi q mt n0 n' t, loc_ok sm (sl ++ [Child nm]) mi -> aligned sl tl ->
  mapped (loc_names sl ++ [nm]) q -> at_path tm q mt -> q <> [] ->
  Forall2 mapped (arrays sm [] (loc_names sl ++ [nm])) (arrays tm [] q) ->
  goto tm tl (plain q) n0 = (n', Ok t) ->
  goes_to (sl ++ [Child nm]) t /\ loc_ok tm t mt /\ aligned (sl ++ [Child nm]) t.
Proof.
  intros sl tl nm mi q mt n0 n' t L AL MP AP QN FA G.
  assert (NI : ~ is_elem (sl ++ [Child nm])) by apply child_not_elem.
  rewrite <- names_child in FA. rewrite (arrays_root _ _ _ Wsm Ksm L NI) in FA.
  destruct AL as [(b & x & -> & ->)|(a & i & b & ta & x & -> & GA & ->)].
  - apply goto_root in G. subst t.
    rewrite befores_app, befores_childs in FA. simpl in FA. inversion FA as [AR|]; subst. symmetry in AR.
    assert (LT : loc_ok tm (map Child q) mt) by (eapply arrays_none; eauto).
    split; [|split; auto].
    + split; [|split; [|split]].
      * rewrite names_child, names_childs, names_childs in *. exact MP.
      * rewrite idx_app, !idx_childs. reflexivity.
      * destruct (exists_last QN) as (q' & y & ->). rewrite map_app. apply child_not_elem.
      * exists mt. auto.
    + left. exists (b ++ [nm]), q. rewrite map_app. auto.
  - rewrite <- app_assoc in FA. simpl in FA. rewrite befores_app in FA. simpl in FA.
    rewrite (befores_app (map Child b)), befores_childs in FA. simpl in FA. rewrite map_app in FA. simpl in FA.
    apply Forall2_app_inv_l in FA as (A1 & A2 & _ & F2 & AE). inversion F2 as [|? qa ? ? MQ F3]; subst. inversion F3; subst.
    destruct (arrays_last _ _ _ _ _ _ Wtm AP AE) as (q0 & q1 & ma & -> & -> & N0 & N1 & P0 & KA & P1 & AN). simpl in *.
    destruct (goes_to_path _ _ GA) as (mta & PA & LA). destruct GA as (MA & IA & NA & _).
    assert (q0 = loc_names ta) as -> by (eapply mapped_fun; eauto).
    assert (mta = ma) as -> by (eapply at_path_fun; eauto).
    apply goto_elem in G. subst t.
    assert (LT : loc_ok tm (ta ++ Elem i :: map Child q1) mt).
    { eapply loc_ok_app; [exact LA|]. destruct ma as [nma ka csa]. simpl in KA. subst ka. constructor.
      eapply arrays_none; eauto.
      - eapply wf_struct. eapply at_path_wf; [|exact P0]. exact Wtm.
      - destruct q1 as [|y q1]; [congruence|]. apply (at_path_body (Meta nma KAoS csa)). exact P1.
      - rewrite <- AN. apply (arrays_body (Meta nma KAoS csa)). }
    split; [|split; auto].
    + split; [|split; [|split]].
      * rewrite names_child. rewrite (names_app ta). simpl. rewrite (names_childs q1). exact MP.
      * rewrite <- app_assoc, !idx_app. f_equal; auto. change ((i :: loc_idx (map Child b)) ++ [] = i :: loc_idx (map Child q1)). rewrite !idx_childs. reflexivity.
      * destruct (exists_last N1) as (q' & y & ->). rewrite map_app. simpl. change (ta ++ Elem i :: map Child q' ++ [Child y]) with (ta ++ (Elem i :: map Child q') ++ [Child y]).
        rewrite app_assoc. apply child_not_elem.
      * exists mt. auto.
    + right. exists a, i, (b ++ [nm]), ta, q1. rewrite map_app, <- app_assoc. split; auto. split; auto.
      split; [|split; [|split]]; auto. exists ma. auto.
Qed.
Lemma aligned_child : forall sl tl nm, aligned sl tl -> aligned (sl ++ [Child nm]) (tl ++ [Child nm]).
Proof.
  intros sl tl nm [(b & x & -> & ->)|(a & i & b & ta & x & -> & GA & ->)].
  - left. exists (b ++ [nm]), (x ++ [nm]). rewrite !map_app. auto.
  - right. exists a, i, (b ++ [nm]), ta, (x ++ [nm]). rewrite !map_app, <- !app_assoc. auto.
Qed.
Lemma aligned_same : forall sl tl nm, aligned sl tl -> aligned (sl ++ [Child nm]) tl.
Proof.
  intros sl tl nm [(b & x & -> & ->)|(a & i & b & ta & x & -> & GA & ->)].
  - left. exists (b ++ [nm]), x. rewrite !map_app. auto.
  - right. exists a, i, (b ++ [nm]), ta, x. rewrite !map_app, <- !app_assoc. auto.
Qed.
Lemma loc_children : forall l m, loc_ok tm l m -> forall m1, at_path tm (loc_names l) m1 -> mchildren m = mchildren m1.
Proof.
  intros l m L m1 P. destruct l as [|x l] using rev_ind.
  - inversion L; subst. inversion P; subst. reflexivity.
  - clear IHl. destruct x as [x|i].
    + apply loc_at_path in L; [|apply child_not_elem]. f_equal. eapply at_path_fun; eauto.
    + apply loc_at_path_elem in L as (m2 & L2 & _ & -> & NE); auto. rewrite names_elem in P. simpl. f_equal. apply loc_at_path in L2; auto. eapply at_path_fun; eauto.
Qed.

Theorem item_target : forall sl tl c n s s' t,
  node_at sm src (sl ++ [Child (mname c)]) c n -> ~ removed (loc_names sl ++ [mname c]) -> ~ ruled (loc_names sl) -> ctx sl tl ->
  target_item tm rm (path_string (sl ++ [Child (mname c)])) (mname c) tl s = (s', Ok (Some t)) ->
  ctx (sl ++ [Child (mname c)]) t /\
  (mkind c <> KStruct \/ rule_at (loc_names sl ++ [mname c]) ->
   goes_to (sl ++ [Child (mname c)]) t /\ exists mt, loc_ok tm t mt /\ (~ rule_at (loc_names sl ++ [mname c]) -> mkind mt = mkind c)).
Proof.
  intros sl tl c n s s' t NA NR NU (AL & PL) TI.
  pose proof (node_at_loc_ok _ _ _ _ _ NA) as LI.
  pose proof (loc_at_path _ _ _ LI (child_not_elem _ _)) as API. rewrite names_child in API.
  set (p := loc_names sl ++ [mname c]) in *.
  assert (PN : p <> []) by (unfold p; destruct (loc_names sl); discriminate).
  assert (NRA : forall a b, p = a ++ b -> b <> [] -> a <> [] -> ~ rule_at a).
  { intros a b E NB Na RA. apply NU. destruct (exists_last NB) as (b' & y & ->). unfold p in E. rewrite app_assoc in E. apply app_inj_tail in E as (E & _).
    exists a, b'. auto. }
  unfold target_item in TI. unfold path_string in TI. rewrite names_child in TI. fold p in TI. change (join_with "/" p) with (slashed p) in TI.
  change (alookup (slashed p) (VmapModel.m_path rm)) with (entry p) in TI.
  destruct (entry p) as [[q'|]|] eqn:EN.
  - (* renamed *)
    destruct (ft_target _ _ _ F p c API PN NR NRA) as (q & mt & MP & QN & AQ & KQ & FQ); [right; right; congruence|].
    assert (q' = slashed q) as -> by (destruct MP as [M|(M & _)]; congruence).
    rewrite (parse_plain q) in TI; [|auto|eapply ft_names_t; eauto].
    unfold cbind, lift in TI. destruct (goto tm tl (plain q) (c_tree s)) as [n1 [t'|]] eqn:G; simpl in TI; [|discriminate].
    injection TI as <- <-.
    destruct (mapped_item sl tl (mname c) c q mt _ _ _ LI AL MP AQ QN FQ G) as (GT & LT & AT).
    split; [split; auto|].
    + intros Hn _. exfalso. rewrite names_child in Hn. specialize (Hn p []). rewrite app_nil_r in Hn. specialize (Hn eq_refl PN). congruence.
    + intros _. split; auto. exists mt. auto.
  - discriminate.
  - (* not renamed *)
    unfold cbind, cview, lift, view in TI. simpl in TI. destruct (info_at tm (c_tree s) tl) as [i|] eqn:IN; simpl in TI; [|discriminate].
    destruct i as [cs|k|nd v]; [|discriminate..].
    assert (CS : exists mtl, loc_ok tm tl mtl /\ mkind mtl = KStruct /\ mchildren mtl = cs).
    { unfold info_at in IN. destruct (look tm (c_tree s) tl) as [[m1 n1]|] eqn:LK; [|discriminate]. exists m1. split; [eapply look_loc_ok; eauto|].
      destruct m1 as [nm1 [| |dt nd] cs1], n1; simpl in *; try discriminate. injection IN as <-. auto. }
    destruct CS as (mtl & LTL & KTL & CTL).
    assert (IDP : (forall a b, p = a ++ b -> a <> [] -> entry a = None) -> (exists m, at_path tm p m) ->
                  t = sl ++ [Child (mname c)] /\ loc_ok tm t (match child_meta (mname c) cs with Some d => d | None => tm end)
                  /\ exists d, child_meta (mname c) cs = Some d).
    { intros HA (m & HP). unfold p in HP. apply at_path_split in HP as (m1 & P1 & P2).
      assert (tl = sl) as ->.
      { apply PL; [|exists m1; auto]. intros a b E Na. apply (HA a (b ++ [mname c])); auto. unfold p. rewrite E, app_assoc. reflexivity. }
      pose proof (loc_children _ _ LTL _ P1) as CH. apply at_path_inv in P2 as (d & ID & ND & _).
      assert (CM : child_meta (mname c) cs = Some d).
      { apply child_meta_iff; [|split; auto; congruence]. rewrite <- CTL, CH. apply wf_nodup. eapply at_path_wf; eauto. }
      rewrite CM in *. destruct (getattr tm sl (mname c) _) as [s1 [a|]] eqn:G; simpl in TI; [|discriminate]. injection TI as <- <-.
      apply getattr_loc in G. subst a. split; auto. split; [|eauto].
      eapply loc_ok_app; [exact LTL|]. destruct mtl as [nmt kt cst]. simpl in KTL, CTL. subst kt cst. rewrite <- ND. constructor; [|constructor].
      apply child_meta_Some in CM as (I & _). exact I. }
    split; [split|].
    + destruct (child_meta (mname c) cs).
      * destruct (getattr tm tl (mname c) _) as [s1 [a|]] eqn:G; simpl in TI; [|discriminate]. injection TI as <- <-. apply getattr_loc in G. subst a.
        apply aligned_child; auto.
      * injection TI as <- <-. apply aligned_same; auto.
    + rewrite names_child. fold p. intros HA HP. apply IDP; auto.
    + intros OR.
      assert (HA : forall a b, p = a ++ b -> a <> [] -> entry a = None).
      { eapply ft_plain; eauto. }
      destruct (ft_target _ _ _ F p c API PN NR NRA) as (q & mt & MP & QN & AQ & KQ & FQ); [tauto|].
      assert (q = p) as -> by (destruct MP as [M|(_ & M)]; congruence).
      destruct IDP as (-> & LT & d & CM); eauto. rewrite CM in LT. split.
      * split; [right; rewrite names_child; auto|]. split; auto. split; [apply child_not_elem|eauto].
      * exists d. split; auto. intros NRU. rewrite <- (KQ NRU). f_equal.
        apply loc_at_path in LT; [|apply child_not_elem]. rewrite names_child in LT. eapply at_path_fun; eauto.
Qed.

(** ** Items of the source *)
Definition present (s : loc) : Prop := (exists v, leaf_at sm src s v) \/ (exists k, aos_at sm src s k).
Definition good (s : loc) : Prop := ~ removed (loc_names s) /\ ~ ruled (loc_names s).
Lemma present_meta : forall s, present s -> exists m' n', node_at sm src s m' n' /\ mkind m' <> KStruct /\ ~ is_elem s /\ s <> [] /\ loc_names s <> [] /\
  at_path sm (loc_names s) m' /\ loc_ok sm s m'.
Proof.
  intros s PR.
  assert (H : exists m' n', node_at sm src s m' n' /\ mkind m' <> KStruct).
  { destruct PR as [(v & m' & (dt & nd & K) & N & _)|(k & m' & els & N & K & _)]; exists m'; eexists; split; eauto; rewrite K; discriminate. }
  destruct H as (m' & n' & N & K). exists m', n'. pose proof (node_at_loc_ok _ _ _ _ _ N) as L.
  assert (NE : ~ is_elem s).
  { intros (l & i & ->). apply loc_at_path_elem in L as (m1 & _ & _ & -> & _); auto. }
  assert (NN : s <> []) by (intros ->; inversion L; subst; congruence).
  split; auto. split; auto. split; auto. split; auto. split; [|split; auto; apply loc_at_path; auto].
  destruct s as [|[x|i] s]; [congruence|discriminate|]. apply loc_ok_elem in L as (nm & cs & E & _). pose proof Ksm as K2. rewrite E in K2. discriminate.
Qed.
Lemma goes_fun : forall s t1 t2, goes_to s t1 -> goes_to s t2 -> t1 = t2.
Proof.
  intros s t1 t2 G1 G2. destruct (goes_to_path _ _ G1) as (m1 & P1 & L1), (goes_to_path _ _ G2) as (m2 & P2 & L2).
  destruct G1 as (M1 & I1 & _), G2 as (M2 & I2 & _).
  eapply loc_unique; eauto; [eapply mapped_fun; eauto|congruence].
Qed.
Lemma goes_inj : forall s1 s2 t, present s1 -> present s2 -> good s1 -> good s2 -> goes_to s1 t -> goes_to s2 t -> s1 = s2.
Proof.
  intros s1 s2 t P1 P2 (R1 & U1) (R2 & U2) (M1 & I1 & _) (M2 & I2 & _).
  destruct (present_meta _ P1) as (m1 & n1 & N1 & K1 & _ & _ & _ & A1 & L1), (present_meta _ P2) as (m2 & n2 & N2 & K2 & _ & _ & _ & A2 & L2).
  eapply loc_unique; [exact Wsm|exact L1|exact L2| |congruence].
  eapply ft_inj; [exact F|exact A1|exact A2|exact K1|exact K2|auto..]; eauto.
Qed.
Lemma good_up : forall a b, good (a ++ b) -> good a.
Proof.
  intros a b (R & U). rewrite names_app in R, U. split; intros (x & y & E & NX & H).
  - apply R. exists x, (y ++ loc_names b). rewrite E, <- app_assoc. auto.
  - apply U. exists x, (y ++ loc_names b). rewrite E, <- app_assoc. auto.
Qed.
Lemma not_ruled_above : forall p, ~ ruled p -> forall a b, p = a ++ b -> b <> [] -> a <> [] -> ~ rule_at a.
Proof. intros p NU a b E NB NA RA. apply NU. exists a, b. auto. Qed.
Lemma not_ruled_at : forall p, ~ ruled p -> p <> [] -> ~ rule_at p.
Proof. intros p NU NE RA. apply NU. exists p, []. rewrite app_nil_r. auto. Qed.

(** whatever goes inside the target of an array comes from inside the array *)
Lemma inside_array : forall s0 t0 s t k0, aos_at sm src s0 k0 -> present s -> good s0 -> good s -> goes_to s0 t0 -> goes_to s t -> within t0 t -> within s0 s.
Proof.
  intros s0 t0 s t k0 A0 PS G0 GS T0 T1 (r & E). pose proof (or_intror (ex_intro _ k0 A0) : present s0) as P0.
  destruct r as [|x r]. { rewrite app_nil_r in E. subst t. rewrite (goes_inj s0 s t0); auto with conv. }
  destruct (present_meta _ P0) as (m0 & n0 & N0 & K0 & _ & _ & NN0 & AP0 & L0), (present_meta _ PS) as (m1 & n1 & N1 & K1 & NE1 & _ & NN1 & AP1 & L1).
  destruct G0 as (R0 & U0). destruct GS as (R1 & U1).
  destruct (ft_target _ _ _ F _ _ AP0 NN0 R0 (not_ruled_above _ U0) (or_introl K0)) as (q0 & mq0 & MQ0 & QN0 & AQ0 & KQ0 & _).
  destruct (ft_target _ _ _ F _ _ AP1 NN1 R1 (not_ruled_above _ U1) (or_introl K1)) as (q & mq & MQ & QN & AQ & _ & FQ).
  destruct (goes_to_path _ _ T0) as (mt0 & PT0 & LT0), (goes_to_path _ _ T1) as (mt & PT & LT).
  destruct T0 as (M0 & I0 & NT0 & _), T1 as (M1 & I1 & NT1 & _).
  assert (q = loc_names t) as -> by (eapply mapped_fun; eauto).
  assert (q0 = loc_names t0) as -> by (eapply mapped_fun; eauto).
  assert (mt0 = mq0) as -> by (eapply at_path_fun; eauto).
  assert (KT0 : mkind mq0 = KAoS).
  { rewrite (KQ0 (not_ruled_at _ U0 NN0)). destruct A0 as (m' & els & NA & K & _). destruct (node_at_inj _ _ _ _ _ N0 Wsm _ _ NA) as (-> & _). exact K. }
  (* t0 is one of the arrays that contain t *)
  subst t. assert (x' : exists j, x = Elem j).
  { apply loc_ok_split in LT as (m2 & LA & LB). assert (m2 = mq0) as ->.
    { apply loc_at_path in LA; auto. eapply at_path_fun; eauto. }
    inversion LB; subst; [simpl in KT0; discriminate|eauto]. }
  destruct x' as (j & ->).
  assert (NB : nth_error (befores [] (t0 ++ Elem j :: r)) (length (loc_idx t0)) = Some t0).
  { rewrite befores_app, nth_error_app2 by (rewrite befores_len; auto). rewrite befores_len, Nat.sub_diag. reflexivity. }
  rewrite (arrays_root _ _ _ Wsm Ksm L1 NE1), (arrays_root _ _ _ Wtm Ktm LT NT1) in FQ.
  assert (NA : exists a, nth_error (befores [] s) (length (loc_idx t0)) = Some a /\ mapped (loc_names a) (loc_names t0)).
  { assert (LEN : length (map loc_names (befores [] s)) = length (map loc_names (befores [] (t0 ++ Elem j :: r)))) by (clear - FQ; induction FQ; simpl; congruence). rewrite !map_length in LEN.
    destruct (nth_error (befores [] s) (length (loc_idx t0))) as [a|] eqn:NS.
    - exists a. split; auto.
      assert (H : forall (l1 l2 : list (list str)) k x y, Forall2 mapped l1 l2 -> nth_error l1 k = Some x -> nth_error l2 k = Some y -> mapped x y).
      { clear. intros l1 l2 k x y FF. revert k. induction FF; intros [|k] X Y; simpl in *; try discriminate; eauto. congruence. }
      eapply (H _ _ (length (loc_idx t0))); [exact FQ| |]; apply map_nth_error; auto.
    - exfalso. apply nth_error_None in NS. assert (nth_error (befores [] (t0 ++ Elem j :: r)) (length (loc_idx t0)) <> None) by congruence.
      apply nth_error_Some in H. lia. }
  destruct NA as (a & NA & MA). apply befores_nth in NA as (i & rest & ES & IA & _). simpl in ES, IA. subst s.
  apply loc_ok_split in L1 as (ma & LA & LE). assert (KA : mkind ma = KAoS) by (inversion LE; reflexivity).
  assert (NEA : ~ is_elem a).
  { intros (l & j' & ->). apply loc_at_path_elem in LA as (m2 & _ & _ & -> & _); auto. discriminate. }
  assert (GA : good a) by (eapply good_up; split; [exact R1|exact U1]). destruct GA as (RA & UA).
  assert (a = s0) as ->; [|exists (Elem i :: rest); reflexivity].
  eapply loc_unique; [exact Wsm|exact LA|exact L0| |].
  - eapply ft_inj; [exact F|apply loc_at_path; eauto|exact AP0|rewrite KA; discriminate|auto..]; eauto.
  - rewrite IA, I1, idx_app, firstn_app, firstn_all, Nat.sub_diag. simpl. rewrite app_nil_r. auto.
Qed.

(** ** What has been copied *)
Variable tgt0 : node.
Definition J (P : loc -> Prop) (n : node) : Prop :=
  (forall s v t, P s -> leaf_at sm src s v -> good s -> goes_to s t -> ~ by_rule t -> fval n t = Some v) /\
  (forall s k t, P s -> aos_at sm src s k -> good s -> goes_to s t -> ~ by_rule t -> fsize n t = Some k) /\
  (forall t v, fval n t = Some v -> (exists s, P s /\ leaf_at sm src s v /\ good s /\ goes_to s t) \/ by_rule t \/ fval tgt0 t = Some v) /\
  (forall t k, fsize n t = Some (S k) -> (exists s, P s /\ aos_at sm src s (S k) /\ good s /\ goes_to s t) \/ by_rule t \/ fsize tgt0 t = Some (S k)).
Lemma J_start : J (fun _ => False) tgt0.
Proof. repeat split; intros; try contradiction; auto. Qed.
Lemma J_ext : forall (P P' : loc -> Prop) n, (forall s, P' s -> present s -> good s -> P s) -> (forall s, P s -> P' s) -> J P n -> J P' n.
Proof.
  intros P P' n H1 H2 (A & B & C & D). repeat split.
  - intros s v t PS LA G. apply A; auto. apply H1; auto. left; eauto.
  - intros s k t PS LA G. apply B; auto. apply H1; auto. right; eauto.
  - intros t v E. destruct (C t v E) as [(s & X & Y)|X]; eauto.
  - intros t k E. destruct (D t k E) as [(s & X & Y)|X]; eauto.
Qed.
Lemma J_obs : forall P n n', same_obs tm n n' -> J P n -> J P n'.
Proof.
  intros P n n' O (A & B & C & D). split; [|split; [|split]]; intros; destruct (O t) as (O1 & O2); rewrite ?O1, ?O2 in *; eauto.
Qed.
Lemma J_rule : forall P n n' t0, (forall l, reach t0 l -> by_rule l) -> R_frame tm (reach t0) n n' -> J P n -> J P n'.
Proof.
  intros P n n' t0 BR FR (A & B & C & D). split; [|split; [|split]].
  - intros s v t PS LA G GT NB. destruct (FR t) as (-> & _); eauto.
  - intros s k t PS LA G GT NB. destruct (FR t) as (_ & ->); eauto.
  - intros t v E. assert (DEC : reach t0 t \/ ~ reach t0 t).
    { destruct (within_dec t0 t); [left; left; auto|]. destruct (loc_dec t (removelast t0 ++ [Child (strs "closed")])); [left; right; auto|].
      right. intros [X|X]; auto. }
    destruct DEC as [X|X]; [right; left; auto|]. destruct (FR t X) as (E2 & _). rewrite E2 in E. auto.
  - intros t k E. assert (DEC : reach t0 t \/ ~ reach t0 t).
    { destruct (within_dec t0 t); [left; left; auto|]. destruct (loc_dec t (removelast t0 ++ [Child (strs "closed")])); [left; right; auto|].
      right. intros [X|X]; auto. }
    destruct DEC as [X|X]; [right; left; auto|]. destruct (FR t X) as (_ & E2). rewrite E2 in E. auto.
Qed.

(** *** a data node *)
Lemma loc_ok_fun : forall m l m1, wf_meta m -> loc_ok m l m1 -> forall m2, loc_ok m l m2 -> m1 = m2.
Proof.
  intros m l m1 W H. induction H as [m|nm cs c l m' I H IH|nm cs i l m' H IH]; intros m2 H2; inversion H2; subst; auto.
  - assert (c0 = c) as -> by (inversion W; subst; eapply nodup_name; eauto). apply IH; auto. inversion W; subst; auto.
  - apply IH; auto. eapply wf_struct; eauto.
Qed.
Lemma cast_same : forall dt nd v, val_ok dt nd v ->
  assigned str_of parse_float parse_cpx flt_of_int np_cast array_items dt nd (of_value v) = Ok v.
Proof.
  intros dt nd v H. destruct H; simpl; try reflexivity.
  - unfold cast_list. simpl. replace (cast_strs str_of (map PStr l)) with (Ok (E := pexn) l); auto. induction l as [|x l IH]; simpl; auto. rewrite <- IH. reflexivity.
  - destruct sh; [congruence|]. unfold cast_value, cast_array. rewrite np_same by (constructor; auto). simpl. rewrite Nat.eqb_refl. reflexivity.
  - destruct sh; [congruence|]. unfold cast_value, cast_array. rewrite np_same by (constructor; auto). simpl. rewrite Nat.eqb_refl. reflexivity.
  - destruct sh; [congruence|]. unfold cast_value, cast_array. rewrite np_same by (constructor; auto). simpl. rewrite Nat.eqb_refl. reflexivity.
Qed.
Lemma assign_same : forall t from v st st' mt dt nd, assign t from (of_value v) st = (st', Ok tt) -> loc_ok tm t mt -> mkind mt = KLeaf dt nd ->
  val_ok dt nd v -> (nd = 0 -> ~ empty dt v) -> leaf_has_value nd (Some v) = true ->
  fval (c_tree st') t = Some v /\ fsize (c_tree st') t = None /\
  forall q, q <> t -> fval (c_tree st') q = fval (c_tree st) q /\ fsize (c_tree st') q = fsize (c_tree st) q.
Proof.
  intros t from v st st' mt dt nd H LT KT VO NEM HV. unfold ConvModel.assign in H.
  destruct (look tm (c_tree st) t) as [[m' n']|] eqn:L; [|discriminate].
  assert (m' = mt) as -> by (eapply loc_ok_fun; eauto using look_loc_ok).
  destruct mt as [nm k cs]. simpl in KT. subst k. destruct n' as [fs|els|old]; try discriminate.
  unfold set_value in H. rewrite (cast_same _ _ _ VO) in H.
  assert (EM : (nd =? 0) && is_empty dt v = false).
  { destruct nd; auto. simpl. destruct (is_empty dt v) eqn:E; auto. apply is_empty_spec in E. exfalso. apply NEM; auto. }
  rewrite EM in H. simpl in H. injection H as <-. simpl. split; [|split].
  - unfold ConvProofs.fval. rewrite <- (app_nil_r t) at 2. rewrite (look_update _ _ _ _ [] _ _ L). cbn -[leaf_has_value]. rewrite HV. reflexivity.
  - unfold ConvProofs.fsize. rewrite <- (app_nil_r t) at 2. rewrite (look_update _ _ _ _ [] _ _ L). reflexivity.
  - intros q NQ. eapply obs_set_leaf; eauto.
Qed.
Lemma leaf_at_has : forall m v dt nd, conf m (NLeaf (Some v)) -> mkind m = KLeaf dt nd -> filled_value v -> val_ok dt nd v /\ leaf_has_value nd (Some v) = true.
Proof.
  intros m v dt nd C K FV. inversion C; subst; simpl in *. injection K as -> ->. split; auto.
  unfold leaf_has_value, leaf_size. destruct nd; auto. apply Nat.ltb_lt.
  match goal with H : val_ok _ _ _ |- _ => inversion H; subst; simpl in *; auto end;
    try match goal with H : ?l <> [] |- 0 < length ?l => destruct l; [congruence|simpl; lia] end;
    match goal with H : prod _ = length ?d, H2 : ?d <> [] |- _ => rewrite H; destruct d; [congruence|simpl; lia] end.
Qed.

(** *** an array of structures *)
Lemma fresh : forall r m, ConvProofs.fval m (new_node m) r = None /\ (ConvProofs.fsize m (new_node m) r = None \/ ConvProofs.fsize m (new_node m) r = Some 0).
Proof.
  induction r as [|[x|i] r IH]; intros [nm [| |dt nd] cs]; unfold new_node; simpl; auto; unfold ConvProofs.fval, ConvProofs.fsize; simpl; auto.
  - destruct (child_meta x cs) as [c|] eqn:CM; auto. unfold child_or_new. simpl. apply IH.
  - destruct i; auto.
Qed.
Lemma resize_obs : forall t k st st', resize t k st = (st', Ok tt) ->
  fsize (c_tree st') t = Some k /\ fval (c_tree st') t = None /\
  (forall x r, fval (c_tree st') (t ++ x :: r) = None /\ (fsize (c_tree st') (t ++ x :: r) = None \/ fsize (c_tree st') (t ++ x :: r) = Some 0)) /\
  (forall q, ~ within t q -> fval (c_tree st') q = fval (c_tree st) q /\ fsize (c_tree st') q = fsize (c_tree st) q).
Proof.
  intros t k st st' H. unfold ConvModel.resize in H. destruct (look tm (c_tree st) t) as [[[nm [| |dt nd] cs] [fs|els|old]]|] eqn:L; try discriminate.
  injection H as <-. simpl. split; [|split; [|split]].
  - unfold ConvProofs.fsize. rewrite <- (app_nil_r t) at 2. rewrite (look_update _ _ _ _ [] _ _ L). simpl. rewrite repeat_length. reflexivity.
  - unfold ConvProofs.fval. rewrite <- (app_nil_r t) at 2. rewrite (look_update _ _ _ _ [] _ _ L). reflexivity.
  - intros x r. unfold ConvProofs.fval, ConvProofs.fsize. rewrite (look_update _ _ _ _ (x :: r) _ _ L). simpl. destruct x as [x|i]; auto.
    destruct (nth_error (repeat (NStruct []) k) i) as [e|] eqn:NE; auto. apply nth_error_In, repeat_spec in NE. subst e.
    apply (fresh r (Meta nm KStruct cs)).
  - intros q NQ. apply obs_update; auto.
Qed.

(** *** the loops *)
Lemma prefix_last : forall (a b p : list str) x, p ++ [x] = a ++ b -> a <> [] -> (exists b', p = a ++ b') \/ (a = p ++ [x] /\ b = []).
Proof.
  intros a b p x E NA. destruct b as [|y b] using rev_ind.
  - right. rewrite app_nil_r in E. auto.
  - left. rewrite app_assoc in E. apply app_inj_tail in E as (E & _). eauto.
Qed.
Lemma removed_child : forall p x, removed (p ++ [x]) -> removed p \/ entry (p ++ [x]) = Some None.
Proof.
  intros p x (a & b & E & NA & H). destruct (prefix_last _ _ _ _ E NA) as [(b' & ->)|(-> & _)]; auto. left. exists a, b'. auto.
Qed.
Lemma ruled_child : forall p x, ruled (p ++ [x]) -> ruled p \/ rule_at (p ++ [x]).
Proof.
  intros p x (a & b & E & NA & H). destruct (prefix_last _ _ _ _ E NA) as [(b' & ->)|(-> & _)]; auto. left. exists a, b'. auto.
Qed.
Lemma removed_more : forall p q, removed p -> removed (p ++ q).
Proof. intros p q (a & b & -> & NA & H). exists a, (b ++ q). rewrite <- app_assoc. auto. Qed.
Lemma ruled_more : forall p q, ruled p -> ruled (p ++ q).
Proof. intros p q (a & b & -> & NA & H). exists a, (b ++ q). rewrite <- app_assoc. auto. Qed.
Lemma within_good : forall a b, within a b -> good b -> good a. Proof. intros a b (r & ->). apply good_up. Qed.

Lemma loc_wf : forall m l m', wf_meta m -> loc_ok m l m' -> wf_meta m'.
Proof. intros m l m' W H. induction H; auto; apply IHloc_ok. - inversion W; subst; auto. - eapply wf_struct; eauto. Qed.

Definition copies (c : meta) : Prop := forall n sl tl P st st',
  node_at sm src (sl ++ [Child (mname c)]) c n -> has_value c n = true -> ctx sl tl -> ~ ruled (loc_names sl) -> ~ removed (loc_names sl) ->
  J P (c_tree st) -> (forall s, P s -> ~ within (sl ++ [Child (mname c)]) s) ->
  copy_item c n (sl ++ [Child (mname c)]) tl st = (st', Ok tt) ->
  J (fun s => P s \/ within (sl ++ [Child (mname c)]) s) (c_tree st').

Lemma bind_ok : forall A B (c : CM A) (f : A -> CM B) s s' b, cbind c f s = (s', Ok b) -> exists a s1, c s = (s1, Ok a) /\ f a s1 = (s', Ok b).
Proof. intros A B c f s s' b. unfold cbind. destruct (c s) as [s1 [a|e]]; [eauto|discriminate]. Qed.

Lemma kids : forall nm cs fs sl tl, (forall d, In d cs -> copies d) -> node_at sm src sl (Meta nm KStruct cs) (NStruct fs) -> ctx sl tl ->
  ~ ruled (loc_names sl) -> ~ removed (loc_names sl) ->
  forall P st st', J P (c_tree st) -> (forall s, P s -> ~ within sl s) -> copy_children cs fs sl tl st = (st', Ok tt) ->
  J (fun s => P s \/ within sl s) (c_tree st').
Proof.
  intros nm cs fs sl tl IH NA CT NU NR.
  assert (WM : wf_meta (Meta nm KStruct cs)).
  { eapply loc_wf; [exact Wsm|eapply node_at_loc_ok; exact NA]. }
  assert (CF : conf (Meta nm KStruct cs) (NStruct fs)) by (eapply node_at_conf; eauto).
  assert (L : forall ds, incl ds cs -> NoDup (map mname ds) -> forall P st st', J P (c_tree st) ->
    (forall s d, P s -> In d ds -> ~ within (sl ++ [Child (mname d)]) s) -> copy_children ds fs sl tl st = (st', Ok tt) ->
    J (fun s => P s \/ exists d, In d ds /\ within (sl ++ [Child (mname d)]) s) (c_tree st')).
  { induction ds as [|d ds IHd]; intros IN ND P st st' HJ DJ RUN.
    - unfold ConvProofs2.copy_children in RUN. simpl in RUN. injection RUN as <-. eapply J_ext; [| |exact HJ]; auto.
      intros s [H|(d & [] & _)]; auto.
    - unfold ConvProofs2.copy_children in RUN. simpl in RUN. apply bind_ok in RUN as ([] & s1 & R1 & R2).
      inversion ND as [|? ? ND1 ND2]; subst. assert (ID : In d cs) by (apply IN; left; auto).
      assert (J1 : J (fun s => P s \/ within (sl ++ [Child (mname d)]) s) (c_tree s1)).
      { assert (SKIP : (forall ch, alookup (mname d) fs = Some ch -> has_value d ch = false) -> forall s, within (sl ++ [Child (mname d)]) s -> ~ present s).
        { intros NO s (r & ->) PR. destruct (present_meta _ PR) as (m' & n' & N & _).
          assert (CH : exists ch, alookup (mname d) fs = Some ch /\ (forall l mm nn, node_at sm src (sl ++ [Child (mname d)] ++ l) mm nn -> node_at d ch l mm nn)).
          { rewrite <- app_assoc in N. apply node_at_split in N as (m1 & n1 & N1 & N2). destruct (node_at_inj _ _ _ _ _ NA Wsm _ _ N1) as (<- & <-).
            simpl in N2. inversion N2; subst.
            match goal with H1 : In ?c cs, H2 : mname ?c = mname d |- _ => assert (c = d) by (inversion WM; subst; eapply nodup_name; eauto); subst end.
            eexists; split; eauto. intros l mm nn N3. apply node_at_split in N3 as (m3 & n3 & N3 & N4). destruct (node_at_inj _ _ _ _ _ NA Wsm _ _ N3) as (<- & <-).
            simpl in N4. inversion N4; subst. match goal with H1 : In ?c cs, H2 : mname ?c = mname d |- node_at d _ _ _ _ => assert (c = d) by (inversion WM; subst; eapply nodup_name; eauto); subst end.
            congruence. }
          destruct CH as (ch & A & DOWN).
          assert (NEM : nonempty d ch).
          { exists r. destruct PR as [(v & mm & LF & N3 & FV)|(k & mm & els & N3 & KK)].
            - left. exists v, mm. split; auto. split; auto. apply DOWN. rewrite app_assoc. exact N3.
            - right. exists k, mm, els. split; auto. apply DOWN. rewrite app_assoc. exact N3. }
          inversion CF; subst. apply has_value_nonempty in NEM; [|eauto]. rewrite (NO _ A) in NEM. discriminate. }
        destruct (alookup (mname d) fs) as [ch|] eqn:A.
        - destruct (has_value d ch) eqn:HV.
          + eapply IH; eauto; [|intros s PS; apply (DJ s d); auto; left; auto].
            eapply node_at_app; [exact NA|]. eapply na_child; eauto. constructor.
          + injection R1 as <-. eapply J_ext; [| |exact HJ]; auto. intros s [H|H] PR _; auto. exfalso. eapply SKIP; eauto. intros ch' E. injection E as <-. auto.
        - injection R1 as <-. eapply J_ext; [| |exact HJ]; auto. intros s [H|H] PR _; auto. exfalso. eapply SKIP; eauto. discriminate. }
      eapply J_ext; [| |eapply (IHd _ ND2 _ s1 st' J1)].
      + intros s [H|(d' & [<-|I'] & H)] _ _; [left; left; auto|left; right; auto|right; eauto].
      + intros s [[H|H]|(d' & I' & H)]; [left; auto|right; exists d; split; auto; left; auto|right; exists d'; split; auto; right; auto].
      + intros s d' [H|(r & ->)] I' (r' & E).
        * eapply (DJ s d'); eauto. { right; auto. } exists r'. auto.
        * rewrite <- !app_assoc in E. apply app_inv_head in E. simpl in E. injection E as E _. apply ND1. rewrite E. apply in_map; auto.
      + exact R2.
      Unshelve. intros x I. apply IN. right; auto. }
  intros P st st' HJ DJ RUN. eapply J_ext; [| |eapply (L cs (incl_refl _)); eauto].
  - intros s [H|(r & ->)] PR _; auto. right. destruct (present_meta _ PR) as (m' & n' & N & KK & _).
    apply node_at_split in N as (m1 & n1 & N1 & N2). destruct (node_at_inj _ _ _ _ _ NA Wsm _ _ N1) as (<- & <-).
    inversion N2; subst; [simpl in KK; congruence|]. exists c. split; auto. eexists. rewrite <- app_assoc. reflexivity.
  - intros s [H|(d & _ & W)]; auto. right. eapply within_trans; [|exact W]. exists [Child (mname d)]. reflexivity.
  - inversion WM; subst; auto.
  - intros s d PS _ W. apply (DJ s PS). eapply within_trans; [|exact W]. exists [Child (mname d)]. reflexivity.
Qed.

Lemma elems : forall nm cs sl tl all, (forall d, In d cs -> copies d) -> node_at sm src sl (Meta nm KAoS cs) (NAoS all) -> goes_to sl tl -> ctx sl tl ->
  ~ ruled (loc_names sl) -> ~ removed (loc_names sl) ->
  forall xs, (forall i e, In (i, e) xs -> nth_error all i = Some e) -> NoDup (map fst xs) ->
  forall P st st', J P (c_tree st) -> (forall s i e, P s -> In (i, e) xs -> ~ within (sl ++ [Elem i]) s) ->
  citer (fun x => copy_children cs (node_fields (snd x)) (sl ++ [Elem (fst x)]) (tl ++ [Elem (fst x)])) xs st = (st', Ok tt) ->
  J (fun s => P s \/ exists i e, In (i, e) xs /\ within (sl ++ [Elem i]) s) (c_tree st').
Proof.
  intros nm cs sl tl all IH NA GT CT NU NR. induction xs as [|[i e] xs IHx]; intros IN ND P st st' HJ DJ RUN.
  - simpl in RUN. injection RUN as <-. eapply J_ext; [| |exact HJ]; auto. intros s [H|(i & e & [] & _)]; auto.
  - simpl in RUN. apply bind_ok in RUN as ([] & s1 & R1 & R2). inversion ND as [|? ? ND1 ND2]; subst. simpl in ND1.
    assert (NE : nth_error all i = Some e) by (apply IN; left; auto).
    assert (CE : conf (Meta nm KStruct cs) e).
    { assert (C : conf (Meta nm KAoS cs) (NAoS all)) by (eapply node_at_conf; eauto). inversion C; subst. match goal with H : forall e, In e all -> _ |- _ => apply H end. eapply nth_error_In; eauto. }
    destruct e as [fs|els|v]; [|inversion CE..].
    assert (NC : node_at sm src (sl ++ [Elem i]) (Meta nm KStruct cs) (NStruct fs)).
    { eapply node_at_app; [exact NA|]. econstructor; eauto. constructor. }
    assert (CC : ctx (sl ++ [Elem i]) (tl ++ [Elem i])).
    { split.
      - right. exists sl, i, [], tl, []. auto.
      - rewrite names_elem. intros HA HP. destruct CT as (_ & CT). rewrite (CT HA HP). reflexivity. }
    assert (J1 : J (fun s => P s \/ within (sl ++ [Elem i]) s) (c_tree s1)).
    { eapply kids; eauto; try (rewrite names_elem; auto). intros s PS. eapply DJ; eauto. left; reflexivity. }
    eapply J_ext; [| |eapply (IHx _ ND2 _ s1 st' J1)].
    + intros s [H|(j & e' & [E|I'] & H)] _ _; [left; left; auto|left; right; congruence|right; eauto].
    + intros s [[H|H]|(j & e' & I' & H)]; [left; auto|right; exists i, (NStruct fs); split; auto; left; auto|right; exists j, e'; split; auto; right; auto].
    + intros s j e' [H|(r & ->)] I' (r' & E).
      * eapply (DJ s j e'); eauto. { right; auto. } exists r'. auto.
      * rewrite <- !app_assoc in E. apply app_inv_head in E. simpl in E. injection E as -> _. apply ND1. change j with (fst (j, e')). apply in_map; auto.
    + exact R2.
    Unshelve. intros j e' I. apply IN. right; auto.
Qed.

Theorem copies_all : forall c, copies c.
Proof.
  induction c as [nm k cs IH] using meta_ind'. unfold copies. intros n sl tl P st st' NA HV CT NU NR HJ DJ RUN.
  cbn [mname] in *. set (sl' := sl ++ [Child nm]) in *. rewrite copy_item_eq in RUN.
  apply bind_ok in RUN as (o & s1 & TI & RUN).
  assert (OB : same_obs tm (c_tree st) (c_tree s1)).
  { pose proof (pres_target_item tm rm (same_obs tm) (same_obs_refl tm)) as H.
    specialize (H ltac:(intros a b c' A B l; destruct (A l), (B l); split; congruence) ltac:(intros; apply obs_access) (path_string sl') nm tl st).
    rewrite TI in H. exact H. }
  apply (J_obs _ _ _ OB) in HJ. clear OB.
  assert (NMS : loc_names sl' = loc_names sl ++ [nm]) by apply names_child.
  assert (PS : path_string sl' = slashed (loc_names sl ++ [nm])) by (unfold path_string; rewrite NMS; reflexivity).
  destruct o as [t|].
  2:{ (* not copied *)
      injection RUN as <-. eapply J_ext; [| |exact HJ]; auto. intros s [H|H] _ G; auto. exfalso.
      apply within_good in H; auto. destruct H as (R & _). apply R. rewrite NMS. exists (loc_names sl ++ [nm]), []. rewrite app_nil_r. split; auto. split; [destruct (loc_names sl); discriminate|].
      unfold target_item in TI. rewrite PS in TI. unfold ConvSpec.entry. destruct (alookup (slashed (loc_names sl ++ [nm])) (VmapModel.m_path rm)) as [[q|]|]; auto.
      - destruct (parse q); [|discriminate]. apply bind_ok in TI as (? & ? & _ & TI). discriminate.
      - apply bind_ok in TI as ([cs'|?|? ?] & ? & _ & TI); try discriminate. destruct (child_meta nm cs'); [|discriminate].
        apply bind_ok in TI as (? & ? & _ & TI). discriminate. }
  assert (NRI : ~ removed (loc_names sl ++ [nm])).
  { intros R. apply removed_child in R as [R|R]; auto. unfold target_item in TI. rewrite PS in TI. unfold ConvSpec.entry in R. rewrite R in TI. discriminate. }
  destruct (item_target sl tl (Meta nm k cs) n st s1 t NA NRI NU CT TI) as (CT' & GO). cbn [mname mkind] in *. fold sl' in CT', GO.
  assert (RD : rule_at (loc_names sl ++ [nm]) \/ ~ rule_at (loc_names sl ++ [nm])).
  { unfold ConvSpec.rule_at. destruct (alookup _ (VmapModel.m_type rm)); [left; left; discriminate|]. destruct (alookup _ (VmapModel.m_post rm)); [left; right; discriminate|].
    right. intros [H|H]; congruence. }
  destruct RD as [RU|NRU].
  - (* a special rule *)
    destruct (GO (or_intror RU)) as (GT & _).
    assert (BR : forall l, reach t l -> by_rule l).
    { intros l RL. exists sl', t, (Meta nm k cs), n. split; auto. split; [apply has_value_nonempty; auto; eapply node_at_conf; eauto|].
      split; [unfold sl'; destruct sl; discriminate|]. rewrite NMS. auto. }
    assert (FR : R_frame tm (reach t) (c_tree s1) (c_tree st')).
    { pose proof (pres_copy_rest sm tm src rm deepcopy str_of parse_float parse_cpx flt_of_int np_cast array_items close np_int32 enum_of
        (R_frame tm (reach t)) (reach t) (frame_refl tm (reach t)) (frame_trans tm (reach t)) (frame_access tm (reach t))
        (frame_assign tm str_of parse_float parse_cpx flt_of_int np_cast array_items (reach t)) (frame_resize tm (reach t)) t) as H.
      specialize (H ltac:(intros l WL; left; exact WL) ltac:(right; reflexivity) (Meta nm k cs) n sl' t).
      assert (SB : stays_below tm rm t (Meta nm k cs) (loc_names sl')); [|specialize (H SB ltac:(auto with conv) s1); rewrite RUN in H; exact H].
      intros d ID r mr s ip tl' n1 n2 t' AP EN PA (w & ->) GG. rewrite NMS in EN. cbn [mchildren] in ID.
      assert (API : at_path sm ((loc_names sl ++ [nm]) ++ mname d :: r) mr).
      { eapply at_path_app. { rewrite <- NMS. apply loc_at_path; [eapply node_at_loc_ok; exact NA|apply child_not_elem]. } constructor; auto. }
      assert (TN : loc_names t <> []).
      { destruct (goes_to_path _ _ GT) as (mt & PT & _). destruct GT as (MP & _). rewrite NMS in MP.
        destruct (ft_target _ _ _ F (loc_names sl ++ [nm]) (Meta nm k cs)) as (q & mq & MQ & QN & AQ & _); auto.
        - rewrite <- NMS. apply loc_at_path; [eapply node_at_loc_ok; exact NA|apply child_not_elem].
        - destruct (loc_names sl); discriminate.
        - intros a b E NB Na RA. apply NU. destruct (exists_last NB) as (b' & y & ->). rewrite app_assoc in E. apply app_inj_tail in E as (E & _). exists a, b'. auto.
        - rewrite (mapped_fun _ _ _ _ _ MP MQ PT AQ). auto. }
      destruct (goes_to_path _ _ GT) as (m0 & PT & _). destruct GT as (MP & _). rewrite NMS in MP.
      destruct (ft_inside _ _ _ F (loc_names sl ++ [nm]) (mname d :: r) mr s (loc_names t) m0 API) as (q1 & -> & FN); auto.
      { destruct (loc_names sl); discriminate. }
      { discriminate. }
      { unfold ConvSpec.entry. rewrite <- app_assoc in EN. exact EN. }
      rewrite parse_plain in PA; auto; [|destruct (loc_names t); [congruence|discriminate]]. injection PA as <-. eapply goto_within; eauto. }
    apply (J_rule P _ _ t BR FR) in HJ. eapply J_ext; [| |exact HJ]; auto. intros s [H|H] _ G; auto. exfalso.
    apply within_good in H; auto. destruct H as (_ & U). apply U. rewrite NMS. exists (loc_names sl ++ [nm]), []. rewrite app_nil_r. split; auto. split; auto. destruct (loc_names sl); discriminate.
  - (* no special rule *)
    assert (NUI : ~ ruled (loc_names sl')) by (rewrite NMS; intros U; apply ruled_child in U as [U|U]; auto).
    assert (GS : good sl') by (split; [rewrite NMS|]; auto).
    unfold ConvProofs2.copy_rest in RUN. rewrite PS in RUN.
    assert (N1 : alookup (slashed (loc_names sl ++ [nm])) (VmapModel.m_type rm) = None).
    { destruct (alookup _ (VmapModel.m_type rm)) eqn:E; auto. exfalso. apply NRU. left. congruence. }
    assert (N2 : alookup (slashed (loc_names sl ++ [nm])) (VmapModel.m_post rm) = None).
    { destruct (alookup (slashed (loc_names sl ++ [nm])) (VmapModel.m_post rm)) eqn:E; auto. exfalso. apply NRU. right. congruence. }
    rewrite N1, N2 in RUN. apply bind_ok in RUN as (r & s2 & E2 & RUN). injection E2 as <- <-. cbn [mchildren] in RUN.
    apply bind_ok in RUN as ([] & s3 & RUN & E3). injection E3 as <-.
    assert (CF : conf (Meta nm k cs) n) by (eapply node_at_conf; eauto).
    destruct n as [fs|els|v].
    + (* a structure *)
      assert (k = KStruct) as -> by (inversion CF; auto).
      eapply (kids nm cs fs sl' t); eauto. rewrite NMS; auto.
    + (* an array of structures *)
      assert (k = KAoS) as -> by (inversion CF; auto).
      apply bind_ok in RUN as ([] & s2 & RZ & RUN). destruct GO as (GT & mt & LT & KT); [left; discriminate|]. specialize (KT NRU).
      assert (AO : aos_at sm src sl' (length els)) by (exists (Meta nm KAoS cs), els; simpl in HV; apply Nat.ltb_lt in HV; auto).
      apply resize_obs in RZ as (Z1 & Z2 & Z3 & Z4).
      assert (J1 : J (fun s => P s \/ s = sl') (c_tree s2)).
      { destruct HJ as (A & B & C & D). split; [|split; [|split]].
        - intros s v t1 [Hs| ->] LA G G1 NB.
          + destruct (Z4 t1) as (-> & _); eauto. intros W. eapply (DJ s Hs). eapply (inside_array sl' t s t1); eauto. left; eauto.
          + exfalso. destruct LA as (m' & (dt & nd & KL) & NL & _). destruct (node_at_inj _ _ _ _ _ NA Wsm _ _ NL) as (_ & E). discriminate.
        - intros s j t1 [Hs| ->] LA G G1 NB.
          + destruct (Z4 t1) as (_ & ->); eauto. intros W. eapply (DJ s Hs). eapply (inside_array sl' t s t1); eauto. right; eauto.
          + rewrite (goes_fun _ _ _ G1 GT), Z1. destruct LA as (m' & els' & NL & _ & <- & _). destruct (node_at_inj _ _ _ _ _ NA Wsm _ _ NL) as (_ & E). congruence.
        - intros t1 v E. destruct (within_dec t t1) as [(r & ->)|W].
          + destruct r as [|x r]; [rewrite app_nil_r in E|destruct (Z3 x r) as (E' & _)]; congruence.
          + destruct (Z4 t1 W) as (E' & _). rewrite E' in E. destruct (C _ _ E) as [(s & X & Y)|X]; eauto.
        - intros t1 j E. destruct (within_dec t t1) as [(r & ->)|W].
          + destruct r as [|x r]; [|destruct (Z3 x r) as (_ & [E'|E']); congruence]. rewrite app_nil_r in *. left. exists sl'. rewrite Z1 in E. injection E as E. rewrite <- E. auto.
          + destruct (Z4 t1 W) as (_ & E'). rewrite E' in E. destruct (D _ _ E) as [(s & X & Y)|X]; eauto. }
      eapply J_ext; [| |eapply (elems nm cs sl' t els)]; eauto.
      * intros s [H|(r & ->)] PR G; auto. destruct r as [|x r]; [rewrite app_nil_r; auto|]. right.
        destruct (present_meta _ PR) as (m' & n' & NP & _). apply node_at_split in NP as (m1 & n1 & NP & NQ).
        destruct (node_at_inj _ _ _ _ _ NA Wsm _ _ NP) as (<- & <-). inversion NQ; subst.
        exists i, e. split; [apply enum_In; auto|]. exists r. rewrite <- app_assoc. reflexivity.
      * intros s [[H| ->]|(i & e & _ & (r & ->))]; [left; auto|right; apply within_refl|right; exists (Elem i :: r); rewrite <- app_assoc; reflexivity].
      * rewrite NMS; auto.
      * intros i e I. apply enum_In; auto.
      * unfold enum. rewrite map_fst_combine by apply seq_length. apply seq_NoDup.
      * intros s i e [H| ->] _ W.
        -- apply (DJ s H). eapply within_trans; [|exact W]. exists [Elem i]. reflexivity.
        -- destruct W as (r & E). rewrite <- app_assoc in E. rewrite <- (app_nil_r sl') in E at 1. apply app_inv_head in E. discriminate.
    + (* a data node *)
      destruct k as [| |dt nd]; [inversion CF..|]. destruct GO as (GT & mt & LT & KT); [left; discriminate|]. specialize (KT NRU). cbn [mkind] in KT.
      destruct v as [v|]; [|destruct nd; discriminate HV].
      assert (LV : leaf_at sm src sl' v).
      { exists (Meta nm (KLeaf dt nd) cs). split; [exists dt, nd; reflexivity|]. split; auto. inversion CF; subst. simpl in HV.
        eapply filled_value_len; eauto. }
      destruct LV as (m' & LF & NL & FV). destruct (node_at_inj _ _ _ _ _ NA Wsm _ _ NL) as (<- & _).
      destruct (leaf_at_has _ v dt nd CF eq_refl FV) as (VO & HV').
      cbn [leaf_value] in RUN.
      destruct (assign_same t _ v _ _ mt dt nd RUN LT KT VO) as (A1 & A2 & A3); auto.
      { intros ->. eapply proper; eauto. }
      assert (LV : leaf_at sm src sl' v) by (exists (Meta nm (KLeaf dt nd) cs); auto).
      destruct HJ as (A & B & C & D). split; [|split; [|split]].
      * intros s v1 t1 [Hs|W] LA G G1 NB.
        -- destruct (A3 t1) as (-> & _); eauto. intros ->. apply (DJ s Hs). rewrite (goes_inj s sl' t); auto with conv; left; eauto.
        -- assert (s = sl') as ->.
           { destruct W as (r & ->). destruct LA as (m2 & _ & N3 & _). apply node_at_split in N3 as (m3 & n3 & N3 & N4). destruct (node_at_inj _ _ _ _ _ NA Wsm _ _ N3) as (<- & <-).
             inversion N4; subst. apply app_nil_r. }
           rewrite (goes_fun _ _ _ G1 GT), A1. destruct LA as (m2 & _ & N3 & _). destruct (node_at_inj _ _ _ _ _ NA Wsm _ _ N3) as (_ & E). congruence.
      * intros s v1 t1 [Hs|W] LA G G1 NB.
        -- destruct (A3 t1) as (_ & ->); eauto. intros ->. apply (DJ s Hs). rewrite (goes_inj s sl' t); auto with conv; [right|left]; eauto.
        -- exfalso. destruct W as (r & ->). destruct LA as (m2 & els & N3 & _). apply node_at_split in N3 as (m3 & n3 & N3 & N4). destruct (node_at_inj _ _ _ _ _ NA Wsm _ _ N3) as (<- & <-).
           inversion N4.
      * intros t1 v1 E. destruct (loc_dec t1 t) as [->|NT].
        -- left. exists sl'. rewrite A1 in E. injection E as <-. auto with conv.
        -- destruct (A3 t1 NT) as (E' & _). rewrite E' in E. destruct (C _ _ E) as [(s & X & Y)|X]; eauto.
      * intros t1 v1 E. destruct (loc_dec t1 t) as [->|NT]; [congruence|].
        destruct (A3 t1 NT) as (_ & E'). rewrite E' in E. destruct (D _ _ E) as [(s & X & Y)|X]; eauto.
Qed.
End Copy.
