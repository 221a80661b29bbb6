(** C24: the conversion finishes.  For data without special rules, and a rename map that fits and that does not lead from a structure into
    an array or a data node, no exception is raised. *)
From Verif Require Import Base PathModel PathSpec PathProofs3 TreeModel TreeSpec TreeProofs TreeProofs2 TreeProofs4 TreeCheck ValModel ValProofs ValProofs2 ValProofs5 PrimModel PrimSpec PrimProps ConvModel ConvSpec ConvProofs ConvProofs2 ConvProofs3 ConvProofs4 ConvProofs5 ConvCheck ConvProps.
From Verif Require VmapModel.
Import VmapModel(handler(..), nmap).

(** ** Specification *)
Section Walk.
Variable tm : meta.
Variable rm : nmap.
(** The structure of the target in which the children of path p of the source are looked for: the renamed one, the one with the same name
    inside that of the parent, or that of the parent if there is none. *)
Inductive walk : list str -> list str -> Prop :=
| wk_root : walk [] []
| wk_renamed : forall p q, p <> [] -> entry rm p = Some (Some (slashed q)) -> (exists m, at_path tm q m) -> walk p q
| wk_child : forall p nm q, walk p q -> entry rm (p ++ [nm]) = None -> (exists m, at_path tm (q ++ [nm]) m) -> walk (p ++ [nm]) (q ++ [nm])
| wk_stay : forall p nm q, walk p q -> entry rm (p ++ [nm]) = None -> ~ (exists m, at_path tm (q ++ [nm]) m) -> walk (p ++ [nm]) q.
End Walk.
(** A structure that is not renamed is looked for by name; what is found is a structure. *)
Definition structures_ok (sm tm : meta) (rm : nmap) : Prop :=
  forall p nm m' q mq, at_path sm (p ++ [nm]) m' -> mkind m' = KStruct -> ~ removed rm (p ++ [nm]) -> ~ ruled rm (p ++ [nm]) ->
    entry rm (p ++ [nm]) = None -> walk tm rm p q -> at_path tm (q ++ [nm]) mq -> mkind mq = KStruct.

(** ** Nodes that exist *)
Definition open_at (m : meta) (n : node) (l : loc) : Prop := forall a i r, l = a ++ Elem i :: r -> exists k, fsize m n a = Some k /\ i < k.
Lemma look_open : forall l m n m', wf_meta m -> conf m n -> loc_ok m l m' -> open_at m n l -> exists n', look m n l = Some (m', n') /\ conf m' n'.
Proof.
  induction l as [|[x|i] l IH]; intros m n m' W C L O.
  - inversion L; subst. exists n. split; auto.
  - apply loc_ok_child in L as (nm & cs & c & -> & I & <- & L).
    assert (CM : child_meta (mname c) cs = Some c) by (apply child_meta_iff; [inversion W; auto|auto]).
    destruct n as [fs|?|?]; [|inversion C..].
    destruct (IH c (child_or_new c fs) m') as (n' & L1 & C1); auto.
    + inversion W; auto.
    + unfold child_or_new. inversion C; subst. destruct (alookup (mname c) fs) eqn:A; [eauto|apply new_node_conf].
    + intros a i r ->. destruct (O (Child (mname c) :: a) i r eq_refl) as (k & E & K). exists k. split; auto.
      unfold fsize in *. simpl in E. rewrite CM in E. exact E.
    + exists n'. split; auto. cbn [look mkind mchildren]. rewrite CM. exact L1.
  - apply loc_ok_elem in L as (nm & cs & -> & L). destruct n as [?|els|?]; [inversion C| |inversion C].
    destruct (O [] i l eq_refl) as (k & E & K). unfold fsize in E. simpl in E. injection E as <-.
    destruct (nth_error els i) as [e|] eqn:NE; [|apply nth_error_None in NE; lia].
    destruct (IH (Meta nm KStruct cs) e m') as (n' & L1 & C1); auto.
    + eapply wf_struct; eauto.
    + inversion C; subst. match goal with H : forall e, In e els -> _ |- _ => apply H end. eapply nth_error_In; eauto.
    + intros a j r ->. destruct (O (Elem i :: a) j r eq_refl) as (k & E & K'). exists k. split; auto.
      unfold fsize in *. simpl in E. rewrite NE in E. exact E.
    + exists n'. split; auto. cbn [look mkind mchildren mname]. rewrite NE. exact L1.
Qed.
Lemma open_prefix : forall m n a b, open_at m n (a ++ b) -> open_at m n a.
Proof. intros m n a b O x i r ->. apply (O x i (r ++ b)). rewrite <- app_assoc. reflexivity. Qed.
Lemma open_obs : forall m n n' l, same_obs m n n' -> open_at m n l -> open_at m n' l.
Proof. intros m n n' l S O a i r E. destruct (O a i r E) as (k & K & L). exists k. split; auto. destruct (S a) as (_ & ->). exact K. Qed.
Lemma open_childs : forall m n l x, open_at m n l -> open_at m n (l ++ map Child x).
Proof.
  intros m n l x O a i r E. apply app_eq_app in E as (z & [(-> & E)|(-> & E)]).
  - destruct z as [|y z]; simpl in E.
    + exfalso. assert (I : In (Elem i) (map Child x)) by (rewrite <- E; left; auto). apply in_map_iff in I as (? & X & _). discriminate.
    + injection E as <- _. eapply O. reflexivity.
  - exfalso. assert (I : In (Elem i) (map Child x)) by (rewrite E; apply in_or_app; right; left; auto). apply in_map_iff in I as (? & X & _). discriminate.
Qed.

(** ** Following a path in the target *)
Section Goto.
Variable tm : meta.
Hypothesis Wtm : wf_meta tm.
Hypothesis Stm : str_ok tm.
Lemma getattr_ok_ : forall n e me x mx, conf tm n -> loc_ok tm e me -> open_at tm n e -> loc_ok me [Child x] mx ->
  exists n', getattr_ tm e x n = (n', Ok (e ++ [Child x])) /\ conf tm n' /\ same_obs tm n n'.
Proof.
  intros n e me x mx C L O LX. destruct (look_open e tm n me Wtm C L O) as (n1 & LK & C1).
  apply loc_ok_child in LX as (nm & cs & c & -> & I & <- & LX).
  assert (CM : child_meta (mname c) cs = Some c).
  { apply child_meta_iff; auto. assert (W1 : wf_meta (Meta nm KStruct cs)) by (eapply loc_wf; eauto). inversion W1; auto. }
  destruct n1 as [fs|?|?]; [|inversion C1..].
  exists (access tm n ((e ++ [Child (mname c)]) ++ [Elem 0])).
  split; [|split; [apply access_conf; auto|apply obs_access]].
  unfold getattr_, bind, view. assert (IA : info_at tm n e = Some (IStruct cs)) by (unfold info_at; rewrite LK; reflexivity).
  rewrite IA. rewrite CM. reflexivity.
Qed.
Lemma steps_some_ok : forall nested from q i e me mt n, conf tm n -> loc_ok tm e me -> open_at tm n e -> loc_ok me (map Child q) mt ->
  exists n' t, goto_steps tm nested from (repeat INone (length q)) q i (Some e) n = (n', Ok t).
Proof.
  intros nested from. induction q as [|x q IH]; intros i e me mt n C L O LQ; simpl.
  - unfold ret. eauto.
  - apply (loc_ok_split [Child x] _ (map Child q)) in LQ as (mx & L1 & L2).
    destruct (getattr_ok_ n e me x mx C L O L1) as (n1 & G & C1 & S1).
    unfold bind at 1. rewrite G. eapply (IH (S i) (e ++ [Child x]) mx mt n1); eauto.
    + eapply loc_ok_app; eauto.
    + eapply (open_obs _ n); [exact S1|]. apply (open_childs _ _ _ [x]). exact O.
Qed.
Lemma steps_none_ok : forall nested from q i mt n, conf tm n ->
  (forall k, k <= length q -> (forall j, j < k -> nth_error (loc_names from) (i + j) = nth_error q j) ->
    (k = length q \/ nth_error (loc_names from) (i + k) <> nth_error q k) ->
    loc_ok tm (upto (i + k) from ++ map Child (skipn k q)) mt /\ open_at tm n (upto (i + k) from)) ->
  exists n' t, goto_steps tm nested from (repeat INone (length q)) q i None n = (n', Ok t).
Proof.
  intros nested from. induction q as [|x q IH]; intros i mt n C H; simpl.
  - unfold ret. eauto.
  - assert (MIS : nth_error (loc_names from) i <> Some x -> exists n' t, (dom c <- getattr_ tm (upto i from) x; goto_steps tm nested from (repeat INone (length q)) q (S i) (Some c)) n = (n', Ok t)).
    { intros N. destruct (H 0) as (L & O); [lia|intros; lia|right; rewrite Nat.add_0_r; exact N|]. rewrite Nat.add_0_r in L, O. simpl in L.
      apply loc_ok_split in L as (me & L1 & L2). apply (loc_ok_split [Child x] _ (map Child q)) in L2 as (mx & L2 & L3).
      destruct (getattr_ok_ n (upto i from) me x mx C L1 O L2) as (n1 & G & C1 & S1).
      unfold bind. rewrite G. eapply (steps_some_ok nested from q (S i) (upto i from ++ [Child x]) mx mt n1); eauto.
      - eapply loc_ok_app; eauto.
      - eapply (open_obs _ n); [exact S1|]. apply (open_childs _ _ _ [x]). exact O. }
    destruct (nth_error (loc_names from) i) as [y|] eqn:N; [destruct (str_eqb x y) eqn:E|].
    + apply str_eqb_eq in E. subst y. eapply (IH (S i) mt n C). intros k K A B. replace (S i + k) with (i + S k) by lia.
      apply (H (S k)); [simpl; lia| |].
      * intros [|j] J; [rewrite Nat.add_0_r; auto|]. replace (i + S j) with (S i + j) by lia. simpl. apply A. lia.
      * destruct B as [->|B]; [left; auto|right]. replace (i + S k) with (S i + k) by lia. auto.
    + apply MIS. intros Q. injection Q as ->. rewrite str_eqb_refl in E. discriminate.
    + apply MIS. discriminate.
Qed.
Lemma firstn_same : forall (x q : list str) j, (forall m, m < j -> nth_error x m = nth_error q m) -> firstn j x = firstn j q.
Proof.
  intros x q j J. revert x q J. induction j as [|j IH]; intros x q J; auto.
  pose proof (J 0 ltac:(lia)) as J0. destruct x as [|a x], q as [|b q]; simpl in *; auto; try discriminate. injection J0 as ->. f_equal.
  apply IH. intros m M. apply (J (S m)). lia.
Qed.
Lemma goto_root_ok : forall x q mt n, conf tm n -> loc_ok tm (map Child q) mt -> exists n', goto tm (map Child x) (plain q) n = (n', Ok (map Child q)).
Proof.
  intros x q mt n C L. destruct (steps_none_ok (goto_index tm (map Child x)) (map Child x) q 0 mt n C) as (n' & t & H).
  - intros k K A B. simpl in *. rewrite names_childs in A. rewrite upto_childs. rewrite (firstn_same x q k A), <- map_app, firstn_skipn. split; auto.
    apply (open_childs tm n [] (firstn k q)). intros a i r E. destruct a; discriminate.
  - exists n'. assert (t = map Child q) as <- by (eapply goto_root; exact H). exact H.
Qed.
Lemma goto_elem_ok : forall ta i x q mt n, conf tm n -> loc_ok tm (ta ++ Elem i :: map Child q) mt -> open_at tm n (ta ++ [Elem i]) ->
  exists n', goto tm (ta ++ Elem i :: map Child x) (plain (loc_names ta ++ q)) n = (n', Ok (ta ++ Elem i :: map Child q)).
Proof.
  intros ta i x q mt n C L O. destruct (steps_none_ok (goto_index tm (ta ++ Elem i :: map Child x)) (ta ++ Elem i :: map Child x) (loc_names ta ++ q) 0 mt n C) as (n' & t & H).
  - intros k K A B. simpl in A, B. rewrite Nat.add_0_l. rewrite names_app in A, B. simpl in A, B. rewrite names_childs in A, B.
    destruct (Nat.le_gt_cases (length (loc_names ta)) k) as [LE|LT].
    + replace k with (length (loc_names ta) + (k - length (loc_names ta))) by lia. set (j := k - length (loc_names ta)) in *.
      rewrite upto_app. simpl. rewrite upto_childs.
      rewrite skipn_app. replace (length (loc_names ta) + j - length (loc_names ta)) with j by lia. rewrite skipn_all2 by lia. simpl.
      rewrite (firstn_same x q j).
      * rewrite <- app_assoc. simpl. rewrite <- map_app, firstn_skipn. split; auto. change (ta ++ Elem i :: map Child (firstn j q)) with (ta ++ [Elem i] ++ map Child (firstn j q)).
        rewrite app_assoc. apply open_childs. exact O.
      * intros m M. specialize (A (length (loc_names ta) + m)). rewrite !nth_error_app2 in A by lia.
        replace (length (loc_names ta) + m - length (loc_names ta)) with m in A by lia. apply A. lia.
    + exfalso. destruct B as [B|B]; [rewrite B, app_length in LT; lia|]. apply B. rewrite !nth_error_app1 by auto. reflexivity.
  - exists n'. assert (t = ta ++ Elem i :: map Child q) as <- by (eapply goto_elem; exact H). exact H.
Qed.
End Goto.

(** ** The loops *)
Lemma last_elem_fun : forall b a i a' i' b', a ++ Elem i :: map Child b = a' ++ Elem i' :: map Child b' -> a = a' /\ i = i' /\ b = b'.
Proof.
  induction b as [|x b IH] using rev_ind; intros a i a' i' b' E.
  - destruct b' as [|y b' _] using rev_ind.
    + simpl in E. apply app_inj_tail in E as (-> & E). injection E as ->. auto.
    + rewrite map_app in E. simpl in E. change (a' ++ Elem i' :: map Child b' ++ [Child y]) with (a' ++ (Elem i' :: map Child b') ++ [Child y]) in E.
      rewrite app_assoc in E. apply app_inj_tail in E as (_ & E). discriminate.
  - destruct b' as [|y b' _] using rev_ind.
    + rewrite map_app in E. simpl in E. change (a ++ Elem i :: map Child b ++ [Child x]) with (a ++ (Elem i :: map Child b) ++ [Child x]) in E.
      rewrite app_assoc in E. apply app_inj_tail in E as (_ & E). discriminate.
    + rewrite !map_app in E. simpl in E. change (a ++ Elem i :: map Child b ++ [Child x]) with (a ++ (Elem i :: map Child b) ++ [Child x]) in E.
      change (a' ++ Elem i' :: map Child b' ++ [Child y]) with (a' ++ (Elem i' :: map Child b') ++ [Child y]) in E.
      rewrite !app_assoc in E. apply app_inj_tail in E as (E & F). injection F as ->. destruct (IH _ _ _ _ _ E) as (-> & -> & ->). auto.
Qed.
Lemma no_elem : forall x a i r, map Child x <> a ++ Elem i :: r.
Proof.
  intros x a i r E. assert (I : In (Elem i) (map Child x)) by (rewrite E; apply in_or_app; right; left; auto). apply in_map_iff in I as (? & X & _). discriminate.
Qed.
Lemma elem_before : forall t x a i r, t ++ map Child x = a ++ Elem i :: r -> exists r', t = a ++ Elem i :: r'.
Proof.
  intros t x a i r E. apply app_eq_app in E as (z & [(-> & E)|(-> & E)]).
  - destruct z as [|y z]; simpl in E; [exfalso; apply (no_elem x [] i r); auto|]. injection E as <- _. eauto.
  - exfalso. eapply no_elem. exact E.
Qed.

Section Copy.
Variables (sm tm : meta).
Variable src : node.
Variable rm : nmap.
Variable deepcopy : bool.
Variable str_of : pyval -> str.
Variable parse_float : str -> option flt.
Variable parse_cpx : str -> option (flt * flt).
Variable flt_of_int : Z -> option flt.
Variable np_cast : dtype -> pyval -> result pexn value.
Variable array_items : value -> list pyval.
Variable close : pyval -> pyval -> bool.
Variable np_int32 : flt -> result pexn Z.
Variable enum_of : list str -> option (Z -> option (str * str)).
Variable tgt0 : node.
Notation assign := (assign tm str_of parse_float parse_cpx flt_of_int np_cast array_items).
Notation resize := (resize tm).
Notation copy_item := (copy_item sm tm src rm deepcopy str_of parse_float parse_cpx flt_of_int np_cast array_items close np_int32 enum_of).
Notation copy_children := (copy_children sm tm src rm deepcopy str_of parse_float parse_cpx flt_of_int np_cast array_items close np_int32 enum_of).
Notation copy_rest := (copy_rest sm tm src rm deepcopy str_of parse_float parse_cpx flt_of_int np_cast array_items close np_int32 enum_of).
Notation copies := (copies sm tm src rm deepcopy str_of parse_float parse_cpx flt_of_int np_cast array_items close np_int32 enum_of tgt0).
Notation J := (J sm tm src rm tgt0).
Notation good := (good rm).
Notation ctx := (ctx tm rm).
Notation aligned := (aligned tm rm).
Notation entry := (entry rm).
Notation removed := (removed rm).
Notation ruled := (ruled rm).
Notation goes_to := (goes_to tm rm).

Hypothesis Wsm : wf_meta sm.
Hypothesis Wtm : wf_meta tm.
Hypothesis Ksm : mkind sm = KStruct.
Hypothesis Ktm : mkind tm = KStruct.
Hypothesis Stm : str_ok tm.
Hypothesis Csrc : conf sm src.
Hypothesis np_typed : forall dt p v, np_cast dt p = Ok v -> typed_array dt v.
Hypothesis np_same : forall dt v, typed_array dt v -> np_cast dt (PArr v) = Ok v.
Hypothesis proper : forall s nm dt cs v, node_at sm src s (Meta nm (KLeaf dt 0) cs) (NLeaf (Some v)) -> ~ empty dt v.
Hypothesis F : fits sm tm rm.
Hypothesis SOK : structures_ok sm tm rm.
Hypothesis NUL : forall s m n, node_at sm src s m n -> nonempty m n -> ~ ruled (loc_names s).

Lemma copies_here : forall c, copies c.
Proof. intros c. apply copies_all; auto. Qed.
Lemma no_rule : forall l, ~ by_rule sm tm src rm l.
Proof.
  intros l (s & t' & m & n & N & NE & NN & NR & RU & _). apply (NUL _ _ _ N NE). exists (loc_names s), []. rewrite app_nil_r. split; auto. split; auto.
  intros E. destruct s as [|[x|i] s]; [congruence|discriminate E|]. inversion N. match goal with H : _ = sm |- _ => pose proof Ksm as K1; rewrite <- H in K1; discriminate end.
Qed.

(** the arrays that contain a target have been resized *)
Definition anc (P : loc -> Prop) (t : loc) : Prop := forall t0 i r, t = t0 ++ Elem i :: r ->
  exists s0 k, P s0 /\ aos_at sm src s0 k /\ good s0 /\ goes_to s0 t0 /\ i < k.
Definition struct_at (t : loc) : Prop := exists mt, loc_ok tm t mt /\ mkind mt = KStruct.
Lemma anc_open : forall (P : loc -> Prop) n t, J P n -> anc P t -> open_at tm n t.
Proof. intros P n t (_ & B & _) A t0 i r E. destruct (A t0 i r E) as (s0 & k & PS & AO & G & GT & I). exists k. split; auto. eapply B; eauto. apply no_rule. Qed.
Lemma anc_more : forall (P P' : loc -> Prop) t, (forall s, P s -> P' s) -> anc P t -> anc P' t.
Proof. intros P P' t H A t0 i r E. destruct (A t0 i r E) as (s0 & k & X). exists s0, k. intuition. Qed.
Lemma anc_child : forall P t x, anc P t -> anc P (t ++ [Child x]).
Proof. intros P t x A t0 i r E. destruct (elem_before t [x] t0 i r E) as (r' & E'). eapply A; eauto. Qed.
Lemma anc_aligned : forall P sl tl nm t, anc P tl -> aligned sl tl -> aligned (sl ++ [Child nm]) t -> anc P t.
Proof.
  intros P sl tl nm t A AL AL' t0 i r E. destruct AL' as [(b & x & E1 & ->)|(a & j & b & ta & x & E1 & GA & ->)].
  - exfalso. eapply no_elem; eauto.
  - destruct AL as [(b' & x' & -> & ->)|(a' & j' & b' & ta' & x' & -> & GA' & ->)].
    + exfalso. apply (no_elem (b' ++ [nm]) a j (map Child b)). rewrite map_app. exact E1.
    + rewrite <- app_assoc in E1. simpl in E1. change (map Child b' ++ [Child nm]) with (map Child b' ++ map Child [nm]) in E1. rewrite <- map_app in E1.
      apply last_elem_fun in E1 as (<- & <- & _). assert (ta' = ta) as -> by (eapply goes_fun; eauto).
      change (Elem j' :: map Child x) with ([Elem j'] ++ map Child x) in E. rewrite app_assoc in E. apply elem_before in E as (r' & E).
      apply (A t0 i (r' ++ map Child x')). change (Elem j' :: map Child x') with ([Elem j'] ++ map Child x'). rewrite app_assoc, E, <- app_assoc. reflexivity.
Qed.

(** a renamed item is found *)
Lemma goto_mapped : forall sl tl nm mi q mt n, loc_ok sm (sl ++ [Child nm]) mi -> aligned sl tl ->
  mapped rm (loc_names sl ++ [nm]) q -> at_path tm q mt -> q <> [] ->
  Forall2 (mapped rm) (arrays sm [] (loc_names sl ++ [nm])) (arrays tm [] q) -> conf tm n -> open_at tm n tl ->
  exists n' t, goto tm tl (plain q) n = (n', Ok t).
Proof.
  intros sl tl nm mi q mt n L AL MP AP QN FA C O.
  assert (NI : ~ is_elem (sl ++ [Child nm])) by apply child_not_elem.
  rewrite <- names_child in FA. rewrite (arrays_root _ _ _ Wsm Ksm L NI) in FA.
  destruct AL as [(b & x & -> & ->)|(a & i & b & ta & x & -> & GA & ->)].
  - rewrite befores_app, befores_childs in FA. simpl in FA. inversion FA as [AR|]; subst. symmetry in AR.
    assert (LT : loc_ok tm (map Child q) mt) by (eapply arrays_none; eauto).
    destruct (goto_root_ok tm Wtm Stm x q mt n C LT) as (n' & HG). eauto.
  - rewrite <- app_assoc in FA. simpl in FA. rewrite befores_app in FA. simpl in FA.
    rewrite (befores_app (map Child b)), befores_childs in FA. simpl in FA. rewrite map_app in FA. simpl in FA.
    apply Forall2_app_inv_l in FA as (A1 & A2 & _ & F2 & AE). inversion F2 as [|? qa ? ? MQ F3]; subst. inversion F3; subst.
    destruct (arrays_last _ _ _ _ _ _ Wtm AP AE) as (q0 & q1 & ma & -> & -> & N0 & N1 & P0 & KA & P1 & AN). simpl in *.
    destruct (goes_to_path _ _ _ _ GA) as (mta & PA & LA). destruct GA as (MA & IA & NA & _).
    assert (q0 = loc_names ta) as -> by (eapply mapped_fun; eauto).
    assert (mta = ma) as -> by (eapply at_path_fun; eauto).
    assert (LT : loc_ok tm (ta ++ Elem i :: map Child q1) mt).
    { eapply loc_ok_app; [exact LA|]. destruct ma as [nma ka csa]. simpl in KA. subst ka. constructor.
      eapply arrays_none; eauto.
      - eapply wf_struct. eapply at_path_wf; [|exact P0]. exact Wtm.
      - destruct q1 as [|y q1]; [congruence|]. apply (at_path_body (Meta nma KAoS csa)). exact P1.
      - rewrite <- AN. apply (arrays_body (Meta nma KAoS csa)). }
    destruct (goto_elem_ok tm Wtm Stm ta i x q1 mt n C LT) as (n' & H); [|eauto].
    apply (open_prefix _ _ _ (map Child x)). rewrite <- app_assoc. exact O.
Qed.
Lemma conf_target_item : forall p nm tl s, conf tm (c_tree s) -> conf tm (c_tree (fst (target_item tm rm p nm tl s))).
Proof.
  intros p nm tl s. apply (pres_target_item tm rm (R_conf tm)); unfold R_conf; auto. intros. apply access_conf; auto.
Qed.

Lemma target_found : forall sl tl c n s (P : loc -> Prop),
  node_at sm src (sl ++ [Child (mname c)]) c n -> ~ removed (loc_names sl ++ [mname c]) -> ~ ruled (loc_names sl ++ [mname c]) -> ctx sl tl ->
  struct_at tl -> walk tm rm (loc_names sl) (loc_names tl) -> anc P tl -> J P (c_tree s) -> conf tm (c_tree s) ->
  exists s1 t, target_item tm rm (path_string (sl ++ [Child (mname c)])) (mname c) tl s = (s1, Ok (Some t)) /\
    (mkind c = KStruct -> struct_at t) /\ walk tm rm (loc_names sl ++ [mname c]) (loc_names t) /\ anc P t.
Proof.
  intros sl tl c n s P NA NR NU (AL & PL) (mtl & LTL & KTL) WK AN HJ C.
  pose proof (node_at_loc_ok _ _ _ _ _ NA) as LI.
  pose proof (loc_at_path _ _ _ LI (child_not_elem _ _)) as API. rewrite names_child in API.
  pose proof (anc_open _ _ _ HJ AN) as O.
  set (p := loc_names sl ++ [mname c]) in *.
  assert (PN : p <> []) by (unfold p; destruct (loc_names sl); discriminate).
  assert (NRP : ~ rule_at rm p) by (apply not_ruled_at; auto).
  unfold target_item, path_string. rewrite names_child. fold p. change (join_with "/" p) with (slashed p).
  change (alookup (slashed p) (VmapModel.m_path rm)) with (entry p).
  destruct (entry p) as [[q'|]|] eqn:EN.
  - destruct (ft_target _ _ _ F p c API PN NR (not_ruled_above rm p NU)) as (q & mt & MP & QN & AQ & KQ & FQ); [right; right; congruence|].
    assert (q' = slashed q) as -> by (destruct MP as [M|(M & _)]; congruence).
    rewrite (parse_plain q); [|auto|eapply ft_names_t; eauto].
    destruct (goto_mapped sl tl (mname c) c q mt (c_tree s) LI AL MP AQ QN FQ C O) as (n1 & t & G).
    unfold cbind, lift. rewrite G. cbn [fst snd].
    exists {| c_tree := n1; c_shared := c_shared s |}, t. split; [reflexivity|].
    destruct (mapped_item sm tm rm Wsm Wtm Ksm Ktm F sl tl (mname c) c q mt _ _ _ LI AL MP AQ QN FQ G) as (GT & LT & AT).
    destruct (goes_to_path _ _ _ _ GT) as (mt' & PT & _).
    assert (q = loc_names t) as -> by (destruct GT as (MG & _); rewrite names_child in MG; eapply mapped_fun; eauto).
    split; [|split].
    + intros K. exists mt. split; auto. rewrite KQ; auto.
    + apply wk_renamed; eauto.
    + eapply anc_aligned; eauto.
  - exfalso. apply NR. exists p, []. rewrite app_nil_r. auto.
  - destruct (look_open tl tm (c_tree s) mtl Wtm C LTL O) as (nt & LK & CT).
    destruct mtl as [nmt kt cst]. simpl in KTL. subst kt. destruct nt as [fs|?|?]; [|inversion CT..].
    assert (IA : info_at tm (c_tree s) tl = Some (IStruct cst)) by (unfold info_at; rewrite LK; reflexivity).
    unfold cbind at 1. unfold cview at 1, lift at 1, view at 1. rewrite IA. cbn [fst snd].
    assert (WT : wf_meta (Meta nmt KStruct cst)) by (eapply loc_wf; eauto).
    destruct (child_meta (mname c) cst) as [d|] eqn:CM.
    + assert (LD : loc_ok tm (tl ++ [Child (mname c)]) d).
      { eapply loc_ok_app; [exact LTL|]. apply child_meta_Some in CM as (I & <-). constructor; auto. constructor. }
      unfold getattr, cbind, cview, lift, view. cbn [c_tree fst snd]. rewrite IA, CM. cbn.
      eexists _, _. split; [reflexivity|]. pose proof (loc_at_path _ _ _ LD (child_not_elem _ _)) as PD. rewrite names_child in PD.
      split; [|split].
      * intros K. exists d. split; auto. eapply (SOK (loc_names sl) (mname c)); eauto.
      * rewrite names_child. unfold p. apply wk_child; eauto.
      * apply anc_child; auto.
    + eexists _, _. split; [reflexivity|]. split; [|split; auto].
      * intros K. exists (Meta nmt KStruct cst). auto.
      * unfold p. apply wk_stay; auto. intros (m & AP). apply at_path_split in AP as (m1 & P1 & P2).
        pose proof (loc_children sm tm rm Wtm Ktm F _ _ LTL _ P1) as CH. apply at_path_inv in P2 as (d & ID & ND & _). simpl in CH. rewrite <- CH in ID.
        assert (child_meta (mname c) cst = Some d) by (apply child_meta_iff; [inversion WT; auto|auto]). congruence.
Qed.

Definition finishes (c : meta) : Prop := forall n sl tl (P : loc -> Prop) st,
  node_at sm src (sl ++ [Child (mname c)]) c n -> has_value c n = true -> ctx sl tl -> ~ removed (loc_names sl) ->
  struct_at tl -> walk tm rm (loc_names sl) (loc_names tl) -> anc P tl -> J P (c_tree st) ->
  (forall s, P s -> ~ within (sl ++ [Child (mname c)]) s) -> conf tm (c_tree st) ->
  exists st', copy_item c n (sl ++ [Child (mname c)]) tl st = (st', Ok tt).

Lemma kids_finish : forall nm cs fs sl tl, (forall d, In d cs -> finishes d) -> node_at sm src sl (Meta nm KStruct cs) (NStruct fs) -> ctx sl tl ->
  ~ ruled (loc_names sl) -> ~ removed (loc_names sl) -> struct_at tl -> walk tm rm (loc_names sl) (loc_names tl) ->
  forall (P : loc -> Prop) st, J P (c_tree st) -> (forall s, P s -> ~ within sl s) -> anc P tl -> conf tm (c_tree st) ->
  exists st', copy_children cs fs sl tl st = (st', Ok tt).
Proof.
  intros nm cs fs sl tl IH NA CT NU NR ST WK.
  assert (WM : wf_meta (Meta nm KStruct cs)) by (eapply loc_wf; [exact Wsm|eapply node_at_loc_ok; exact NA]).
  assert (L : forall ds, incl ds cs -> NoDup (map mname ds) -> forall (P : loc -> Prop) st, J P (c_tree st) ->
    (forall s d, P s -> In d ds -> ~ within (sl ++ [Child (mname d)]) s) -> anc P tl -> conf tm (c_tree st) ->
    exists st', copy_children ds fs sl tl st = (st', Ok tt)).
  { induction ds as [|d ds IHd]; intros IN ND P st HJ DJ AN C.
    - exists st. reflexivity.
    - unfold ConvProofs2.copy_children in *. cbn [citer]. unfold cbind. inversion ND as [|? ? ND1 ND2]; subst. assert (ID : In d cs) by (apply IN; left; auto).
      assert (IN' : incl ds cs) by (intros x I; apply IN; right; auto).
      assert (SAME : exists st', citer (fun d => match alookup (mname d) fs with Some ch => if has_value d ch then copy_item d ch (sl ++ [Child (mname d)]) tl else cret tt | None => cret tt end) ds st = (st', Ok tt)).
      { eapply (IHd IN' ND2 P); auto. intros s d' PS I. apply DJ; auto. right; auto. }
      destruct (alookup (mname d) fs) as [ch|] eqn:A; [destruct (has_value d ch) eqn:HV|]; [|exact SAME|exact SAME].
      assert (NC : node_at sm src (sl ++ [Child (mname d)]) d ch) by (eapply node_at_app; [exact NA|]; eapply na_child; eauto; constructor).
      destruct (IH d ID ch sl tl P st) as (s1 & R1); auto.
      { intros s PS. apply DJ; auto. left; auto. }
      rewrite R1.
      assert (C1 : conf tm (c_tree s1)).
      { change s1 with (fst (s1, Ok (E := cexn) tt)). rewrite <- R1. apply copy_item_conf; auto. }
      assert (J1 : J (fun s => P s \/ within (sl ++ [Child (mname d)]) s) (c_tree s1)).
      { eapply (copies_here d ch sl tl P st s1); eauto. intros s PS. apply DJ; auto. left; auto. }
      eapply (IHd IN' ND2 _ s1 J1); auto.
      + intros s d' [H|(r & ->)] I' (r' & E).
        * eapply (DJ s d'); eauto. { right; auto. } exists r'. auto.
        * rewrite <- !app_assoc in E. apply app_inv_head in E. simpl in E. injection E as E _. apply ND1. rewrite E. apply in_map; auto.
      + eapply anc_more; [|exact AN]. auto. }
  intros P st HJ DJ AN C. eapply (L cs (incl_refl _)); eauto.
  - inversion WM; auto.
  - intros s d PS _ W. apply (DJ s PS). eapply within_trans; [|exact W]. exists [Child (mname d)]. reflexivity.
Qed.

Lemma elems_finish : forall nm cs sl tl all, (forall d, In d cs -> finishes d) -> node_at sm src sl (Meta nm KAoS cs) (NAoS all) -> goes_to sl tl -> ctx sl tl ->
  ~ ruled (loc_names sl) -> ~ removed (loc_names sl) -> (exists mt, loc_ok tm tl mt /\ mkind mt = KAoS) -> walk tm rm (loc_names sl) (loc_names tl) ->
  forall xs, (forall i e, In (i, e) xs -> nth_error all i = Some e) -> NoDup (map fst xs) ->
  forall (P : loc -> Prop) st, J P (c_tree st) -> (forall s i e, P s -> In (i, e) xs -> ~ within (sl ++ [Elem i]) s) ->
  anc P tl -> P sl -> conf tm (c_tree st) ->
  exists st', citer (fun x => copy_children cs (node_fields (snd x)) (sl ++ [Elem (fst x)]) (tl ++ [Elem (fst x)])) xs st = (st', Ok tt).
Proof.
  intros nm cs sl tl all IH NA GT CT NU NR (mt & LT & KT) WK. induction xs as [|[i e] xs IHx]; intros IN ND P st HJ DJ AN PSL C.
  - exists st. reflexivity.
  - cbn [citer]. unfold cbind. inversion ND as [|? ? ND1 ND2]; subst. simpl in ND1.
    assert (NE : nth_error all i = Some e) by (apply IN; left; auto).
    assert (CE : conf (Meta nm KStruct cs) e).
    { assert (C' : conf (Meta nm KAoS cs) (NAoS all)) by (eapply node_at_conf; eauto). inversion C'; subst. match goal with H : forall e, In e all -> _ |- _ => apply H end. eapply nth_error_In; eauto. }
    destruct e as [fs|els|v]; [|inversion CE..].
    assert (NC : node_at sm src (sl ++ [Elem i]) (Meta nm KStruct cs) (NStruct fs)).
    { eapply node_at_app; [exact NA|]. econstructor; eauto. constructor. }
    assert (CC : ctx (sl ++ [Elem i]) (tl ++ [Elem i])).
    { split.
      - right. exists sl, i, [], tl, []. auto.
      - rewrite names_elem. intros HA HP. destruct CT as (_ & CT). rewrite (CT HA HP). reflexivity. }
    assert (DI : forall s, P s -> ~ within (sl ++ [Elem i]) s) by (intros s PS; eapply DJ; eauto; left; reflexivity).
    assert (AI : anc P (tl ++ [Elem i])).
    { intros t0 j r E. destruct r as [|y r _] using rev_ind.
      - apply app_inj_tail in E as (<- & E). injection E as <-. exists sl, (length all). split; auto. split; [|split; [split; auto|split; auto; apply nth_error_Some; congruence]].
        exists (Meta nm KAoS cs), all. split; auto. split; auto. split; auto. assert (i < length all) by (apply nth_error_Some; congruence). lia.
      - change (t0 ++ Elem j :: r ++ [y]) with (t0 ++ (Elem j :: r) ++ [y]) in E. rewrite app_assoc in E. apply app_inj_tail in E as (E & _). eapply AN; eauto. }
    cbn [snd fst node_fields].
    destruct (kids_finish nm cs fs (sl ++ [Elem i]) (tl ++ [Elem i]) IH NC CC) with (P := P) (st := st) as (s1 & R1); auto; try (rewrite names_elem; auto).
    + destruct mt as [nmt kt cst]. simpl in KT. subst kt. exists (Meta nmt KStruct cst). split; auto. eapply loc_ok_app; [exact LT|]. constructor. constructor.
    + rewrite names_elem. auto.
    + rewrite R1.
      assert (C1 : conf tm (c_tree s1)).
      { change s1 with (fst (s1, Ok (E := cexn) tt)). rewrite <- R1. apply copy_children_conf; auto. }
      assert (J1 : J (fun s => P s \/ within (sl ++ [Elem i]) s) (c_tree s1)).
      { eapply (kids sm tm src rm deepcopy str_of parse_float parse_cpx flt_of_int np_cast array_items close np_int32 enum_of) with (sl := sl ++ [Elem i]) (tl := tl ++ [Elem i]); eauto;
          try (rewrite names_elem; auto). intros d _. apply copies_here. }
      eapply (IHx _ ND2 _ s1 J1).
      * intros s j e' [H|(r & ->)] I' (r' & E).
        -- eapply (DJ s j e'); eauto. { right; auto. } exists r'. auto.
        -- rewrite <- !app_assoc in E. apply app_inv_head in E. simpl in E. injection E as -> _. apply ND1. change j with (fst (j, e')). apply in_map; auto.
      * eapply anc_more; [|exact AN]. auto.
      * auto.
      * auto.
    Unshelve. intros j e' I. apply IN. right; auto.
Qed.

Theorem all_finish : forall c, finishes c.
Proof.
  induction c as [nm k cs IH] using meta_ind'. unfold finishes. intros n sl tl P st NA HV CT NR ST WK AN HJ DJ C.
  cbn [mname] in *. rewrite copy_item_eq.
  assert (CF : conf (Meta nm k cs) n) by (eapply node_at_conf; eauto).
  assert (NMS : loc_names (sl ++ [Child nm]) = loc_names sl ++ [nm]) by apply names_child.
  assert (NUI : ~ ruled (loc_names sl ++ [nm])).
  { rewrite <- NMS. eapply NUL; eauto. apply has_value_nonempty; auto. }
  assert (NU : ~ ruled (loc_names sl)) by (intros U; apply NUI, ruled_more, U).
  assert (PS : path_string (sl ++ [Child nm]) = slashed (loc_names sl ++ [nm])) by (unfold path_string; rewrite NMS; reflexivity).
  assert (DEC : removed (loc_names sl ++ [nm]) \/ ~ removed (loc_names sl ++ [nm])).
  { destruct (entry (loc_names sl ++ [nm])) as [[q|]|] eqn:EN.
    - right. intros R. apply removed_child in R as [R|R]; auto. congruence.
    - left. exists (loc_names sl ++ [nm]), []. rewrite app_nil_r. split; auto. split; auto. destruct (loc_names sl); discriminate.
    - right. intros R. apply removed_child in R as [R|R]; auto. congruence. }
  destruct DEC as [R|NRI].
  { apply removed_child in R as [R|R]; [contradiction|]. unfold cbind, target_item. rewrite PS. unfold ConvSpec.entry in R. rewrite R. exists st. reflexivity. }
  destruct (target_found sl tl (Meta nm k cs) n st P NA NRI NUI CT ST WK AN HJ C) as (s1 & t & TI & TS & TW & TA). cbn [mname mkind] in *.
  unfold cbind. rewrite TI.
  assert (OB : same_obs tm (c_tree st) (c_tree s1)).
  { pose proof (pres_target_item tm rm (same_obs tm) (same_obs_refl tm)) as H.
    specialize (H ltac:(intros a b c' A B l; destruct (A l), (B l); split; congruence) ltac:(intros; apply obs_access) (path_string (sl ++ [Child nm])) nm tl st).
    rewrite TI in H. exact H. }
  assert (C1 : conf tm (c_tree s1)).
  { change s1 with (fst (s1, Ok (E := cexn) (Some t))). rewrite <- TI. apply conf_target_item; auto. }
  apply (J_obs sm tm src rm tgt0 _ _ _ OB) in HJ. clear OB.
  destruct (item_target sm tm src rm enum_of Wsm Wtm Ksm Ktm F sl tl (Meta nm k cs) n st s1 t NA NRI NU CT TI) as (CT' & GO). cbn [mname mkind] in *.
  assert (NRU : ~ rule_at rm (loc_names sl ++ [nm])) by (apply not_ruled_at; auto; destruct (loc_names sl); discriminate).
  set (sl' := sl ++ [Child nm]) in *.
  unfold ConvProofs2.copy_rest. rewrite PS.
  assert (N1 : alookup (slashed (loc_names sl ++ [nm])) (VmapModel.m_type rm) = None).
  { destruct (alookup _ (VmapModel.m_type rm)) eqn:E; auto. exfalso. apply NRU. left. congruence. }
  assert (N2 : alookup (slashed (loc_names sl ++ [nm])) (VmapModel.m_post rm) = None).
  { destruct (alookup (slashed (loc_names sl ++ [nm])) (VmapModel.m_post rm)) eqn:E; auto. exfalso. apply NRU. right. congruence. }
  rewrite N1, N2. unfold cbind at 1. cbn [cret mchildren].
  pose proof (anc_open _ _ _ HJ TA) as O.
  destruct n as [fs|els|v].
  - assert (k = KStruct) as -> by (inversion CF; auto).
    destruct (kids_finish nm cs fs sl' t IH NA CT') with (P := P) (st := s1) as (s2 & R2); auto; try (rewrite NMS; auto).
    unfold cbind. rewrite R2. eexists. reflexivity.
  - assert (k = KAoS) as -> by (inversion CF; auto).
    destruct GO as (GT & mt & LT & KT); [left; discriminate|]. specialize (KT NRU).
    destruct (look_open t tm (c_tree s1) mt Wtm C1 LT O) as (nt & LK & CL).
    destruct mt as [nmt kt cst]. simpl in KT. subst kt. destruct nt as [?|old|?]; [inversion CL| |inversion CL].
    set (st1 := {| c_tree := update tm (c_tree s1) t (fun _ => NAoS (repeat (NStruct []) (length els))); c_shared := c_shared s1 |}).
    assert (RZ : resize t (length els) s1 = (st1, Ok tt)) by (unfold ConvModel.resize; rewrite LK; reflexivity).
    assert (C2 : conf tm (c_tree st1)).
    { change st1 with (fst (st1, Ok (E := cexn) tt)). rewrite <- RZ. apply conf_resize; auto. }
    assert (AO : aos_at sm src sl' (length els)) by (exists (Meta nm KAoS cs), els; simpl in HV; apply Nat.ltb_lt in HV; auto).
    assert (GS : good sl') by (split; rewrite NMS; auto).
    pose proof (resize_obs tm t (length els) s1 st1 RZ) as (Z1 & Z2 & Z3 & Z4).
    assert (J1 : J (fun s => P s \/ s = sl') (c_tree st1)).
    { destruct HJ as (A & B & CC & D). split; [|split; [|split]].
      - intros s v t1 [Hs| ->] LA G G1 NB.
        + destruct (Z4 t1) as (-> & _); eauto. intros W. eapply (DJ s Hs). eapply (inside_array sm tm src rm Wsm Wtm Ksm Ktm proper F sl' t s t1); eauto. left; eauto.
        + exfalso. destruct LA as (m' & (dt & nd & KL) & NL & _). destruct (node_at_inj _ _ _ _ _ NA Wsm _ _ NL) as (_ & E). discriminate.
      - intros s j t1 [Hs| ->] LA G G1 NB.
        + destruct (Z4 t1) as (_ & ->); eauto. intros W. eapply (DJ s Hs). eapply (inside_array sm tm src rm Wsm Wtm Ksm Ktm proper F sl' t s t1); eauto. right; eauto.
        + rewrite (goes_fun sm tm rm Wtm F _ _ _ G1 GT), Z1. destruct LA as (m' & els' & NL & _ & <- & _). destruct (node_at_inj _ _ _ _ _ NA Wsm _ _ NL) as (_ & E). congruence.
      - intros t1 v E. destruct (within_dec t t1) as [(r & ->)|W].
        + destruct r as [|x r]; [rewrite app_nil_r in E|destruct (Z3 x r) as (E' & _)]; congruence.
        + destruct (Z4 t1 W) as (E' & _). rewrite E' in E. destruct (CC _ _ E) as [(s & X & Y)|X]; eauto.
      - intros t1 j E. destruct (within_dec t t1) as [(r & ->)|W].
        + destruct r as [|x r]; [|destruct (Z3 x r) as (_ & [E'|E']); congruence]. rewrite app_nil_r in *. left. exists sl'. rewrite Z1 in E. injection E as E. rewrite <- E. auto.
        + destruct (Z4 t1 W) as (_ & E'). rewrite E' in E. destruct (D _ _ E) as [(s & X & Y)|X]; eauto. }
    unfold cbind. rewrite RZ.
    destruct (elems_finish nm cs sl' t els IH NA GT CT') with (xs := enum els) (P := fun s => P s \/ s = sl') (st := st1) as (s2 & R2); auto; try (rewrite NMS; auto).
    + exists (Meta nmt KAoS cst). auto.
    + intros i e I. apply enum_In; auto.
    + unfold enum. rewrite map_fst_combine by apply seq_length. apply seq_NoDup.
    + intros s i e [H| ->] _ W.
      * apply (DJ s H). eapply within_trans; [|exact W]. exists [Elem i]. reflexivity.
      * destruct W as (r & E). rewrite <- app_assoc in E. rewrite <- (app_nil_r sl') in E at 1. apply app_inv_head in E. discriminate.
    + eapply anc_more; [|exact TA]. auto.
    + rewrite R2. eexists. reflexivity.
  - destruct k as [| |dt nd]; [inversion CF..|]. destruct GO as (GT & mt & LT & KT); [left; discriminate|]. specialize (KT NRU). cbn [mkind] in KT.
    destruct v as [v|]; [|destruct nd; discriminate HV].
    assert (FV : filled_value v) by (inversion CF; subst; simpl in HV; eapply filled_value_len; eauto).
    destruct (leaf_at_has sm src parse_float parse_cpx flt_of_int np_int32 enum_of proper _ v dt nd CF eq_refl FV) as (VO & HV').
    destruct (look_open t tm (c_tree s1) mt Wtm C1 LT O) as (nt & LK & CL).
    destruct mt as [nmt kt cst]. simpl in KT. subst kt. destruct nt as [?|?|old]; [inversion CL..|].
    cbn [leaf_value]. unfold cbind, ConvModel.assign. rewrite LK. unfold set_value. rewrite cast_same by auto. cbv iota beta zeta. eexists. reflexivity.
Qed.
Theorem finishes_toplevel : conf tm tgt0 -> forall sh, exists st',
  copy_toplevel sm tm src rm deepcopy str_of parse_float parse_cpx flt_of_int np_cast array_items close np_int32 enum_of {| c_tree := tgt0; c_shared := sh |} = (st', Ok tt).
Proof.
  intros C0 sh. rewrite copy_toplevel_eq.
  assert (CX : ctx [] []). { split; [left; exists [], []; auto|auto]. }
  assert (NU : ~ ruled (loc_names [])). { intros (a & b & E & NA & _). destruct a; [congruence|discriminate]. }
  assert (NR : ~ removed (loc_names [])). { intros (a & b & E & NA & _). destruct a; [congruence|discriminate]. }
  assert (EQ : exists nm cs fs, sm = Meta nm KStruct cs /\ src = NStruct fs).
  { pose proof Csrc as CS. pose proof Ksm as KS. inversion CS as [n1 dt nd cs E1 E2|n1 dt nd cs v VO E1 E2|n1 cs fs HH H2 H3 E1 E2|n1 cs els HH E1 E2]; rewrite <- E1 in KS; try discriminate. eauto. }
  destruct EQ as (nm & cs & fs & ES & EN).
  assert (NA : node_at sm src [] (Meta nm KStruct cs) (NStruct fs)) by (rewrite ES, EN; constructor).
  replace (mchildren sm) with cs by (rewrite ES; auto). replace (node_fields src) with fs by (rewrite EN; auto).
  eapply (kids_finish nm cs fs [] [] (fun d _ => all_finish d) NA CX NU NR) with (P := fun _ => False).
  - exists tm. split; auto. constructor.
  - constructor.
  - apply J_start.
  - intros s [].
  - intros t0 i r E. destruct t0; discriminate.
  - exact C0.
Qed.
End Copy.
