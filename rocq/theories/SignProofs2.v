(** Conversions with changes of sign: step by step the same as the conversion of the IDS with the opposite values, without those rules. *)
From Verif Require Import Base PathModel PathSpec TreeModel TreeSpec TreeProofs TreeProofs2 TreeProofs4 ValModel ValProofs ValProofs2 ValProofs5 PrimModel PrimSpec PrimProps ConvModel ConvSpec ConvProofs ConvProofs2 ConvProofs3 ConvProofs4 ConvProofs5 ConvProgress ConvProps ConvInverse ConvProps2 SignSpec SignProofs.
From Verif Require VmapModel.
Import VmapModel(handler(..), nmap).

(** ** Changing a data node twice *)
Lemma aset_aset : forall V k (v w : V) m, aset k w (aset k v m) = aset k w m.
Proof.
  intros V k v w m. induction m as [|[x u] m IH]; cbn [aset]; [rewrite str_eqb_refl; reflexivity|]. destruct (str_eqb k x) eqn:E; cbn [aset]; rewrite E; [reflexivity|]. rewrite IH. reflexivity.
Qed.
Lemma list_set_set : forall A i (x y : A) l, list_set i y (list_set i x l) = list_set i y l.
Proof. intros A i x y. induction i as [|i IH]; intros [|z l]; cbn; try reflexivity. rewrite IH. reflexivity. Qed.
Lemma list_set_nth : forall A i (x : A) l, i < length l -> nth_error (list_set i x l) i = Some x.
Proof. intros A i x. induction i as [|i IH]; intros [|z l] H; cbn in *; try lia; [reflexivity|]. apply IH. lia. Qed.
Lemma update_update : forall l m n m' n' x y, look m n l = Some (m', n') -> update m (update m n l (fun _ => x)) l (fun _ => y) = update m n l (fun _ => y).
Proof.
  induction l as [|[nm|i] l IH]; intros [mn k cs] n m' n' x y L; cbn [update look mkind mchildren mname] in *; [reflexivity|..].
  - destruct k; try discriminate. destruct n as [fs|els|v]; try discriminate. destruct (child_meta nm cs) as [c|] eqn:C; [|discriminate]. apply child_meta_Some in C. destruct C as (I & C). f_equal.
    rewrite aset_aset. f_equal. unfold child_or_new at 1. rewrite C, alookup_aset_same. eapply IH; eauto.
  - destruct k; try discriminate. destruct n as [fs|els|v]; try discriminate. destruct (nth_error els i) as [e|] eqn:E; [|discriminate].
    assert (B : i < length els) by (apply nth_error_Some; congruence). rewrite list_set_nth by assumption. rewrite list_set_set. f_equal. f_equal. eapply IH; eauto.
Qed.
Lemma access_update : forall l m n m' n' v, look m n l = Some (m', n') -> access m (update m n l (fun _ => NLeaf (Some v))) l = update m n l (fun _ => NLeaf (Some v)).
Proof.
  induction l as [|[nm|i] l IH]; intros [mn k cs] n m' n' v L; cbn [update access look mkind mchildren mname] in *; [destruct k as [| |dt [|nd]]; reflexivity|..].
  - destruct k; try discriminate. destruct n as [fs|els|w]; try discriminate. destruct (child_meta nm cs) as [c|] eqn:C; [|discriminate]. f_equal.
    rewrite alookup_aset_same, aset_aset. f_equal. eapply IH; eauto.
  - destruct k; try discriminate. destruct n as [fs|els|w]; try discriminate. destruct (nth_error els i) as [e|] eqn:E; [|discriminate].
    assert (B : i < length els) by (apply nth_error_Some; congruence). rewrite list_set_nth by assumption. f_equal. rewrite list_set_set. f_equal. eapply IH; eauto.
Qed.

(** ** Computations that do not look at what is shared *)
Definition tree_only {A} (c : CM A) : Prop := forall s1 s2, c_tree s1 = c_tree s2 -> snd (c s1) = snd (c s2) /\ c_tree (fst (c s1)) = c_tree (fst (c s2)).
Lemma to_ret : forall A (a : A), tree_only (cret a). Proof. intros A a s1 s2 E. auto. Qed.
Lemma to_fail : forall A e, tree_only (cfail (A := A) e). Proof. intros A a s1 s2 E. auto. Qed.
Lemma to_bind : forall A B (c : CM A) (f : A -> CM B), tree_only c -> (forall a, tree_only (f a)) -> tree_only (cbind c f).
Proof.
  intros A B c f H1 H2 s1 s2 E. unfold cbind. destruct (H1 s1 s2 E) as (R & T). destruct (c s1) as [t1 r1], (c s2) as [t2 r2]. cbn [fst snd] in *. subst r2. destruct r1 as [a|e]; [apply H2; assumption|auto].
Qed.
Lemma to_lift : forall A (c : M lexn A), tree_only (lift c).
Proof. intros A c s1 s2 E. unfold lift. rewrite E. destruct (c (c_tree s2)) as [n r]. auto. Qed.
Lemma to_target_item : forall tm rm p nm tl, tree_only (target_item tm rm p nm tl).
Proof.
  intros tm rm p nm tl. unfold target_item. destruct (alookup p (VmapModel.m_path rm)) as [[q|]|].
  - destruct (parse q) as [ip|]; [|apply to_fail]. apply to_bind; [apply to_lift|]. intros a. apply to_ret.
  - apply to_ret.
  - apply to_bind; [apply to_lift|]. intros [cs|k|nd v]; try apply to_fail. destruct (child_meta nm cs); [|apply to_ret]. apply to_bind; [|intros a; apply to_ret]. unfold getattr. apply to_bind; [apply to_lift|].
    intros [cs'|k|nd v]; try apply to_fail. destruct (child_meta nm cs'); [|apply to_fail]. apply to_bind; [apply to_lift|intros a; apply to_ret].
Qed.

Section Sim.
Variables (sm tm : meta).
Variable src : node.
Variables (rm rm0 : nmap).
Variable deepcopy : bool.
Variable str_of : pyval -> str.
Variable parse_float : str -> option flt.
Variable parse_cpx : str -> option (flt * flt).
Variable flt_of_int : Z -> option flt.
Variable np_cast : dtype -> pyval -> result pexn value.
Variable array_items : value -> list pyval.
Variable close : pyval -> pyval -> bool.
Variable np_int32 : flt -> result pexn Z.
Variable enum_of : list str -> option (Z -> option (str * str)).

(** the paths where the sign changes *)
Definition signed (p : list str) : bool := match alookup (slashed p) (VmapModel.m_post rm) with Some H_cocos => true | _ => false end.
Notation flip := (flip signed).
Notation src' := (flip [] src).
Notation assign := (assign tm str_of parse_float parse_cpx flt_of_int np_cast array_items).
Notation copy_item := (copy_item sm tm src rm deepcopy str_of parse_float parse_cpx flt_of_int np_cast array_items close np_int32 enum_of).
Notation copy_children := (copy_children sm tm src rm deepcopy str_of parse_float parse_cpx flt_of_int np_cast array_items close np_int32 enum_of).
Notation copy_item0 := (ConvModel.copy_item sm tm src' rm0 deepcopy str_of parse_float parse_cpx flt_of_int np_cast array_items close np_int32 enum_of).
Notation copy_children0 := (ConvProofs2.copy_children sm tm src' rm0 deepcopy str_of parse_float parse_cpx flt_of_int np_cast array_items close np_int32 enum_of).

Hypothesis Wsm : wf_meta sm.
Hypothesis Wtm : wf_meta tm.
Hypothesis Ksm : mkind sm = KStruct.
Hypothesis Ktm : mkind tm = KStruct.
Hypothesis Csrc : conf sm src.
Hypothesis np_same : forall dt v, typed_array dt v -> np_cast dt (PArr v) = Ok v.
Hypothesis proper : forall s nm dt cs v, node_at sm src s (Meta nm (KLeaf dt 0) cs) (NLeaf (Some v)) -> ~ empty dt v.
Hypothesis F : fits sm tm rm0.
Hypothesis FB : flippable signed sm [] src.
(** where there are data, the two maps agree, up to the changes of sign of data nodes; and there are no other rules *)
Hypothesis NUL : forall s m n, node_at sm src s m n -> nonempty m n -> ~ ruled rm0 (loc_names s).
Hypothesis AGREE : forall s m n, node_at sm src s m n -> nonempty m n -> s <> [] -> let p := slashed (loc_names s) in
  alookup p (VmapModel.m_path rm) = alookup p (VmapModel.m_path rm0) /\ alookup p (VmapModel.m_type rm) = None /\
  (alookup p (VmapModel.m_post rm) = None \/ (alookup p (VmapModel.m_post rm) = Some H_cocos /\ exists dt nd, mkind m = KLeaf dt nd)).

(** assignment of a value of the right type *)
Lemma assign_tree : forall t from v st dt nd old nm cs, look tm (c_tree st) t = Some (Meta nm (KLeaf dt nd) cs, NLeaf old) -> val_ok dt nd v ->
  exists st', assign t from (of_value v) st = (st', Ok tt) /\ c_tree st' = update tm (c_tree st) t (fun _ => NLeaf (if (nd =? 0) && is_empty dt v then None else Some v)).
Proof.
  intros t from v st dt nd old nm cs L VO. unfold ConvModel.assign. rewrite L. unfold set_value. rewrite (cast_same str_of parse_float parse_cpx flt_of_int np_cast array_items np_same _ _ _ VO). eexists. split; reflexivity.
Qed.
Lemma not_empty : forall dt nd v, (nd = 0 -> ~ empty dt v) -> (nd =? 0) && is_empty dt v = false.
Proof. intros dt nd v H. destruct nd; auto. cbn [Nat.eqb andb]. destruct (is_empty dt v) eqn:E; auto. apply is_empty_spec in E. destruct (H eq_refl E). Qed.
(** a value and the change of its sign *)
Lemma assign_flip : forall t from v w st dt nd old nm cs, look tm (c_tree st) t = Some (Meta nm (KLeaf dt nd) cs, NLeaf old) -> val_ok dt nd v -> (nd = 0 -> ~ empty dt v) ->
  negate v = Some w -> val_ok dt nd w -> (nd = 0 -> ~ empty dt w) ->
  exists st', (doc _ <- assign t from (of_value v); post_process tm str_of parse_float parse_cpx flt_of_int np_cast array_items H_cocos t) st = (st', Ok tt) /\
    c_tree st' = update tm (c_tree st) t (fun _ => NLeaf (Some w)).
Proof.
  intros t from v w st dt nd old nm cs L VO NE NG VW NW. destruct (assign_tree t from v st dt nd old nm cs L VO) as (s1 & A & T). rewrite (not_empty _ _ _ NE) in T.
  assert (L1 : look tm (c_tree s1) t = Some (Meta nm (KLeaf dt nd) cs, NLeaf (Some v))) by (pose proof (look_update t tm (c_tree st) (fun _ => NLeaf (Some v)) [] _ _ L) as LU; rewrite app_nil_r in LU; rewrite T, LU; reflexivity).
  unfold cbind at 1. rewrite A. unfold post_process, cview, cbind, lift, view. cbn [c_tree c_shared]. unfold info_at at 1. rewrite L1. cbn [info_of mkind].
  unfold reassign, target_value, cview, cbind, lift, view, read. cbn [c_tree c_shared]. unfold info_at at 1. rewrite L1. cbn [info_of mkind c_tree c_shared].
  assert (AC : access tm (c_tree s1) t = c_tree s1) by (rewrite T; eapply access_update; eauto). rewrite AC. unfold info_at. rewrite L1. cbn [info_of mkind leaf_value c_tree c_shared].
  rewrite NG. cbn [of_option cret].
  destruct (assign_tree t None w {| c_tree := c_tree s1; c_shared := c_shared s1 |} dt nd (Some v) nm cs L1 VW) as (s2 & A2 & T2). rewrite (not_empty _ _ _ NW) in T2. exists s2. split; [exact A2|]. rewrite T2. cbn [c_tree]. rewrite T. eapply update_update; eauto.
Qed.

Definition sim (c : meta) : Prop := forall n sl tl stA stB stB', node_at sm src (sl ++ [Child (mname c)]) c n -> has_value c n = true -> ctx tm rm0 sl tl ->
  ~ removed rm0 (loc_names sl) -> c_tree stA = c_tree stB -> copy_item0 c (flip (loc_names sl ++ [mname c]) n) (sl ++ [Child (mname c)]) tl stB = (stB', Ok tt) ->
  exists stA', copy_item c n (sl ++ [Child (mname c)]) tl stA = (stA', Ok tt) /\ c_tree stA' = c_tree stB'.

Lemma sim_children : forall nm cs fs sl tl, (forall d, In d cs -> sim d) -> node_at sm src sl (Meta nm KStruct cs) (NStruct fs) -> ctx tm rm0 sl tl -> ~ removed rm0 (loc_names sl) ->
  forall ds, (forall d, In d ds -> In d cs) -> forall stA stB stB', c_tree stA = c_tree stB ->
  copy_children0 ds (node_fields (flip (loc_names sl) (NStruct fs))) sl tl stB = (stB', Ok tt) ->
  exists stA', copy_children ds fs sl tl stA = (stA', Ok tt) /\ c_tree stA' = c_tree stB'.
Proof.
  intros nm cs fs sl tl IH N CX NR. pose proof (node_at_conf _ _ _ _ _ N Csrc) as CF. cbn [flip node_fields].
  induction ds as [|d ds IHd]; intros SUB stA stB stB' ET R.
  - cbn in R. injection R as <-. exists stA. split; [reflexivity|assumption].
  - unfold ConvProofs2.copy_children in R |- *. cbn [citer] in R |- *. apply bind_ok in R. destruct R as ([] & s1 & R1 & R2). rewrite flip_lookup in R1.
    assert (X : exists sA, match alookup (mname d) fs with Some ch => if has_value d ch then copy_item d ch (sl ++ [Child (mname d)]) tl else cret tt | None => cret tt end stA = (sA, Ok tt) /\ c_tree sA = c_tree s1).
    { destruct (alookup (mname d) fs) as [ch|] eqn:E; cbn [option_map] in R1; [|injection R1 as <-; exists stA; split; [reflexivity|assumption]].
      assert (ND : node_at sm src (sl ++ [Child (mname d)]) d ch) by (eapply node_at_app; [exact N|]; econstructor; [apply SUB; left; reflexivity|exact E|constructor]).
      assert (CD : conf d ch) by (eapply node_at_conf; eauto). assert (WD : wf_meta d) by (eapply loc_wf; [exact Wsm|eapply node_at_loc_ok; eauto]).
      assert (FD : flippable signed d (loc_names sl ++ [mname d]) ch).
      { intros l m' v Nl FV Fl. apply (FB ((sl ++ [Child (mname d)]) ++ l) m' v); [eapply node_at_app; eauto|exact FV|]. rewrite names_app, names_child. exact Fl. }
      rewrite (flip_has_value signed d _ ch WD CD FD) in R1. destruct (has_value d ch) eqn:HV; [|injection R1 as <-; exists stA; split; [reflexivity|assumption]].
      eapply (IH d (SUB d (or_introl eq_refl))); eauto. }
    destruct X as (sA & RA & EA). unfold cbind. rewrite RA. eapply (IHd (fun e I => SUB e (or_intror I)) sA s1 stB' EA). exact R2.
Qed.

Lemma sim_elems : forall nm cs sl tl all, (forall d, In d cs -> sim d) -> node_at sm src sl (Meta nm KAoS cs) (NAoS all) -> goes_to tm rm0 sl tl -> ctx tm rm0 sl tl -> ~ removed rm0 (loc_names sl) ->
  forall xs, (forall i e, In (i, e) xs -> nth_error all i = Some e) -> forall stA stB stB', c_tree stA = c_tree stB ->
  citer (fun x => copy_children0 cs (node_fields (snd x)) (sl ++ [Elem (fst x)]) (tl ++ [Elem (fst x)])) (map (fun x => (fst x, flip (loc_names sl) (snd x))) xs) stB = (stB', Ok tt) ->
  exists stA', citer (fun x => copy_children cs (node_fields (snd x)) (sl ++ [Elem (fst x)]) (tl ++ [Elem (fst x)])) xs stA = (stA', Ok tt) /\ c_tree stA' = c_tree stB'.
Proof.
  intros nm cs sl tl all IH N GT CT NR. induction xs as [|[i e] xs IHx]; intros IN stA stB stB' ET R.
  - cbn in R. injection R as <-. exists stA. split; [reflexivity|assumption].
  - cbn [map citer fst snd] in R |- *. apply bind_ok in R. destruct R as ([] & s1 & R1 & R2).
    assert (NE : nth_error all i = Some e) by (apply IN; left; reflexivity).
    assert (CE : conf (Meta nm KStruct cs) e).
    { assert (C' : conf (Meta nm KAoS cs) (NAoS all)) by (eapply node_at_conf; eauto). inversion C'; subst. match goal with H : forall e, In e all -> _ |- _ => apply H end. eapply nth_error_In; eauto. }
    destruct e as [fs|els|v]; [|inversion CE..].
    assert (NC : node_at sm src (sl ++ [Elem i]) (Meta nm KStruct cs) (NStruct fs)) by (eapply node_at_app; [exact N|]; econstructor; eauto; constructor).
    assert (CC : ctx tm rm0 (sl ++ [Elem i]) (tl ++ [Elem i])).
    { split; [right; exists sl, i, [], tl, []; auto|]. rewrite names_elem. intros HA HP. destruct CT as (_ & CT). rewrite (CT HA HP). reflexivity. }
    cbn [snd fst node_fields] in *.
    destruct (sim_children nm cs fs (sl ++ [Elem i]) (tl ++ [Elem i]) IH NC CC) with (ds := cs) (stA := stA) (stB := stB) (stB' := s1) as (sA & RA & EA); auto; try (rewrite names_elem; auto).
    unfold cbind. rewrite RA. apply (IHx (fun j f I => IN j f (or_intror I)) sA s1 stB' EA). exact R2.
Qed.
Lemma enum_flip : forall p els, enum (map (flip p) els) = map (fun x => (fst x, flip p (snd x))) (enum els).
Proof.
  intros p els. unfold enum. rewrite map_length. generalize 0. induction els as [|e els IH]; intros k; [reflexivity|]. cbn. f_equal. apply IH.
Qed.

Theorem sim_all : forall c, sim c.
Proof.
  induction c as [nm k cs IH] using meta_ind'. unfold sim. intros n sl tl stA stB stB' NA HV CX NR ET R.
  cbn [mname] in *. rewrite copy_item_eq in R |- *.
  assert (CF : conf (Meta nm k cs) n) by (eapply node_at_conf; eauto).
  assert (NMS : loc_names (sl ++ [Child nm]) = loc_names sl ++ [nm]) by apply names_child.
  assert (PS : path_string (sl ++ [Child nm]) = slashed (loc_names sl ++ [nm])) by (unfold path_string; rewrite NMS; reflexivity).
  assert (NEM : nonempty (Meta nm k cs) n) by (apply has_value_nonempty; auto).
  assert (SLN : sl ++ [Child nm] <> []) by (destruct sl; discriminate).
  assert (NUI : ~ ruled rm0 (loc_names sl ++ [nm])) by (rewrite <- NMS; eapply NUL; eauto).
  assert (NU : ~ ruled rm0 (loc_names sl)) by (intros U; apply NUI, ruled_more, U).
  destruct (AGREE _ _ _ NA NEM SLN) as (MP & MT & PO). rewrite NMS in MP, MT, PO. cbn [mkind] in PO.
  pose proof (to_target_item tm rm0 (path_string (sl ++ [Child nm])) nm tl stA stB ET) as TT.
  assert (TE : target_item tm rm (path_string (sl ++ [Child nm])) nm tl stA = target_item tm rm0 (path_string (sl ++ [Child nm])) nm tl stA).
  { unfold target_item. rewrite PS, MP. reflexivity. }
  apply bind_ok in R. destruct R as (ot & sB & TB & R). unfold cbind at 1. rewrite TE. rewrite TB in TT. cbn [fst snd] in TT.
  destruct (target_item tm rm0 (path_string (sl ++ [Child nm])) nm tl stA) as [sA rA] eqn:TA. cbn [fst snd] in TT. destruct TT as (-> & EAB).
  destruct ot as [t|]; [|injection R as <-; exists sA; split; [reflexivity|assumption]].
  assert (NRI : ~ removed rm0 (loc_names sl ++ [nm])).
  { intros RR. apply removed_child in RR. destruct RR as [RR|RR]; [contradiction|]. unfold entry in RR. unfold target_item in TB. rewrite PS, RR in TB. discriminate. }
  destruct (item_target sm tm src rm0 enum_of Wsm Wtm Ksm Ktm F sl tl (Meta nm k cs) n stA sA t NA NRI NU CX TA) as (CT' & GO). cbn [mname mkind] in *.
  assert (NRU : ~ rule_at rm0 (loc_names sl ++ [nm])) by (apply not_ruled_at; auto; destruct (loc_names sl); discriminate).
  set (sl' := sl ++ [Child nm]) in *.
  unfold ConvProofs2.copy_rest in R |- *. rewrite PS in R |- *.
  assert (N1 : alookup (slashed (loc_names sl ++ [nm])) (VmapModel.m_type rm0) = None).
  { destruct (alookup _ (VmapModel.m_type rm0)) eqn:E; auto. exfalso. apply NRU. left. congruence. }
  assert (N2 : alookup (slashed (loc_names sl ++ [nm])) (VmapModel.m_post rm0) = None).
  { destruct (alookup (slashed (loc_names sl ++ [nm])) (VmapModel.m_post rm0)) eqn:E; auto. exfalso. apply NRU. right. congruence. }
  rewrite N1, N2 in R. rewrite MT. unfold cbind at 1 in R. unfold cbind at 1. cbn [cret mchildren] in R |- *.
  apply bind_ok in R. destruct R as ([] & sC & R & RR). injection RR as <-.
  destruct n as [fs|els|ov].
  - assert (k = KStruct) as -> by (inversion CF; auto). cbn [flip] in R.
    destruct PO as [PO|(_ & dt & nd & PO)]; [|discriminate]. rewrite PO.
    destruct (sim_children nm cs fs sl' t IH NA CT') with (ds := cs) (stA := sA) (stB := sB) (stB' := sC) as (sA' & RA & EA); auto; try (rewrite NMS; auto).
    unfold cbind. rewrite RA. exists sA'. split; [reflexivity|assumption].
  - assert (k = KAoS) as -> by (inversion CF; auto). cbn [flip] in R. destruct PO as [PO|(_ & dt & nd & PO)]; [|discriminate]. rewrite PO.
    destruct GO as (GT & _); [left; discriminate|]. rewrite map_length, enum_flip in R. apply bind_ok in R. destruct R as ([] & sR & R1 & R2).
    assert (XR : exists sR', resize tm t (length els) sA = (sR', Ok tt) /\ c_tree sR' = c_tree sR).
    { unfold resize in *. rewrite EAB in *. destruct (look tm (c_tree sB) t) as [[[nt kt cst] nt']|]; [|discriminate]. destruct kt; try discriminate. destruct nt'; try discriminate. injection R1 as <-. eexists. split; reflexivity. }
    destruct XR as (sR' & RA & EA). unfold cbind at 1. unfold cbind at 1. rewrite RA.
    destruct (sim_elems nm cs sl' t els IH NA GT CT') with (xs := enum els) (stA := sR') (stB := sR) (stB' := sC) as (sA' & RA' & EA'); auto; try (rewrite NMS; auto).
    + intros i e I. apply enum_In in I. exact I.
    + rewrite RA'. exists sA'. split; [reflexivity|assumption].
  - destruct GO as (GT & mt & LT & KT); [left; inversion CF; subst; discriminate|]. specialize (KT NRU).
    assert (KL : exists dt nd, k = KLeaf dt nd) by (inversion CF; subst; eauto). destruct KL as (dt & nd & ->).
    assert (VS : exists v, ov = Some v) by (destruct ov as [v|]; [eauto|]; cbn in HV; destruct nd; discriminate). destruct VS as (v & ->).
    assert (VO : val_ok dt nd v) by (inversion CF; subst; assumption).
    assert (FV : filled_value v) by (apply (filled_value_len dt nd v VO); exact HV).
    assert (CN : filled_value v -> signed (loc_names sl ++ [nm]) = true -> can_flip (Meta nm (KLeaf dt nd) cs) v) by (intros _ FL; eapply FB; [exact NA|exact FV|]; cbn; fold sl'; rewrite NMS; exact FL).
    destruct (flip_value_spec signed (Meta nm (KLeaf dt nd) cs) _ _ dt nd eq_refl VO CN) as (VW & FT & FF).
    assert (NE : nd = 0 -> ~ empty dt v) by (intros ->; eapply proper; exact NA).
    rewrite flip_leaf in R. cbn [leaf_value mkind] in R |- *.
    assert (LK : exists nmt cst old, look tm (c_tree sA) t = Some (Meta nmt (KLeaf dt nd) cst, NLeaf old)).
    { unfold ConvModel.assign in R. rewrite EAB. destruct (look tm (c_tree sB) t) as [[[nt kt cst] nt']|] eqn:L; [|discriminate]. destruct kt as [| |dt' nd']; try discriminate. destruct nt' as [?|?|old]; try discriminate.
      assert (mt = Meta nt (KLeaf dt' nd') cst) as -> by (eapply loc_ok_fun; [exact Wtm|exact LT|eapply look_loc_ok; eauto]). cbn in KT. injection KT as -> ->. eauto. }
    destruct LK as (nmt & cst & old & LK).
    assert (LKB : look tm (c_tree sB) t = Some (Meta nmt (KLeaf dt nd) cst, NLeaf old)) by (rewrite <- EAB; exact LK).
    destruct (assign_tree t (if deepcopy then None else @Some loc sl') (flip_value signed (loc_names sl ++ [nm]) v) sB dt nd old nmt cst LKB VW) as (sB2 & RB & TB2). rewrite RB in R. injection R as <-. rewrite TB2.
    destruct (signed (loc_names sl ++ [nm])) eqn:SG.
    + destruct (FT FV eq_refl) as (NG & OP & NEW). assert (PC : alookup (slashed (loc_names sl ++ [nm])) (VmapModel.m_post rm) = Some H_cocos) by (unfold signed in SG; destruct (alookup _ (VmapModel.m_post rm)) as [[]|]; congruence). rewrite PC.
      destruct (assign_flip t (if deepcopy then None else @Some loc sl') v _ sA dt nd old nmt cst LK VO NE NG VW NEW) as (sA' & RA & TA'). exists sA'. split; [exact RA|]. rewrite TA', EAB, (not_empty _ _ _ NEW). reflexivity.
    + rewrite (FF eq_refl) in *. assert (PC : alookup (slashed (loc_names sl ++ [nm])) (VmapModel.m_post rm) = None) by (destruct PO as [PO|(PO & _)]; [exact PO|unfold signed in SG; rewrite PO in SG; discriminate]). rewrite PC.
      destruct (assign_tree t (if deepcopy then None else @Some loc sl') v sA dt nd old nmt cst LK VO) as (sA' & RA & TA'). unfold cbind. rewrite RA. exists sA'. split; [reflexivity|]. rewrite TA', EAB. reflexivity.
Qed.
Theorem sim_toplevel : forall stA stB stB', c_tree stA = c_tree stB ->
  copy_toplevel sm tm src' rm0 deepcopy str_of parse_float parse_cpx flt_of_int np_cast array_items close np_int32 enum_of stB = (stB', Ok tt) ->
  exists stA', copy_toplevel sm tm src rm deepcopy str_of parse_float parse_cpx flt_of_int np_cast array_items close np_int32 enum_of stA = (stA', Ok tt) /\ c_tree stA' = c_tree stB'.
Proof.
  intros stA stB stB' ET R. rewrite copy_toplevel_eq in R |- *.
  assert (SM : sm = Meta (mname sm) KStruct (mchildren sm)) by (rewrite <- Ksm; destruct sm; reflexivity).
  assert (CS : conf (Meta (mname sm) KStruct (mchildren sm)) src) by (rewrite <- SM; exact Csrc).
  assert (SR : src = NStruct (node_fields src)) by (inversion CS; reflexivity).
  assert (N0 : node_at sm src [] (Meta (mname sm) KStruct (mchildren sm)) (NStruct (node_fields src))) by (rewrite <- SM, <- SR; constructor).
  apply (sim_children _ _ _ [] [] (fun d _ => sim_all d) N0) with (stB := stB); auto.
  - split; [left; exists [], []; auto|reflexivity].
  - intros (a & b & E & NE & _). destruct a; [congruence|discriminate].
  - rewrite <- SR. exact R.
Qed.
End Sim.
