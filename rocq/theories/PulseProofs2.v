(** Conversion of a whole pulse_schedule. *)
From Verif Require Import Base PathModel PathSpec PathProofs3 TreeModel TreeSpec TreeProofs TreeProofs2 TreeProofs4 ValModel ValProofs ValProofs2 ValProofs5 PrimModel PrimSpec PrimProps ConvModel ConvSpec ConvProofs ConvProofs2 ConvProofs3 ConvProofs4 ConvProofs5 PulseModel PulseProofs.
From Verif Require ConvShare2.
From Verif Require VmapModel ResampleModel.
Import VmapModel(handler(..), nmap).

Section Pulse.
Variables (sm tm : meta).
Variable src : node.
Variable rm : nmap.
Variable deepcopy : bool.
Variable str_of : pyval -> str.
Variable parse_float : str -> option flt.
Variable parse_cpx : str -> option (flt * flt).
Variable flt_of_int : Z -> option flt.
Variable np_cast : dtype -> pyval -> result pexn value.
Variable array_items : value -> list pyval.
Variable close : pyval -> pyval -> bool.
Variable np_int32 : flt -> result pexn Z.
Variable enum_of : list str -> option (Z -> option (str * str)).
Variable at_ : list str -> ValModel.attrs.
Variable lin : flt -> flt -> flt -> flt -> flt -> flt.

Notation assign := (assign tm str_of parse_float parse_cpx flt_of_int np_cast array_items).
Notation resize := (resize tm).
Notation copy_item := (copy_item_cb sm tm src rm deepcopy str_of parse_float parse_cpx flt_of_int np_cast array_items close np_int32 enum_of).
Notation copy_children := (copy_structure_cb sm tm src rm deepcopy str_of parse_float parse_cpx flt_of_int np_cast array_items close np_int32 enum_of).
Notation resample_cb := (resample_cb sm tm src str_of parse_float parse_cpx flt_of_int np_cast array_items at_ lin).
Notation own_time := (own_time sm src at_).
Notation over_time := (over_time at_).
Notation pulse_item := (pulse_item sm tm src rm deepcopy str_of parse_float parse_cpx flt_of_int np_cast array_items close np_int32 enum_of at_ lin).
Notation pulse_3to4 := (pulse_3to4 sm tm src rm deepcopy str_of parse_float parse_cpx flt_of_int np_cast array_items close np_int32 enum_of at_ lin).
Notation entry := (entry rm).
Notation mapped := (mapped rm).
Notation rule_at := (rule_at rm).
Notation removed := (removed rm).
Notation ruled := (ruled rm).
Notation goes_to := (goes_to tm rm).
Notation by_rule := (by_rule sm tm src rm).
Notation fval := (fval tm).
Notation fsize := (fsize tm).
Notation ctx := (ctx tm rm).
Notation present := (present sm src).
Notation good := (good rm).
Notation unused := (unused sm tm src rm).

Hypothesis Wsm : wf_meta sm.
Hypothesis Wtm : wf_meta tm.
Hypothesis Ksm : mkind sm = KStruct.
Hypothesis Ktm : mkind tm = KStruct.
Hypothesis Csrc : conf sm src.
Hypothesis np_same : forall dt v, typed_array dt v -> np_cast dt (PArr v) = Ok v.
Hypothesis proper : forall s nm dt cs v, node_at sm src s (Meta nm (KLeaf dt 0) cs) (NLeaf (Some v)) -> ~ empty dt v.
Hypothesis F : fits sm tm rm.

(** ** A 1D array, possibly empty *)
Definition shown (w : value) : option value := if leaf_has_value 1 (Some w) then Some w else None.
Lemma assign_array : forall t from w st st' mt dt, assign t from (PArr w) st = (st', Ok tt) -> loc_ok tm t mt -> mkind mt = KLeaf dt 1 ->
  typed_array dt w -> (exists k, value_shape w = [k]) ->
  fval (c_tree st') t = shown w /\ fsize (c_tree st') t = None /\
  forall q, q <> t -> fval (c_tree st') q = fval (c_tree st) q /\ fsize (c_tree st') q = fsize (c_tree st) q.
Proof.
  intros t from w st st' mt dt H LT KT TA (k & SH). unfold ConvModel.assign in H.
  destruct (look tm (c_tree st) t) as [[m' n']|] eqn:L; [|discriminate].
  assert (m' = mt) as -> by (eapply loc_ok_fun; eauto using look_loc_ok).
  destruct mt as [nm k' cs]. simpl in KT. subst k'. destruct n' as [fs|els|old]; try discriminate.
  assert (C : set_value str_of parse_float parse_cpx flt_of_int np_cast array_items false dt 1 old (PArr w) = (Some w, Ok tt)).
  { unfold set_value. replace (assigned str_of parse_float parse_cpx flt_of_int np_cast array_items dt 1 (PArr w)) with (Ok (E := pexn) w); [reflexivity|].
    inversion TA; subst; simpl in SH; subst; unfold assigned, cast_value, cast_array; rewrite np_same by auto; reflexivity. }
  rewrite C in H. injection H as <-. simpl. split; [|split].
  - unfold ConvProofs.fval, shown. rewrite <- (app_nil_r t) at 2. rewrite (look_update _ _ _ _ [] _ _ L). cbn -[leaf_has_value]. reflexivity.
  - unfold ConvProofs.fsize. rewrite <- (app_nil_r t) at 2. rewrite (look_update _ _ _ _ [] _ _ L). reflexivity.
  - intros q NQ. eapply obs_set_leaf; eauto.
Qed.

(** ** What arrives *)
Definition special (x : str) : bool := named ["ids_properties"; "code"; "time"; "event"]%string x.
Definition arrives (s : loc) (v : value) : option (option value) :=
  match s with
  | Child x :: _ =>
    if special x then Some (Some v)
    else match source_at sm src s, source_at sm src [Child x] with
         | Some (Meta _ (KLeaf _ 1) _, _), Some (c, n) =>
           if over_time (loc_names s) then
             match ResampleModel.common_time_base c n, own_time s with
             | Ok tb, Ok time => match ResampleModel.resample_callback lin tb time v with Ok w => Some (shown w) | Err _ => None end
             | _, _ => None
             end
           else Some (Some v)
         | _, _ => Some (Some v)
         end
  | _ => Some (Some v)
  end.
Notation JP := (JP sm tm src rm arrives).

Definition part (x : str) (s : loc) : Prop := exists r, s = Child x :: r.
Lemma part_in : forall x a b, part x a -> part x (a ++ b).
Proof. intros x a b (r & ->). exists (r ++ b). reflexivity. Qed.

Lemma node_at_source : forall s m n, node_at sm src s m n -> source_at sm src s = Some (m, n).
Proof. intros s m n N. unfold source_at. apply look_vnode; auto. apply node_at_vnode; auto. Qed.

(** *** no callback *)
Lemma no_cb_leaf : forall x c sl v t mt dt nd st st', special x = true -> part x sl -> node_at sm src sl c (NLeaf (Some v)) -> mkind c = KLeaf dt nd -> leaf_at sm src sl v ->
  loc_ok tm t mt -> mkind mt = KLeaf dt nd -> fval (c_tree st) t = Some v -> fsize (c_tree st) t = None ->
  no_callback c (NLeaf (Some v)) sl t st = (st', Ok tt) ->
  Some (fval (c_tree st') t) = arrives sl v /\ fsize (c_tree st') t = None.
Proof.
  intros x c sl v t mt dt nd st st' SP (r & ->) _ _ _ _ _ FV FS H. injection H as <-. split; auto. rewrite FV. unfold arrives. rewrite SP. reflexivity.
Qed.

(** *** resampling *)
Lemma resample_cb_frame : forall tb (ok : loc -> Prop) c n sl tl s, ok tl -> R_frame tm ok (c_tree s) (c_tree (fst (resample_cb tb c n sl tl s))).
Proof.
  intros tb ok c n sl tl s O. unfold PulseModel.resample_cb. destruct (mkind c) as [| |dt [|[|nd]]]; try apply frame_refl.
  - destruct (over_time (loc_names sl)); apply frame_refl.
  - destruct (over_time (loc_names sl)); [|apply frame_refl]. destruct (own_time sl) as [time|e]; [|apply frame_refl].
    destruct (ResampleModel.resample_callback lin tb time (leaf_value c n)) as [w|e]; [|apply frame_refl].
    apply frame_assign; auto. exact I.
Qed.
Lemma resample_cb_other : forall tb x c n sl tl st st', part x sl -> node_at sm src sl c n -> (forall v, n <> NLeaf v) -> resample_cb tb c n sl tl st = (st', Ok tt) ->
  same_obs tm (c_tree st) (c_tree st').
Proof.
  intros tb x c n sl tl st st' _ NA NL H. assert (C : conf c n) by (eapply node_at_conf; eauto). unfold PulseModel.resample_cb in H.
  destruct (mkind c) as [| |dt nd] eqn:K.
  - injection H as <-. apply same_obs_refl.
  - destruct (over_time (loc_names sl)); [discriminate|]. injection H as <-. apply same_obs_refl.
  - exfalso. destruct c as [nm k cs]. simpl in K. subst k. inversion C; subst; eapply NL; eauto.
Qed.
Lemma resample_typed : forall tb time dt v w, val_ok dt 1 v -> ResampleModel.resample_callback lin tb time v = Ok w -> typed_array dt w /\ exists k, value_shape w = [k].
Proof.
  intros tb time dt v w VO H. unfold ResampleModel.resample_callback in H.
  destruct v as [| | | | |sh d|sh d|]; try discriminate; destruct sh as [|k [|]]; try discriminate; destruct (length d =? length time); try discriminate;
    injection H as <-; inversion VO; subst; (split; [constructor; simpl; rewrite map_length; lia|simpl; eauto]).
Qed.
Lemma resample_cb_leaf : forall tb x cx nx c sl v t mt dt nd st st', special x = false -> node_at sm src [Child x] cx nx -> ResampleModel.common_time_base cx nx = Ok tb ->
  part x sl -> node_at sm src sl c (NLeaf (Some v)) -> mkind c = KLeaf dt nd -> leaf_at sm src sl v ->
  loc_ok tm t mt -> mkind mt = KLeaf dt nd -> fval (c_tree st) t = Some v -> fsize (c_tree st) t = None ->
  resample_cb tb c (NLeaf (Some v)) sl t st = (st', Ok tt) ->
  Some (fval (c_tree st') t) = arrives sl v /\ fsize (c_tree st') t = None.
Proof.
  intros tb x cx nx c sl v t mt dt nd st st' SP NX TB (r & ->) NA K LA LT KT FV FS H.
  unfold arrives. rewrite SP, (node_at_source _ _ _ NA), (node_at_source _ _ _ NX). destruct c as [nm k cs]. simpl in K. subst k.
  unfold PulseModel.resample_cb in H. cbn [mkind] in H. destruct nd as [|[|nd]].
  - injection H as <-. rewrite FV. auto.
  - destruct (over_time (loc_names (Child x :: r))); [|injection H as <-; rewrite FV; auto]. rewrite TB.
    destruct (own_time (Child x :: r)) as [time|e]; [|discriminate]. change (leaf_value (Meta nm (KLeaf dt 1) cs) (NLeaf (Some v))) with v in H.
    destruct (ResampleModel.resample_callback lin tb time v) as [w|e] eqn:RC; [|discriminate].
    assert (VO : val_ok dt 1 v). { assert (C : conf (Meta nm (KLeaf dt 1) cs) (NLeaf (Some v))) by (eapply node_at_conf; eauto). inversion C; auto. }
    destruct (resample_typed _ _ _ _ _ VO RC) as (TY & SH). destruct (assign_array _ _ _ _ _ _ _ H LT KT TY SH) as (A & B & _). rewrite A. auto.
  - injection H as <-. rewrite FV. auto.
Qed.

(** ** The top level *)
Variable tgt0 : node.
Notation JPt := (JP tgt0).
Definition timel (q : loc) : loc := q ++ [Child (strs "time")].
(** the structure of the target that a top-level structure is copied to *)
Definition stem (x : str) (q : loc) : Prop := goes_to [Child x] q \/ (q = [] /\ entry [x] = None /\ ~ In x (map mname (mchildren tm))).
(** top-level structures with a common time base *)
Definition group (x : str) (c : meta) (n : node) : Prop := special x = false /\ node_at sm src [Child x] c n /\ has_value c n = true /\ ~ removed [x].

Hypothesis plain_top : forall c, In c (mchildren sm) -> ~ rule_at [mname c].
Hypothesis bases_free : forall x c n q, group x c n -> stem x q -> unused (timel q).

Lemma ctx_root : ctx [] []. Proof. split; [left; exists [], []; auto|auto]. Qed.
Lemma not_ruled_root : ~ ruled (loc_names []). Proof. intros (a & b & E & NA & _). destruct a; [congruence|discriminate]. Qed.
Lemma not_removed_root : ~ removed (loc_names []). Proof. intros (a & b & E & NA & _). destruct a; [congruence|discriminate]. Qed.
Lemma not_ruled_top : forall c, In c (mchildren sm) -> ~ ruled [mname c].
Proof.
  intros c IC (a & b & E & NA & R). destruct a as [|y [|z a]]; [congruence| |discriminate]. injection E as <- _. apply (plain_top c IC). exact R.
Qed.
Lemma removed_top : forall x, removed [x] <-> entry [x] = Some None.
Proof.
  intros x. split.
  - intros (a & b & E & NA & R). destruct a as [|y [|z a]]; [congruence| |discriminate]. injection E as <- _. exact R.
  - intros E. exists [x], []. split; auto. split; auto. discriminate.
Qed.

Lemma stem_target : forall c n s s' t, node_at sm src [Child (mname c)] c n -> target_item tm rm (path_string [Child (mname c)]) (mname c) [] s = (s', Ok (Some t)) -> stem (mname c) t.
Proof.
  intros c n s s' t NA TI.
  pose proof (node_at_loc_ok _ _ _ _ _ NA) as LI. pose proof (loc_at_path _ _ _ LI (child_not_elem [] _)) as API. cbn [loc_names] in API.
  assert (NR : ~ removed [mname c]).
  { rewrite removed_top. intros E. change (path_string [Child (mname c)]) with (slashed [mname c]) in TI. unfold target_item in TI. unfold ConvSpec.entry in E. rewrite E in TI. discriminate. }
  assert (IC : In c (mchildren sm)) by (inversion NA; subst; match goal with H : node_at _ _ [] _ _ |- _ => inversion H; subst; auto end).
  destruct (item_target sm tm src rm enum_of Wsm Wtm Ksm Ktm F [] [] c n s s' t NA NR not_ruled_root ctx_root TI) as ((_ & CX) & _).
  change (path_string [Child (mname c)]) with (slashed [mname c]) in TI. unfold target_item in TI. cbn [app] in *.
  change (alookup (slashed [mname c]) (VmapModel.m_path rm)) with (entry [mname c]) in TI.
  destruct (entry [mname c]) as [[q'|]|] eqn:EN; [|discriminate|].
  - left. destruct (ft_target _ _ _ F [mname c] c API) as (q & mt & MP & QN & AQ & KQ & FQ); [discriminate|auto| |right; right; congruence|].
    { intros a b E NB NA'. destruct a as [|y [|z a]]; [congruence| |discriminate]. injection E as _ E. congruence. }
    assert (q' = slashed q) as -> by (destruct MP as [M|(M & _)]; congruence).
    rewrite (parse_plain q) in TI; [|auto|eapply ft_names_t; eauto].
    unfold cbind, lift in TI. destruct (goto tm [] (plain q) (c_tree s)) as [n1 [t'|]] eqn:G; simpl in TI; [|discriminate]. injection TI as <- <-.
    apply (mapped_item sm tm rm Wsm Wtm Ksm Ktm F [] [] (mname c) c q mt (c_tree s) n1 t' LI) in MP as (GT & _); auto. left. exists [], []. auto.
  - unfold cbind, cview, lift, view in TI. simpl in TI. destruct (info_at tm (c_tree s) []) as [i|] eqn:IN; simpl in TI; [|discriminate].
    destruct i as [cs|k|nd v]; [|discriminate..].
    assert (CS : cs = mchildren tm). { unfold info_at in IN. simpl in IN. destruct tm as [nm1 [| |dt nd] cs1], (c_tree s); unfold info_of in IN; simpl in *; try discriminate; congruence. }
    subst cs. destruct (child_meta (mname c) (mchildren tm)) as [d|] eqn:CM.
    + left. apply child_meta_Some in CM as (ID & ND).
      assert (E : t = [Child (mname c)]). { apply CX; [|exists d; rewrite <- ND; constructor; auto; constructor].
        intros a b E NA'. destruct a as [|y [|z a]]; [congruence| |discriminate]. injection E as <- _. exact EN. }
      subst t. split; [right; auto|]. split; auto. split; [apply (child_not_elem [])|]. exists d. destruct tm as [nm1 k1 cs1]. simpl in Ktm. subst k1. rewrite <- ND. constructor; auto. constructor.
    + right. injection TI as _ <-. split; auto. split; auto. intros I. apply in_map_iff in I as (d & ED & ID).
      assert (X : child_meta (mname c) (mchildren tm) = Some d) by (apply child_meta_iff; [apply wf_nodup; auto|auto]). congruence.
Qed.

(** *** one item *)
Lemma named_special : forall x, special x = named ["ids_properties"; "code"]%string x || named ["time"]%string x || named ["event"]%string x.
Proof. intros x. unfold special, named. cbn [existsb]. rewrite !Bool.orb_false_r, !Bool.orb_assoc. reflexivity. Qed.
Lemma special_item : forall c n st st', node_at sm src [Child (mname c)] c n -> special (mname c) = true ->
  pulse_item c n st = (st', Ok tt) -> copy_item no_callback c n [Child (mname c)] [] st = (st', Ok tt).
Proof.
  intros c n st st' NA SP H.
  assert (IC : In c (mchildren sm)) by (inversion NA; subst; match goal with H : node_at _ _ [] _ _ |- _ => inversion H; subst; auto end).
  assert (NR : alookup (path_string [Child (mname c)]) (VmapModel.m_type rm) = None /\ alookup (path_string [Child (mname c)]) (VmapModel.m_post rm) = None).
  { pose proof (plain_top c IC) as NR. change (path_string [Child (mname c)]) with (slashed [mname c]). unfold ConvSpec.rule_at in NR.
    split; match goal with |- ?a = None => destruct a end; auto; exfalso; apply NR; [left|right]; discriminate. }
  destruct NR as (N1 & N2). unfold PulseModel.pulse_item in H. destruct c as [name k cs]. cbn [mname mchildren] in *.
  rewrite (copy_item_cb_eq sm tm src rm deepcopy str_of parse_float parse_cpx flt_of_int np_cast array_items close np_int32 enum_of no_callback).
  apply bind_ok in H as (o & s1 & TI & H). unfold cbind at 1. rewrite TI. destruct o as [tl|]; auto.
  unfold copy_rest_cb. rewrite N1, N2. cbn [mchildren]. unfold cbind at 1. cbn [cret].
  assert (B : forall (a : CM unit) s, a s = (st', Ok tt) -> (doc _ <- a; doc _ <- cret tt; no_callback (Meta name k cs) n [Child name] tl) s = (st', Ok tt)).
  { intros a s E. unfold cbind. rewrite E. reflexivity. }
  rewrite named_special in SP.
  destruct (named ["ids_properties"; "code"]%string name). { destruct n as [fs|els|v]; try discriminate. apply B. exact H. }
  destruct (named ["time"]%string name). { destruct n as [fs|els|v]; try discriminate. apply B. exact H. }
  destruct (named ["event"]%string name); [|discriminate]. destruct n as [fs|els|v]; try discriminate. apply B. exact H.
Qed.

(** the target of the time base of a group *)
Definition base_value (c : meta) (n : node) : option value :=
  match ResampleModel.common_time_base c n with Ok tb => shown (VFltA [length tb] tb) | Err _ => None end.
Definition timed (q : loc) : Prop := exists mt, loc_ok tm (timel q) mt /\ mkind mt = KLeaf FLT 1.

Hypothesis bases_timed : forall x c n q, group x c n -> stem x q -> timed q.

(** a group: its time base becomes what is found at [time] of the target *)
Lemma group_item : forall c n ref P st st', node_at sm src [Child (mname c)] c n -> has_value c n = true -> special (mname c) = false ->
  JPt ref P (c_tree st) -> (forall s, P s -> ~ within [Child (mname c)] s) -> pulse_item c n st = (st', Ok tt) ->
  exists ref', JPt ref' (fun s => P s \/ within [Child (mname c)] s) (c_tree st') /\
    ((ref' = ref /\ removed [mname c]) \/
     (group (mname c) c n /\ exists q tb, stem (mname c) q /\ (ResampleModel.common_time_base c n = Ok tb /\ exists fs, n = NStruct fs) /\
        ref' = fun l => if loc_eqb l (timel q) then base_value c n else ref l)).
Proof.
  intros c n ref P st st' NA HV SP HJ DJ H.
  assert (IC : In c (mchildren sm)) by (inversion NA; subst; match goal with H : node_at _ _ [] _ _ |- _ => inversion H; subst; auto end).
  pose proof SP as SP'. rewrite named_special in SP'. apply Bool.orb_false_iff in SP' as (SP' & SP3). apply Bool.orb_false_iff in SP' as (SP1 & SP2).
  unfold PulseModel.pulse_item in H. apply bind_ok in H as (o & s1 & TI & H).
  assert (OB : same_obs tm (c_tree st) (c_tree s1)).
  { pose proof (pres_target_item tm rm (same_obs tm) (same_obs_refl tm)) as X.
    specialize (X ltac:(intros a b c' A B l; destruct (A l), (B l); split; congruence) ltac:(intros; apply obs_access) (path_string [Child (mname c)]) (mname c) [] st).
    rewrite TI in X. exact X. }
  apply (JP_obs sm tm src rm arrives tgt0 _ _ _ _ OB) in HJ. clear OB.
  destruct o as [q|].
  2:{ injection H as <-.
      assert (RM : removed [mname c]).
      { rewrite removed_top. change (path_string [Child (mname c)]) with (slashed [mname c]) in TI. unfold target_item in TI.
        unfold ConvSpec.entry. destruct (alookup (slashed [mname c]) (VmapModel.m_path rm)) as [[q|]|]; auto.
        - destruct (parse q); [|discriminate]. apply bind_ok in TI as (? & ? & _ & TI). discriminate.
        - apply bind_ok in TI as ([cs'|?|? ?] & ? & _ & TI); try discriminate. destruct (child_meta (mname c) cs'); [|discriminate].
          apply bind_ok in TI as (? & ? & _ & TI). discriminate. }
      exists ref. split; [|left; auto]. eapply JP_ext; [| |exact HJ]; auto. intros s [X|X] _ G; auto. exfalso.
      apply (within_good rm) in X; auto. destruct X as (R & _). apply R. exact RM. }
  rewrite SP1, SP2, SP3 in H. destruct n as [fs|els|v]; try discriminate.
  destruct (ResampleModel.common_time_base c (NStruct fs)) as [tb|e] eqn:TB; [|discriminate].
  apply bind_ok in H as (a & s2 & GA & H). apply bind_ok in H as ([] & s3 & AS & H).
  pose proof (stem_target c _ _ _ _ NA TI) as ST.
  assert (NRM : ~ removed [mname c]).
  { rewrite removed_top. intros E. change (path_string [Child (mname c)]) with (slashed [mname c]) in TI. unfold target_item in TI. unfold ConvSpec.entry in E. rewrite E in TI. discriminate. }
  assert (GR : group (mname c) c (NStruct fs)) by (split; auto).
  destruct (bases_timed _ _ _ _ GR ST) as (mt & LT & KT). pose proof (bases_free _ _ _ _ GR ST) as UN.
  assert (OB : same_obs tm (c_tree s1) (c_tree s2)).
  { pose proof (pres_getattr tm (same_obs tm) (same_obs_refl tm)) as X.
    specialize (X ltac:(intros x b c' A B l; destruct (A l), (B l); split; congruence) ltac:(intros; apply obs_access) q (strs "time") s1).
    rewrite GA in X. exact X. }
  apply (JP_obs sm tm src rm arrives tgt0 _ _ _ _ OB) in HJ. clear OB.
  apply getattr_loc in GA. subst a. change (q ++ [Child (strs "time")]) with (timel q) in AS.
  destruct (assign_array _ _ _ _ _ _ _ AS LT KT) as (A1 & A2 & A3); [constructor; simpl; lia|simpl; eauto|].
  set (ref' := fun l => if loc_eqb l (timel q) then base_value c (NStruct fs) else ref l).
  assert (RT : ref' (timel q) = shown (VFltA [length tb] tb)).
  { unfold ref', base_value. rewrite (proj2 (ConvShare2.loc_eqb_spec _ _) eq_refl), TB. reflexivity. }
  assert (RO : forall l, l <> timel q -> ref' l = ref l).
  { intros l NL. unfold ref'. destruct (loc_eqb l (timel q)) eqn:E; auto. apply ConvShare2.loc_eqb_spec in E. congruence. }
  assert (J1 : JPt ref' P (c_tree s3)).
  { destruct HJ as (A & B & C & D & E). destruct UN as (UB & UN). split; [|split; [|split; [|split]]].
    - intros s v t PS LA G GT NB. destruct (A3 t) as (-> & _); [|eauto]. intros ->. apply (UN s (timel q)); [left; eauto|auto|auto|apply within_refl].
    - intros s v t PS LA G GT NB. destruct (A3 t) as (_ & ->); [|eauto]. intros ->. apply (UN s (timel q)); [right; eauto|auto|auto|apply within_refl].
    - intros t w E1. destruct (loc_dec t (timel q)) as [->|NT].
      + right. right. rewrite RT, <- A1. exact E1.
      + destruct (A3 t NT) as (E2 & _). rewrite E2 in E1. rewrite (RO t NT). auto.
    - intros t k E1. destruct (loc_dec t (timel q)) as [->|NT]; [congruence|]. destruct (A3 t NT) as (_ & E2). rewrite E2 in E1. auto.
    - intros t U. destruct (loc_dec t (timel q)) as [->|NT]; [congruence|]. destruct (A3 t NT) as (-> & _). rewrite (RO t NT). auto. }
  exists ref'. split; [|right; split; auto; exists q, tb; eauto 6].
  assert (K : exists nm cs, c = Meta nm KStruct cs).
  { assert (CF : conf c (NStruct fs)) by (eapply node_at_conf; eauto). inversion CF; subst; eauto. }
  destruct K as (nm & cs & ->). cbn [mname mchildren] in *.
  destruct (item_target sm tm src rm enum_of Wsm Wtm Ksm Ktm F [] [] (Meta nm KStruct cs) (NStruct fs) st s1 q NA NRM not_ruled_root ctx_root TI) as (CX & _).
  refine (kids_cb sm tm src rm deepcopy str_of parse_float parse_cpx flt_of_int np_cast array_items close np_int32 enum_of (resample_cb tb) Wsm Ksm Ktm Csrc arrives (part nm) (part_in nm) tgt0 ref' nm cs fs [Child nm] q _ _ NA CX _ _ P s3 st' J1 DJ H).
  - exists []. reflexivity.
  - intros d _. refine (copies_cb_all sm tm src rm deepcopy str_of parse_float parse_cpx flt_of_int np_cast array_items close np_int32 enum_of (resample_cb tb) Wsm Wtm Ksm Ktm Csrc np_same proper F arrives (part nm) (part_in nm) _ _ _ tgt0 d).
    + apply resample_cb_frame.
    + apply resample_cb_other.
    + intros. eapply resample_cb_leaf; eauto.
  - exact (not_ruled_top _ IC).
  - exact NRM.
Qed.
Lemma special_copied : forall c n ref P st st', node_at sm src [Child (mname c)] c n -> has_value c n = true -> special (mname c) = true ->
  JPt ref P (c_tree st) -> (forall s, P s -> ~ within [Child (mname c)] s) -> pulse_item c n st = (st', Ok tt) ->
  JPt ref (fun s => P s \/ within [Child (mname c)] s) (c_tree st').
Proof.
  intros c n ref P st st' NA HV SP HJ DJ H. apply special_item in H; auto.
  refine (copies_cb_all sm tm src rm deepcopy str_of parse_float parse_cpx flt_of_int np_cast array_items close np_int32 enum_of no_callback Wsm Wtm Ksm Ktm Csrc np_same proper F arrives (part (mname c)) (part_in (mname c)) _ _ _ tgt0 c
    ref n [] [] P st st' _ NA HV ctx_root not_ruled_root not_removed_root HJ DJ H).
  - intros. apply frame_refl.
  - intros ? ? ? ? ? ? _ _ _ E. injection E as <-. apply same_obs_refl.
  - intros. eapply no_cb_leaf; eauto.
  - exists []. reflexivity.
Qed.

(** *** all items *)
Definition refs (done : list str) (ref : loc -> option value) : Prop :=
  (forall l w, ref l = Some w -> fval tgt0 l = Some w \/ exists x c n q, In x done /\ group x c n /\ stem x q /\ l = timel q /\ base_value c n = Some w) /\
  (forall l, (forall x c n q, In x done -> group x c n -> stem x q -> l <> timel q) -> ref l = fval tgt0 l) /\
  (forall x c n q, In x done -> group x c n -> stem x q -> (forall y c' n', group y c' n' -> stem y q -> y = x) -> ref (timel q) = base_value c n) /\
  (forall x c n, In x done -> group x c n -> exists tb, ResampleModel.common_time_base c n = Ok tb /\ exists fs, n = NStruct fs).
Lemma timel_inj : forall a b, timel a = timel b -> a = b.
Proof. intros a b E. apply app_inj_tail in E as (E & _). exact E. Qed.
Lemma stem_fun : forall x q1 q2, stem x q1 -> stem x q2 -> q1 = q2.
Proof.
  assert (X : forall x q, goes_to [Child x] q -> entry [x] = None -> ~ In x (map mname (mchildren tm)) -> False).
  { intros x q (M & _ & _ & mt & LT) E NI. destruct M as [M|(_ & M)]; [simpl in M; congruence|]. simpl in M.
    destruct q as [|[y|i] q]; [discriminate| |].
    - cbn [loc_names] in M. injection M as -> _. apply loc_ok_child in LT as (nm & cs & c & -> & IC & <- & _). apply NI. apply in_map. exact IC.
    - apply loc_ok_elem in LT as (nm & cs & E2 & _). pose proof Ktm as K2. rewrite E2 in K2. discriminate. }
  intros x q1 q2 [A|(A & A1 & A2)] [B|(B & B1 & B2)]; try congruence.
  - eapply (goes_fun sm tm rm Wtm F); eauto.
  - exfalso. eauto.
  - exfalso. eauto.
Qed.
Lemma group_fun : forall x c n c' n', group x c n -> group x c' n' -> c = c' /\ n = n'.
Proof. intros x c n c' n' (_ & A & _) (_ & B & _). apply (node_at_inj _ _ _ _ _ A Wsm _ _ B). Qed.

Theorem pulse_J : forall sh st', pulse_3to4 {| c_tree := tgt0; c_shared := sh |} = (st', Ok tt) ->
  exists ref, JPt ref (fun _ => True) (c_tree st') /\ refs (map mname (mchildren sm)) ref.
Proof.
  intros sh st' RUN.
  assert (EQ : exists nm cs fs, sm = Meta nm KStruct cs /\ src = NStruct fs).
  { pose proof Csrc as CS. pose proof Ksm as KS. inversion CS as [n1 dt nd cs E1 E2|n1 dt nd cs v VO E1 E2|n1 cs fs HH H2 H3 E1 E2|n1 cs els HH E1 E2]; rewrite <- E1 in KS; try discriminate. eauto. }
  destruct EQ as (nm & cs & fs & ES & EN).
  unfold PulseModel.pulse_3to4 in RUN. replace (mchildren sm) with cs in RUN |- * by (rewrite ES; auto). replace (node_fields src) with fs in RUN by (rewrite EN; auto).
  assert (ND : NoDup (map mname cs)) by (replace cs with (mchildren sm) by (rewrite ES; auto); apply wf_nodup; auto).
  assert (L : forall ds done ref P st, incl ds cs -> NoDup (map mname ds) -> (forall x, In x done -> ~ In x (map mname ds)) -> JPt ref P (c_tree st) -> refs done ref ->
    (forall s d, P s -> In d ds -> ~ within [Child (mname d)] s) ->
    citer (fun d => match alookup (mname d) fs with Some ch => if has_value d ch then pulse_item d ch else cret tt | None => cret tt end) ds st = (st', Ok tt) ->
    exists ref', JPt ref' (fun s => P s \/ exists d, In d ds /\ within [Child (mname d)] s) (c_tree st') /\ refs (done ++ map mname ds) ref').
  { induction ds as [|d ds IHd]; intros done ref P st IN NDd DN HJ HR DJ H.
    - simpl in H. injection H as <-. exists ref. split; [|rewrite app_nil_r; auto]. eapply JP_ext; [| |exact HJ]; auto. intros s [X|(d & [] & _)]; auto.
    - simpl in H. apply bind_ok in H as ([] & s1 & H1 & H2). inversion NDd as [|? ? ND1 ND2]; subst. assert (ID : In d cs) by (apply IN; left; auto).
      assert (DJ1 : forall s, P s -> ~ within [Child (mname d)] s) by (intros s PS; apply (DJ s d); auto; left; auto).
      assert (STEP : exists ref1, JPt ref1 (fun s => P s \/ within [Child (mname d)] s) (c_tree s1) /\ refs (done ++ [mname d]) ref1).
      { assert (NOG : (forall c n, ~ group (mname d) c n) -> refs (done ++ [mname d]) ref).
        { intros NG. destruct HR as (R1 & R2 & R3 & R4).
          assert (X : forall x c n, In x (done ++ [mname d]) -> group x c n -> In x done).
          { intros x c n I G. apply in_app_or in I as [I|[<-|[]]]; auto. exfalso. eapply NG; eauto. }
          split; [|split; [|split]].
          - intros l w E. destruct (R1 l w E) as [A|(x & c & n & q & A & B)]; auto. right. exists x, c, n, q. split; auto. apply in_or_app; auto.
          - intros l A. apply R2. intros x c n q I G. apply (A x c n); auto. apply in_or_app; auto.
          - intros x c n q I G. apply R3; eauto.
          - intros x c n I G. eapply R4; eauto. }
        assert (SKIP : (forall ch, alookup (mname d) fs = Some ch -> has_value d ch = false) -> s1 = st -> exists ref1, JPt ref1 (fun s => P s \/ within [Child (mname d)] s) (c_tree s1) /\ refs (done ++ [mname d]) ref1).
        { intros NO ->.
          assert (UNIQ : forall c n, node_at (Meta nm KStruct cs) (NStruct fs) [Child (mname d)] c n -> c = d /\ alookup (mname d) fs = Some n).
          { intros c n N. inversion N; subst. match goal with X : node_at _ _ [] _ _ |- _ => inversion X; subst end.
            match goal with H1 : In ?c cs, H2 : mname ?c = mname d |- _ => assert (c = d) by (apply (nodup_name cs); auto); subst end. auto. }
          exists ref. split.
          - eapply JP_ext; [| |exact HJ]; auto. intros s [X|(r & ->)] PR _; auto. exfalso.
            assert (CF : conf (Meta nm KStruct cs) (NStruct fs)) by (rewrite <- ES, <- EN; exact Csrc).
            assert (NEM : exists ch, alookup (mname d) fs = Some ch /\ nonempty d ch).
            { destruct (present_meta sm tm src Wsm Ksm Ktm _ PR) as (m' & n' & N & _). rewrite ES, EN in N. apply node_at_split in N as (m1 & n1 & N1 & N2).
              destruct (UNIQ _ _ N1) as (-> & A). exists n1. split; auto. exists r. rewrite ES, EN in PR.
              destruct PR as [(v & mm & LF & N3 & FV)|(k & mm & els & N3 & KK)]; [left; exists v, mm; split; auto; split; auto|right; exists k, mm, els; split; auto].
              - apply node_at_split in N3 as (m3 & n3 & N3 & N4). destruct (UNIQ _ _ N3) as (-> & A'). congruence.
              - apply node_at_split in N3 as (m3 & n3 & N3 & N4). destruct (UNIQ _ _ N3) as (-> & A'). congruence. }
            destruct NEM as (ch & A & NEM). inversion CF; subst. apply has_value_nonempty in NEM; [|eauto]. rewrite (NO _ A) in NEM. discriminate.
          - apply NOG. intros c n (_ & N & HV & _). rewrite ES, EN in N. destruct (UNIQ _ _ N) as (-> & A). rewrite (NO _ A) in HV. discriminate. }
        destruct (alookup (mname d) fs) as [ch|] eqn:A; [|injection H1 as <-; apply SKIP; auto; discriminate].
        destruct (has_value d ch) eqn:HV; [|injection H1 as <-; apply SKIP; auto; intros ch' E; injection E as <-; auto].
        assert (NA : node_at sm src [Child (mname d)] d ch) by (rewrite ES, EN; eapply na_child; eauto; constructor).
        destruct (special (mname d)) eqn:SP.
        - exists ref. split; [eapply special_copied; eauto|]. apply NOG. intros c n (X & _). congruence.
        - destruct (group_item d ch ref P st s1 NA HV SP HJ DJ1 H1) as (ref1 & J1 & [(-> & RM)|(GR & q & tb & ST & TB & RE)]); exists ref1 || exists ref; split; auto.
          + apply NOG. intros c n (_ & _ & _ & X). auto.
          + destruct HR as (R1 & R2 & R3 & R4).
            assert (AT : ref1 (timel q) = base_value d ch) by (rewrite RE; rewrite (proj2 (ConvShare2.loc_eqb_spec _ _) eq_refl); reflexivity).
            assert (OT : forall l, l <> timel q -> ref1 l = ref l).
            { intros l NL. rewrite RE. destruct (loc_eqb l (timel q)) eqn:E; auto. apply ConvShare2.loc_eqb_spec in E. congruence. }
            split; [|split; [|split]].
            * intros l w E. destruct (loc_dec l (timel q)) as [->|NL].
              -- right. exists (mname d), d, ch, q. split; [apply in_or_app; right; left; auto|]. rewrite AT in E. auto.
              -- rewrite (OT l NL) in E. destruct (R1 l w E) as [B|(x & c & n & q' & B & B')]; auto. right. exists x, c, n, q'. split; auto. apply in_or_app; auto.
            * intros l B. rewrite OT; [apply R2; intros x c n q' I G; apply (B x c n); auto; apply in_or_app; auto|].
              apply (B (mname d) d ch); auto. apply in_or_app. right. left. auto.
            * intros x c n q' I G S' U. destruct (loc_dec (timel q') (timel q)) as [E|NE].
              -- apply timel_inj in E. subst q'. assert (mname d = x) by (eapply U; eauto). subst x. destruct (group_fun _ _ _ _ _ G GR) as (-> & ->). exact AT.
              -- rewrite (OT _ NE). apply in_app_or in I as [I|[<-|[]]]; [eauto|]. exfalso. apply NE. f_equal. eapply stem_fun; eauto.
            * intros x c n I G. apply in_app_or in I as [I|[<-|[]]]; [eauto|]. destruct (group_fun _ _ _ _ _ G GR) as (-> & ->). eauto. }
      destruct STEP as (ref1 & J1 & R1).
      assert (D2 : forall x, In x (done ++ [mname d]) -> ~ In x (map mname ds)).
      { intros x I. apply in_app_or in I as [I|[<-|[]]]; auto. intros X. apply (DN x I). right. exact X. }
      assert (DJ2 : forall s d', (P s \/ within [Child (mname d)] s) -> In d' ds -> ~ within [Child (mname d')] s).
      { intros s d' [X|(r & ->)] I' (r' & E).
        - eapply (DJ s d'); eauto. { right; auto. } exists r'. auto.
        - simpl in E. injection E as E _. apply ND1. rewrite E. apply in_map; auto. }
      destruct (IHd _ _ _ _ (fun x I => IN x (or_intror I)) ND2 D2 J1 R1 DJ2 H2) as (ref' & J2 & R2).
      exists ref'. split; [|simpl; rewrite <- app_assoc in R2; exact R2]. eapply JP_ext; [| |exact J2].
      + intros s [X|(d' & [<-|I'] & X)] _ _; [left; left; auto|left; right; auto|right; eauto].
      + intros s [[X|X]|(d' & I' & X)]; [left; auto|right; exists d; split; auto; left; auto|right; exists d'; split; auto; right; auto]. }
  destruct (L cs [] (fval tgt0) (fun _ => False) {| c_tree := tgt0; c_shared := sh |}) as (ref & J1 & R1); auto.
  - intros x I. exact I.
  - apply JP_start.
  - split; [auto|]. split; [auto|]. split; [intros x c n q []|intros x c n []].
  - exists ref. split; auto. eapply JP_ext; [| |exact J1]; auto. intros s _ PR _. right.
    destruct (present_meta sm tm src Wsm Ksm Ktm _ PR) as (m' & n' & N & KK & _). rewrite ES, EN in N. inversion N; subst; [simpl in KK; congruence|].
    match goal with X : In ?c cs |- _ => exists c; split; auto; eexists; reflexivity end.
Qed.
End Pulse.
