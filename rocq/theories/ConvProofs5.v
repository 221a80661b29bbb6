(** Conversion of a whole IDS. *)
From Verif Require Import Base PathModel PathSpec PathProofs3 TreeModel TreeSpec TreeProofs TreeProofs2 TreeProofs4 ValModel ValProofs ValProofs2 ValProofs5 PrimModel PrimSpec PrimProps ConvModel ConvSpec ConvProofs ConvProofs2 ConvProofs3 ConvProofs4.
From Verif Require VmapModel.
Import VmapModel(handler(..), nmap).

(** what can be read is what is stored *)
Lemma node_at_vnode : forall m n l m' n', node_at m n l m' n' -> vnode_at m n l m' n'.
Proof. intros m n l m' n' H. induction H; econstructor; eauto. Qed.
Lemma vnode_stored : forall m n l m' n', vnode_at m n l m' n' -> wf_meta m -> fval m n l <> None \/ (exists k, fsize m n l = Some (S k)) -> node_at m n l m' n'.
Proof.
  intros m n l m' n' H. induction H as [m n|nm cs fs c ch l m' n' I A H IH|nm cs els i e l m' n' N H IH]; intros W Q.
  - constructor.
  - assert (CM : child_meta (mname c) cs = Some c) by (apply child_meta_iff; [inversion W; auto|auto]).
    assert (E : fval (Meta nm KStruct cs) (NStruct fs) (Child (mname c) :: l) = fval c ch l /\ fsize (Meta nm KStruct cs) (NStruct fs) (Child (mname c) :: l) = fsize c ch l).
    { unfold fval, fsize. simpl. rewrite CM. unfold child_or_new. destruct A as [A|(A & ->)]; rewrite A; auto. }
    destruct E as (E1 & E2). rewrite E1, E2 in Q. destruct A as [A|(A & ->)].
    + econstructor; eauto. apply IH; auto. inversion W; subst; auto.
    + exfalso. destruct (fresh l c) as (F1 & F2). destruct Q as [Q|(k & Q)]; [congruence|]. destruct F2; congruence.
  - assert (E : fval (Meta nm KAoS cs) (NAoS els) (Elem i :: l) = fval (Meta nm KStruct cs) e l /\ fsize (Meta nm KAoS cs) (NAoS els) (Elem i :: l) = fsize (Meta nm KStruct cs) e l).
    { unfold fval, fsize. simpl. rewrite N. auto. }
    destruct E as (E1 & E2). rewrite E1, E2 in Q. econstructor; eauto. apply IH; auto. eapply wf_struct; eauto.
Qed.
Lemma fval_leaf : forall m n l v, wf_meta m -> conf m n -> (fval m n l = Some v <-> leaf_at m n l v).
Proof.
  intros m n l v W C. split.
  - intros E. assert (Q : fval m n l <> None) by congruence. unfold fval in E. destruct (look m n l) as [[m' n']|] eqn:L; [|discriminate].
    apply look_vnode in L; auto. apply vnode_stored in L; auto. assert (C' : conf m' n') by (eapply node_at_conf; eauto).
    destruct m' as [nm [| |dt nd] cs]; try discriminate. destruct n' as [| |[v'|]]; try discriminate. destruct (leaf_has_value nd (Some v')) eqn:HV; [|discriminate].
    injection E as ->. exists (Meta nm (KLeaf dt nd) cs). split; [exists dt, nd; auto|]. split; auto. inversion C'; subst. eapply filled_value_len; eauto.
  - intros (m' & (dt & nd & K) & N & FV). destruct m' as [nm k cs]. simpl in K. subst k. unfold fval.
    pose proof (node_at_vnode _ _ _ _ _ N) as V. apply look_vnode in V; auto. rewrite V. assert (C' : conf (Meta nm (KLeaf dt nd) cs) (NLeaf (Some v))) by (eapply node_at_conf; eauto).
    inversion C'; subst. match goal with H : val_ok _ _ _ |- _ => rewrite (proj2 (filled_value_len _ _ _ H)); auto end.
Qed.
Lemma fsize_aos : forall m n l k, wf_meta m -> conf m n -> (fsize m n l = Some (S k) <-> aos_at m n l (S k)).
Proof.
  intros m n l k W C. split.
  - intros E. assert (Q : exists k, fsize m n l = Some (S k)) by eauto. unfold fsize in E. destruct (look m n l) as [[m' n']|] eqn:L; [|discriminate].
    apply look_vnode in L; auto. apply vnode_stored in L; auto.
    destruct m' as [nm [| |dt nd] cs]; try discriminate. destruct n' as [|els|]; try discriminate.
    injection E as E. exists (Meta nm KAoS cs), els. split; auto. split; auto. split; auto. lia.
  - intros (m' & els & N & K & L & _). destruct m' as [nm k' cs]. simpl in K. subst k'. unfold fsize.
    apply node_at_vnode in N. apply look_vnode in N; auto. rewrite N. congruence.
Qed.

(** a path and indices for the arrays it goes through give a location *)
Lemma arrays_pre : forall p m pre pre', length (arrays m pre p) = length (arrays m pre' p).
Proof.
  induction p as [|x p IH]; intros m pre pre'; simpl; auto. destruct p as [|y p]; auto. destruct (child_meta x (mchildren m)) as [c|]; auto.
  rewrite !app_length. f_equal; [destruct (mkind c); auto|apply IH].
Qed.
Lemma loc_exists : forall p m m' idx, wf_meta m -> mkind m = KStruct -> at_path m p m' -> p <> [] -> length idx = length (arrays m [] p) ->
  exists l, loc_ok m l m' /\ loc_names l = p /\ loc_idx l = idx /\ ~ is_elem l.
Proof.
  induction p as [|x p IH]; intros m m' idx W K AP NE LN; [congruence|]. clear NE.
  apply at_path_inv in AP as (c & IC & EX & AP). subst x. destruct m as [nm k cs]. simpl in K. subst k. cbn [mchildren] in *.
  assert (WC : wf_meta c) by (inversion W; auto).
  assert (CM : child_meta (mname c) cs = Some c) by (apply child_meta_iff; [inversion W; auto|auto]).
  destruct p as [|y p].
  - inversion AP; subst. destruct idx; [|discriminate LN]. exists [Child (mname m')]. split; [constructor; auto; constructor|]. split; auto. split; auto. apply (child_not_elem []).
  - change (arrays (Meta nm KStruct cs) [] (mname c :: y :: p)) with (match child_meta (mname c) cs with Some c' => (match mkind c' with KAoS => [[mname c]] | _ => [] end) ++ arrays c' [mname c] (y :: p) | None => [] end) in LN.
    rewrite CM, app_length, (arrays_pre _ _ _ []) in LN. destruct c as [nc [| |dt nd] cc].
    + destruct (IH (Meta nc KStruct cc) m' idx WC eq_refl AP) as (l & L1 & L2 & L3 & L4); [discriminate|exact LN|].
      exists (Child nc :: l). split; [apply (lo_child nm cs (Meta nc KStruct cc) l m'); auto|]. split; [simpl; congruence|]. split; auto.
      intros (l' & i & E). apply L4. destruct l' as [|z l']; [discriminate|]. injection E as _ E. exists l', i. exact E.
    + destruct idx as [|i idx]; [discriminate LN|]. simpl in LN. injection LN as LN.
      assert (APB : at_path (Meta nc KStruct cc) (y :: p) m') by (apply (at_path_body (Meta nc KAoS cc)); exact AP).
      destruct (IH (Meta nc KStruct cc) m' idx (wf_struct _ _ _ _ WC) eq_refl APB) as (l & L1 & L2 & L3 & L4); [discriminate| |].
      { rewrite LN. f_equal. }
      exists (Child nc :: Elem i :: l). split; [apply (lo_child nm cs (Meta nc KAoS cc) (Elem i :: l) m'); auto; constructor; auto|]. split; [simpl; congruence|]. split; [simpl; congruence|].
      intros (l' & j & E). destruct l' as [|z l']; [discriminate|]. destruct l' as [|z' l'].
      * simpl in E. injection E as _ _ E. rewrite E in L2. discriminate.
      * simpl in E. injection E as _ _ E. apply L4. exists l', j. exact E.
    + exfalso. inversion WC as [? ? ? _ _ HL]; subst. rewrite (HL dt nd eq_refl) in AP. apply at_path_inv in AP as (c & [] & _).
Qed.

Section Copy.
Variables (sm tm : meta).
Variable src : node.
Variable rm : nmap.
Variable deepcopy : bool.
Variable str_of : pyval -> str.
Variable parse_float : str -> option flt.
Variable parse_cpx : str -> option (flt * flt).
Variable flt_of_int : Z -> option flt.
Variable np_cast : dtype -> pyval -> result pexn value.
Variable array_items : value -> list pyval.
Variable close : pyval -> pyval -> bool.
Variable np_int32 : flt -> result pexn Z.
Variable enum_of : list str -> option (Z -> option (str * str)).
Notation copy_toplevel := (copy_toplevel sm tm src rm deepcopy str_of parse_float parse_cpx flt_of_int np_cast array_items close np_int32 enum_of).
Notation copy_children := (copy_children sm tm src rm deepcopy str_of parse_float parse_cpx flt_of_int np_cast array_items close np_int32 enum_of).

Hypothesis Wtm : wf_meta tm.
Hypothesis Stm : str_ok tm.
Hypothesis np_typed : forall dt p v, np_cast dt p = Ok v -> typed_array dt v.
Lemma copy_children_conf : forall cs fs sl tl s, conf tm (c_tree s) -> conf tm (c_tree (fst (copy_children cs fs sl tl s))).
Proof.
  induction cs as [|d cs IH]; intros fs sl tl s C; simpl; auto.
  unfold ConvProofs2.copy_children in *. simpl. unfold cbind.
  match goal with |- context [match ?x with Some _ => _ | None => _ end s] => destruct (match x with Some ch => if has_value d ch then copy_item sm tm src rm deepcopy str_of parse_float parse_cpx flt_of_int np_cast array_items close np_int32 enum_of d ch (sl ++ [Child (mname d)]) tl else cret tt | None => cret tt end s) as [s1 [[]|x']] eqn:E end; simpl.
  - apply IH. destruct (alookup (mname d) fs); [|injection E as <-; auto]. destruct (has_value d n); [|injection E as <-; auto].
    change s1 with (fst (s1, Ok (E := cexn) tt)). rewrite <- E. apply copy_item_conf; auto.
  - destruct (alookup (mname d) fs); [|discriminate]. destruct (has_value d n); [|discriminate].
    change s1 with (fst (s1, Err (A := unit) x')). rewrite <- E. apply copy_item_conf; auto.
Qed.

Hypothesis Wsm : wf_meta sm.
Hypothesis Ksm : mkind sm = KStruct.
Hypothesis Ktm : mkind tm = KStruct.
Hypothesis Csrc : conf sm src.
Hypothesis np_same : forall dt v, typed_array dt v -> np_cast dt (PArr v) = Ok v.
Hypothesis proper : forall s nm dt cs v, node_at sm src s (Meta nm (KLeaf dt 0) cs) (NLeaf (Some v)) -> ~ empty dt v.
Hypothesis F : fits sm tm rm.
Lemma copy_toplevel_J : forall tgt0 sh st', copy_toplevel {| c_tree := tgt0; c_shared := sh |} = (st', Ok tt) -> J sm tm src rm tgt0 (fun _ => True) (c_tree st').
Proof.
  intros tgt0 sh st' RUN. rewrite copy_toplevel_eq in RUN.
  assert (CX : ctx tm rm [] []). { split; [left; exists [], []; auto|auto]. }
  assert (NU : ~ ruled rm (loc_names [])). { intros (a & b & E & NA & _). destruct a; [congruence|discriminate]. }
  assert (NR : ~ removed rm (loc_names [])). { intros (a & b & E & NA & _). destruct a; [congruence|discriminate]. }
  assert (EQ : exists nm cs fs, sm = Meta nm KStruct cs /\ src = NStruct fs).
  { pose proof Csrc as CS. pose proof Ksm as KS. inversion CS as [n1 dt nd cs E1 E2|n1 dt nd cs v VO E1 E2|n1 cs fs HH H2 H3 E1 E2|n1 cs els HH E1 E2]; rewrite <- E1 in KS; try discriminate. eauto. }
  destruct EQ as (nm & cs & fs & ES & EN).
  assert (NA : node_at sm src [] (Meta nm KStruct cs) (NStruct fs)) by (rewrite ES, EN; constructor).
  eapply J_ext; [| |eapply (kids sm tm src rm deepcopy str_of parse_float parse_cpx flt_of_int np_cast array_items close np_int32 enum_of)
     with (sl := []) (tl := []) (P := fun _ => False) (st := {| c_tree := tgt0; c_shared := sh |}) (cs := cs) (fs := fs)]; eauto.
  - intros s _ _ _. right. exists s. reflexivity.
  - intros d _. apply copies_all; auto.
  - simpl. apply J_start.
  - replace (mchildren sm) with cs in RUN by (rewrite ES; auto). replace (node_fields src) with fs in RUN by (rewrite EN; auto). exact RUN.
Qed.
End Copy.
