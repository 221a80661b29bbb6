(** C27, C48: convert_ids with deepcopy=True as a whole (with the rules for pulse_schedule and equilibrium and the provenance entry), and
    what convert_ids refuses. *)
From Verif Require Import Base PathModel TreeModel ValModel PrimModel ConvModel ConvProofs2 ConvShare EndModel.
From Verif Require VmapModel PulseModel EqModel ProvModel ValProofs EndProps ConvProps VmapProps.
Import VmapModel(handler(..), nmap).

Section Whole.
Variables (sm tm : meta).
Variable src : node.
Variable rm : nmap.
Variable str_of : pyval -> str.
Variable parse_float : str -> option flt.
Variable parse_cpx : str -> option (flt * flt).
Variable flt_of_int : Z -> option flt.
Variable np_cast : dtype -> pyval -> result pexn value.
Variable array_items : value -> list pyval.
Variable close : pyval -> pyval -> bool.
Variable np_int32 : flt -> result pexn Z.
Variable enum_of : list str -> option (Z -> option (str * str)).
Variable at_ : list str -> ValModel.attrs.
Variable lin : flt -> flt -> flt -> flt -> flt -> flt.
Lemma keeps_target_value : forall l, keeps (target_value tm l).
Proof. intros l. unfold target_value. apply keeps_bind; [apply keeps_lift|]. intros [| |]; [apply keeps_fail|apply keeps_fail|apply keeps_lift]. Qed.
Lemma keeps_resize_keep : forall l k, keeps (ProvModel.resize_keep tm l k).
Proof. intros l k s H. unfold ProvModel.resize_keep. destruct (look tm (c_tree s) l) as [[[nm [| |dt nd] cs] [fs|els|old]]|]; auto. Qed.
Lemma keeps_append : forall l p, keeps (ProvModel.append_str tm str_of l p).
Proof. intros l p s H. unfold ProvModel.append_str. destruct (look tm (c_tree s) l) as [[[nm [| |[| | |] [|nd]] cs] [fs|els|old]]|]; auto. destruct (append str_of old p); exact H. Qed.
Local Opaque citer keeps.
Hint Resolve keeps_ret keeps_fail keeps_lift keeps_option keeps_assign keeps_resize keeps_getattr keeps_target_value keeps_resize_keep keeps_append : share.
Ltac go := repeat first [solve [auto with share] | apply keeps_bind; [|intros ?]
                        | match goal with |- keeps (match ?x with _ => _ end) => destruct x end].
Lemma keeps_length : forall l, keeps (ProvModel.length_of tm l).
Proof. intros. unfold ProvModel.length_of, cview. go. Qed.
Lemma keeps_has_child : forall l n, keeps (ProvModel.has_child tm l n).
Proof. intros. unfold ProvModel.has_child, cview. go. Qed.
Lemma keeps_whole_node : forall k a i, keeps (ProvModel.whole_node tm a i k).
Proof. induction k as [|k IH]; intros a i; cbn [ProvModel.whole_node]; go. Qed.
Hint Resolve keeps_length keeps_has_child keeps_whole_node : share.
Lemma keeps_provenance : forall t s, keeps (ProvModel.add_provenance tm str_of parse_float parse_cpx flt_of_int np_cast array_items t s).
Proof. intros. unfold ProvModel.add_provenance. go. Qed.
Lemma keeps_getattrs : forall p l, keeps (EqModel.getattrs tm l p).
Proof. induction p as [|x p IH]; intros l; cbn [EqModel.getattrs]; go. Qed.
Hint Resolve keeps_getattrs : share.
Lemma keeps_src_value : forall l, keeps (EqModel.src_value sm src l). Proof. intros. unfold EqModel.src_value. go. Qed.
Lemma keeps_src_filled : forall l, keeps (EqModel.src_filled sm src l). Proof. intros. unfold EqModel.src_filled. go. Qed.
Lemma keeps_src_length : forall l, keeps (EqModel.src_length sm src l). Proof. intros. unfold EqModel.src_length. go. Qed.
Hint Resolve keeps_src_value keeps_src_filled keeps_src_length : share.
Lemma keeps_src_negated : forall l, keeps (EqModel.src_negated sm src l). Proof. intros. unfold EqModel.src_negated. go. Qed.
Hint Resolve keeps_src_negated : share.
Lemma keeps_put : forall e p v, keeps (EqModel.put tm str_of parse_float parse_cpx flt_of_int np_cast array_items e p None v).
Proof. intros. unfold EqModel.put. go. Qed.
Hint Resolve keeps_put : share.
Lemma keeps_put_point : forall e sl, keeps (EqModel.put_point sm tm src str_of parse_float parse_cpx flt_of_int np_cast array_items e sl).
Proof. intros. unfold EqModel.put_point. go. Qed.
Lemma keeps_put_line : forall e sl, keeps (EqModel.put_line sm tm src true str_of parse_float parse_cpx flt_of_int np_cast array_items e sl).
Proof. intros. unfold EqModel.put_line. cbv zeta. go. Qed.
Lemma keeps_put_psi : forall e sl, keeps (EqModel.put_psi sm tm src str_of parse_float parse_cpx flt_of_int np_cast array_items e sl).
Proof. intros. unfold EqModel.put_psi. go. Qed.
Lemma keeps_put_critical : forall e z, keeps (EqModel.put_critical tm str_of parse_float parse_cpx flt_of_int np_cast array_items e z).
Proof. intros. unfold EqModel.put_critical. go. Qed.
Hint Resolve keeps_put_point keeps_put_line keeps_put_psi keeps_put_critical : share.
Lemma keeps_more_points : forall node s n, keeps (EqModel.more_points sm tm src str_of parse_float parse_cpx flt_of_int np_cast array_items node s n).
Proof. intros. unfold EqModel.more_points. apply keeps_iter. intros i _. cbv zeta. go. Qed.
Hint Resolve keeps_more_points : share.
Lemma keeps_boundary : keeps (EqModel.boundary_3to4 sm tm src true str_of parse_float parse_cpx flt_of_int np_cast array_items).
Proof. unfold EqModel.boundary_3to4. apply keeps_bind; auto with share. intros k3. apply keeps_bind; auto with share. intros a. apply keeps_bind; auto with share. intros k4. apply keeps_iter. intros i _. unfold EqModel.boundary_slice. cbv zeta. go. Qed.
Lemma keeps_callback : forall h, keeps (callback str_of parse_float parse_cpx flt_of_int np_cast array_items sm tm src true h).
Proof. intros h. unfold callback. destruct h; auto with share. apply keeps_boundary. Qed.

Hypothesis no_views : forall p h, alookup p (VmapModel.m_type rm) = Some (Some h) -> ~ gives_views h.
Lemma keeps_item_cb : forall cb, (forall c n sl tl, keeps (cb c n sl tl)) ->
  forall c n sl tl, keeps (PulseModel.copy_item_cb sm tm src rm true str_of parse_float parse_cpx flt_of_int np_cast array_items close np_int32 enum_of cb c n sl tl).
Proof.
  intros cb CB. induction c as [name k cs IH] using ValProofs.meta_ind'. intros n sl tl. cbn [PulseModel.copy_item_cb]. apply keeps_bind; [apply keeps_target_item|].
  intros [t|]; [|apply keeps_ret]. cbv zeta.
  assert (KIDS : forall fs sl tl, keeps (citer (fun d => match alookup (mname d) fs with
      | Some ch => if has_value d ch then PulseModel.copy_item_cb sm tm src rm true str_of parse_float parse_cpx flt_of_int np_cast array_items close np_int32 enum_of cb d ch (sl ++ [Child (mname d)]) tl else cret tt
      | None => cret tt end) cs)).
  { intros fs sl' tl'. apply keeps_iter. intros d I. destruct (alookup (mname d) fs); [|apply keeps_ret]. destruct (has_value d n0); [|apply keeps_ret]. auto. }
  apply keeps_bind.
  - destruct (alookup (path_string sl) (VmapModel.m_type rm)) as [[h|]|] eqn:A; auto with share. apply keeps_type. eapply no_views; eauto.
  - intros [[[n2 sl2] tl2]|]; [|apply keeps_ret]. apply keeps_bind.
    + destruct n2 as [fs|els|v]; auto with share. apply keeps_bind; auto with share. intros _. apply keeps_iter. intros x _. apply KIDS.
    + intros _. apply keeps_bind; [|intros _; apply CB]. destruct (alookup (path_string sl) (VmapModel.m_post rm)); [apply keeps_post|apply keeps_ret].
Qed.
Lemma keeps_structure_cb : forall cb, (forall c n sl tl, keeps (cb c n sl tl)) ->
  forall cs fs sl tl, keeps (PulseModel.copy_structure_cb sm tm src rm true str_of parse_float parse_cpx flt_of_int np_cast array_items close np_int32 enum_of cb cs fs sl tl).
Proof.
  intros cb CB cs fs sl tl. unfold PulseModel.copy_structure_cb. apply keeps_iter. intros d _. destruct (alookup (mname d) fs); [|apply keeps_ret]. destruct (has_value d n); [|apply keeps_ret]. now apply keeps_item_cb.
Qed.
Lemma keeps_resample : forall tb c n sl tl, keeps (PulseModel.resample_cb sm tm src str_of parse_float parse_cpx flt_of_int np_cast array_items at_ lin tb c n sl tl).
Proof. intros. unfold PulseModel.resample_cb. go. Qed.
Lemma keeps_no_callback : forall c n sl tl, keeps (PulseModel.no_callback c n sl tl). Proof. intros. apply keeps_ret. Qed.
Lemma keeps_pulse : keeps (PulseModel.pulse_3to4 sm tm src rm true str_of parse_float parse_cpx flt_of_int np_cast array_items close np_int32 enum_of at_ lin).
Proof.
  unfold PulseModel.pulse_3to4. apply keeps_iter. intros d _. destruct (alookup (mname d) (node_fields src)); [|apply keeps_ret]. destruct (has_value d n); [|apply keeps_ret].
  unfold PulseModel.pulse_item. cbv zeta. apply keeps_bind; [apply keeps_target_item|]. intros [tl|]; [|apply keeps_ret].
  destruct (PulseModel.named _ _); [destruct n; auto with share; apply keeps_structure_cb, keeps_no_callback|].
  destruct (PulseModel.named _ _); [destruct n; auto with share|].
  destruct (PulseModel.named _ _); [destruct n; auto with share|].
  - apply keeps_bind; auto with share. intros _. apply keeps_iter. intros x _. apply keeps_structure_cb, keeps_no_callback.
  - destruct n; auto with share. destruct (ResampleModel.common_time_base d (NStruct fields)); auto with share.
    apply keeps_bind; auto with share. intros x0. apply keeps_bind; auto with share. intros _. apply keeps_structure_cb, keeps_resample.
Qed.
Local Transparent keeps.
Lemma keeps_copy_toplevel : keeps (copy_toplevel sm tm src rm true str_of parse_float parse_cpx flt_of_int np_cast array_items close np_int32 enum_of).
Proof.
  unfold copy_toplevel. apply keeps_iter. intros d _. destruct (alookup (mname d) (node_fields src)); [|apply keeps_ret]. destruct (has_value d n); [now apply keeps_copy_item|apply keeps_ret].
Qed.
End Whole.

Section Convert.
Variable order : list str -> list str.
Variable flips : str -> list str.
Variable dd341 : dictionary.
Variables (rank340 rank341 : Z).
Variable library_version : str.
Variable str_of : pyval -> str.
Variable parse_float : str -> option flt.
Variable parse_cpx : str -> option (flt * flt).
Variable flt_of_int : Z -> option flt.
Variable np_cast : dtype -> pyval -> result pexn value.
Variable array_items : value -> list pyval.
Variable close : pyval -> pyval -> bool.
Variable np_int32 : flt -> result pexn Z.
Variable enum_of : list str -> option (Z -> option (str * str)).
Variable at_ : list str -> ValModel.attrs.
Variable lin : flt -> flt -> flt -> flt -> flt -> flt.
Notation convert := (convert_ids order flips dd341 rank340 rank341 library_version str_of parse_float parse_cpx flt_of_int np_cast array_items close np_int32 enum_of at_ lin).

(** C27: no array of the IDS that convert_ids returns shares memory with the source, if deepcopy is true, the given target does not share
    any and the map has none of the four handlers above; for every pair of versions and every IDS. *)
Theorem C27_convert_ids : forall name source target sm src given uri stamp st,
  (forall rm p h, rename_map order flips dd341 rank341 name source target = Ok rm -> alookup p (VmapModel.m_type rm) = Some (Some h) -> ~ gives_views h) ->
  (forall t, given = Some t -> c_shared (snd t) = []) -> convert false name source target sm src given true uri stamp = Ok st -> c_shared st = [].
Proof.
  intros name source target sm src given uri stamp st NV GV H. unfold convert_ids in H.
  destruct (match given with Some t => Ok t | None => _ end) as [[tm st0]|] eqn:T; [|discriminate]. cbn [rbind fst snd] in H.
  assert (S0 : c_shared st0 = []). { destruct given as [t|]; [injection T as ->; exact (GV _ eq_refl)|]. destruct (alookup name (d_ids target)); [|discriminate]. injection T as <- <-. reflexivity. }
  destruct (rename_map order flips dd341 rank341 name source target) as [rm|]; [|discriminate]. cbn [rbind] in H. specialize (NV rm). 
  assert (K : keeps (convert_data rank340 library_version str_of parse_float parse_cpx flt_of_int np_cast array_items close np_int32 enum_of at_ lin name source target sm tm src true rm uri stamp)).
  { unfold convert_data. apply keeps_bind.
    - unfold copy_all. apply keeps_bind.
      + destruct (str_eqb name _); [|apply keeps_ret]. apply keeps_bind; [|intros; apply keeps_ret]. unfold heterogeneous. destruct (source_at _ _ _) as [[m [| |]]|]; try apply keeps_fail. apply keeps_ret.
      + intros [|]; [apply keeps_pulse|apply keeps_copy_toplevel]; intros; eapply NV; eauto.
    - intros _. apply keeps_bind; [apply keeps_iter; intros; apply keeps_callback|]. intros _. destruct uri; [apply keeps_ret|apply keeps_provenance]. }
  specialize (K st0 S0). destruct (convert_data _ _ _ _ _ _ _ _ _ _ _ _ _ _ _ _ _ _ _ _ _ _ _ _) as [st' [u|e]]; [|discriminate]. injection H as <-. exact K.
Qed.

Lemma map_errors : forall name source target e, rename_map order flips dd341 rank341 name source target = Err e -> e <> EndLazy /\ e <> EndNoIds.
Proof.
  intros name source target e H. unfold rename_map in H.
  assert (X : forall a b, dd_version_map order flips dd341 rank341 name a b = Err e -> e <> EndLazy /\ e <> EndNoIds).
  { intros a b D. unfold dd_version_map in D. destruct (alookup name (d_ids a)); [destruct (alookup name (d_ids b))|]; try (injection D as <-; split; discriminate).
    cbv zeta in D. match type of D with (match ?x with Ok _ => _ | Err _ => _ end) = _ => destruct x as [s0|e0] end; [discriminate D|]. injection D as <-. split; discriminate. }
  destruct (d_rank source >? d_rank target)%Z.
  - destruct (dd_version_map _ _ _ _ _ target source) eqn:D; cbn [rbind] in H; [discriminate H|]. injection H as ->. eapply X; eauto.
  - destruct (dd_version_map _ _ _ _ _ source target) eqn:D; cbn [rbind] in H; [discriminate H|]. injection H as ->. eapply X; eauto.
Qed.
(** C48: a lazy loaded IDS is refused, with every other argument; without a target, so is an IDS that the other version does not have.  Nothing
    else raises these two errors. *)
Theorem C48_refused : forall lazy name source target sm src given dc uri stamp,
  (convert lazy name source target sm src given dc uri stamp = Err EndLazy <-> lazy = true) /\
  (convert lazy name source target sm src given dc uri stamp = Err EndNoIds <-> lazy = false /\ given = None /\ ~ In name (map fst (d_ids target))).
Proof.
  intros lazy name source target sm src given dc uri stamp. unfold convert_ids. destruct lazy; [split; split; auto; try discriminate; intros (E & _); discriminate|].
  assert (NI : alookup name (d_ids target) = None <-> ~ In name (map fst (d_ids target))).
  { clear. induction (d_ids target) as [|[k v] l IH]; cbn; [tauto|]. destruct (str_eqb name k) eqn:E; [apply str_eqb_eq in E; subst; split; [discriminate|tauto]|]. apply str_eqb_neq in E. rewrite IH. intuition congruence. }
  assert (X : forall t, match (do rm <- rename_map order flips dd341 rank341 name source target;
       match convert_data rank340 library_version str_of parse_float parse_cpx flt_of_int np_cast array_items close np_int32 enum_of at_ lin name source target sm (fst t) src dc rm uri stamp (snd t) with (st, Ok _) => Ok st | (_, Err e) => Err (EndConv e) end)
     with Err EndLazy | Err EndNoIds => False | _ => True end).
  { intros t. destruct (rename_map _ _ _ _ _ _ _) as [rm|e] eqn:R; cbn [rbind]; [|apply map_errors in R; destruct R as [R1 R2]; destruct e; auto].
    destruct (convert_data _ _ _ _ _ _ _ _ _ _ _ _ _ _ _ _ _ _ _ _ _ _ _ _) as [st' [u|e]]; exact I. }
  destruct given as [t|]; cbn [rbind].
  - specialize (X t). split; split; intros Q; try discriminate; try (rewrite Q in X; destruct X). destruct Q as (_ & Q & _). discriminate.
  - destruct (alookup name (d_ids target)) as [d|]; cbn [rbind].
    + specialize (X (i_meta d, {| c_tree := NStruct []; c_shared := [] |})). split; split; intros Q; try discriminate; try (rewrite Q in X; destruct X). destruct Q as (_ & _ & Q). apply NI in Q. discriminate.
    + split; split; try discriminate; auto. intros _. split; auto. split; auto. now apply NI.
Qed.
End Convert.
Print Assumptions C27_convert_ids.
Print Assumptions C48_refused.

(** an array that gets another name: shared without deepcopy, not shared with it *)
Definition sh_old : ids_def := {| i_fields := [VmapProps.el "a" "FLT_1D"]; i_meta := Meta (strs "ids") KStruct [ConvProps.lf "a" FLT 1] |}.
Definition sh_new : ids_def := {| i_fields := [VmapProps.ren "c" "FLT_1D" "leaf_renamed" "a"]; i_meta := Meta (strs "ids") KStruct [ConvProps.lf "c" FLT 1] |}.
Definition sh_convert (dc : bool) : result end_exn cst :=
  convert_ids VmapProps.same_order (fun _ => []) (EndProps.en_dict 41 sh_old) 15 41 (strs "2.0") (fun _ => []) (fun _ => None) (fun _ => None) Some ConvProps.ex_cast (fun _ => []) (fun _ _ => true)
    (fun _ => Ok 0%Z) (fun _ => None) (fun _ => {| ValModel.a_dynamic := false; ValModel.a_coords := []; ValModel.a_same := []; ValModel.a_alts := [] |}) (fun _ _ _ _ _ => 0%Z)
    false (strs "ids") (EndProps.en_dict 5 sh_old) (EndProps.en_dict 20 sh_new) (i_meta sh_old) (NStruct [(strs "a", NLeaf (Some (VFltA [2] [7; 8]%Z)))]) None dc [] [].
Example C27_convert_example : (exists rm, rename_map VmapProps.same_order (fun _ => []) (EndProps.en_dict 41 sh_old) 41 (strs "ids") (EndProps.en_dict 5 sh_old) (EndProps.en_dict 20 sh_new) = Ok rm /\ VmapModel.m_type rm = []) /\
  (exists st, sh_convert false = Ok st /\ c_shared st = [([Child (strs "c")], [Child (strs "a")])]) /\ (exists st, sh_convert true = Ok st /\ c_shared st = []).
Proof. repeat split; eexists; (split; [vm_compute; reflexivity|reflexivity]). Qed.
