(** A verified check of the conditions on a pair of versions, and absence of exceptions. *)
From Verif Require Import Base DataTypeModel HashModel ValModel VmapModel VmapSpec VmapProofs VmapProofs2 VmapProofs3.

(** * Well-formed definitions *)
Definition struct_b (f : fields) (p : str) : bool := existsb (fun e => str_eqb (e_path e) p && is_structure e) f.
Fixpoint parents_b (before after : fields) : bool :=
  match after with [] => true | e :: r => forallb (struct_b before) (iter_parents (e_path e)) && parents_b (before ++ [e]) r end.
Fixpoint nodup_b (l : list str) : bool := match l with [] => true | x :: r => negb (mem x r) && nodup_b r end.
Definition wf_b (f : fields) : bool := nodup_b (map e_path f) && forallb (fun e => negb (str_eqb (e_path e) [])) f && parents_b [] f.

Lemma struct_b_in : forall f p, struct_b f p = true -> struct_in f p.
Proof. intros f p H. apply existsb_exists in H. destruct H as [e [H1 H2]]. apply andb_true_iff in H2. rewrite str_eqb_eq in H2. exists e. tauto. Qed.
Lemma parents_b_sound : forall after before, parents_b before after = true -> forall f1 e f2, after = f1 ++ e :: f2 -> forall p, inside (e_path e) p -> struct_in (before ++ f1) p.
Proof.
  induction after as [|x after IH]; intros before H f1 e f2 E p Hp; [destruct f1; discriminate|]. cbn in H. apply andb_true_iff in H. destruct H as [H1 H2].
  destruct f1 as [|y f1]; cbn in E; inversion E; subst.
  - rewrite app_nil_r. apply struct_b_in. apply (proj1 (forallb_forall _ _) H1). apply iter_parents_spec. exact Hp.
  - assert (K := IH _ H2 f1 e f2 eq_refl p Hp). rewrite <- app_assoc in K. exact K.
Qed.
Lemma nodup_b_sound : forall l, nodup_b l = true -> NoDup l.
Proof.
  induction l as [|x l IH]; intros H; constructor; cbn in H; apply andb_true_iff in H; destruct H as [H1 H2]; [|apply IH; exact H2].
  apply negb_true_iff in H1. rewrite <- mem_In. congruence.
Qed.
Lemma wf_b_sound : forall f, wf_b f = true -> wf_fields f.
Proof.
  intros f H. unfold wf_b in H. rewrite !andb_true_iff in H. destruct H as [[H1 H2] H3]. split.
  - apply nodup_b_sound. exact H1.
  - intros e He E. assert (K := proj1 (forallb_forall _ _) H2 e He). cbn in K. rewrite E in K. discriminate.
  - intros f1 e f2 E p Hp. exact (parents_b_sound f [] H3 f1 e f2 E p Hp).
Qed.

(** * Origins as a function *)
Section Origin_fun.
Variables (old new : fields) (v : Z).
Definition rule_at (q : str) : option str := match alookup q (by_path new) with Some e => rule_of v e | None => None end.
Fixpoint loc_names (q p : str) (b : bool) (names : list str) : str * bool :=
  match names with
  | [] => (p, b)
  | n :: r => let q' := q ++ slash :: n in
              match rule_at q' with
              | Some prev => if has (p ++ slash :: prev) (by_path old) then loc_names q' (p ++ slash :: prev) true r else loc_names q' (p ++ slash :: n) b r
              | None => loc_names q' (p ++ slash :: n) b r
              end
  end.
Definition loc (q : str) : str * bool :=
  match split_on slash q with
  | [] => (q, false)
  | n :: r => match rule_at n with
              | Some prev => if has prev (by_path old) then loc_names n prev true r else loc_names n n false r
              | None => loc_names n n false r
              end
  end.
Hypothesis Wn : wf_fields new.

Lemma rule_at_spec : forall q prev, rule_at q = Some prev <-> rule new v q prev.
Proof.
  intros q prev. unfold rule_at. destruct (alookup q (by_path new)) as [e|] eqn:E.
  - apply (by_path_lookup new (wf_nodup _ Wn)) in E. destruct E as [H <-]. apply rule_of_iff; assumption.
  - split; [discriminate|]. intros R. apply rule_exists in R. apply has_exists in R. unfold has in R. rewrite E in R. discriminate.
Qed.
Lemma loc_names_origin : forall names q p b, (forall n, In n names -> no_slash n) -> origin old new v q p b ->
  origin old new v (fold_left (fun a n => a ++ slash :: n) names q) (fst (loc_names q p b names)) (snd (loc_names q p b names)).
Proof.
  induction names as [|n names IH]; intros q p b Hn O; [exact O|]. cbn [fold_left loc_names].
  assert (N0 : no_slash n) by (apply Hn; left; reflexivity). assert (N1 : forall n, In n names -> no_slash n) by (intros n' K; apply Hn; right; exact K).
  destruct (rule_at (q ++ slash :: n)) as [prev|] eqn:R.
  - apply rule_at_spec in R. destruct (has (p ++ slash :: prev) (by_path old)) eqn:E.
    + apply IH; [exact N1|]. apply has_exists in E. eapply origin_inside_renamed; eassumption.
    + apply IH; [exact N1|]. apply has_not_exists in E. apply origin_inside; [exact O|exact N0|]. intros prev' R'. rewrite (rule_fun new v Wn _ _ _ R' R). exact E.
  - apply IH; [exact N1|]. apply origin_inside; [exact O|exact N0|]. intros prev' R'. apply rule_at_spec in R'. congruence.
Qed.
Lemma fold_join : forall names a, fold_left (fun a n => a ++ slash :: n) names a = join_with slash (a :: names).
Proof.
  induction names as [|n names IH]; intros a; [reflexivity|]. cbn [fold_left]. rewrite IH. cbn [join_with]. destruct names; cbn; rewrite <- ?app_assoc; reflexivity.
Qed.
Lemma loc_origin : forall q, origin old new v q (fst (loc q)) (snd (loc q)).
Proof.
  intros q. unfold loc. assert (J := join_split slash q). assert (N := split_on_no_sep slash q). destruct (split_on slash q) as [|n names] eqn:Es.
  - exfalso. exact (split_on_nonnil _ _ Es).
  - assert (N0 : no_slash n) by (intros K; apply (N n); [left; reflexivity|exact K]).
    assert (N1 : forall n', In n' names -> no_slash n') by (intros n' K1 K2; apply (N n'); [right; exact K1|exact K2]).
    rewrite <- J. rewrite <- fold_join. destruct (rule_at n) as [prev|] eqn:R.
    + apply rule_at_spec in R. destruct (has prev (by_path old)) eqn:E.
      * apply loc_names_origin; [exact N1|]. apply has_exists in E. apply origin_renamed; assumption.
      * apply loc_names_origin; [exact N1|]. apply has_not_exists in E. apply origin_kept; [exact N0|]. intros prev' R'. rewrite (rule_fun new v Wn _ _ _ R' R). exact E.
    + apply loc_names_origin; [exact N1|]. apply origin_kept; [exact N0|]. intros prev' R'. apply rule_at_spec in R'. congruence.
Qed.
End Origin_fun.

(** * The check *)
Section Check.
Variables (old new : fields) (v : Z).
Definition moves : list (str * str) :=
  flat_map (fun q => let l := loc old new v q in if snd l && has (fst l) (by_path old) then [(fst l, q)] else []) (map e_path new).
Definition plain_b : bool := forallb (fun e => match rule_of v e with Some prev => negb (existsb (Ascii.eqb slash) prev) | None => true end) new.
Definition reuse_b : bool := forallb (fun pq => forallb (fun q' =>
  if starts_with (snd pq ++ [slash]) q' then
    let p' := fst pq ++ skipn (length (snd pq)) q' in
    if has p' (by_path old) then str_eqb (fst (loc old new v q')) p' && snd (loc old new v q') else true
  else true) (map e_path new)) moves.
Definition sibling_b : bool := forallb (fun pq => forallb (fun p' =>
  if starts_with (fst pq) p' then
    match skipn (length (fst pq)) p' with
    | [] => true
    | c :: r => Ascii.eqb c slash || negb (has (snd pq ++ c :: r) (by_path new))
    end
  else true) (map e_path old)) moves.
Definition one_b : bool := forallb (fun pq => forallb (fun pq' => negb (str_eqb (fst pq) (fst pq')) || str_eqb (snd pq) (snd pq')) moves) moves.
Definition types_b (a b : elem) : bool :=
  match dt_parse (e_type a), dt_parse (e_type b) with
  | Ok ta, Ok tb => parsed_eqb ta tb
  | _, _ => false
  end || match e_type a, e_type b with Some x, Some y => match change_handler x y (e_ident b) with Some _ => true | None => false end | _, _ => false end.
Definition sup_b : bool := forallb (fun a => forallb (fun b =>
  if existsb (fun pq => str_eqb (fst pq) (e_path a) && str_eqb (snd pq) (e_path b)) moves && match rule_of v b with Some _ => true | None => false end
  then types_b a b else true) new) old.
Definition capture_b : bool := forallb (fun pq =>
  (if has (snd pq) (by_path old) then existsb (fun m => str_eqb (fst m) (snd pq)) moves else true)
  && (if has (fst pq) (by_path new) then existsb (fun m => str_eqb (snd m) (fst pq)) moves else true)) moves.
Definition pair_b : bool := wf_b old && wf_b new && plain_b && reuse_b && sibling_b && one_b && sup_b && capture_b.

Lemma types_b_iff : forall a b, types_b a b = true <-> same_type a b \/ supported a b.
Proof.
  intros a b. unfold types_b. rewrite orb_true_iff. split; intros [H|H].
  - left. destruct (dt_parse (e_type a)) as [ta|] eqn:Ea; [|discriminate]. destruct (dt_parse (e_type b)) as [tb|] eqn:Eb; [|discriminate].
    apply parsed_eqb_eq in H. subst. exists tb. split; assumption.
  - right. destruct (e_type a) as [x|] eqn:Ea; [|discriminate]. destruct (e_type b) as [y|] eqn:Eb; [|discriminate].
    apply (change_handler_supported a b x y Ea Eb). destruct (change_handler x y (e_ident b)); [congruence|discriminate].
  - left. destruct H as [t [H1 H2]]. rewrite H1, H2. apply parsed_eqb_refl.
  - right. assert (K := H). destruct K as [x [y [Ea [Eb _]]]]. rewrite Ea, Eb. apply (change_handler_supported a b x y Ea Eb) in H. destruct (change_handler x y (e_ident b)); [reflexivity|congruence].
Qed.

Hypothesis Wn : wf_fields new.
Lemma moves_spec : forall p q, In (p, q) moves <-> moved old new v p q.
Proof.
  intros p q. unfold moves, moved. rewrite in_flat_map. assert (L := loc_origin old new v Wn q). split.
  - intros [q' [H1 H2]]. apply in_map_iff in H1. destruct H1 as [e [E H1]]. cbv zeta in H2.
    destruct (snd (loc old new v q') && has (fst (loc old new v q')) (by_path old)) eqn:B; [|destruct H2]. destruct H2 as [H2|[]]. inversion H2; subst.
    apply andb_true_iff in B. destruct B as [B1 B2]. apply has_exists in B2. split; [exact B2|]. split; [exists e; auto|]. rewrite B1 in L. exact L.
  - intros [H1 [[e [H2 H3]] O]]. destruct (origin_fun old new v Wn _ _ _ O _ _ L) as [E1 E2]. exists q. split; [apply in_map_iff; exists e; auto|]. cbv zeta.
    rewrite <- E1, <- E2. apply has_exists in H1. rewrite H1. left. reflexivity.
Qed.
End Check.

Definition conditions (old new : fields) (v : Z) : Prop :=
  wf_fields old /\ wf_fields new /\ plain_names new v /\ no_reuse old new v /\ no_sibling old new v /\ one_successor old new v /\ supported_renames old new v
  /\ no_capture old new v.

Theorem pair_b_sound : forall old new v, pair_b old new v = true -> conditions old new v.
Proof.
  intros old new v H. unfold pair_b in H. rewrite !andb_true_iff in H. destruct H as [[[[[[[H1 H2] H3] H4] H5] H6] H7] H8].
  apply wf_b_sound in H1, H2. assert (M := moves_spec old new v H2). unfold conditions. split; [exact H1|]. split; [exact H2|].
  split; [|split; [|split; [|split; [|split]]]].
  - intros q prev R Hs. assert (E := rule_exists _ _ _ _ R). destruct E as [e [He <-]]. apply (rule_of_iff new v H2 e prev He) in R.
    assert (K := proj1 (forallb_forall _ _) H3 e He). cbn in K. rewrite R in K. apply negb_true_iff in K.
    assert (existsb (Ascii.eqb slash) prev = true); [|congruence]. apply existsb_exists. exists slash. split; [exact Hs|apply Ascii.eqb_refl].
  - intros q p r Mv [e [N1 N2]] O. apply M in Mv. assert (K := proj1 (forallb_forall _ _) H4 _ Mv). cbn [fst snd] in K.
    assert (K' := proj1 (forallb_forall _ _) K (q ++ slash :: r) ltac:(apply in_map_iff; exists e; auto)). cbn beta in K'.
    replace (starts_with (q ++ [slash]) (q ++ slash :: r)) with true in K' by (symmetry; apply starts_with_spec; exists r; rewrite <- app_assoc; reflexivity).
    cbv zeta in K'. rewrite skipn_app, skipn_all, Nat.sub_diag in K'. cbn [app skipn] in K'. apply has_exists in O. rewrite O in K'. apply andb_true_iff in K'. destruct K' as [K1 K2].
    apply str_eqb_eq in K1. assert (L := loc_origin old new v H2 (q ++ slash :: r)). rewrite K1, K2 in L. exact L.
  - intros q p c r Mv [e [O1 O2]] Nc N. apply M in Mv. assert (K := proj1 (forallb_forall _ _) H5 _ Mv). cbn [fst snd] in K.
    assert (K' := proj1 (forallb_forall _ _) K (p ++ c :: r) ltac:(apply in_map_iff; exists e; auto)). cbn beta in K'.
    replace (starts_with p (p ++ c :: r)) with true in K' by (symmetry; apply starts_with_spec; exists (c :: r); reflexivity).
    rewrite skipn_app, skipn_all, Nat.sub_diag in K'. cbn [app skipn] in K'. apply orb_true_iff in K'. destruct K' as [K1|K1].
    + apply Ascii.eqb_eq in K1. contradiction.
    + apply negb_true_iff, has_not_exists in K1. contradiction.
  - intros p q q' M1 M2. apply M in M1, M2. assert (K := proj1 (forallb_forall _ _) (proj1 (forallb_forall _ _) H6 _ M1) _ M2). cbn in K.
    rewrite str_eqb_refl in K. cbn in K. apply str_eqb_eq. exact K.
  - intros a b Ha Hb Mv [prev R]. apply types_b_iff. assert (K := proj1 (forallb_forall _ _) (proj1 (forallb_forall _ _) H7 _ Ha) _ Hb). cbn beta in K.
    apply M in Mv. apply (rule_of_iff new v H2 b prev Hb) in R. rewrite R in K. rewrite andb_true_r in K.
    replace (existsb _ (moves old new v)) with true in K; [exact K|]. symmetry. apply existsb_exists. exists (e_path a, e_path b). split; [exact Mv|]. cbn. rewrite !str_eqb_refl. reflexivity.
  - split; intros p q Mv E; apply M in Mv; assert (K := proj1 (forallb_forall _ _) H8 _ Mv); cbn in K; apply andb_true_iff in K; destruct K as [K1 K2]; apply has_exists in E.
    + rewrite E in K1. apply existsb_exists in K1. destruct K1 as [[p' q'] [I1 I2]]. cbn in I2. apply str_eqb_eq in I2. subst. exists q'. apply M. exact I1.
    + rewrite E in K2. apply existsb_exists in K2. destruct K2 as [[p' q'] [I1 I2]]. cbn in I2. apply str_eqb_eq in I2. subst. exists p'. apply M. exact I1.
Qed.

(** * No exceptions *)
(** The attributes are as [build_map] needs them: known data types, versions in order and one previous name per version. *)
Definition good_elem (e : elem) : Prop :=
  (exists x t, e_type e = Some x /\ dt_parse (e_type e) = Ok t) /\
  (forall n, e_nbc e = Some n -> n_versions n = BadVersion \/ exists vs, n_versions n = Versions vs /\ sortedZ vs = true /\
     ((n_desc n = strs "aos_renamed" \/ n_desc n = strs "leaf_renamed" \/ n_desc n = strs "structure_renamed") ->
       exists names, n_prev n = Some names /\ length names = length vs)).

Section Total.
Variables (old new : fields) (v : Z).
Hypotheses (Wo : wf_fields old) (Wn : wf_fields new) (Go : forall e, In e old -> good_elem e) (Gn : forall e, In e new -> good_elem e).
Local Notation op := (by_path old).
Local Notation np := (by_path new).

Lemma ctxpath_ok : forall f, wf_fields f -> forall p, exists_in f p -> exists c, get_ctxpath p (by_path f) = Ok c.
Proof.
  intros f W p H. unfold get_ctxpath. assert (K : forall a, In a (rev (iter_parents p)) -> exists_in f a).
  { intros a Ha. apply in_rev in Ha. apply iter_parents_spec in Ha. exact (parent_common f p a W H Ha). }
  induction (rev (iter_parents p)) as [|a l IH]; cbn; [exists p; reflexivity|].
  assert (Ha : exists_in f a) by (apply K; left; reflexivity). apply has_exists in Ha. unfold has in Ha. destruct (alookup a (by_path f)) as [e|]; [|discriminate].
  destruct (is_type "struct_array" e); [eexists; reflexivity|]. apply IH. intros b Hb. apply K. right. exact Hb.
Qed.
Lemma tbp_ok : forall f, wf_fields f -> forall e, In e f -> exists t, get_tbp e (by_path f) = Ok t.
Proof.
  intros f W e H. unfold get_tbp. destruct (is_type "struct_array" e); [|eexists; reflexivity]. destruct (negb (e_dynamic e)); [eexists; reflexivity|].
  destruct (ctxpath_ok f W (e_path e)) as [c ->]; [exists e; auto|]. eexists. reflexivity.
Qed.

Definition keys_ok (s : maps) : Prop := forall q, In q (akeys (m_path (n2o s))) -> exists_in new q.
Lemma entry_In : forall m k x, entry m k = Some x -> In k (akeys (m_path m)).
Proof. intros m k x H. apply in_map_In. unfold in_map. unfold entry in H. rewrite H. reflexivity. Qed.
Lemma In_entry : forall m k, In k (akeys (m_path m)) -> exists x, entry m k = Some x.
Proof. intros m k H. apply in_map_In in H. unfold in_map in H. unfold entry. destruct (alookup k (m_path m)); [eexists; reflexivity|discriminate]. Qed.

Lemma add_rename_ok : forall p q s, keys_ok s -> exists_in old p -> exists_in new q -> exists s', add_rename op np p q s = Ok s' /\ keys_ok s'.
Proof.
  intros p q s K Hp Hq. assert (Hp' := Hp). assert (Hq' := Hq). destruct Hp as [a [A1 A2]], Hq as [b [B1 B2]].
  assert (E : exists s', add_rename op np p q s = Ok s').
  { unfold add_rename. rewrite (proj2 (by_path_lookup old (wf_nodup _ Wo) p a) (conj A1 A2)), (proj2 (by_path_lookup new (wf_nodup _ Wn) q b) (conj B1 B2)).
    destruct (tbp_ok new Wn b B1) as [t1 ->]. destruct (ctxpath_ok new Wn q Hq') as [t2 ->]. destruct (tbp_ok old Wo a A1) as [t3 ->].
    destruct (ctxpath_ok old Wo p Hp') as [t4 ->]. eexists. reflexivity. }
  destruct E as [s' E]. exists s'. split; [exact E|]. intros k Hk. apply In_entry in Hk. destruct Hk as [x Hk]. rewrite (proj1 (add_rename_entries _ _ _ _ _ _ E k)) in Hk.
  destruct (str_eqb k q) eqn:Ek; [apply str_eqb_eq in Ek; subst; exact Hq'|]. apply K. exact (entry_In _ _ _ Hk).
Qed.
Lemma add_below_ok : forall p q ps s, keys_ok s -> (forall k, In k ps -> exists_in old k) -> exists s', add_below op np p q ps s = Ok s' /\ keys_ok s'.
Proof.
  intros p q. induction ps as [|k ps IH]; intros s K Hps; cbn [add_below]; [exists s; auto|].
  assert (Hps' : forall k, In k ps -> exists_in old k) by (intros k' K'; apply Hps; right; exact K').
  destruct (starts_with p k && has (replace_prefix p q k) np) eqn:E; [|apply IH; assumption]. apply andb_true_iff in E. destruct E as [_ E]. apply has_exists in E.
  destruct (add_rename_ok k _ s K ltac:(apply Hps; left; reflexivity) E) as [s1 [E1 K1]]. rewrite E1. cbn. apply IH; assumption.
Qed.
Lemma check_ok : forall a b s, In a old -> In b new -> keys_ok s -> exists t s', check_data_type a b s = Ok (t, s') /\ keys_ok s'.
Proof.
  intros a b s Ha Hb K. destruct (Go a Ha) as [[x [ta [Xa Ta]]] _]. destruct (Gn b Hb) as [[y [tb [Yb Tb]]] _].
  assert (E : exists t s', check_data_type a b s = Ok (t, s')).
  { unfold check_data_type, parse_type. rewrite Tb, Ta. cbn. destruct (parsed_eqb tb ta); [eexists; eexists; reflexivity|]. rewrite Xa, Yb.
    destruct (change_handler x y (e_ident b)); eexists; eexists; reflexivity. }
  destruct E as [t [s' E]]. exists t, s'. split; [exact E|]. destruct (check_entries _ _ _ _ _ E) as [C1 C2].
  intros k Hk. apply In_entry in Hk. destruct Hk as [z Hk]. destruct t.
  - rewrite (proj1 (C1 eq_refl k)) in Hk. apply K. exact (entry_In _ _ _ Hk).
  - rewrite (proj1 (C2 eq_refl k)) in Hk. destruct (str_eqb k (e_path b)) eqn:Ek; [apply str_eqb_eq in Ek; subst; exists b; auto|]. apply K. exact (entry_In _ _ _ Hk).
Qed.
Lemma parents_ok : forall s path, keys_ok s -> exists p, process_parent_renames np path s = Ok p.
Proof.
  intros s path K. unfold process_parent_renames. induction (rev (iter_parents path)) as [|a l IH]; cbn; [eexists; reflexivity|].
  destruct (alookup a (m_path (n2o s))) as [[[|c t]|]|] eqn:E; try exact IH. assert (Ha : exists_in new a) by (apply K; exact (entry_In _ _ _ E)).
  apply has_exists in Ha. unfold has in Ha. destruct (alookup a np) as [e|]; [|discriminate]. destruct (is_structure e); [eexists; reflexivity|exact IH].
Qed.
Lemma select_total : forall vs names, length names = length vs -> sortedZ vs = true -> (v < last vs 0)%Z -> vs <> [] -> exists p, select_name v vs names = Some p.
Proof.
  induction vs as [|x vs IH]; intros [|n names] L S H N; cbn in L; try discriminate; try congruence. cbn [select_name].
  destruct (v <? x)%Z eqn:E; [eexists; reflexivity|]. apply Z.ltb_ge in E. destruct vs as [|y vs]; [cbn in H; lia|]. apply IH; [lia| |exact H|discriminate].
  cbn [sortedZ] in S. apply andb_true_iff in S. apply S.
Qed.
Lemma step_ok : forall e s, In e new -> keys_ok s -> (match e_nbc e with Some n => n_versions n <> Versions [] | None => True end) -> exists s', nbc_step op np v e s = Ok s' /\ keys_ok s'.
Proof.
  intros e s He K Hv. unfold nbc_step. destruct (e_nbc e) as [n|] eqn:En; [|exists s; auto]. destruct (proj2 (Gn e He) n En) as [->|[vs [Ev [Sv Hn]]]]; [exists s; auto|]. rewrite Ev in Hv.
  rewrite Ev, Sv. cbn [negb]. destruct (last vs 0 <=? v)%Z eqn:El; [exists s; auto|]. apply Z.leb_gt in El.
  destruct (one_of ["aos_renamed"; "leaf_renamed"; "structure_renamed"]%string (n_desc n)) eqn:Ed.
  - apply one_of_In in Ed. cbn in Ed. destruct Hn as [names [-> Ln]]; [destruct Ed as [<-|[<-|[<-|[]]]]; auto|]. rewrite Ln, Nat.eqb_refl. cbn [negb].
    destruct (select_total vs names Ln Sv El ltac:(congruence)) as [prev ->].
    unfold get_old_path. destruct (parents_ok s (match before_slash (e_path e) with Some p => p ++ "/"%char :: prev | None => prev end) K) as [p ->]. cbn.
    destruct (alookup p op) as [oi|] eqn:Eo; [|exists s; auto]. apply (by_path_lookup old (wf_nodup _ Wo)) in Eo. destruct Eo as [O1 O2].
    destruct (check_ok oi e s O1 He K) as [t [s1 [E1 K1]]]. rewrite E1. cbn. destruct t; [|exists s1; auto].
    destruct (add_rename_ok p (e_path e) s1 K1 ltac:(exists oi; auto) ltac:(exists e; auto)) as [s2 [E2 K2]]. rewrite E2. cbn.
    destruct (is_structure oi); [|exists s2; auto]. apply add_below_ok; [exact K2|]. intros k. apply by_path_keys.
  - assert (Q : forall g, (forall p k, entry (n2o (g p)) k = entry (n2o s) k) -> exists s', (do old_path <- process_parent_renames np (e_path e) s; Ok (g old_path)) = Ok s' /\ keys_ok s').
    { intros g Hg. destruct (parents_ok s (e_path e) K) as [p ->]. cbn. exists (g p). split; [reflexivity|]. intros k Hk. apply In_entry in Hk. destruct Hk as [x Hk]. rewrite Hg in Hk.
      apply K. exact (entry_In _ _ _ Hk). }
    destruct (one_of ["type_changed"]%string (n_desc n)); [exists s; auto|].
    destruct (one_of ["repeat_children_first_point"]%string (n_desc n)); [apply Q; intros; reflexivity|].
    destruct (one_of ["repeat_children_first_point_conditional"]%string (n_desc n)); [apply Q; intros; reflexivity|].
    destruct (one_of ["repeat_children_first_point_conditional_sibling"; "repeat_children_first_point_conditional_sibling_dynamic"]%string (n_desc n)); [apply Q; intros; reflexivity|].
    destruct (one_of ["remove_last_point_if_open_annular_centreline"]%string (n_desc n)); [apply Q; intros; reflexivity|]. exists s. auto.
Qed.
Hypothesis Gv : forall e n, In e new -> e_nbc e = Some n -> n_versions n <> Versions [].
Lemma loop_ok : forall items s, (forall e, In e items -> In e new) -> keys_ok s -> exists s', nbc_loop op np v items s = Ok s' /\ keys_ok s'.
Proof.
  induction items as [|e items IH]; intros s Hi K; cbn [nbc_loop]; [exists s; auto|]. assert (He : In e new) by (apply Hi; left; reflexivity).
  destruct (step_ok e s He K) as [s1 [E1 K1]]; [destruct (e_nbc e) eqn:En; [eapply Gv; eassumption|exact I]|]. rewrite E1. cbn. apply IH; [intros e' H'; apply Hi; right; exact H'|exact K1].
Qed.
Lemma common_ok : forall cs s, (forall k, In k cs -> exists_in old k /\ exists_in new k) -> keys_ok s -> exists s', common_loop op np cs s = Ok s'.
Proof.
  induction cs as [|c cs IH]; intros s Hc K; cbn [common_loop]; [exists s; reflexivity|].
  assert (Hc' : forall k, In k cs -> exists_in old k /\ exists_in new k) by (intros k K'; apply Hc; right; exact K').
  destruct (in_map c (n2o s) || in_map c (o2n s)); [apply IH; assumption|]. destruct (Hc c ltac:(left; reflexivity)) as [[a [A1 A2]] [b [B1 B2]]].
  rewrite (proj2 (by_path_lookup old (wf_nodup _ Wo) c a) (conj A1 A2)), (proj2 (by_path_lookup new (wf_nodup _ Wn) c b) (conj B1 B2)).
  destruct (check_ok a b s A1 B1 K) as [t [s1 [E1 K1]]]. rewrite E1. cbn. apply IH; assumption.
Qed.
Lemma build_ok : forall order, (forall l, Permutation.Permutation (order l) l) -> exists s, build_map order old new v = Ok s.
Proof.
  intros order Ord. unfold build_map. destruct (loop_ok new {| o2n := empty_map; n2o := empty_map |} (fun e H => H)) as [s1 [E1 K1]]; [intros k []|]. rewrite E1. cbn.
  destruct (common_ok (order (filter (fun p => has p np) (akeys op))) s1) as [s2 E2]; [|exact K1|rewrite E2; cbn; eexists; reflexivity].
  intros k Hk. apply (Permutation.Permutation_in _ (Ord _)) in Hk. apply filter_In in Hk. rewrite by_path_keys, has_exists in Hk. exact Hk.
Qed.
End Total.
