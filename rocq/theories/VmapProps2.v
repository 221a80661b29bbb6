(** More about the map between two versions: contexts of renamed quantities, handlers of type changes, rules for version 3 to 4. *)
From Verif Require Import Base DataTypeModel TreeSpec HashModel HashProofs2 HashProofs3 ValModel VmapModel VmapSpec VmapProofs VmapProofs2 VmapProofs3 VmapProofs4.
From Coq Require Import Permutation.

(** * Specification *)

(** [a] is an array of structures that contains [q]. *)
Definition aos_above (f : fields) (q a : str) : Prop := inside q a /\ exists e, In e f /\ e_path e = a /\ e_type e = Some (strs "struct_array").
(** The path of [q] relative to the innermost array of structures that contains it (the complete path if there is none). *)
Inductive relative (f : fields) (q : str) : str -> Prop :=
  | relative_top : (forall a, ~ aos_above f q a) -> relative f q q
  | relative_aos : forall a c, q = a ++ slash :: c -> aos_above f q a -> (forall a', aos_above f q a' -> at_or_inside a a') -> relative f q c.
(** The path of the time base of an element, relative to the same array of structures. *)
Definition timebase (f : fields) (e : elem) (t : str) : Prop :=
  (e_type e = Some (strs "struct_array") /\ e_dynamic e = false /\ t = [])
  \/ (e_type e = Some (strs "struct_array") /\ e_dynamic e = true /\ exists c, relative f (e_path e) c /\ t = c ++ strs "/time")
  \/ (e_type e <> Some (strs "struct_array") /\ t = e_tbp e).

(** * Contexts *)
Lemma iter_parents_order : forall q l1 a l2, iter_parents q = l1 ++ a :: l2 -> forall b, In b l2 -> inside b a.
Proof.
  induction q as [|c t IH]; intros l1 a l2 E b Hb; cbn [iter_parents] in E; [destruct l1; discriminate|].
  assert (K : forall l1', map (cons c) (iter_parents t) = l1' ++ a :: l2 -> inside b a).
  { intros l1' E'. apply map_eq_app in E'. destruct E' as [m1 [m2 [E1 [_ E2]]]]. apply map_eq_cons in E2. destruct E2 as [a' [m3 [-> [E3 E4]]]].
    rewrite <- E4 in Hb. apply in_map_iff in Hb. destruct Hb as [b' [<- Hb]]. destruct (IH _ _ _ E1 _ Hb) as [r Er]. exists r. rewrite <- E3, Er. reflexivity. }
  destruct (Ascii.eqb c "/") eqn:Ec; [|exact (K _ E)]. destruct l1 as [|x l1]; cbn in E; inversion E; [|exact (K _ H1)].
  subst a. apply Ascii.eqb_eq in Ec. subst c. rewrite <- H1 in Hb. apply in_map_iff in Hb. destruct Hb as [b' [<- _]]. exists b'. reflexivity.
Qed.

Lemma is_type_iff : forall t e, is_type t e = true <-> e_type e = Some (strs t).
Proof. intros t e. unfold is_type. destruct (e_type e); [rewrite str_eqb_eq; split; congruence|split; discriminate]. Qed.

Lemma skip_slash : forall p r, skipn (S (length p)) (p ++ slash :: r) = r.
Proof. induction p as [|c p IH]; intros r; [reflexivity|]. exact (IH r). Qed.
Lemma ctxpath_relative : forall f, wf_fields f -> forall q, exists_in f q -> forall c, get_ctxpath q (by_path f) = Ok c <-> relative f q c.
Proof.
  intros f W q Hq.
  assert (A : forall c, get_ctxpath q (by_path f) = Ok c -> relative f q c).
  { intros c. unfold get_ctxpath.
    assert (G : forall ps done, rev (iter_parents q) = done ++ ps -> (forall a, In a done -> ~ aos_above f q a) -> ctxpath_loop q ps (by_path f) = Ok c -> relative f q c).
    { induction ps as [|p ps IH]; intros done E D R; cbn [ctxpath_loop] in R.
      - inversion R; subst c. apply relative_top. intros a Ha. apply (D a); [|exact Ha]. rewrite app_nil_r in E. rewrite <- E, <- in_rev. apply iter_parents_spec. apply Ha.
      - assert (Ip : inside q p) by (apply iter_parents_spec; rewrite in_rev, E; apply in_or_app; right; left; reflexivity).
        destruct (alookup p (by_path f)) as [e|] eqn:L; [|discriminate]. apply (by_path_lookup f (wf_nodup _ W)) in L. destruct L as [He Pe].
        destruct (is_type "struct_array" e) eqn:T.
        + assert (R2 : c = skipn (S (length p)) q) by congruence. subst c. destruct Ip as [r Er]. apply is_type_iff in T. apply (relative_aos f q p).
          * rewrite Er at 2. rewrite skip_slash. exact Er.
          * split; [exists r; exact Er|exists e; auto].
          * intros a' Ha. assert (I' : In a' (rev (iter_parents q))) by (rewrite <- in_rev; apply iter_parents_spec; apply Ha). rewrite E in I'. apply in_app_or in I'.
            destruct I' as [I'|[I'|I']]; [exfalso; exact (D _ I' Ha)|left; exact I'|right].
            assert (E2 : iter_parents q = rev ps ++ p :: rev done). { rewrite <- (rev_involutive (iter_parents q)), E, rev_app_distr. cbn. rewrite <- app_assoc. reflexivity. }
            apply in_split in I'. destruct I' as [x [y ->]]. rewrite rev_app_distr in E2. cbn in E2. rewrite <- !app_assoc in E2. cbn in E2.
            apply (iter_parents_order _ _ _ _ E2). apply in_or_app. right. left. reflexivity.
        + apply (IH (done ++ [p])); [rewrite <- app_assoc; exact E| |exact R].
          intros a Ha. apply in_app_or in Ha. destruct Ha as [Ha|[<-|[]]]; [exact (D a Ha)|]. intros [_ [e' [H1 [H2 H3]]]].
          assert (L1 : alookup p (by_path f) = Some e') by (apply by_path_lookup; [apply W|auto]).
          assert (L2 : alookup p (by_path f) = Some e) by (apply by_path_lookup; [apply W|auto]).
          assert (e' = e) by congruence. subst e'. apply is_type_iff in H3. congruence. }
    intros R. apply (G (rev (iter_parents q)) []); [reflexivity|intros a []|exact R]. }
  intros c. split; [apply A|]. intros R. destruct (ctxpath_ok f W q Hq) as [c' E]. rewrite E. f_equal. apply A in E. revert R E. clear. intros R E.
  destruct R as [N|a c Ea Ha Na]; destruct E as [N'|a' c' Ea' Ha' Na']; [reflexivity|exfalso; exact (N _ Ha')|exfalso; exact (N' _ Ha)|].
  assert (a = a').
  { destruct (Na _ Ha') as [K|[r K]]; [exact K|]. destruct (Na' _ Ha) as [K'|[r' K']]; [auto|]. exfalso. subst a. apply (f_equal (@length ascii)) in K'. rewrite !app_length in K'. cbn in K'. lia. }
  subst a'. rewrite Ea in Ea'. apply app_inv_head in Ea'. congruence.
Qed.

Lemma tbp_timebase : forall f, wf_fields f -> forall e, In e f -> forall t, get_tbp e (by_path f) = Ok t <-> timebase f e t.
Proof.
  intros f W e He t. unfold get_tbp, timebase. assert (X : exists_in f (e_path e)) by (exists e; auto).
  destruct (is_type "struct_array" e) eqn:T.
  - apply is_type_iff in T. destruct (e_dynamic e) eqn:D; cbn [negb].
    + split.
      * intros R. destruct (get_ctxpath (e_path e) (by_path f)) as [c|] eqn:C; [|discriminate]. cbn in R. inversion R; subst t. right. left. split; [exact T|]. split; [reflexivity|].
        exists c. split; [apply (ctxpath_relative f W _ X); exact C|reflexivity].
      * intros [[_ [K _]]|[[_ [_ [c [R ->]]]]|[K _]]]; [discriminate| |contradiction]. apply (ctxpath_relative f W _ X) in R. rewrite R. reflexivity.
    + split; [intros R; inversion R; auto|]. intros [[_ [_ ->]]|[[_ [K _]]|[K _]]]; [reflexivity|discriminate|contradiction].
  - assert (N : e_type e <> Some (strs "struct_array")) by (intros K; apply is_type_iff in K; congruence).
    split; [intros R; inversion R; auto|]. intros [[K _]|[[K _]|[_ ->]]]; [contradiction|contradiction|reflexivity].
Qed.

(** ** The invariant *)
Definition located_in (f : fields) (m : nmap) : Prop := forall k q, entry m k = Some (Some q) ->
  exists e c t, In e f /\ e_path e = q /\ alookup k (m_ctx m) = Some c /\ alookup k (m_tbp m) = Some t /\ relative f q c /\ timebase f e t.
Definition both_located (old new : fields) (s : maps) : Prop := located_in new (o2n s) /\ located_in old (n2o s).

Lemma located_set_entry : forall f m k q e c t, located_in f m -> In e f -> e_path e = q -> relative f q c -> timebase f e t -> located_in f (set_entry k (Some q) t c m).
Proof.
  intros f m k q e c t L He Pe Rc Rt k' q' E. unfold entry in E. cbn [m_path m_ctx m_tbp set_entry] in *. rewrite !alookup_aset in *. destruct (str_eqb k' k) eqn:Ek.
  - inversion E; subst q'. exists e, c, t. auto 10.
  - exact (L k' q' E).
Qed.
Lemma located_set_none : forall f m k, located_in f m -> located_in f (set_path k None m).
Proof.
  intros f m k L k' q' E. unfold entry in E. cbn [m_path m_ctx m_tbp set_path] in *. rewrite alookup_aset in E. destruct (str_eqb k' k); [discriminate|exact (L k' q' E)].
Qed.

Section Located.
Variables (old new : fields) (v : Z).
Hypothesis (Wo : wf_fields old) (Wn : wf_fields new).
Local Notation op := (by_path old).
Local Notation np := (by_path new).

Lemma add_rename_entry : forall p q s s', add_rename op np p q s = Ok s' ->
  exists a b co cn to tn, In a old /\ e_path a = p /\ In b new /\ e_path b = q /\ relative old p co /\ relative new q cn /\ timebase old a to /\ timebase new b tn
    /\ s' = on_n2o (set_entry q (Some p) to co) (on_o2n (set_entry p (Some q) tn cn) s).
Proof.
  intros p q s s' R. unfold add_rename in R. destruct (alookup p op) as [a|] eqn:La; [|discriminate]. destruct (alookup q np) as [b|] eqn:Lb; [|discriminate].
  apply (by_path_lookup old (wf_nodup _ Wo)) in La. apply (by_path_lookup new (wf_nodup _ Wn)) in Lb. destruct La as [Ia Pa], Lb as [Ib Pb].
  destruct (get_tbp b np) as [tn|] eqn:E1; [|discriminate]. destruct (get_ctxpath q np) as [cn|] eqn:E2; [|discriminate].
  destruct (get_tbp a op) as [to|] eqn:E3; [|discriminate]. destruct (get_ctxpath p op) as [co|] eqn:E4; [|discriminate]. cbn in R. inversion R.
  exists a, b, co, cn, to, tn. repeat split; auto.
  - apply (ctxpath_relative old Wo p); [exists a; auto|exact E4].
  - apply (ctxpath_relative new Wn q); [exists b; auto|exact E2].
  - apply (tbp_timebase old Wo); auto.
  - apply (tbp_timebase new Wn); auto.
Qed.
Lemma add_rename_located : forall p q s s', both_located old new s -> add_rename op np p q s = Ok s' -> both_located old new s'.
Proof.
  intros p q s s' [L1 L2] R. destruct (add_rename_entry _ _ _ _ R) as [a [b [co [cn [to [tn [A1 [A2 [B1 [B2 [C1 [C2 [T1 [T2 ->]]]]]]]]]]]]]].
  split; cbn; [apply (located_set_entry _ _ _ _ b)|apply (located_set_entry _ _ _ _ a)]; auto.
Qed.
Lemma add_below_located : forall p q ps s s', both_located old new s -> add_below op np p q ps s = Ok s' -> both_located old new s'.
Proof.
  intros p q. induction ps as [|k ps IH]; intros s s' L R; cbn [add_below] in R; [inversion R; subst; exact L|].
  destruct (starts_with p k && has (replace_prefix p q k) np); [|exact (IH _ _ L R)].
  destruct (add_rename op np k (replace_prefix p q k) s) as [s1|] eqn:E; [|discriminate]. cbn in R. exact (IH _ _ (add_rename_located _ _ _ _ L E) R).
Qed.
Lemma check_located : forall a b s t s', both_located old new s -> check_data_type a b s = Ok (t, s') -> both_located old new s'.
Proof.
  intros a b s t s' [L1 L2] R. unfold check_data_type in R. destruct (parse_type (e_type b)); [|discriminate]. destruct (parse_type (e_type a)); [|discriminate]. cbn in R.
  destruct (parsed_eqb _ _); [inversion R; subst; split; assumption|]. destruct (e_type a); [|discriminate]. destruct (e_type b); [|discriminate].
  destruct (change_handler _ _ _); inversion R; subst; (split; cbn); try assumption; [apply (located_set_none new (o2n s))|apply (located_set_none old (n2o s))]; assumption.
Qed.
Lemma nbc_located : forall e s s', both_located old new s -> nbc_step op np v e s = Ok s' -> both_located old new s'.
Proof.
  intros e s s' L R. unfold nbc_step in R. destruct (e_nbc e) as [n|]; [|inversion R; subst; exact L]. destruct (n_versions n) as [| |vs]; [discriminate|inversion R; subst; exact L|].
  destruct (negb (sortedZ vs)); [discriminate|]. destruct (last vs 0 <=? v)%Z; [inversion R; subst; exact L|].
  destruct (one_of ["aos_renamed"; "leaf_renamed"; "structure_renamed"]%string (n_desc n)).
  { destruct (n_prev n) as [names|]; [|discriminate]. destruct (negb _); [discriminate|]. destruct (select_name v vs names); [|discriminate].
    destruct (get_old_path np (e_path e) s0 s) as [p|]; [|discriminate]. cbn in R. destruct (alookup p op) as [a|]; [|inversion R; subst; exact L].
    destruct (check_data_type a e s) as [[t s1]|] eqn:C; [|discriminate]. cbn in R. assert (L1 := check_located _ _ _ _ _ L C). destruct t; [|inversion R; subst; exact L1].
    destruct (add_rename op np p (e_path e) s1) as [s2|] eqn:E; [|discriminate]. cbn in R. assert (L2 := add_rename_located _ _ _ _ L1 E).
    destruct (is_structure a); [exact (add_below_located _ _ _ _ _ L2 R)|inversion R; subst; exact L2]. }
  destruct (one_of ["type_changed"]%string (n_desc n)); [inversion R; subst; exact L|].
  repeat match type of R with (if one_of ?l ?d then _ else _) = _ => destruct (one_of l d) end;
    try (destruct (process_parent_renames np (e_path e) s) as [p|]; [|discriminate]; cbn in R); inversion R; subst; try exact L; destruct L as [L1 L2]; split; cbn; assumption.
Qed.
Lemma nbc_loop_located : forall items s s', both_located old new s -> nbc_loop op np v items s = Ok s' -> both_located old new s'.
Proof.
  induction items as [|e items IH]; intros s s' L R; cbn [nbc_loop] in R; [inversion R; subst; exact L|].
  destruct (nbc_step op np v e s) as [s1|] eqn:E; [|discriminate]. cbn in R. exact (IH _ _ (nbc_located _ _ _ L E) R).
Qed.
Lemma common_located : forall cs s s', both_located old new s -> common_loop op np cs s = Ok s' -> both_located old new s'.
Proof.
  induction cs as [|c cs IH]; intros s s' L R; cbn [common_loop] in R; [inversion R; subst; exact L|]. destruct (in_map c (n2o s) || in_map c (o2n s)); [exact (IH _ _ L R)|].
  destruct (alookup c op) as [a|]; [|discriminate]. destruct (alookup c np) as [b|]; [|discriminate].
  destruct (check_data_type a b s) as [[t s1]|] eqn:C; [|discriminate]. cbn in R. exact (IH _ _ (check_located _ _ _ _ _ L C) R).
Qed.
Lemma missing_located : forall f m missing, located_in f m -> located_in f (map_missing missing m).
Proof.
  intros f m missing L. unfold map_missing. revert L. generalize (skip_loop (parents_of_keys m) (sort_paths missing) []). intros l. revert m.
  induction l as [|k l IH]; intros m L; cbn [fold_left]; [exact L|]. apply IH. apply located_set_none. exact L.
Qed.
Lemma build_located : forall order s, build_map order old new v = Ok s -> both_located old new s.
Proof.
  intros order s R. unfold build_map in R. destruct (nbc_loop op np v new _) as [s1|] eqn:E1; [|discriminate]. cbn in R.
  destruct (common_loop op np _ s1) as [s2|] eqn:E2; [|discriminate]. cbn in R. inversion R; subst s.
  assert (L0 : both_located old new {| o2n := empty_map; n2o := empty_map |}) by (split; intros k q K; discriminate K).
  assert (L1 := nbc_loop_located _ _ _ L0 E1).
  assert (L2 := common_located _ _ _ L1 E2). destruct L2 as [L2 L3]. split; cbn; apply missing_located; assumption.
Qed.
End Located.

(** C20, C31: whatever the renamings are, each renamed path comes with the position of its target, both ways: the path of the target
    relative to the innermost array of structures around it, and the time base of the target. *)
Theorem C20_contexts : forall old new v order s, wf_fields old -> wf_fields new -> build_map order old new v = Ok s ->
  (forall p q, entry (o2n s) p = Some (Some q) ->
     exists e c t, In e new /\ e_path e = q /\ alookup p (m_ctx (o2n s)) = Some c /\ alookup p (m_tbp (o2n s)) = Some t /\ relative new q c /\ timebase new e t)
  /\ (forall q p, entry (n2o s) q = Some (Some p) ->
     exists e c t, In e old /\ e_path e = p /\ alookup q (m_ctx (n2o s)) = Some c /\ alookup q (m_tbp (n2o s)) = Some t /\ relative old p c /\ timebase old e t).
Proof. intros old new v order s Wo Wn R. exact (build_located old new v Wo Wn order s R). Qed.

(** * Type changes of paths that both versions have *)
Definition handler_for (m : nmap) (k : str) : option (option handler) := alookup k (m_type m).

(** What each supported change is converted by. *)
Inductive change : elem -> elem -> handler -> Prop :=
  | ch_struct : forall a b, between "structure" "struct_array" a b -> forall x y, e_type x = Some a -> e_type y = Some b -> change x y H_structure_aos
  | ch_0d1d : forall a b, (between "INT_0D" "INT_1D" a b \/ between "FLT_0D" "FLT_1D" a b \/ between "CPX_0D" "CPX_1D" a b \/ between "STR_0D" "STR_1D" a b) ->
      forall x y, e_type x = Some a -> e_type y = Some b -> change x y H_0d_1d
  | ch_ident : forall x y, e_type x = Some (strs "INT_1D") -> e_type y <> Some (strs "INT_0D") -> e_ident y = true -> change x y H_to_identifier
  | ch_flt_int : forall a b, between "FLT_0D" "INT_0D" a b -> forall x y, e_type x = Some a -> e_type y = Some b -> change x y H_flt0d_int0d.

Lemma pair_is_between : forall a b x y, pair_is a b x y = true <-> between a b x y.
Proof. intros a b x y. unfold pair_is, between. rewrite orb_true_iff, !andb_true_iff, !str_eqb_eq. tauto. Qed.
Lemma change_handler_change : forall x y a b h, e_type x = Some a -> e_type y = Some b -> change_handler a b (e_ident y) = Some h -> change x y h.
Proof.
  intros x y a b h Ex Ey. unfold change_handler.
  destruct (pair_is "struct_array" "structure" a b) eqn:E1.
  { intros K; inversion K; subst h. apply pair_is_between in E1. apply (ch_struct a b); auto. unfold between in *. tauto. }
  destruct (pair_is "INT_0D" "INT_1D" a b || pair_is "FLT_0D" "FLT_1D" a b || pair_is "CPX_0D" "CPX_1D" a b || pair_is "STR_0D" "STR_1D" a b) eqn:E2.
  { intros K; inversion K; subst h. rewrite !orb_true_iff, !pair_is_between in E2. apply (ch_0d1d a b); auto. tauto. }
  destruct (str_eqb a (strs "INT_1D") && e_ident y) eqn:E3.
  { intros K; inversion K; subst h. apply andb_true_iff in E3. rewrite str_eqb_eq in E3. destruct E3 as [-> E3]. apply ch_ident; auto. rewrite Ey. intros E4. inversion E4; subst b. vm_compute in E2. discriminate. }
  destruct (pair_is "FLT_0D" "INT_0D" a b) eqn:E4; [|discriminate].
  intros K; inversion K; subst h. apply pair_is_between in E4. apply (ch_flt_int a b); auto.
Qed.
Definition handled (a b : elem) (s : maps) : Prop :=
  same_type a b \/ exists h, change a b h /\ handler_for (o2n s) (e_path a) = Some (Some h) /\ handler_for (n2o s) (e_path b) = Some (Some h).

Lemma check_handled : forall a b s s', check_data_type a b s = Ok (true, s') -> handled a b s'.
Proof.
  unfold check_data_type, parse_type. intros a b s s' E.
  destruct (dt_parse (e_type b)) as [tb|] eqn:Eb; [|discriminate]. cbn in E. destruct (dt_parse (e_type a)) as [ta|] eqn:Ea; [|discriminate]. cbn in E.
  destruct (parsed_eqb tb ta) eqn:Ep; [apply parsed_eqb_eq in Ep; subst; left; exists ta; auto|].
  destruct (e_type a) as [x|] eqn:Tx; [|discriminate]. destruct (e_type b) as [y|] eqn:Ty; [|discriminate].
  destruct (change_handler x y (e_ident b)) as [h|] eqn:C; [|discriminate]. inversion E; subst s'. right. exists h. split; [exact (change_handler_change a b x y h Tx Ty C)|].
  unfold handler_for. cbn. rewrite !alookup_aset_same. auto.
Qed.
Lemma check_types_other : forall a b s t s' k, check_data_type a b s = Ok (t, s') -> k <> e_path a -> k <> e_path b ->
  handler_for (o2n s') k = handler_for (o2n s) k /\ handler_for (n2o s') k = handler_for (n2o s) k.
Proof.
  unfold check_data_type. intros a b s t s' k E Na Nb. destruct (parse_type (e_type b)); [|discriminate]. destruct (parse_type (e_type a)); [|discriminate]. cbn in E.
  destruct (parsed_eqb _ _); [inversion E; subst; auto|]. destruct (e_type a); [|discriminate]. destruct (e_type b); [|discriminate].
  destruct (change_handler _ _ _); inversion E; subst; unfold handler_for; cbn; rewrite !alookup_aset_other by auto; auto.
Qed.

Lemma common_handled : forall old new, wf_fields old -> wf_fields new -> forall a b, In a old -> In b new -> e_path a = e_path b -> forall cs s s',
  common_loop (by_path old) (by_path new) cs s = Ok s' -> (forall k, In k cs -> exists_in old k /\ exists_in new k) ->
  entry (o2n s') (e_path a) = None -> entry (n2o s') (e_path a) = None -> In (e_path a) cs \/ handled a b s -> handled a b s'.
Proof.
  intros old new Wo Wn a b Ia Ib Pab. induction cs as [|c cs IH]; intros s s' A Hc N1 N2 H; cbn [common_loop] in A.
  - inversion A; subst. destruct H as [[]|H]; exact H.
  - assert (Hc' : forall k, In k cs -> exists_in old k /\ exists_in new k) by (intros k' K; apply Hc; right; exact K).
    assert (M := common_entries old new Wo Wn (c :: cs) s s' A Hc (e_path a)). cbv zeta in M.
    assert (N : in_map (e_path a) (n2o s) || in_map (e_path a) (o2n s) = false).
    { destruct (in_map (e_path a) (n2o s) || in_map (e_path a) (o2n s)) eqn:K; [|reflexivity]. destruct M as [M1 M2]. rewrite N2 in M1. rewrite N1 in M2.
      unfold in_map in K. unfold entry in M1, M2. rewrite <- M1, <- M2 in K. discriminate K. }
    cbn [common_loop] in A. destruct (in_map c (n2o s) || in_map c (o2n s)) eqn:Em.
    + apply (IH s s' A Hc' N1 N2). destruct H as [[->|H]|H]; [congruence|left; exact H|right; exact H].
    + destruct (alookup c (by_path old)) as [x|] eqn:La; [|discriminate]. destruct (alookup c (by_path new)) as [y|] eqn:Lb; [|discriminate].
      apply (by_path_lookup old (wf_nodup _ Wo)) in La. apply (by_path_lookup new (wf_nodup _ Wn)) in Lb. destruct La as [Ix Px], Lb as [Iy Py].
      destruct (check_data_type x y s) as [[t s1]|] eqn:C; [|discriminate]. cbn in A. apply (IH s1 s' A Hc' N1 N2).
      destruct (str_eqb c (e_path a)) eqn:Ec.
      * apply str_eqb_eq in Ec. right.
        assert (x = a). { assert (L1 : alookup c (by_path old) = Some x) by (apply by_path_lookup; [apply Wo|auto]).
                          assert (L2 : alookup c (by_path old) = Some a) by (apply by_path_lookup; [apply Wo|auto]). congruence. }
        assert (y = b). { assert (L1 : alookup c (by_path new) = Some y) by (apply by_path_lookup; [apply Wn|auto]).
                          assert (L2 : alookup c (by_path new) = Some b) by (apply by_path_lookup; [apply Wn|split; [exact Ib|congruence]]). congruence. }
        subst x y. destruct t; [exact (check_handled _ _ _ _ C)|]. exfalso. destruct (check_entries _ _ _ _ _ C) as [_ Cf]. specialize (Cf eq_refl (e_path a)).
        rewrite str_eqb_refl in Cf. destruct Cf as [_ Cf]. assert (M' := common_entries old new Wo Wn cs s1 s' A Hc' (e_path a)). cbv zeta in M'.
        assert (K : in_map (e_path a) (n2o s1) || in_map (e_path a) (o2n s1) = true) by (unfold in_map; unfold entry in Cf; rewrite Cf; apply orb_true_r).
        rewrite K in M'. destruct M' as [_ M']. congruence.
      * apply str_eqb_neq in Ec. destruct H as [[->|H]|H]; [congruence|left; exact H|right].
        destruct H as [H|[h [H1 [H2 H3]]]]; [left; exact H|right; exists h].
        destruct (check_types_other _ _ _ _ _ (e_path a) C) as [K1 K2]; [congruence|congruence|]. rewrite K1. rewrite <- Pab in H3 |- *. rewrite K2. auto.
Qed.
Lemma map_missing_types : forall missing m, m_type (map_missing missing m) = m_type m.
Proof.
  intros missing m. unfold map_missing. generalize (skip_loop (parents_of_keys m) (sort_paths missing) []). intros l. revert m. induction l as [|k l IH]; intros m; [reflexivity|]. cbn [fold_left]. rewrite IH. reflexivity.
Qed.
Lemma map_missing_none : forall missing m k, entry (map_missing missing m) k = None -> entry m k = None.
Proof.
  intros missing m k. unfold map_missing. generalize (skip_loop (parents_of_keys m) (sort_paths missing) []). intros l. revert m.
  induction l as [|x l IH]; intros m H; [exact H|]. cbn [fold_left] in H. apply IH in H. unfold entry in *. cbn in H. rewrite alookup_aset in H. destruct (str_eqb k x); [discriminate|exact H].
Qed.

(** C42: a quantity with the same path in both versions that is in neither map (so it is copied) has the same type in both versions,
    or a type change for which both maps contain the conversion. *)
Theorem C42_common_types : forall old new v order s, wf_fields old -> wf_fields new -> (forall l, Permutation (order l) l) -> build_map order old new v = Ok s ->
  forall a b, In a old -> In b new -> e_path a = e_path b -> entry (o2n s) (e_path a) = None -> entry (n2o s) (e_path b) = None ->
  same_type a b \/ exists h, change a b h /\ handler_for (o2n s) (e_path a) = Some (Some h) /\ handler_for (n2o s) (e_path b) = Some (Some h).
Proof.
  intros old new v order s Wo Wn Ord R a b Ia Ib Pab N1 N2. unfold build_map in R. destruct (nbc_loop _ _ v new _) as [s1|] eqn:E1; [|discriminate]. cbn in R.
  set (cs := order (filter (fun p => has p (by_path new)) (akeys (by_path old)))) in *.
  destruct (common_loop (by_path old) (by_path new) cs s1) as [s2|] eqn:E2; [|discriminate]. cbn in R. inversion R; subst s. clear R. cbn [o2n n2o on_o2n on_n2o] in *.
  apply map_missing_none in N1, N2. unfold handler_for. rewrite !map_missing_types. rewrite <- Pab in N2.
  assert (Ics : forall k, In k cs <-> exists_in old k /\ exists_in new k).
  { intros k. assert (Hp := Ord (filter (fun p => has p (by_path new)) (akeys (by_path old)))). split.
    - intros K. apply (Permutation_in _ Hp) in K. apply filter_In in K. destruct K as [K1 K2]. split; [apply by_path_keys; exact K1|apply has_exists; exact K2].
    - intros [K1 K2]. apply (Permutation_in _ (Permutation_sym Hp)). apply filter_In. split; [apply by_path_keys; exact K1|apply has_exists; exact K2]. }
  apply (common_handled old new Wo Wn a b Ia Ib Pab cs s1 s2 E2); [intros k K; apply Ics; exact K|exact N1|exact N2|].
  left. apply Ics. split; [exists a; auto|exists b; auto].
Qed.
