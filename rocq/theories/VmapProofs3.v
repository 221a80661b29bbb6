(** Type changes of common paths and missing paths. *)
From Verif Require Import Base DataTypeModel TreeSpec HashModel HashProofs2 HashProofs3 ValModel VmapModel VmapSpec VmapProofs VmapProofs2.
From Coq Require Import Permutation.

(** * Common paths *)
Lemma check_true_supported : forall a b s s', check_data_type a b s = Ok (true, s') -> same_type a b \/ supported a b.
Proof.
  unfold check_data_type, parse_type. intros a b s s' E.
  destruct (dt_parse (e_type b)) as [tb|] eqn:Eb; [|discriminate]. cbn in E. destruct (dt_parse (e_type a)) as [ta|] eqn:Ea; [|discriminate]. cbn in E.
  destruct (parsed_eqb tb ta) eqn:Ep.
  - apply parsed_eqb_eq in Ep. subst. left. exists ta. auto.
  - destruct (e_type a) as [x|] eqn:Tx; [|discriminate]. destruct (e_type b) as [y|] eqn:Ty; [|discriminate].
    destruct (change_handler x y (e_ident b)) eqn:C; [|discriminate]. right. apply (change_handler_supported a b x y Tx Ty). congruence.
Qed.

Definition bad_type (old new : fields) (k : str) : Prop :=
  exists a b, In a old /\ In b new /\ e_path a = k /\ e_path b = k /\ ~ (same_type a b \/ supported a b).

Lemma common_entries : forall old new, wf_fields old -> wf_fields new -> forall cs s s', common_loop (by_path old) (by_path new) cs s = Ok s' ->
  (forall k, In k cs -> exists_in old k /\ exists_in new k) -> forall k,
  let stay := entry (n2o s') k = entry (n2o s) k /\ entry (o2n s') k = entry (o2n s) k in
  if in_map k (n2o s) || in_map k (o2n s) then stay
  else (In k cs /\ bad_type old new k /\ entry (n2o s') k = Some None /\ entry (o2n s') k = Some None) \/ (~ (In k cs /\ bad_type old new k) /\ stay).
Proof.
  intros old new Wo Wn. induction cs as [|c cs IH]; intros s s' A Hc k; cbn [common_loop] in A.
  - inversion A; subst. destruct (in_map k (n2o s') || in_map k (o2n s')); [split; reflexivity|]. right. split; [intros [[] _]|split; reflexivity].
  - assert (Hc' : forall k, In k cs -> exists_in old k /\ exists_in new k) by (intros k' K; apply Hc; right; exact K).
    destruct (in_map c (n2o s) || in_map c (o2n s)) eqn:Em.
    + specialize (IH s s' A Hc' k). cbv zeta in *. destruct (in_map k (n2o s) || in_map k (o2n s)) eqn:Ek; [exact IH|].
      destruct IH as [[H1 [H2 H3]]|[H1 H2]]; [left; split; [right; exact H1|split; [exact H2|exact H3]]|right]. split; [|exact H2].
      intros [[->|H3] H4]; [congruence|]. apply H1. auto.
    + destruct (alookup c (by_path old)) as [a|] eqn:La; [|discriminate]. destruct (alookup c (by_path new)) as [b|] eqn:Lb; [|discriminate].
      apply (by_path_lookup old (wf_nodup _ Wo)) in La. apply (by_path_lookup new (wf_nodup _ Wn)) in Lb. destruct La as [Ia Pa], Lb as [Ib Pb].
      destruct (check_data_type a b s) as [[t s1]|] eqn:C; [|discriminate]. cbn in A. specialize (IH s1 s' A Hc' k). cbv zeta in *.
      destruct (check_entries _ _ _ _ _ C) as [Ct Cf]. destruct t.
      * specialize (Ct eq_refl). assert (E1 : forall k, in_map k (n2o s1) || in_map k (o2n s1) = in_map k (n2o s) || in_map k (o2n s)).
        { intros k'. destruct (Ct k') as [X1 X2]. unfold in_map. unfold entry in X1, X2. rewrite X1, X2. reflexivity. }
        rewrite E1 in IH. destruct (Ct k) as [X1 X2]. rewrite X1, X2 in IH. destruct (in_map k (n2o s) || in_map k (o2n s)); [exact IH|].
        destruct IH as [[H1 [H2 H3]]|[H1 H2]]; [left; split; [right; exact H1|split; [exact H2|exact H3]]|right]. split; [|exact H2].
        intros [[->|H3] H4]; [|apply H1; auto]. destruct H4 as [a' [b' [Q1 [Q2 [Q3 [Q4 Q5]]]]]]. apply Q5.
        assert (a' = a). { assert (L1 : alookup k (by_path old) = Some a') by (apply by_path_lookup; [apply Wo|auto]).
                           assert (L2 : alookup k (by_path old) = Some a) by (apply by_path_lookup; [apply Wo|auto]). congruence. }
        assert (b' = b). { assert (L1 : alookup k (by_path new) = Some b') by (apply by_path_lookup; [apply Wn|auto]).
                           assert (L2 : alookup k (by_path new) = Some b) by (apply by_path_lookup; [apply Wn|auto]). congruence. }
        subst a' b'. exact (check_true_supported _ _ _ _ C).
      * specialize (Cf eq_refl). destruct (Cf k) as [X1 X2]. rewrite Pb in X1. rewrite Pa in X2. destruct (str_eqb k c) eqn:Ekc.
        -- apply str_eqb_eq in Ekc. rewrite <- Ekc in Em, Pa, Pb. rewrite Em. left. split; [left; symmetry; exact Ekc|].
           assert (E1 : in_map k (n2o s1) || in_map k (o2n s1) = true) by (unfold in_map; unfold entry in X1; rewrite X1; reflexivity).
           rewrite E1 in IH. rewrite X1, X2 in IH. split; [|exact IH]. exists a, b. repeat split; auto.
           intros S. assert (X := check_supported _ _ _ _ _ S C). discriminate.
        -- assert (E1 : in_map k (n2o s1) || in_map k (o2n s1) = in_map k (n2o s) || in_map k (o2n s)).
           { unfold in_map. unfold entry in X1, X2. rewrite X1, X2. reflexivity. }
           rewrite E1, X1, X2 in IH. destruct (in_map k (n2o s) || in_map k (o2n s)); [exact IH|].
           apply str_eqb_neq in Ekc.
           destruct IH as [[H1 [H2 H3]]|[H1 H2]]; [left; split; [right; exact H1|split; [exact H2|exact H3]]|right]. split; [|exact H2].
           intros [[->|H3] H4]; [congruence|]. apply H1. auto.
Qed.

(** * Missing paths *)
Lemma mem_In : forall x l, mem x l = true <-> In x l.
Proof. intros x l. unfold mem. rewrite existsb_exists. split; [intros [y [H1 H2]]; apply str_eqb_eq in H2; subst; exact H1|]. intros H. exists x. split; [exact H|apply str_eqb_refl]. Qed.

Lemma prefix_leb : forall p r, str_leb p (p ++ r) = true.
Proof. induction p as [|c p IH]; intros r; [reflexivity|]. cbn. rewrite Ascii.eqb_refl. apply IH. Qed.

Lemma sort_paths_In : forall l p, In p (sort_paths l) <-> In p l.
Proof.
  intros l p. unfold sort_paths. rewrite in_map_iff. split.
  - intros [[q []] [<- H]]. apply (proj1 (in_isort _ _)) in H. apply in_map_iff in H. destruct H as [r [E H]]. inversion E; subst. exact H.
  - intros H. exists (p, tt). split; [reflexivity|]. apply in_isort. apply in_map_iff. exists p. auto.
Qed.
Inductive ssorted : list str -> Prop :=
  | ss_nil : ssorted []
  | ss_cons : forall p l, (forall q, In q l -> str_leb p q = true) -> ssorted l -> ssorted (p :: l).
Lemma sort_paths_sorted : forall l, ssorted (sort_paths l).
Proof.
  intros l. unfold sort_paths. assert (S := isort_sorted (map (fun p => (p, tt)) l)). induction S as [|x r H S IH]; cbn; constructor; [|exact IH].
  intros q Hq. apply in_map_iff in Hq. destruct Hq as [y [<- Hy]]. exact (H y Hy).
Qed.

(** [W]: paths that may be skipped *)
Lemma skip_loop_spec : forall R ps sk, ssorted ps ->
  (forall p q, In p ps -> In q sk -> str_leb q p = true) ->
  forall p, In p (skip_loop R ps sk) <->
    In p sk \/ (In p ps /\ ~ In p R /\ forall q, inside p q -> ~ In q sk /\ ~ (In q ps /\ ~ In q R /\ (forall q', inside q q' -> ~ In q' sk))).
Proof.
  intros R. induction ps as [|c ps IH]; intros sk S L p; cbn [skip_loop].
  - split; [auto|]. intros [H|[[] _]]. exact H.
  - assert (S1 : forall q, In q ps -> str_leb c q = true) by (inversion S; subst; assumption). assert (S2 : ssorted ps) by (inversion S; assumption).
    assert (Lp : forall p q, In p ps -> In q sk -> str_leb q p = true) by (intros p' q' H1 H2; apply L; [right; exact H1|exact H2]).
    (* nothing later is an ancestor of [c] *)
    assert (Anc : forall q, inside c q -> ~ In q (c :: ps)).
    { intros q Hq [<-|H]; [apply inside_length in Hq; lia|]. assert (A := S1 _ H). assert (Hl := inside_length _ _ Hq). destruct Hq as [r E].
      assert (B : str_leb q c = true) by (rewrite E; apply prefix_leb). rewrite (str_leb_antisym _ _ A B) in Hl. lia. }
    destruct (mem c R) eqn:Mc.
    + apply mem_In in Mc. rewrite (IH sk S2 Lp p). split.
      * intros [H|[H1 [H2 H3]]]; [left; exact H|right]. split; [right; exact H1|]. split; [exact H2|]. intros q Hq. destruct (H3 q Hq) as [H4 H5]. split; [exact H4|].
        intros [[<-|K1] [K2 K3]]; [contradiction|]. apply H5. auto.
      * intros [H|[[<-|H1] [H2 H3]]]; [left; exact H|contradiction|right]. split; [exact H1|]. split; [exact H2|]. intros q Hq. destruct (H3 q Hq) as [H4 H5].
        split; [exact H4|]. intros [K1 K2]. apply H5. split; [right; exact K1|exact K2].
    + assert (Nc : ~ In c R) by (rewrite <- mem_In; congruence).
      destruct (existsb (fun q => mem q sk) (iter_parents c)) eqn:Ex.
      * apply existsb_exists in Ex. destruct Ex as [q0 [Q1 Q2]]. apply iter_parents_spec in Q1. apply mem_In in Q2. rewrite (IH sk S2 Lp p). split.
        -- intros [H|[H1 [H2 H3]]]; [left; exact H|right]. split; [right; exact H1|]. split; [exact H2|]. intros q Hq. destruct (H3 q Hq) as [H4 H5]. split; [exact H4|].
           intros [[<-|K1] [K2 K3]]; [exact (K3 _ Q1 Q2)|]. apply H5. auto.
        -- intros [H|[[<-|H1] [H2 H3]]]; [left; exact H|exfalso; exact (proj1 (H3 _ Q1) Q2)|right]. split; [exact H1|]. split; [exact H2|]. intros q Hq. destruct (H3 q Hq) as [H4 H5].
           split; [exact H4|]. intros [K1 K2]. apply H5. split; [right; exact K1|exact K2].
      * assert (No : forall q, inside c q -> ~ In q sk).
        { intros q Hq Hs. assert (existsb (fun q => mem q sk) (iter_parents c) = true); [|congruence]. apply existsb_exists. exists q.
          split; [apply iter_parents_spec; exact Hq|apply mem_In; exact Hs]. }
        assert (Lc : forall p q, In p ps -> In q (c :: sk) -> str_leb q p = true).
        { intros p' q' H1 [<-|H2]; [apply S1; exact H1|]. apply L; [right; exact H1|exact H2]. }
        rewrite (IH (c :: sk) S2 Lc p). split.
        -- intros [[<-|H]|[H1 [H2 H3]]]; [right|left; exact H|right].
           ++ split; [left; reflexivity|]. split; [exact Nc|]. intros q Hq. split; [exact (No q Hq)|]. intros [K _]. exact (Anc q Hq K).
           ++ split; [right; exact H1|]. split; [exact H2|]. intros q Hq. destruct (H3 q Hq) as [H4 H5]. split; [intros K; apply H4; right; exact K|].
              intros [[<-|K1] [K2 K3]]; [apply H4; left; reflexivity|]. apply H5. split; [exact K1|]. split; [exact K2|]. intros q' Hq' [<-|K4]; [|exact (K3 q' Hq' K4)].
              (* c is an ancestor of q and hence of p *) apply (proj1 (H3 c (inside_trans _ _ _ Hq Hq'))). left. reflexivity.
        -- intros [H|[[<-|H1] [H2 H3]]]; [left; right; exact H|left; left; reflexivity|]. right. split; [exact H1|]. split; [exact H2|]. intros q Hq. destruct (H3 q Hq) as [H4 H5].
           split.
           ++ intros [<-|K]; [|exact (H4 K)]. apply H5. split; [left; reflexivity|]. split; [exact Nc|exact No].
           ++ intros [K1 [K2 K3]]. apply H5. split; [right; exact K1|]. split; [exact K2|]. intros q' Hq' K4. apply (K3 q' Hq'). right. exact K4.
Qed.

Lemma skip_loop_top : forall R ps, ssorted ps -> forall p, In p (skip_loop R ps []) <->
  In p ps /\ ~ In p R /\ forall q, inside p q -> ~ (In q ps /\ ~ In q R).
Proof.
  intros R ps S p. rewrite (skip_loop_spec R ps [] S ltac:(intros ? ? ? []) p). split.
  - intros [[]|[H1 [H2 H3]]]. split; [exact H1|]. split; [exact H2|]. intros q Hq [K1 K2]. apply (proj2 (H3 q Hq)). split; [exact K1|]. split; [exact K2|]. intros ? ? [].
  - intros [H1 [H2 H3]]. right. split; [exact H1|]. split; [exact H2|]. intros q Hq. split; [intros []|]. intros [K1 [K2 _]]. exact (H3 q Hq (conj K1 K2)).
Qed.

Lemma fold_set_path : forall l m k, entry (fold_left (fun m p => set_path p None m) l m) k = if mem k l then Some None else entry m k.
Proof.
  induction l as [|p l IH]; intros m k; cbn [fold_left]; [reflexivity|]. rewrite IH. unfold entry, set_path, mem. cbn. rewrite alookup_aset.
  destruct (str_eqb k p); cbn; [destruct (existsb (str_eqb k) l); reflexivity|reflexivity].
Qed.

(** ids_convert.py:464-484 in general: which paths are recorded, for all maps and all missing paths *)
Lemma map_missing_entries : forall missing m k,
  (entry (map_missing missing m) k = Some None /\ In k missing /\ (forall q, In q (akeys (m_path m)) -> ~ inside q k)
     /\ (forall a, inside k a -> ~ (In a missing /\ forall q, In q (akeys (m_path m)) -> ~ inside q a)))
  \/ (entry (map_missing missing m) k = entry m k
      /\ ~ (In k missing /\ (forall q, In q (akeys (m_path m)) -> ~ inside q k)
            /\ (forall a, inside k a -> ~ (In a missing /\ forall q, In q (akeys (m_path m)) -> ~ inside q a)))).
Proof.
  intros missing m k. unfold map_missing. rewrite fold_set_path. set (sk := skip_loop (parents_of_keys m) (sort_paths missing) []).
  assert (R : forall a, ~ In a (parents_of_keys m) <-> forall q, In q (akeys (m_path m)) -> ~ inside q a).
  { intros a. unfold parents_of_keys. rewrite in_flat_map. split.
    - intros H q Hq Hi. apply H. exists q. split; [exact Hq|apply iter_parents_spec; exact Hi].
    - intros H [q [Hq Hi]]. apply iter_parents_spec in Hi. exact (H q Hq Hi). }
  assert (T := skip_loop_top (parents_of_keys m) (sort_paths missing) (sort_paths_sorted missing) k). fold sk in T. rewrite sort_paths_In, R in T.
  assert (T' : In k sk <-> In k missing /\ (forall q, In q (akeys (m_path m)) -> ~ inside q k)
     /\ (forall a, inside k a -> ~ (In a missing /\ forall q, In q (akeys (m_path m)) -> ~ inside q a))).
  { rewrite T. split; intros [H1 [H2 H3]]; (split; [exact H1|]); (split; [exact H2|]); intros a Ha [K1 K2]; apply (H3 a Ha).
    - split; [apply sort_paths_In; exact K1|apply R; exact K2].
    - split; [apply sort_paths_In; exact K1|apply R; exact K2]. }
  destruct (mem k sk) eqn:E.
  - apply mem_In in E. left. split; [reflexivity|]. apply T'. exact E.
  - right. split; [reflexivity|]. rewrite <- T', <- mem_In. congruence.
Qed.

(** * The complete map *)
Section Build.
Variables (old new : fields) (v : Z).
Hypotheses (Wo : wf_fields old) (Wn : wf_fields new).
Hypotheses (Hplain : plain_names new v) (Hreuse : no_reuse old new v) (Hsib : no_sibling old new v)
  (Hone : one_successor old new v) (Hsup : supported_renames old new v).
Local Notation mvd := (moved old new v).

Definition old_moved (p : str) : Prop := exists q, mvd p q.
Definition new_moved (q : str) : Prop := exists p, mvd p q.
(** a common path, not moved, with types that cannot be converted *)
Definition retyped (k : str) : Prop := bad_type old new k /\ ~ old_moved k /\ ~ new_moved k.

Lemma parent_common : forall f k a, wf_fields f -> exists_in f k -> inside k a -> exists_in f a.
Proof.
  intros f k a W [e [H1 H2]] Hi. apply in_split in H1. destruct H1 as [l1 [l2 E]]. destruct (wf_parents _ W l1 e l2 E a) as [e' [P1 [P2 _]]]; [rewrite H2; exact Hi|].
  exists e'. split; [rewrite E; apply in_or_app; left; exact P1|exact P2].
Qed.

(** The general shape for one of the two maps. *)
Lemma missing_exact : forall here there (rn : str -> Prop) m m', wf_fields here -> wf_fields there ->
  (forall k, In k (akeys (m_path m)) <-> rn k \/ (In k (akeys (m_path m)) /\ exists_in there k)) ->
  (forall k, rn k -> exists_in here k) ->
  m' = map_missing (missing_paths (by_path here) (by_path there) m) m -> forall k,
  (lost_top here there rn k /\ entry m' k = Some None) \/ (~ lost_top here there rn k /\ entry m' k = entry m k).
Proof.
  intros here there rn m m' Wh Wt Hk Hr -> k.
  assert (Miss : forall a, In a (missing_paths (by_path here) (by_path there) m) <-> exists_in here a /\ ~ exists_in there a /\ ~ rn a).
  { intros a. unfold missing_paths. rewrite filter_In, by_path_keys, andb_true_iff, !negb_true_iff, has_not_exists. split.
    - intros [H1 [H2 H3]]. split; [exact H1|]. split; [exact H2|]. intros Hrn. assert (In a (akeys (m_path m))) by (apply Hk; left; exact Hrn).
      apply in_map_In in H. congruence.
    - intros [H1 [H2 H3]]. split; [exact H1|]. split; [exact H2|]. destruct (in_map a m) eqn:E; [|reflexivity]. exfalso. apply in_map_In in E. apply Hk in E.
      destruct E as [E|[_ E]]; contradiction. }
  assert (Lost : forall a, (In a (missing_paths (by_path here) (by_path there) m) /\ forall q, In q (akeys (m_path m)) -> ~ inside q a) <-> lost here there rn a).
  { intros a. rewrite Miss. unfold lost. split.
    - intros [[H1 [H2 H3]] H4]. repeat split; try assumption. intros q Hq Hrn. apply (H4 q); [|exact Hq]. apply Hk. left. exact Hrn.
    - intros [H1 [H2 [H3 H4]]]. repeat split; try assumption. intros q Hq Hi. apply Hk in Hq. destruct Hq as [Hq|[_ Hq]]; [exact (H4 q Hi Hq)|].
      apply H2. exact (parent_common there q a Wt Hq Hi). }
  destruct (map_missing_entries (missing_paths (by_path here) (by_path there) m) m k) as [[H1 [H2 [H3 H4]]]|[H1 H2]].
  - left. split; [|exact H1]. split; [apply Lost; auto|]. intros q Hq L. apply Lost in L. exact (H4 q Hq L).
  - right. split; [|exact H1]. intros [L1 L2]. apply H2. apply Lost in L1. destruct L1 as [L3 L4]. split; [exact L3|]. split; [exact L4|]. intros a Ha L. apply Lost in L. exact (L2 a Ha L).
Qed.

Theorem build_exact : forall order s, (forall l, Permutation (order l) l) -> build_map order old new v = Ok s ->
  (forall q x, entry (n2o s) q = Some x <->
     (exists p, x = Some p /\ mvd p q) \/ (x = None /\ (retyped q \/ lost_top new old new_moved q)))
  /\ (forall p x, entry (o2n s) p = Some x <->
     (exists q, x = Some q /\ mvd p q) \/ (x = None /\ (retyped p \/ lost_top old new old_moved p))).
Proof.
  intros order s Ord H. unfold build_map in H.
  destruct (nbc_loop (by_path old) (by_path new) v new {| o2n := empty_map; n2o := empty_map |}) as [s1|] eqn:L; [|discriminate]. cbn in H.
  destruct (loop_exact old new v Wo Wn Hplain Hreuse Hsib Hone Hsup s1 L) as [X1 X2].
  set (cs := order (filter (fun p => has p (by_path new)) (akeys (by_path old)))) in *.
  assert (Cs : forall k, In k cs <-> exists_in old k /\ exists_in new k).
  { intros k. unfold cs. split.
    - intros K. apply (Permutation_in _ (Ord _)) in K. apply filter_In in K. rewrite by_path_keys, has_exists in K. exact K.
    - intros K. apply (Permutation_in _ (Permutation_sym (Ord _))). apply filter_In. rewrite by_path_keys, has_exists. exact K. }
  destruct (common_loop (by_path old) (by_path new) cs s1) as [s2|] eqn:C; [|discriminate]. cbn in H.
  assert (Y := common_entries old new Wo Wn cs s1 s2 C (fun k => proj1 (Cs k))).
  (* entries after the loop over the common paths *)
  assert (E1 : forall k, in_map k (n2o s1) = true <-> new_moved k).
  { intros k. unfold in_map. change (alookup k (m_path (n2o s1))) with (entry (n2o s1) k). destruct (entry (n2o s1) k) as [x|] eqn:E.
    - split; [|reflexivity]. intros _. apply X1 in E. destruct E as [p [_ M]]. exists p. exact M.
    - split; [discriminate|]. intros [p M]. assert (entry (n2o s1) k = Some (Some p)) by (apply X1; exists p; auto). congruence. }
  assert (E2 : forall k, in_map k (o2n s1) = true <-> old_moved k).
  { intros k. unfold in_map. change (alookup k (m_path (o2n s1))) with (entry (o2n s1) k). destruct (entry (o2n s1) k) as [x|] eqn:E.
    - split; [|reflexivity]. intros _. apply X2 in E. destruct E as [p [_ M]]. exists p. exact M.
    - split; [discriminate|]. intros [p M]. assert (entry (o2n s1) k = Some (Some p)) by (apply X2; exists p; auto). congruence. }
  assert (Bc : forall k, bad_type old new k -> In k cs).
  { intros k [a [b [Q1 [Q2 [Q3 [Q4 _]]]]]]. apply Cs. split; [exists a|exists b]; auto. }
  assert (Z : forall k, (retyped k /\ entry (n2o s2) k = Some None /\ entry (o2n s2) k = Some None)
                     \/ (~ retyped k /\ entry (n2o s2) k = entry (n2o s1) k /\ entry (o2n s2) k = entry (o2n s1) k)).
  { intros k. specialize (Y k). cbv zeta in Y. destruct (in_map k (n2o s1) || in_map k (o2n s1)) eqn:E.
    - right. split; [|exact Y]. intros [_ [N1 N2]]. apply orb_true_iff in E. rewrite E1, E2 in E. tauto.
    - apply orb_false_iff in E. destruct E as [F1 F2]. assert (N1 : ~ new_moved k) by (rewrite <- E1; congruence). assert (N2 : ~ old_moved k) by (rewrite <- E2; congruence).
      destruct Y as [[Y1 [Y2 Y3]]|[Y1 Y2]]; [left; split; [split; auto|exact Y3]|right]. split; [|exact Y2]. intros [B _]. apply Y1. split; [apply Bc; exact B|exact B]. }
  assert (Ret : forall k, retyped k -> exists_in old k /\ exists_in new k) by (intros k [B _]; apply Cs, Bc, B).
  assert (N2 : forall q x, entry (n2o s2) q = Some x <-> (exists p, x = Some p /\ mvd p q) \/ (x = None /\ retyped q)).
  { intros q x. destruct (Z q) as [[R [F1 _]]|[R [F1 _]]]; rewrite F1.
    - split; [intros E; inversion E; auto|]. intros [[p [-> M]]|[-> _]]; [|reflexivity]. exfalso. destruct R as [_ [_ R]]. apply R. exists p. exact M.
    - rewrite X1. split; [auto|]. intros [K|[_ K]]; [exact K|contradiction]. }
  assert (O2 : forall p x, entry (o2n s2) p = Some x <-> (exists q, x = Some q /\ mvd p q) \/ (x = None /\ retyped p)).
  { intros p x. destruct (Z p) as [[R [_ F1]]|[R [_ F1]]]; rewrite F1.
    - split; [intros E; inversion E; auto|]. intros [[q [-> M]]|[-> _]]; [|reflexivity]. exfalso. destruct R as [_ [R _]]. apply R. exists q. exact M.
    - rewrite X2. split; [auto|]. intros [K|[_ K]]; [exact K|contradiction]. }
  assert (Kn : forall k, In k (akeys (m_path (n2o s2))) <-> new_moved k \/ retyped k).
  { intros k. rewrite <- in_map_In. unfold in_map. change (alookup k (m_path (n2o s2))) with (entry (n2o s2) k). destruct (entry (n2o s2) k) as [x|] eqn:E.
    - split; [|reflexivity]. intros _. apply N2 in E. destruct E as [[p [_ M]]|[_ R]]; [left; exists p; exact M|right; exact R].
    - split; [discriminate|]. intros [[p M]|R].
      + assert (entry (n2o s2) k = Some (Some p)) by (apply N2; left; exists p; auto). congruence.
      + assert (entry (n2o s2) k = Some None) by (apply N2; right; auto). congruence. }
  assert (Ko : forall k, In k (akeys (m_path (o2n s2))) <-> old_moved k \/ retyped k).
  { intros k. rewrite <- in_map_In. unfold in_map. change (alookup k (m_path (o2n s2))) with (entry (o2n s2) k). destruct (entry (o2n s2) k) as [x|] eqn:E.
    - split; [|reflexivity]. intros _. apply O2 in E. destruct E as [[p [_ M]]|[_ R]]; [left; exists p; exact M|right; exact R].
    - split; [discriminate|]. intros [[p M]|R].
      + assert (entry (o2n s2) k = Some (Some p)) by (apply O2; left; exists p; auto). congruence.
      + assert (entry (o2n s2) k = Some None) by (apply O2; right; auto). congruence. }
  cbn in H. inversion H as [Hs]. clear H. cbn.
  assert (Mn : forall k, new_moved k -> exists_in new k) by (intros k [p M]; apply M).
  assert (Mo : forall k, old_moved k -> exists_in old k) by (intros k [p M]; apply M).
  split.
  - intros q x. assert (T := missing_exact new old new_moved (n2o s2) _ Wn Wo
      ltac:(intros k; rewrite Kn; split; [intros [K|K]; [left; exact K|right; split; [right; exact K|apply Ret; exact K]]|intros [K|[K _]]; [left; exact K|exact K]]) Mn eq_refl q).
    destruct T as [[T1 T2]|[T1 T2]]; rewrite T2.
    + split; [intros E; inversion E; auto|]. intros [[p [-> M]]|[-> _]]; [|reflexivity]. exfalso. destruct T1 as [[_ [_ [T1 _]]] _]. apply T1. exists p. exact M.
    + rewrite N2. split; [intros [K|[K1 K2]]; auto|]. intros [K|[K1 [K2|K2]]]; [auto|auto|contradiction].
  - intros p x. assert (T := missing_exact old new old_moved (o2n s2) _ Wo Wn
      ltac:(intros k; rewrite Ko; split; [intros [K|K]; [left; exact K|right; split; [right; exact K|apply Ret; exact K]]|intros [K|[K _]]; [left; exact K|exact K]]) Mo eq_refl p).
    destruct T as [[T1 T2]|[T1 T2]]; rewrite T2.
    + split; [intros E; inversion E; auto|]. intros [[q [-> M]]|[-> _]]; [|reflexivity]. exfalso. destruct T1 as [[_ [_ [T1 _]]] _]. apply T1. exists q. exact M.
    + rewrite O2. split; [intros [K|[K1 K2]]; auto|]. intros [K|[K1 [K2|K2]]]; [auto|auto|contradiction].
Qed.
End Build.
