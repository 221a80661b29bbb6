(** C20-C23: the map between two versions of the data dictionary. *)
From Verif Require Import Base DataTypeModel HashModel ValModel VmapModel VmapSpec VmapProofs VmapProofs2 VmapProofs3 VmapProofs4.
From Coq Require Import Permutation.

(** [order]: the unspecified order in which Python enumerates a set. *)
Definition any_order (order : list str -> list str) : Prop := forall l, Permutation (order l) l.

(** * C20 *)

(** Well-formed definitions give a map, whatever the renames. *)
Theorem C20_no_exception : forall order old new v, any_order order -> wf_fields old -> wf_fields new ->
  (forall e, In e old -> good_elem e) -> (forall e, In e new -> good_elem e) -> (forall e n, In e new -> e_nbc e = Some n -> n_versions n <> Versions []) ->
  exists s, build_map order old new v = Ok s.
Proof. intros order old new v Ord Wo Wn Go Gn Gv. exact (build_ok old new v Wo Wn Go Gn Gv order Ord). Qed.
Print Assumptions C20_no_exception.

Lemma exact_of : forall order old new v s, any_order order -> conditions old new v -> build_map order old new v = Ok s ->
  (forall q x, alookup q (m_path (n2o s)) = Some x <->
     (exists p, x = Some p /\ moved old new v p q) \/ (x = None /\ (retyped old new v q \/ lost_top new old (new_moved old new v) q)))
  /\ (forall p x, alookup p (m_path (o2n s)) = Some x <->
     (exists q, x = Some q /\ moved old new v p q) \/ (x = None /\ (retyped old new v p \/ lost_top old new (old_moved old new v) p))).
Proof. intros order old new v s Ord [Wo [Wn [H1 [H2 [H3 [H4 [H5 _]]]]]]] B. exact (build_exact old new v Wo Wn H1 H2 H3 H4 H5 order s Ord B). Qed.

(** The map contains exactly the quantities whose path changed, in both directions. *)
Theorem C20_renames_exact : forall order old new v s, any_order order -> conditions old new v -> build_map order old new v = Ok s -> forall p q,
  (alookup p (m_path (o2n s)) = Some (Some q) <-> moved old new v p q) /\ (alookup q (m_path (n2o s)) = Some (Some p) <-> moved old new v p q).
Proof.
  intros order old new v s Ord C B p q. destruct (exact_of _ _ _ _ _ Ord C B) as [X1 X2]. split; [rewrite X2|rewrite X1]; (split; [|intros M; left; eexists; eauto]);
    intros [[x [E M]]|[E _]]; try discriminate; inversion E; subst; exact M.
Qed.
Print Assumptions C20_renames_exact.

Theorem C20_reciprocal : forall order old new v s, any_order order -> conditions old new v -> build_map order old new v = Ok s ->
  forall p q, alookup p (m_path (o2n s)) = Some (Some q) <-> alookup q (m_path (n2o s)) = Some (Some p).
Proof. intros order old new v s Ord C B p q. destruct (C20_renames_exact _ _ _ _ _ Ord C B p q) as [X1 X2]. rewrite X1, X2. reflexivity. Qed.
Print Assumptions C20_reciprocal.

(** Following the map forward and backward, or backward and forward, is the identity. *)
Theorem C20_round_trip : forall order old new v s, any_order order -> conditions old new v -> build_map order old new v = Ok s ->
  forall p q, exists_in old p -> exists_in new q -> (target_path (o2n s) p = Some q <-> target_path (n2o s) q = Some p).
Proof.
  intros order old new v s Ord C B p q Hp Hq. destruct (exact_of _ _ _ _ _ Ord C B) as [X1 X2].
  destruct (C20_renames_exact _ _ _ _ _ Ord C B p q) as [R1 R2]. destruct C as [Wo [Wn [H1 [H2 [H3 [H4 [H5 [Cap1 Cap2]]]]]]]]. unfold target_path. split.
  - destruct (alookup p (m_path (o2n s))) as [x|] eqn:E.
    + intros ->. rewrite (proj2 R2 (proj1 R1 eq_refl)). reflexivity.
    + intros K. inversion K; subst q. destruct (alookup p (m_path (n2o s))) as [x|] eqn:E'; [|reflexivity]. exfalso. apply X1 in E'. destruct E' as [[p' [-> M]]|[-> [R|L]]].
      * destruct (Cap1 _ _ M Hp) as [q' M']. assert (alookup p (m_path (o2n s)) = Some (Some q')) by (apply X2; left; exists q'; auto). congruence.
      * assert (alookup p (m_path (o2n s)) = Some None) by (apply X2; right; auto). congruence.
      * destruct L as [[_ [L _]] _]. contradiction.
  - destruct (alookup q (m_path (n2o s))) as [x|] eqn:E.
    + intros ->. rewrite (proj2 R1 (proj1 R2 eq_refl)). reflexivity.
    + intros K. inversion K; subst q. destruct (alookup p (m_path (o2n s))) as [x|] eqn:E'; [|reflexivity]. exfalso. apply X2 in E'. destruct E' as [[p' [-> M]]|[-> [R|L]]].
      * destruct (Cap2 _ _ M Hq) as [q' M']. assert (alookup p (m_path (n2o s)) = Some (Some q')) by (apply X1; left; exists q'; auto). congruence.
      * assert (alookup p (m_path (n2o s)) = Some None) by (apply X1; right; auto). congruence.
      * destruct L as [[_ [L _]] _]. contradiction.
Qed.
Print Assumptions C20_round_trip.

(** ** Concrete versions *)
Definition el (p t : string) : elem := {| e_path := p; e_type := Some (strs t); e_ident := false; e_dynamic := false; e_tbp := []; e_psi := false; e_nbc := None |}.
Definition ren (p t d prev : string) : elem :=
  {| e_path := p; e_type := Some (strs t); e_ident := false; e_dynamic := false; e_tbp := []; e_psi := false;
     e_nbc := Some {| n_desc := d; n_versions := Versions [10%Z]; n_prev := Some [strs prev] |} |}.
Definition same_order (l : list str) : list str := l.
Lemma same_order_any : any_order same_order.
Proof. intros l. apply Permutation_refl. Qed.

Definition ex_old : fields := [el "a" "structure"; el "a/x" "FLT_0D"; el "a/y" "FLT_0D"; el "a/s" "struct_array"; el "a/s/u" "INT_0D"; el "b" "FLT_1D";
  el "gone" "structure"; el "gone/z" "INT_0D"; el "k" "FLT_3D"].
Definition ex_new : fields := [ren "c" "structure" "structure_renamed" "a"; el "c/x" "FLT_0D"; ren "c/w" "FLT_0D" "leaf_renamed" "y"; el "c/s" "struct_array";
  el "c/s/u" "INT_0D"; el "b" "FLT_1D"; el "extra" "structure"; el "extra/z" "INT_0D"; el "k" "STR_0D"].
Example C20_example_conditions : conditions ex_old ex_new 5.
Proof. apply pair_b_sound. vm_compute. reflexivity. Qed.
Example C20_example_map : exists s, build_map same_order ex_old ex_new 5 = Ok s
  /\ map (fun p => target_path (o2n s) (strs p)) ["a"; "a/x"; "a/y"; "a/s/u"; "b"; "gone"; "k"]%string
     = [Some (strs "c"); Some (strs "c/x"); Some (strs "c/w"); Some (strs "c/s/u"); Some (strs "b"); None; None].
Proof. vm_compute. eexists. split; reflexivity. Qed.
Example C20_example_good : (forall e, In e ex_old -> good_elem e) /\ (forall e, In e ex_new -> good_elem e).
Proof.
  assert (N : forall p t, (exists ty, dt_parse (Some (strs t)) = Ok ty) -> good_elem (el p t)).
  { intros p t [ty H]. split; [exists (strs t), ty; auto|]. intros n E. discriminate. }
  assert (R : forall p t d prev, (exists ty, dt_parse (Some (strs t)) = Ok ty) -> good_elem (ren p t d prev)).
  { intros p t d prev [ty H]. split; [exists (strs t), ty; auto|]. intros n E. inversion E; subst. right. exists [10%Z]. split; [reflexivity|]. split; [reflexivity|].
    intros _. exists [strs prev]. split; reflexivity. }
  split; intros e H; cbn in H; repeat (destruct H as [<-|H]; [first [apply N|apply R]; eexists; reflexivity|]); destruct H.
Qed.

(** Findings.  A name is given to another quantity inside a renamed structure: two new quantities are said to come from one old one, and
    only one of them is the target of the old one. *)
Definition reuse_old : fields := [el "a" "structure"; el "a/x" "FLT_0D"].
Definition reuse_new : fields := [ren "c" "structure" "structure_renamed" "a"; el "c/x" "FLT_0D"; ren "c/y" "FLT_0D" "leaf_renamed" "x"].
Theorem C20_reuse_refuted : exists old new v s p q, wf_fields old /\ wf_fields new /\ build_map same_order old new v = Ok s
  /\ alookup q (m_path (n2o s)) = Some (Some p) /\ alookup p (m_path (o2n s)) <> Some (Some q).
Proof.
  exists reuse_old, reuse_new, 5%Z. eexists. exists (strs "a/x"), (strs "c/x"). split; [apply wf_b_sound; vm_compute; reflexivity|]. split; [apply wf_b_sound; vm_compute; reflexivity|].
  vm_compute. split; [reflexivity|]. split; [reflexivity|]. intros H. discriminate.
Qed.
Print Assumptions C20_reuse_refuted.

(** The rule for ids_properties/source (DD 3 to 4) has no counterpart. *)
Definition source_old : fields := [el "ids_properties" "structure"; el "ids_properties/source" "STR_0D"; el "ids_properties/provenance" "structure"].
Definition source_new : fields := [el "ids_properties" "structure"; el "ids_properties/provenance" "structure"].
Theorem C20_source_refuted : exists old new v s p q, wf_fields old /\ wf_fields new /\ version_map same_order (strs "magnetics") old new v true [] None = Ok s
  /\ alookup p (m_path (o2n s)) = Some (Some q) /\ target_path (n2o s) q <> Some p.
Proof.
  exists source_old, source_new, 5%Z. eexists. exists (strs "ids_properties/source"), (strs "ids_properties/provenance"). split; [apply wf_b_sound; vm_compute; reflexivity|].
  split; [apply wf_b_sound; vm_compute; reflexivity|]. vm_compute. split; [reflexivity|]. split; [reflexivity|]. intros H. discriminate.
Qed.
Print Assumptions C20_source_refuted.

(** * C21 *)

(** A renamed path lies at or inside a quantity that was itself renamed, at the same place. *)
Theorem C21_only_below : forall order old new v s, any_order order -> conditions old new v -> build_map order old new v = Ok s ->
  forall p q, alookup p (m_path (o2n s)) = Some (Some q) ->
  exists p1 q1 prev, rule new v q1 prev /\ exists_in old p1 /\ origin old new v q1 p1 true
    /\ ((p = p1 /\ q = q1) \/ exists r, p = p1 ++ slash :: r /\ q = q1 ++ slash :: r).
Proof.
  intros order old new v s Ord C B p q H. apply (C20_renames_exact _ _ _ _ _ Ord C B) in H. destruct H as [_ [_ O]].
  destruct (origin_closest _ _ _ _ _ O) as [q1 [p1 [D H]]]. destruct (direct_moved _ _ _ _ _ D) as [D1 [D2 D3]]. destruct D as [prev [R _]].
  exists p1, q1, prev. split; [exact R|]. split; [exact D1|]. split; [exact D3|]. destruct H as [[-> ->]|[r [-> ->]]]; [left; auto|right; exists r; auto].
Qed.
Print Assumptions C21_only_below.

(** Everything inside a renamed structure that exists under the same name in both versions is renamed along with it. *)
Theorem C21_all_below : forall order old new v s, any_order order -> conditions old new v -> build_map order old new v = Ok s ->
  forall p q, alookup p (m_path (o2n s)) = Some (Some q) -> forall r, exists_in old (p ++ slash :: r) -> exists_in new (q ++ slash :: r) ->
  alookup (p ++ slash :: r) (m_path (o2n s)) = Some (Some (q ++ slash :: r)).
Proof.
  intros order old new v s Ord C B p q H r Ho Hn. apply (C20_renames_exact _ _ _ _ _ Ord C B) in H. apply (C20_renames_exact _ _ _ _ _ Ord C B).
  destruct C as [_ [_ [_ [Hr _]]]]. split; [exact Ho|]. split; [exact Hn|]. exact (Hr _ _ _ H Hn Ho).
Qed.
Print Assumptions C21_all_below.

(** A path whose ancestors and itself were not renamed is left alone: no rename applies to it. *)
Theorem C21_siblings_untouched : forall order old new v s, any_order order -> conditions old new v -> build_map order old new v = Ok s ->
  forall p, exists_in old p -> exists_in new p -> (forall p1, at_or_inside p p1 -> forall q1, alookup p1 (m_path (o2n s)) <> Some (Some q1)) ->
  target_path (o2n s) p = Some p \/ target_path (o2n s) p = None.
Proof.
  intros order old new v s Ord C B p Ho Hn N. unfold target_path. destruct (alookup p (m_path (o2n s))) as [[q|]|] eqn:E; auto.
  exfalso. exact (N p ltac:(left; reflexivity) q E).
Qed.

(** Finding: a sibling that starts with the same characters is renamed as well. *)
Definition sib_old : fields := [el "a" "structure"; el "a/x" "FLT_0D"; el "ab" "FLT_0D"].
Definition sib_new : fields := [ren "c" "structure" "structure_renamed" "a"; el "c/x" "FLT_0D"; el "ab" "FLT_0D"; el "cb" "FLT_0D"].
Theorem C21_sibling_refuted : exists old new v s p q, wf_fields old /\ wf_fields new /\ build_map same_order old new v = Ok s
  /\ exists_in old p /\ exists_in new p /\ (forall q1 prev, rule new v q1 prev -> prev = strs "a") /\ ~ at_or_inside p (strs "a")
  /\ alookup p (m_path (o2n s)) = Some (Some q).
Proof.
  exists sib_old, sib_new, 5%Z. eexists. exists (strs "ab"), (strs "cb"). assert (W : wf_fields sib_new) by (apply wf_b_sound; vm_compute; reflexivity).
  split; [apply wf_b_sound; vm_compute; reflexivity|]. split; [exact W|].
  split; [vm_compute; reflexivity|]. split; [exists (el "ab" "FLT_0D"); cbn; auto 12|]. split; [exists (el "ab" "FLT_0D"); cbn; auto 12|]. split; [|split; [|vm_compute; reflexivity]].
  - intros q1 prev R. assert (E := rule_exists _ _ _ _ R). destruct E as [e [He <-]]. apply (rule_of_iff _ _ W e prev He) in R. cbn in He.
    repeat (destruct He as [<-|He]; [vm_compute in R; inversion R; reflexivity|]). destruct He.
  - intros [H|[r H]]; [discriminate|]. cbn in H. inversion H.
Qed.
Print Assumptions C21_sibling_refuted.

(** * C22 *)
Theorem C22_one_source : forall order old new v s, any_order order -> conditions old new v -> build_map order old new v = Ok s ->
  forall p p' q, exists_in old p -> exists_in old p' -> exists_in new q -> target_path (o2n s) p = Some q -> target_path (o2n s) p' = Some q -> p = p'.
Proof.
  intros order old new v s Ord C B p p' q Hp Hp' Hq E E'. apply (C20_round_trip _ _ _ _ _ Ord C B p q Hp Hq) in E. apply (C20_round_trip _ _ _ _ _ Ord C B p' q Hp' Hq) in E'. congruence.
Qed.
Print Assumptions C22_one_source.
(** Also in the other direction *)
Theorem C22_one_source_back : forall order old new v s, any_order order -> conditions old new v -> build_map order old new v = Ok s ->
  forall p q q', exists_in old p -> exists_in new q -> exists_in new q' -> target_path (n2o s) q = Some p -> target_path (n2o s) q' = Some p -> q = q'.
Proof.
  intros order old new v s Ord C B p q q' Hp Hq Hq' E E'. apply (C20_round_trip _ _ _ _ _ Ord C B p q Hp Hq) in E. apply (C20_round_trip _ _ _ _ _ Ord C B p q' Hp Hq') in E'. congruence.
Qed.
Print Assumptions C22_one_source_back.

(** Findings: a quantity gets the name of another one that the new version gives up without renaming it ... *)
Definition take_old : fields := [el "a" "FLT_0D"; el "b" "FLT_0D"].
Definition take_new : fields := [ren "b" "FLT_0D" "leaf_renamed" "a"].
Theorem C22_taken_name_refuted : exists old new v s p p' q, wf_fields old /\ wf_fields new /\ build_map same_order old new v = Ok s
  /\ p <> p' /\ exists_in old p /\ exists_in old p' /\ exists_in new q /\ target_path (o2n s) p = Some q /\ target_path (o2n s) p' = Some q.
Proof.
  exists take_old, take_new, 5%Z. eexists. exists (strs "a"), (strs "b"), (strs "b"). split; [apply wf_b_sound; vm_compute; reflexivity|]. split; [apply wf_b_sound; vm_compute; reflexivity|].
  split; [vm_compute; reflexivity|]. split; [discriminate|]. split; [exists (el "a" "FLT_0D"); cbn; auto 12|]. split; [exists (el "b" "FLT_0D"); cbn; auto 12|].
  split; [exists (ren "b" "FLT_0D" "leaf_renamed" "a"); cbn; auto 12|]. vm_compute. split; reflexivity.
Qed.
Print Assumptions C22_taken_name_refuted.
(** ... and the rule name -> description, identifier -> name (DD 3 to 4) where the old version has a description too. *)
Definition desc_old : fields := [el "p" "structure"; el "p/name" "STR_0D"; el "p/identifier" "STR_0D"; el "p/description" "STR_0D"].
Definition desc_new : fields := [el "p" "structure"; el "p/name" "STR_0D"; el "p/description" "STR_0D"].
Theorem C22_description_refuted : exists old new v s p p' q, wf_fields old /\ wf_fields new /\ version_map same_order (strs "magnetics") old new v true [] None = Ok s
  /\ p <> p' /\ exists_in old p /\ exists_in old p' /\ exists_in new q /\ target_path (o2n s) p = Some q /\ target_path (o2n s) p' = Some q.
Proof.
  exists desc_old, desc_new, 5%Z. eexists. exists (strs "p/name"), (strs "p/description"), (strs "p/description"). split; [apply wf_b_sound; vm_compute; reflexivity|].
  split; [apply wf_b_sound; vm_compute; reflexivity|]. split; [vm_compute; reflexivity|]. split; [discriminate|]. split; [exists (el "p/name" "STR_0D"); cbn; auto 12|].
  split; [exists (el "p/description" "STR_0D"); cbn; auto 12|]. split; [exists (el "p/description" "STR_0D"); cbn; auto 12|]. vm_compute. split; reflexivity.
Qed.
Print Assumptions C22_description_refuted.

(** * C23 *)

(** For all maps and all sets of missing paths: what [_map_missing] records.  No recorded path lies inside another one, each is missing
    and contains no entry of the map, and every missing path without entry inside it lies at or inside exactly one recorded path. *)
Definition recorded (missing : list str) (m : nmap) (k : str) : Prop := In k missing /\ alookup k (m_path (map_missing missing m)) = Some None.
Definition has_entry_inside (m : nmap) (k : str) : Prop := exists q, In q (akeys (m_path m)) /\ inside q k.
Lemma recorded_iff : forall missing m, (forall k, In k missing -> ~ In k (akeys (m_path m))) -> forall k, recorded missing m k <->
  In k missing /\ ~ has_entry_inside m k /\ (forall a, inside k a -> ~ (In a missing /\ ~ has_entry_inside m a)).
Proof.
  intros missing m D k. assert (N : forall a, ~ has_entry_inside m a <-> forall q, In q (akeys (m_path m)) -> ~ inside q a).
  { intros a. unfold has_entry_inside. split; [intros H q H1 H2; apply H; exists q; auto|intros H [q [H1 H2]]; exact (H q H1 H2)]. }
  unfold recorded. destruct (map_missing_entries missing m k) as [[H1 [H2 [H3 H4]]]|[H1 H2]].
  - split; [|intros _; split; [exact H2|exact H1]]. intros _. split; [exact H2|]. split; [apply N; exact H3|]. intros a Ha [K1 K2]. apply (H4 a Ha). split; [exact K1|apply N; exact K2].
  - split.
    + intros [K1 K2]. exfalso. change (entry (map_missing missing m) k = Some None) in K2. rewrite H1 in K2. exact (D k K1 (entry_In _ _ _ K2)).
    + intros [K1 [K2 K3]]. exfalso. apply H2. split; [exact K1|]. split; [apply N; exact K2|]. intros a Ha [L1 L2]. apply (K3 a Ha). split; [exact L1|apply N; exact L2].
Qed.
Theorem C23_recorded : forall missing m, (forall k, In k missing -> ~ In k (akeys (m_path m))) ->
  (forall k, recorded missing m k -> In k missing /\ ~ has_entry_inside m k)
  /\ (forall k k', recorded missing m k -> recorded missing m k' -> ~ inside k k')
  /\ (forall k, In k missing -> ~ has_entry_inside m k -> exists a, (recorded missing m a /\ at_or_inside k a)
        /\ forall a', recorded missing m a' /\ at_or_inside k a' -> a' = a)
  /\ (forall k, ~ recorded missing m k -> alookup k (m_path (map_missing missing m)) = alookup k (m_path m)).
Proof.
  intros missing m D. assert (R := recorded_iff missing m D).
  assert (N : forall k k', recorded missing m k -> recorded missing m k' -> ~ inside k k').
  { intros k k' H1 H2 Hi. apply R in H1, H2. destruct H1 as [_ [_ H1]]. apply (H1 k' Hi). tauto. }
  split; [intros k H; apply R in H; tauto|]. split; [exact N|]. split.
  - intros k Hk Hn.
    assert (Ex : exists a, recorded missing m a /\ at_or_inside k a).
    { assert (P : forall a, at_or_inside k a -> In a missing -> ~ has_entry_inside m a -> exists a, recorded missing m a /\ at_or_inside k a).
      { intros a. remember (length a) as n eqn:En. revert a En. induction n as [n IH] using (well_founded_induction Wf_nat.lt_wf). intros a En Ha Hm He.
        (* is some ancestor of [a] missing without entry inside? *)
        destruct (existsb (fun b => mem b missing && negb (existsb (fun q => mem b (iter_parents q)) (akeys (m_path m)))) (iter_parents a)) eqn:E.
        - apply existsb_exists in E. destruct E as [b [B1 B2]]. apply iter_parents_spec in B1. apply andb_true_iff in B2. destruct B2 as [B2 B3]. apply mem_In in B2. apply negb_true_iff in B3.
          apply (IH (length b)) with (a := b); [subst n; apply inside_length; exact B1|reflexivity| |exact B2|].
          + right. destruct Ha as [->|Ha]; [exact B1|exact (inside_trans _ _ _ Ha B1)].
          + intros [q [Q1 Q2]]. assert (existsb (fun q => mem b (iter_parents q)) (akeys (m_path m)) = true); [|congruence]. apply existsb_exists. exists q. split; [exact Q1|].
            apply mem_In, iter_parents_spec. exact Q2.
        - exists a. split; [|exact Ha]. apply R. split; [exact Hm|]. split; [exact He|]. intros b Hb [B1 B2].
          assert (existsb (fun b => mem b missing && negb (existsb (fun q => mem b (iter_parents q)) (akeys (m_path m)))) (iter_parents a) = true); [|congruence].
          apply existsb_exists. exists b. split; [apply iter_parents_spec; exact Hb|]. apply andb_true_iff. split; [apply mem_In; exact B1|]. apply negb_true_iff.
          destruct (existsb (fun q => mem b (iter_parents q)) (akeys (m_path m))) eqn:E2; [|reflexivity]. exfalso. apply existsb_exists in E2. destruct E2 as [q [Q1 Q2]].
          apply B2. exists q. split; [exact Q1|]. apply iter_parents_spec, mem_In. exact Q2. }
      exact (P k ltac:(left; reflexivity) Hk Hn). }
    destruct Ex as [a [A1 A2]]. exists a. split; [auto|]. intros a' [A3 A4].
    destruct A2 as [<-|A2], A4 as [A4|A4]; [symmetry; exact A4|exfalso; exact (N _ _ A1 A3 A4)|subst a'; exfalso; exact (N _ _ A3 A1 A2)|].
    destruct A2 as [r E], A4 as [r' E']. rewrite E in E'.
    assert (T : forall (a a' r r' : str), a ++ slash :: r = a' ++ slash :: r' -> a = a' \/ inside a' a \/ inside a a').
    { clear. induction a as [|c a IH]; intros [|c' a'] r r' E; cbn in E; inversion E; subst.
      - left. reflexivity.
      - right. left. exists a'. reflexivity.
      - right. right. exists a. reflexivity.
      - destruct (IH _ _ _ H1) as [->|[[x ->]|[x ->]]]; [left; reflexivity|right; left; exists x; reflexivity|right; right; exists x; reflexivity]. }
    destruct (T _ _ _ _ E') as [->|[K|K]]; [reflexivity|exfalso; exact (N _ _ A3 A1 K)|exfalso; exact (N _ _ A1 A3 K)].
  - intros k Hk. destruct (map_missing_entries missing m k) as [[H1 [H2 _]]|[H1 _]]; [exfalso; apply Hk; split; assumption|exact H1].
Qed.
Print Assumptions C23_recorded.
Example C23_example : let m := set_path (strs "g/h/new") (Some (strs "elsewhere")) empty_map in let missing := map strs ["g"; "g/h"; "g/h/i"; "g/k"; "g/k/l"]%string in
  map (fun p => match alookup (strs p) (m_path (map_missing missing m)) with Some None => true | _ => false end) ["g"; "g/h"; "g/h/i"; "g/k"; "g/k/l"]%string
  = [false; false; true; true; false].
Proof. reflexivity. Qed.

(** In the complete map: the recorded paths are the highest lost ones and the common paths whose type change is not supported. *)
Theorem C23_build_map : forall order old new v s, any_order order -> conditions old new v -> build_map order old new v = Ok s ->
  (forall p, exists_in old p -> ~ exists_in new p -> (alookup p (m_path (o2n s)) = Some None <-> lost_top old new (fun p => exists q, moved old new v p q) p))
  /\ (forall q, exists_in new q -> ~ exists_in old q -> (alookup q (m_path (n2o s)) = Some None <-> lost_top new old (fun q => exists p, moved old new v p q) q))
  /\ (forall p, exists_in old p -> exists_in new p -> (alookup p (m_path (o2n s)) = Some None <-> retyped old new v p) /\ (alookup p (m_path (n2o s)) = Some None <-> retyped old new v p)).
Proof.
  intros order old new v s Ord C B. destruct (exact_of _ _ _ _ _ Ord C B) as [X1 X2]. split; [|split].
  - intros p Ho Hn. rewrite X2. split; [|intros L; right; auto]. intros [[q [E _]]|[_ [[[a [b [A1 [A2 [A3 [A4 _]]]]]] _]|L]]]; [discriminate| |exact L].
    exfalso. apply Hn. exists b. auto.
  - intros q Hn Ho. rewrite X1. split; [|intros L; right; auto]. intros [[p [E _]]|[_ [[[a [b [A1 [A2 [A3 [A4 _]]]]]] _]|L]]]; [discriminate| |exact L].
    exfalso. apply Ho. exists a. auto.
  - intros p Ho Hn. rewrite X1, X2. split; (split; [|intros R; right; auto]); intros [[q [E _]]|[_ [R|L]]]; try discriminate; try exact R;
      exfalso; destruct L as [[_ [L _]] _]; contradiction.
Qed.
Print Assumptions C23_build_map.

(** Finding: with a renamed structure whose type change is not supported, recorded paths lie inside each other. *)
Definition nest_old : fields := [el "a" "structure"; el "a/x" "FLT_0D"].
Definition nest_new : fields := [ren "c" "FLT_1D" "structure_renamed" "a"].
Theorem C23_nested_refuted : exists old new v s p p', wf_fields old /\ wf_fields new /\ build_map same_order old new v = Ok s
  /\ alookup p (m_path (o2n s)) = Some None /\ alookup p' (m_path (o2n s)) = Some None /\ inside p' p.
Proof.
  exists nest_old, nest_new, 5%Z. eexists. exists (strs "a"), (strs "a/x"). split; [apply wf_b_sound; vm_compute; reflexivity|]. split; [apply wf_b_sound; vm_compute; reflexivity|].
  split; [vm_compute; reflexivity|]. vm_compute. split; [reflexivity|]. split; [reflexivity|]. exists (strs "x"). reflexivity.
Qed.
Print Assumptions C23_nested_refuted.

(** * C42: the map does not notice a change of type inside a renamed structure *)
Definition type_old : fields := [el "a" "structure"; el "a/x" "INT_0D"].
Definition type_new : fields := [ren "c" "structure" "structure_renamed" "a"; el "c/x" "STR_0D"].
Theorem C42_type_inside_rename_refuted : exists old new v s p q a b, conditions old new v /\ build_map same_order old new v = Ok s
  /\ target_path (o2n s) p = Some q /\ alookup p (m_type (o2n s)) = None
  /\ In a old /\ In b new /\ e_path a = p /\ e_path b = q /\ ~ (same_type a b \/ supported a b).
Proof.
  exists type_old, type_new, 5%Z. eexists. exists (strs "a/x"), (strs "c/x"), (el "a/x" "INT_0D"), (el "c/x" "STR_0D"). split; [apply pair_b_sound; vm_compute; reflexivity|].
  split; [vm_compute; reflexivity|]. split; [vm_compute; reflexivity|]. split; [vm_compute; reflexivity|]. cbn. repeat (split; [auto|]). rewrite <- types_b_iff. vm_compute. discriminate.
Qed.
Print Assumptions C42_type_inside_rename_refuted.
