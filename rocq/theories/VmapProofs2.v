(** The renames that [build_map] registers. *)
From Verif Require Import Base DataTypeModel HashModel ValModel VmapModel VmapSpec VmapProofs.

(** * Rules *)
Lemma select_spec : forall v vs ns prev, select_name v vs ns = Some prev <->
  exists i x, nth_error vs i = Some x /\ (v < x)%Z /\ (forall j y, j < i -> nth_error vs j = Some y -> (y <= v)%Z) /\ nth_error ns i = Some prev.
Proof.
  intros v. induction vs as [|x vs IH]; intros ns prev; cbn [select_name].
  - split; [discriminate|]. intros [i [x [H _]]]. destruct i; discriminate.
  - destruct ns as [|n ns].
    + split; [discriminate|]. intros [i [y [_ [_ [_ H]]]]]. destruct i; discriminate.
    + destruct (v <? x)%Z eqn:E.
      * apply Z.ltb_lt in E. split.
        -- intros H. inversion H; subst. exists 0, x. cbn. repeat split; try assumption. intros j y L. lia.
        -- intros [i [y [H1 [H2 [H3 H4]]]]]. destruct i as [|i]; [cbn in H4; exact H4|]. specialize (H3 0 x ltac:(lia) eq_refl). lia.
      * apply Z.ltb_ge in E. rewrite IH. split.
        -- intros [i [y [H1 [H2 [H3 H4]]]]]. exists (S i), y. cbn. repeat split; try assumption. intros j z L Hz. destruct j as [|j]; cbn in Hz.
           ++ inversion Hz; subst. exact E.
           ++ apply (H3 j z); [lia|exact Hz].
        -- intros [i [y [H1 [H2 [H3 H4]]]]]. destruct i as [|i]; cbn in H1, H4.
           ++ inversion H1; subst. lia.
           ++ exists i, y. repeat split; try assumption. intros j z L Hz. apply (H3 (S j) z); [lia|exact Hz].
Qed.

Lemma one_of_In : forall l s, one_of l s = true <-> In s (map strs l).
Proof.
  intros l s. unfold one_of. rewrite existsb_exists, in_map_iff. split; intros [x [H1 H2]]; exists x.
  - apply str_eqb_eq in H2. split; [symmetry; exact H2|exact H1].
  - split; [exact H2|]. apply str_eqb_eq. symmetry. exact H1.
Qed.

(** The rule of an element, as a function. *)
Definition rule_of (v : Z) (e : elem) : option str :=
  match e_nbc e with
  | Some n => match n_versions n, n_prev n with
              | Versions vs, Some names => if one_of ["aos_renamed"; "leaf_renamed"; "structure_renamed"]%string (n_desc n) then select_name v vs names else None
              | _, _ => None
              end
  | None => None
  end.
Lemma rule_of_spec : forall new v e prev, In e new -> rule_of v e = Some prev -> rule new v (e_path e) prev.
Proof.
  intros new v e prev Hi. unfold rule_of. destruct (e_nbc e) as [n|] eqn:En; [|discriminate]. destruct (n_versions n) as [| |vs] eqn:Ev; try discriminate.
  destruct (n_prev n) as [ns|] eqn:Ep; [|discriminate]. destruct (one_of _ (n_desc n)) eqn:Ed; [|discriminate]. intros H. apply select_spec in H.
  destruct H as [i [x [H1 [H2 [H3 H4]]]]]. exists e, n, vs, ns, i, x. apply one_of_In in Ed. cbn in Ed.
  repeat split; try assumption. destruct Ed as [E|[E|[E|[]]]]; rewrite <- E; auto.
Qed.
Lemma rule_of_iff : forall new v, wf_fields new -> forall e prev, In e new -> (rule_of v e = Some prev <-> rule new v (e_path e) prev).
Proof.
  intros new v W e prev Hi. split; [apply rule_of_spec; exact Hi|].
  intros (e' & n & vs & ns & i & x & A1 & A2 & A3 & A4 & A5 & A6 & A7 & A8 & A9 & A10).
  assert (e' = e).
  { assert (L : alookup (e_path e) (by_path new) = Some e) by (apply by_path_lookup; [apply W|auto]).
    assert (L' : alookup (e_path e) (by_path new) = Some e') by (apply by_path_lookup; [apply W|auto]). congruence. }
  subst e'. unfold rule_of. rewrite A3, A5, A6.
  replace (one_of _ (n_desc n)) with true.
  - apply select_spec. exists i, x. auto.
  - symmetry. apply one_of_In. cbn. destruct A4 as [->|[->| ->]]; auto.
Qed.
Lemma rule_dec : forall new v, wf_fields new -> forall q, (exists prev, rule new v q prev) \/ (forall prev, ~ rule new v q prev).
Proof.
  intros new v W q. destruct (exists_dec new q) as [[e [Hi <-]]|N].
  - destruct (rule_of v e) as [prev|] eqn:E.
    + left. exists prev. apply rule_of_spec; assumption.
    + right. intros prev H. apply (rule_of_iff new v W e prev Hi) in H. congruence.
  - right. intros prev (e & n & vs & ns & i & x & A1 & A2 & _). apply N. exists e. auto.
Qed.
Lemma rule_exists : forall new v q prev, rule new v q prev -> exists_in new q.
Proof. intros new v q prev (e & n & vs & ns & i & x & A1 & A2 & _). exists e. auto. Qed.

(** * Closest renamed structure *)
Section Direct.
Variables (old new : fields) (v : Z).
Hypothesis Wn : wf_fields new.

Lemma origin_total : forall q, exists p b, origin old new v q p b.
Proof.
  apply suffix_ind.
  - intros n Hn. destruct (rule_dec new v Wn n) as [[prev R]|N].
    + destruct (exists_dec old prev) as [E|E].
      * exists prev, true. apply origin_renamed; assumption.
      * exists n, false. apply origin_kept; [exact Hn|]. intros prev' R'. rewrite (rule_fun new v Wn _ _ _ R' R). exact E.
    + exists n, false. apply origin_kept; [exact Hn|]. intros prev' R'. exfalso. exact (N _ R').
  - intros q n [p [b H]] Hn. destruct (rule_dec new v Wn (q ++ slash :: n)) as [[prev R]|N].
    + destruct (exists_dec old (p ++ slash :: prev)) as [E|E].
      * exists (p ++ slash :: prev), true. eapply origin_inside_renamed; eassumption.
      * exists (p ++ slash :: n), b. apply origin_inside; [exact H|exact Hn|]. intros prev' R'. rewrite (rule_fun new v Wn _ _ _ R' R). exact E.
    + exists (p ++ slash :: n), b. apply origin_inside; [exact H|exact Hn|]. intros prev' R'. exfalso. exact (N _ R').
Qed.

(** [q] itself was renamed and was [p]. *)
Definition direct (q p : str) : Prop := exists prev, rule new v q prev /\ exists_in old p /\
  ((no_slash q /\ p = prev) \/ exists q0 p0 b n, q = q0 ++ slash :: n /\ no_slash n /\ origin old new v q0 p0 b /\ p = p0 ++ slash :: prev).

Lemma direct_origin : forall q p, direct q p -> origin old new v q p true.
Proof.
  intros q p [prev [R [E [[Hn ->]|[q0 [p0 [b [n [-> [Hn [O ->]]]]]]]]]]].
  - apply origin_renamed; assumption.
  - eapply origin_inside_renamed; eassumption.
Qed.
Lemma direct_moved : forall q p, direct q p -> moved old new v p q.
Proof. intros q p D. split; [|split]; [destruct D as [? [? [? ?]]]; assumption| |apply direct_origin; exact D]. destruct D as [prev [R _]]. exact (rule_exists _ _ _ _ R). Qed.

Lemma origin_closest : forall q p, origin old new v q p true ->
  exists q1 p1, direct q1 p1 /\ ((q = q1 /\ p = p1) \/ exists r, q = q1 ++ slash :: r /\ p = p1 ++ slash :: r).
Proof.
  intros q p H. remember true as b eqn:Eb. revert Eb.
  induction H as [n Hn Hk|n prev Hn Hr Ho|q p b n H IH Hn Hk|q p b n prev H IH Hn Hr Ho]; intros Eb.
  - discriminate.
  - exists n, prev. split; [|left; split; reflexivity]. exists prev. split; [exact Hr|]. split; [exact Ho|]. left. split; [exact Hn|reflexivity].
  - destruct (IH Eb) as [q1 [p1 [D [[-> ->]|[r [-> ->]]]]]].
    + exists q1, p1. split; [exact D|]. right. exists n. split; reflexivity.
    + exists q1, p1. split; [exact D|]. right. exists (r ++ slash :: n). split; rewrite <- app_assoc; reflexivity.
  - exists (q ++ slash :: n), (p ++ slash :: prev). split; [|left; split; reflexivity]. exists prev. split; [exact Hr|]. split; [exact Ho|].
    right. exists q, p, b, n. auto.
Qed.
End Direct.

(** * Registration *)
Definition entry (m : nmap) (k : str) : option (option str) := alookup k (m_path m).

Lemma add_rename_entries : forall op np p q s s', add_rename op np p q s = Ok s' ->
  forall k, entry (n2o s') k = (if str_eqb k q then Some (Some p) else entry (n2o s) k)
         /\ entry (o2n s') k = (if str_eqb k p then Some (Some q) else entry (o2n s) k).
Proof.
  unfold add_rename. intros op np p q s s' H k. destruct (alookup p op) as [oi|]; [|discriminate]. destruct (alookup q np) as [ni|]; [|discriminate].
  destruct (get_tbp ni np); [|discriminate]. cbn in H. destruct (get_ctxpath q np); [|discriminate]. cbn in H.
  destruct (get_tbp oi op); [|discriminate]. cbn in H. destruct (get_ctxpath p op); [|discriminate]. cbn in H. inversion H; subst. cbn.
  unfold entry. cbn. rewrite !alookup_aset. split; reflexivity.
Qed.

Lemma check_entries : forall a b s t s', check_data_type a b s = Ok (t, s') ->
  (t = true -> forall k, entry (n2o s') k = entry (n2o s) k /\ entry (o2n s') k = entry (o2n s) k)
  /\ (t = false -> forall k, entry (n2o s') k = (if str_eqb k (e_path b) then Some None else entry (n2o s) k)
                          /\ entry (o2n s') k = (if str_eqb k (e_path a) then Some None else entry (o2n s) k)).
Proof.
  unfold check_data_type. intros a b s t s' H. destruct (parse_type (e_type b)) as [tb|]; [|discriminate]. cbn in H.
  destruct (parse_type (e_type a)) as [ta|]; [|discriminate]. cbn in H. destruct (parsed_eqb tb ta).
  - inversion H; subst. split; [|discriminate]. intros _ k. split; reflexivity.
  - destruct (e_type a) as [x|]; [|discriminate]. destruct (e_type b) as [y|]; [|discriminate]. destruct (change_handler x y (e_ident b)).
    + inversion H; subst. split; [|discriminate]. intros _ k. split; reflexivity.
    + inversion H; subst. split; [discriminate|]. intros _ k. unfold entry. cbn. rewrite !alookup_aset. split; reflexivity.
Qed.

Lemma dtype_eqb_eq : forall a b, dtype_eqb a b = true <-> a = b.
Proof. intros a b; destruct a, b; cbn; split; congruence. Qed.
Lemma parsed_eqb_refl : forall a, parsed_eqb a a = true.
Proof. intros [[t|] n]; unfold parsed_eqb; cbn; rewrite N.eqb_refl; [|reflexivity]. cbn. destruct t; reflexivity. Qed.
Lemma parsed_eqb_eq : forall a b, parsed_eqb a b = true <-> a = b.
Proof.
  intros a b. split; [|intros ->; apply parsed_eqb_refl]. destruct a as [[x|] n], b as [[y|] m]; unfold parsed_eqb; cbn; intros H;
    apply andb_true_iff in H; destruct H as [H1 H2]; apply N.eqb_eq in H1; subst; try discriminate; [apply dtype_eqb_eq in H2; subst|]; reflexivity.
Qed.
Lemma pair_is_between : forall a b x y, pair_is a b x y = true <-> between a b x y.
Proof. intros a b x y. unfold pair_is, between. rewrite orb_true_iff, !andb_true_iff, !str_eqb_eq. reflexivity. Qed.
Lemma change_handler_supported : forall a b x y, e_type a = Some x -> e_type b = Some y -> (change_handler x y (e_ident b) <> None <-> supported a b).
Proof.
  intros a b x y Ea Eb. unfold change_handler.
  assert (S : supported a b <-> (between "structure" "struct_array" x y \/ between "INT_0D" "INT_1D" x y \/ between "FLT_0D" "FLT_1D" x y \/ between "CPX_0D" "CPX_1D" x y
   \/ between "STR_0D" "STR_1D" x y \/ (x = strs "INT_1D" /\ e_ident b = true) \/ between "FLT_0D" "INT_0D" x y)).
  { unfold supported. split.
    - intros [x' [y' [H1 [H2 H]]]]. assert (x' = x) by congruence. assert (y' = y) by congruence. subst. exact H.
    - intros H. exists x, y. auto. }
  rewrite S. clear S.
  destruct (pair_is "struct_array" "structure" x y) eqn:E1.
  { split; [|discriminate]. intros _. apply pair_is_between in E1. left. destruct E1 as [E1|E1]; [right|left]; exact E1. }
  destruct (pair_is "INT_0D" "INT_1D" x y || pair_is "FLT_0D" "FLT_1D" x y || pair_is "CPX_0D" "CPX_1D" x y || pair_is "STR_0D" "STR_1D" x y) eqn:E2.
  { split; [|discriminate]. intros _. rewrite !orb_true_iff, !pair_is_between in E2. tauto. }
  rewrite !orb_false_iff in E2. destruct E2 as [[[E2 E3] E4] E5].
  assert (F : forall c d, pair_is c d x y = false -> ~ between c d x y) by (intros c d F1 F2; apply pair_is_between in F2; congruence).
  apply F in E1, E2, E3, E4, E5.
  destruct (str_eqb x (strs "INT_1D") && e_ident b) eqn:E6.
  { split; [|discriminate]. intros _. apply andb_true_iff in E6. rewrite str_eqb_eq in E6. tauto. }
  assert (E6' : ~ (x = strs "INT_1D" /\ e_ident b = true)) by (rewrite <- str_eqb_eq, <- andb_true_iff; congruence).
  destruct (pair_is "FLT_0D" "INT_0D" x y) eqn:E7.
  { split; [|discriminate]. intros _. apply pair_is_between in E7. tauto. }
  apply F in E7. split; [congruence|]. intros H. exfalso.
  assert (~ between "structure" "struct_array" x y) by (intros [B|B]; apply E1; [right|left]; exact B). tauto.
Qed.
Lemma check_supported : forall a b s t s', same_type a b \/ supported a b -> check_data_type a b s = Ok (t, s') -> t = true.
Proof.
  unfold check_data_type, parse_type. intros a b s t s' H E.
  destruct (dt_parse (e_type b)) as [tb|] eqn:Eb; [|discriminate]. cbn in E. destruct (dt_parse (e_type a)) as [ta|] eqn:Ea; [|discriminate]. cbn in E.
  destruct (parsed_eqb tb ta) eqn:Ep; [inversion E; reflexivity|]. destruct (e_type a) as [x|] eqn:Tx; [|discriminate].
  destruct (e_type b) as [y|] eqn:Ty; [|discriminate]. destruct H as [[u [H1 H2]]|H].
  - exfalso. assert (tb = ta) by congruence. subst. rewrite parsed_eqb_refl in Ep. discriminate.
  - apply (change_handler_supported a b x y Tx Ty) in H. destruct (change_handler x y (e_ident b)); [inversion E; reflexivity|congruence].
Qed.

(** * The invariant of the loop over the NBC changes *)
Section Loop.
Variables (old new : fields) (v : Z).
Hypotheses (Wo : wf_fields old) (Wn : wf_fields new).
Hypotheses (Hplain : plain_names new v) (Hreuse : no_reuse old new v) (Hsib : no_sibling old new v)
  (Hone : one_successor old new v) (Hsup : supported_renames old new v).
Local Notation mvd := (moved old new v).
Local Notation orig := (origin old new v).
Local Notation drct := (direct old new v).
Local Notation op := (by_path old).
Local Notation np := (by_path new).

Record inv (f1 : fields) (s : maps) : Prop := {
  i1 : forall q x, entry (n2o s) q = Some x -> exists p, x = Some p /\ mvd p q;
  i2 : forall p x, entry (o2n s) p = Some x -> exists q, x = Some q /\ entry (n2o s) q = Some (Some p);
  i3 : forall p q, entry (n2o s) q = Some (Some p) -> entry (o2n s) p = Some (Some q);
  i4 : forall q p, drct q p -> exists_in f1 q -> entry (n2o s) q = Some (Some p)
         /\ forall r, exists_in new (q ++ slash :: r) -> exists_in old (p ++ slash :: r) -> entry (n2o s) (q ++ slash :: r) = Some (Some (p ++ slash :: r)) }.

Lemma moved_fun : forall p p' q, mvd p q -> mvd p' q -> p = p'.
Proof. intros p p' q [_ [_ O]] [_ [_ O']]. exact (proj1 (origin_fun old new v Wn _ _ _ O _ _ O')). Qed.

Lemma inv_ext : forall f1 s s', inv f1 s -> (forall k, entry (n2o s') k = entry (n2o s) k /\ entry (o2n s') k = entry (o2n s) k) -> inv f1 s'.
Proof.
  intros f1 s s' [J1 J2 J3 J4] E. split.
  - intros q x H. rewrite (proj1 (E q)) in H. exact (J1 _ _ H).
  - intros p x H. rewrite (proj2 (E p)) in H. destruct (J2 _ _ H) as [q [H1 H2]]. exists q. rewrite (proj1 (E q)). auto.
  - intros p q H. rewrite (proj1 (E q)) in H. rewrite (proj2 (E p)). exact (J3 _ _ H).
  - intros q p D F. destruct (J4 q p D F) as [H1 H2]. split; [rewrite (proj1 (E q)); exact H1|]. intros r N O. rewrite (proj1 (E _)). exact (H2 r N O).
Qed.

Definition grows (s s' : maps) : Prop := forall q x, entry (n2o s) q = Some x -> entry (n2o s') q = Some x.
Lemma grows_trans : forall a b c, grows a b -> grows b c -> grows a c.
Proof. intros a b c H1 H2 q x H. apply H2, H1. exact H. Qed.

Lemma add_rename_inv : forall f1 s p q s', inv f1 s -> mvd p q -> add_rename op np p q s = Ok s' ->
  inv f1 s' /\ entry (n2o s') q = Some (Some p) /\ grows s s'.
Proof.
  intros f1 s p q s' [J1 J2 J3 J4] M A. assert (E := add_rename_entries _ _ _ _ _ _ A).
  assert (Eq : entry (n2o s') q = Some (Some p)) by (rewrite (proj1 (E q)), str_eqb_refl; reflexivity).
  assert (G : grows s s').
  { intros k x H. rewrite (proj1 (E k)). destruct (str_eqb k q) eqn:Ek; [|exact H]. apply str_eqb_eq in Ek. subst k.
    destruct (J1 _ _ H) as [p' [-> M']]. rewrite (moved_fun _ _ _ M M'). reflexivity. }
  split; [|split; [exact Eq|exact G]]. split.
  - intros k x H. rewrite (proj1 (E k)) in H. destruct (str_eqb k q) eqn:Ek.
    + apply str_eqb_eq in Ek. subst k. inversion H; subst. exists p. auto.
    + exact (J1 _ _ H).
  - intros k x H. rewrite (proj2 (E k)) in H. destruct (str_eqb k p) eqn:Ek.
    + apply str_eqb_eq in Ek. subst k. inversion H; subst. exists q. auto.
    + destruct (J2 _ _ H) as [q' [H1 H2]]. exists q'. split; [exact H1|]. apply G. exact H2.
  - intros k k' H. rewrite (proj1 (E k')) in H. rewrite (proj2 (E k)). destruct (str_eqb k' q) eqn:Ek.
    + inversion H; subst. apply str_eqb_eq in Ek. subst k'. rewrite str_eqb_refl. reflexivity.
    + destruct (str_eqb k p) eqn:Ek'; [|exact (J3 _ _ H)]. apply str_eqb_eq in Ek'. subst k. destruct (J1 _ _ H) as [p' [Hp M']]. inversion Hp; subst.
      rewrite (Hone _ _ _ M M'). reflexivity.
  - intros q' p' D F. destruct (J4 q' p' D F) as [H1 H2]. split; [apply G; exact H1|]. intros r N O. apply G. exact (H2 r N O).
Qed.

Lemma add_below_inv : forall q p, mvd p q -> forall ps, (forall k, In k ps -> exists_in old k) -> forall f1 s s', inv f1 s ->
  add_below op np p q ps s = Ok s' -> inv f1 s' /\ grows s s'
  /\ forall r, In (p ++ slash :: r) ps -> exists_in new (q ++ slash :: r) -> entry (n2o s') (q ++ slash :: r) = Some (Some (p ++ slash :: r)).
Proof.
  intros q p M. induction ps as [|k ps IH]; intros Hk f1 s s' I A; cbn [add_below] in A.
  - inversion A; subst. split; [exact I|]. split; [intros ? ? H; exact H|]. intros r [].
  - assert (Hk' : forall k, In k ps -> exists_in old k) by (intros k' K; apply Hk; right; exact K).
    destruct (starts_with p k && has (replace_prefix p q k) np) eqn:E.
    + apply andb_true_iff in E. destruct E as [E1 E2]. apply starts_with_spec in E1. destruct E1 as [r ->]. rewrite replace_prefix_app in *.
      apply has_exists in E2. assert (Ho : exists_in old (p ++ r)) by (apply Hk; left; reflexivity).
      assert (M' : mvd (p ++ r) (q ++ r)).
      { destruct r as [|c r]; [rewrite !app_nil_r; exact M|]. destruct (ascii_dec c slash) as [->|Nc].
        - split; [exact Ho|]. split; [exact E2|]. exact (Hreuse _ _ _ M E2 Ho).
        - exfalso. exact (Hsib _ _ _ _ M Ho Nc E2). }
      destruct (add_rename op np (p ++ r) (q ++ r) s) as [s1|] eqn:A1; [|discriminate]. cbn in A.
      destruct (add_rename_inv _ _ _ _ _ I M' A1) as [I1 [Eq G1]]. destruct (IH Hk' f1 s1 s' I1 A) as [I2 [G2 H2]].
      split; [exact I2|]. split; [exact (grows_trans _ _ _ G1 G2)|]. intros r' [H|H] N.
      * apply app_inv_head in H. subst r. apply G2. exact Eq.
      * exact (H2 r' H N).
    + destruct (IH Hk' f1 s s' I A) as [I2 [G2 H2]]. split; [exact I2|]. split; [exact G2|]. intros r' [H|H] N; [|exact (H2 r' H N)].
      exfalso. subst k. apply andb_false_iff in E. destruct E as [E|E].
      * assert (starts_with p (p ++ slash :: r') = true) by (apply starts_with_spec; exists (slash :: r'); reflexivity). congruence.
      * rewrite replace_prefix_app in E. apply has_not_exists in E. contradiction.
Qed.

Lemma old_nonempty : forall p, exists_in old p -> p <> [].
Proof. intros p [e [H <-]]. exact (wf_nonempty _ Wo _ H). Qed.

Lemma origin_prefix : forall q p b, orig q p b -> forall q0 r, q = q0 ++ slash :: r -> no_slash r -> exists p0 b0, orig q0 p0 b0.
Proof. intros q p b H q0 r -> Hr. apply origin_total. exact Wn. Qed.

(** The path in the old version that [process_parent_renames] computes, for the structure [q] (all structures down to [q] are processed). *)
Lemma parent_loop : forall f1 s, inv f1 s -> (forall q, exists_in f1 q -> exists_in new q) -> forall q p b, orig q p b -> struct_in new q ->
  (forall q', at_or_inside q q' -> exists_in f1 q') -> (forall q', inside q q' -> struct_in new q') ->
  forall t, parent_rename_loop np (q ++ t) (q :: rev (iter_parents q)) s = Ok (p ++ t).
Proof.
  intros f1 s I Hf q p b H.
  assert (Entry : forall q p b, orig q p b -> exists_in f1 q -> (exists c t, entry (n2o s) q = Some (Some (c :: t)) /\ p = c :: t)
                   \/ (entry (n2o s) q = None /\ ~ drct q p)).
  { intros q' p' b' O F. destruct (entry (n2o s) q') as [x|] eqn:E.
    - left. destruct (i1 _ _ I _ _ E) as [p1 [-> M]]. destruct (origin_fun old new v Wn _ _ _ O _ _ (proj2 (proj2 M))) as [-> _].
      assert (Ne := old_nonempty _ (proj1 M)). destruct p1 as [|c t]; [congruence|]. exists c, t. auto.
    - right. split; [reflexivity|]. intros D. destruct (i4 _ _ I _ _ D F) as [E' _]. congruence. }
  induction H as [n Hn Hk|n prev Hn Hr Ho|q p b n H IH Hn Hk|q p b n prev H IH Hn Hr Ho]; intros Hs Hin Hst t; cbn [parent_rename_loop].
  - destruct (Entry n n false ltac:(apply origin_kept; assumption) ltac:(apply Hin; left; reflexivity)) as [[c [u [E Ep]]]|[E _]].
    + destruct (i1 _ _ I _ _ E) as [p1 [E1 M]].
      destruct (origin_fun old new v Wn _ _ _ (proj2 (proj2 M)) n false ltac:(apply origin_kept; assumption)) as [_ X]. discriminate.
    + unfold entry in E. rewrite E, iter_parents_plain by exact Hn. reflexivity.
  - destruct (Entry n prev true ltac:(apply origin_renamed; assumption) ltac:(apply Hin; left; reflexivity)) as [[c [u [E Ep]]]|[E N]].
    + unfold entry in E. rewrite E. destruct Hs as [e [H1 [H2 H3]]].
      rewrite (proj2 (by_path_lookup new (wf_nodup _ Wn) n e) (conj H1 H2)), H3, replace_prefix_app. subst prev. reflexivity.
    + exfalso. apply N. exists prev. split; [exact Hr|]. split; [exact Ho|]. left. auto.
  - assert (O : orig (q ++ slash :: n) (p ++ slash :: n) b) by (apply origin_inside; assumption).
    destruct (Entry _ _ _ O ltac:(apply Hin; left; reflexivity)) as [[c [u [E Ep]]]|[E N]].
    + unfold entry in E. rewrite E. destruct Hs as [e [H1 [H2 H3]]].
      rewrite (proj2 (by_path_lookup new (wf_nodup _ Wn) _ e) (conj H1 H2)), H3, replace_prefix_app, <- Ep. reflexivity.
    + unfold entry in E. rewrite E, rev_parents_app by exact Hn.
      rewrite <- !app_assoc. cbn [app]. apply IH.
      * apply Hst. exists n. reflexivity.
      * intros q' [->|Hq]; apply Hin; right; [exists n; reflexivity|]. apply (inside_trans _ q); [exists n; reflexivity|exact Hq].
      * intros q' Hq. apply Hst. apply (inside_trans _ q); [exists n; reflexivity|exact Hq].
  - assert (O : orig (q ++ slash :: n) (p ++ slash :: prev) true) by (eapply origin_inside_renamed; eassumption).
    destruct (Entry _ _ _ O ltac:(apply Hin; left; reflexivity)) as [[c [u [E Ep]]]|[E N]].
    + unfold entry in E. rewrite E. destruct Hs as [e [H1 [H2 H3]]].
      rewrite (proj2 (by_path_lookup new (wf_nodup _ Wn) _ e) (conj H1 H2)), H3, replace_prefix_app, <- Ep. reflexivity.
    + exfalso. apply N. exists prev. split; [exact Hr|]. split; [exact Ho|]. right. exists q, p, b, n. auto.
Qed.

Lemma struct_in_app : forall f1 f2 p, struct_in f1 p -> struct_in (f1 ++ f2) p.
Proof. intros f1 f2 p [e [H1 H2]]. exists e. split; [apply in_or_app; left; exact H1|exact H2]. Qed.
Lemma struct_exists : forall f p, struct_in f p -> exists_in f p.
Proof. intros f p [e [H1 [H2 _]]]. exists e. auto. Qed.
Lemma exists_in_app : forall f1 f2 p, exists_in (f1 ++ f2) p <-> exists_in f1 p \/ exists_in f2 p.
Proof.
  intros f1 f2 p. unfold exists_in. split.
  - intros [e [H1 H2]]. apply in_app_or in H1. destruct H1; [left|right]; exists e; auto.
  - intros [[e [H1 H2]]|[e [H1 H2]]]; exists e; (split; [apply in_or_app; auto|exact H2]).
Qed.

(** [get_old_path] gives the origin. *)
Lemma get_old_path_origin : forall f1 e f2 s prev, new = f1 ++ e :: f2 -> inv f1 s -> rule new v (e_path e) prev ->
  (exists p, get_old_path np (e_path e) prev s = Ok p /\ (exists_in old p -> drct (e_path e) p) /\ (drct (e_path e) p -> exists_in old p)
             /\ forall p', drct (e_path e) p' -> p' = p).
Proof.
  intros f1 e f2 s prev En I R. unfold get_old_path, process_parent_renames. assert (Np := Hplain _ _ R).
  destruct (path_cases (e_path e)) as [Hn|[q [n [Eq Hn]]]].
  - rewrite before_slash_plain by exact Hn. rewrite iter_parents_plain by exact Np. cbn. exists prev. split; [reflexivity|]. split; [|split].
    + intros Ho. exists prev. split; [exact R|]. split; [exact Ho|]. left. auto.
    + intros [? [? [? ?]]]. assumption.
    + intros p' [prev' [R' [_ [[_ ->]|[q0 [p0 [b [n [E _]]]]]]]]]; [exact (rule_fun new v Wn _ _ _ R' R)|]. rewrite E in Hn. exfalso. exact (not_plain _ _ Hn).
  - assert (Bs : before_slash (e_path e) = Some q) by (rewrite Eq; apply before_slash_app; exact Hn). rewrite Bs. rewrite rev_parents_app by exact Np.
    destruct (origin_total old new v Wn q) as [p [b O]].
    assert (Hst : forall q', at_or_inside q q' -> struct_in f1 q').
    { intros q' [<-|H]; apply (wf_parents _ Wn f1 e f2 En); rewrite Eq; [exists n; reflexivity|].
      apply (inside_trans _ q); [exists n; reflexivity|exact H]. }
    assert (Hs' : forall q', struct_in f1 q' -> struct_in new q') by (intros q' K; rewrite En; apply struct_in_app; exact K).
    rewrite (parent_loop f1 s I) with (p := p) (b := b).
    + exists (p ++ slash :: prev). split; [reflexivity|]. split; [|split].
      * intros Ho. exists prev. split; [exact R|]. split; [exact Ho|]. right. exists q, p, b, n. auto.
      * intros [? [? [? ?]]]. assumption.
      * intros p' [prev' [R' [_ [[Hq _]|[q0 [p0 [b0 [n0 [E [Hn0 [O' ->]]]]]]]]]]].
        -- rewrite Eq in Hq. exfalso. exact (not_plain _ _ Hq).
        -- rewrite Eq in E. apply split_unique in E; [|exact Hn|exact Hn0]. destruct E as [<- <-].
           rewrite (rule_fun new v Wn _ _ _ R' R). rewrite (proj1 (origin_fun old new v Wn _ _ _ O' _ _ O)). reflexivity.
    + intros q' [e' [H1 H2]]. exists e'. split; [rewrite En; apply in_or_app; left; exact H1|exact H2].
    + exact O.
    + apply Hs', Hst. left. reflexivity.
    + intros q' H. apply struct_exists, Hst. exact H.
    + intros q' H. apply Hs', Hst. right. exact H.
Qed.

Lemma sorted_last : forall vs d x, sortedZ vs = true -> In x vs -> (x <= last vs d)%Z.
Proof.
  induction vs as [|y vs IH]; intros d x S H; [destruct H|]. destruct vs as [|z vs].
  - destruct H as [<-|[]]. cbn. lia.
  - cbn [sortedZ] in S. apply andb_true_iff in S. destruct S as [S1 S2]. apply Z.leb_le in S1. change (last (y :: z :: vs) d) with (last (z :: vs) d).
    destruct H as [<-|H]; [|exact (IH d x S2 H)]. assert (z <= last (z :: vs) d)%Z by (apply IH; [exact S2|left; reflexivity]). lia.
Qed.

Lemma nbc_step_inv : forall f1 e f2 s s', new = f1 ++ e :: f2 -> inv f1 s -> nbc_step op np v e s = Ok s' -> inv (f1 ++ [e]) s'.
Proof.
  intros f1 e f2 s s' En I A.
  assert (Hi : In e new) by (rewrite En; apply in_or_app; right; left; reflexivity).
  assert (NoD : inv f1 s' -> (forall p, ~ drct (e_path e) p) -> inv (f1 ++ [e]) s').
  { intros [J1 J2 J3 J4] N. split; try assumption. intros q p D F. apply exists_in_app in F. destruct F as [F|[e' [[<-|[]] <-]]]; [exact (J4 q p D F)|].
    exfalso. exact (N _ D). }
  assert (NoR : forall x, (forall prev, rule_of v e <> Some prev) -> (forall k, entry (n2o x) k = entry (n2o s) k /\ entry (o2n x) k = entry (o2n s) k) -> s' = x -> inv (f1 ++ [e]) s').
  { intros x N E ->. apply NoD; [exact (inv_ext _ _ _ I E)|]. intros p [prev [R _]]. apply (rule_of_iff new v Wn e prev Hi) in R. exact (N _ R). }
  assert (Refl : forall x : maps, forall k, entry (n2o x) k = entry (n2o x) k /\ entry (o2n x) k = entry (o2n x) k) by (intros; split; reflexivity).
  unfold nbc_step in A. unfold rule_of in NoR. destruct (e_nbc e) as [n|] eqn:Enb.
  2:{ inversion A; subst. apply (NoR s'); [discriminate|apply Refl|reflexivity]. }
  destruct (n_versions n) as [| |vs] eqn:Ev; [discriminate| |].
  { inversion A; subst. apply (NoR s'); [discriminate|apply Refl|reflexivity]. }
  destruct (negb (sortedZ vs)) eqn:Es; [discriminate|]. apply negb_false_iff in Es.
  destruct (last vs 0 <=? v)%Z eqn:El.
  { inversion A; subst. apply (NoR s'); [|apply Refl|reflexivity]. intros prev. destruct (n_prev n) as [names|]; [|discriminate].
    destruct (one_of _ (n_desc n)); [|discriminate]. intros K. apply select_spec in K. destruct K as [i [x [K1 [K2 _]]]]. apply nth_error_In in K1.
    assert (x <= last vs 0)%Z by (apply sorted_last; assumption). apply Z.leb_le in El. lia. }
  destruct (one_of ["aos_renamed"; "leaf_renamed"; "structure_renamed"]%string (n_desc n)) eqn:Ed.
  2:{ assert (NoR' : forall x, (forall k, entry (n2o x) k = entry (n2o s) k /\ entry (o2n x) k = entry (o2n s) k) -> s' = x -> inv (f1 ++ [e]) s').
      { intros x. apply NoR. destruct (n_prev n); discriminate. }
      clear NoR NoD. destruct (one_of ["type_changed"]%string (n_desc n)); [inversion A; subst; apply (NoR' s'); [apply Refl|reflexivity]|].
      destruct (one_of ["repeat_children_first_point"]%string (n_desc n)).
      { destruct (process_parent_renames np (e_path e) s); [|discriminate]. cbn in A. inversion A; subst. eapply NoR'; [|reflexivity]. intros k. split; reflexivity. }
      destruct (one_of ["repeat_children_first_point_conditional"]%string (n_desc n)).
      { destruct (process_parent_renames np (e_path e) s); [|discriminate]. cbn in A. inversion A; subst. eapply NoR'; [|reflexivity]. intros k. split; reflexivity. }
      destruct (one_of ["repeat_children_first_point_conditional_sibling"; "repeat_children_first_point_conditional_sibling_dynamic"]%string (n_desc n)).
      { destruct (process_parent_renames np (e_path e) s); [|discriminate]. cbn in A. inversion A; subst. eapply NoR'; [|reflexivity]. intros k. split; reflexivity. }
      destruct (one_of ["remove_last_point_if_open_annular_centreline"]%string (n_desc n)).
      { destruct (process_parent_renames np (e_path e) s); [|discriminate]. cbn in A. inversion A; subst. eapply NoR'; [|reflexivity]. intros k. split; reflexivity. }
      inversion A; subst. apply (NoR' s'); [apply Refl|reflexivity]. }
  destruct (n_prev n) as [names|] eqn:Epr; [|discriminate]. destruct (negb (length names =? length vs)); [discriminate|].
  destruct (select_name v vs names) as [prev|] eqn:Esel; [|discriminate].
  assert (R : rule new v (e_path e) prev).
  { apply rule_of_spec; [exact Hi|]. unfold rule_of. rewrite Enb, Ev, Epr, Ed. exact Esel. }
  clear NoR. destruct (get_old_path_origin f1 e f2 s prev En I R) as [p [Gp [D1 [D2 D3]]]]. rewrite Gp in A. cbn in A.
  destruct (alookup p op) as [oi|] eqn:Lo.
  - apply (by_path_lookup old (wf_nodup _ Wo)) in Lo. destruct Lo as [Ho Eo]. assert (Eo' : exists_in old p) by (exists oi; auto). assert (D := D1 Eo').
    assert (M := direct_moved _ _ _ _ _ D).
    destruct (check_data_type oi e s) as [[same s1]|] eqn:C; [|discriminate]. cbn in A.
    assert (same = true). { eapply check_supported; [|exact C]. apply Hsup; [exact Ho|exact Hi|rewrite Eo; exact M|exists prev; exact R]. }
    subst same. assert (I1 := inv_ext _ _ _ I (proj1 (check_entries _ _ _ _ _ C) eq_refl)).
    destruct (add_rename op np p (e_path e) s1) as [s2|] eqn:A2; [|discriminate]. cbn in A.
    destruct (add_rename_inv _ _ _ _ _ I1 M A2) as [I2 [E2 G2]].
    assert (K : inv f1 s' /\ entry (n2o s') (e_path e) = Some (Some p)
       /\ forall r, exists_in new (e_path e ++ slash :: r) -> exists_in old (p ++ slash :: r) -> entry (n2o s') (e_path e ++ slash :: r) = Some (Some (p ++ slash :: r))).
    { destruct (is_structure oi) eqn:St.
      - destruct (add_below_inv _ _ M (akeys op) (fun k => proj1 (by_path_keys old k)) f1 s2 s' I2 A) as [I3 [G3 H3]].
        split; [exact I3|]. split; [apply G3; exact E2|]. intros r N O. apply H3; [apply by_path_keys; exact O|exact N].
      - inversion A; subst. split; [exact I2|]. split; [exact E2|]. intros r N [e0 [O1 O2]]. exfalso.
        apply in_split in O1. destruct O1 as [l1 [l2 El2]]. destruct (wf_parents _ Wo l1 e0 l2 El2 (e_path oi)) as [e1 [P1 [P2 P3]]].
        { rewrite O2. exists r. reflexivity. }
        assert (L1 : alookup (e_path oi) op = Some oi) by (apply by_path_lookup; [apply Wo|auto]).
        assert (L2 : alookup (e_path oi) op = Some e1).
        { apply by_path_lookup; [apply Wo|]. split; [rewrite El2; apply in_or_app; left; exact P1|exact P2]. }
        congruence. }
    destruct K as [[J1 J2 J3 J4] [K2 K3]]. split; try assumption. intros q p' D' F. apply exists_in_app in F. destruct F as [F|[e' [[<-|[]] <-]]]; [exact (J4 q p' D' F)|].
    rewrite (D3 _ D'). auto.
  - inversion A; subst. apply NoD; [exact I|]. intros p' D'. assert (p' = p) by (apply D3; exact D'). subst p'. destruct (D2 D') as [oi [H1 H2]].
    assert (alookup p op = Some oi) by (apply by_path_lookup; [apply Wo|auto]). congruence.
Qed.

Lemma nbc_loop_inv : forall f2 f1 s s', new = f1 ++ f2 -> inv f1 s -> nbc_loop op np v f2 s = Ok s' -> inv new s'.
Proof.
  induction f2 as [|e f2 IH]; intros f1 s s' En I A; cbn [nbc_loop] in A.
  - inversion A; subst s'. rewrite app_nil_r in En. rewrite <- En in I. exact I.
  - destruct (nbc_step op np v e s) as [s1|] eqn:A1; [|discriminate]. cbn in A.
    apply (IH (f1 ++ [e]) s1 s'); [rewrite <- app_assoc; exact En| |exact A]. exact (nbc_step_inv f1 e f2 s s1 En I A1).
Qed.

Lemma inv_init : inv [] {| o2n := empty_map; n2o := empty_map |}.
Proof. split; cbn; try discriminate. intros q p D [e [[] _]]. Qed.

(** After the loop over the NBC changes the maps contain exactly the moved quantities. *)
Lemma loop_exact : forall s, nbc_loop op np v new {| o2n := empty_map; n2o := empty_map |} = Ok s ->
  (forall q x, entry (n2o s) q = Some x <-> exists p, x = Some p /\ mvd p q) /\ (forall p x, entry (o2n s) p = Some x <-> exists q, x = Some q /\ mvd p q).
Proof.
  intros s H. assert (I := nbc_loop_inv new [] _ s eq_refl inv_init H).
  assert (C : forall p q, mvd p q -> entry (n2o s) q = Some (Some p)).
  { intros p q M. destruct M as [Ho [Hn O]]. destruct (origin_closest _ _ _ _ _ O) as [q1 [p1 [D [[-> ->]|[r [-> ->]]]]]].
    - exact (proj1 (i4 _ _ I q1 p1 D Hn)).
    - assert (N1 : exists_in new q1) by (destruct D as [prev [R _]]; exact (rule_exists _ _ _ _ R)).
      exact (proj2 (i4 _ _ I q1 p1 D N1) r Hn Ho). }
  split.
  - intros q x. split; [exact (i1 _ _ I q x)|]. intros [p [-> M]]. exact (C p q M).
  - intros p x. split.
    + intros E. destruct (i2 _ _ I _ _ E) as [q [-> E']]. exists q. split; [reflexivity|]. destruct (i1 _ _ I _ _ E') as [p' [Ep M]]. inversion Ep; subst. exact M.
    + intros [q [-> M]]. apply (i3 _ _ I). exact (C p q M).
Qed.
End Loop.
