(** Which rules [build_map] registers. *)
From Verif Require Import Base DataTypeModel HashModel ValModel VmapModel VmapSpec VmapProofs VmapProofs2 VmapProofs3 VmapProofs4 VmapProps2 EndSpec.
From Coq Require Import Permutation.

Definition typed (m : nmap) (k : str) : Prop := alookup k (m_type m) <> None \/ alookup k (m_post m) <> None.
Definition same_rules (s s' : maps) : Prop := forall k, (typed (o2n s') k <-> typed (o2n s) k) /\ (typed (n2o s') k <-> typed (n2o s) k).
Definition more_rules (s s' : maps) : Prop := forall k, (typed (o2n s) k -> typed (o2n s') k) /\ (typed (n2o s) k -> typed (n2o s') k).

Lemma add_rename_rules : forall op np p q s s', add_rename op np p q s = Ok s' ->
  m_type (o2n s') = m_type (o2n s) /\ m_post (o2n s') = m_post (o2n s) /\ m_type (n2o s') = m_type (n2o s) /\ m_post (n2o s') = m_post (n2o s).
Proof.
  unfold add_rename. intros op np p q s s' H. destruct (alookup p op) as [oi|]; [|discriminate]. destruct (alookup q np) as [ni|]; [|discriminate].
  destruct (get_tbp ni np); [|discriminate]. cbn in H. destruct (get_ctxpath q np); [|discriminate]. cbn in H.
  destruct (get_tbp oi op); [|discriminate]. cbn in H. destruct (get_ctxpath p op); [|discriminate]. cbn in H. inversion H; subst. cbn. auto.
Qed.
Lemma add_below_rules : forall op np p q ps s s', add_below op np p q ps s = Ok s' ->
  m_type (o2n s') = m_type (o2n s) /\ m_post (o2n s') = m_post (o2n s) /\ m_type (n2o s') = m_type (n2o s) /\ m_post (n2o s') = m_post (n2o s).
Proof.
  intros op np p q. induction ps as [|k ps IH]; intros s s' A; cbn [add_below] in A; [inversion A; subst; auto|].
  destruct (starts_with p k && has (replace_prefix p q k) np); [|apply IH; exact A].
  destruct (add_rename op np k (replace_prefix p q k) s) as [s1|] eqn:E; [|discriminate]. cbn in A. apply add_rename_rules in E. apply IH in A.
  destruct E as (E1 & E2 & E3 & E4), A as (A1 & A2 & A3 & A4). repeat split; congruence.
Qed.
Lemma aset_some : forall A (k x : str) (a : A) d, alookup k (aset x a d) <> None <-> k = x \/ alookup k d <> None.
Proof.
  intros A k x a d. rewrite alookup_aset. destruct (str_eqb k x) eqn:E.
  - apply str_eqb_eq in E. split; [auto|discriminate].
  - apply str_eqb_neq in E. tauto.
Qed.
Lemma check_rules : forall a b s t s', check_data_type a b s = Ok (t, s') -> more_rules s s' /\
  (forall k, typed (o2n s') k -> typed (o2n s) k \/ (k = e_path a /\ ~ same_type a b)) /\
  (forall k, typed (n2o s') k -> typed (n2o s) k \/ (k = e_path b /\ ~ same_type a b)) /\
  (same_type a b \/ (typed (o2n s') (e_path a) /\ typed (n2o s') (e_path b))).
Proof.
  unfold check_data_type, parse_type. intros a b s t s' E.
  destruct (dt_parse (e_type b)) as [tb|] eqn:Eb; [|discriminate]. cbn in E. destruct (dt_parse (e_type a)) as [ta|] eqn:Ea; [|discriminate]. cbn in E.
  destruct (parsed_eqb tb ta) eqn:Ep.
  - inversion E; subst. apply parsed_eqb_eq in Ep. subst. split; [split; auto|]. split; [auto|]. split; [auto|]. left. exists ta. auto.
  - assert (NS : ~ same_type a b). { intros (u & H1 & H2). rewrite Ea in H1. rewrite Eb in H2. assert (tb = ta) by congruence. subst. rewrite parsed_eqb_refl in Ep. discriminate. }
    destruct (e_type a) as [x|] eqn:Tx; [|discriminate]. destruct (e_type b) as [y|] eqn:Ty; [|discriminate].
    assert (X : forall h, m_type (o2n s') = aset (e_path a) h (m_type (o2n s)) /\ m_post (o2n s') = m_post (o2n s) /\
              m_type (n2o s') = aset (e_path b) h (m_type (n2o s)) /\ m_post (n2o s') = m_post (n2o s) ->
      more_rules s s' /\ (forall k, typed (o2n s') k -> typed (o2n s) k \/ (k = e_path a /\ ~ same_type a b)) /\
      (forall k, typed (n2o s') k -> typed (n2o s) k \/ (k = e_path b /\ ~ same_type a b)) /\ (same_type a b \/ (typed (o2n s') (e_path a) /\ typed (n2o s') (e_path b)))).
    { intros h (H1 & H2 & H3 & H4). unfold more_rules, typed. rewrite H1, H2, H3, H4. split; [|split; [|split]].
      - intros k. split; (intros [H|H]; [left; apply aset_some; auto|auto]).
      - intros k [H|H]; [apply aset_some in H as [H|H]; auto|auto].
      - intros k [H|H]; [apply aset_some in H as [H|H]; auto|auto].
      - right. split; left; apply aset_some; auto. }
    destruct (change_handler x y (e_ident b)) as [h|] eqn:C; inversion E; subst; [apply (X (Some h))|apply (X None)]; cbn; auto.
Qed.

Section Rules.
Variables (old new : fields) (v : Z).
Hypotheses (Wo : wf_fields old) (Wn : wf_fields new).
Hypotheses (Hplain : plain_names new v) (Hreuse : no_reuse old new v) (Hsib : no_sibling old new v)
  (Hone : one_successor old new v) (Hsup : supported_renames old new v).
Local Notation mvd := (moved old new v).
Local Notation orig := (origin old new v).
Local Notation drct := (direct old new v).
Local Notation op := (by_path old).
Local Notation np := (by_path new).
Local Notation inv := (inv old new v).
(** there is a reason for each rule *)
Definition reason_old (k : str) : Prop := exists e b, In e new /\ orig (e_path e) k b /\ (special v e \/ exists a, In a old /\ e_path a = k /\ ~ same_type a e).
Definition reason_new (k : str) : Prop := exists e p b, In e new /\ e_path e = k /\ orig k p b /\ (special v e \/ exists a, In a old /\ e_path a = p /\ ~ same_type a e).
Record tinv (f1 : fields) (s : maps) : Prop := {
  t1 : forall k, typed (o2n s) k -> reason_old k;
  t2 : forall k, typed (n2o s) k -> reason_new k;
  t3 : forall e a, In e f1 -> In a old -> drct (e_path e) (e_path a) -> same_type a e \/ (typed (o2n s) (e_path a) /\ typed (n2o s) (e_path e)) }.

Lemma parent_origin : forall f1 e f2 s p, new = f1 ++ e :: f2 -> inv f1 s -> (forall prev, ~ rule new v (e_path e) prev) ->
  process_parent_renames np (e_path e) s = Ok p -> exists b, orig (e_path e) p b.
Proof.
  intros f1 e f2 s p En I NR A. unfold process_parent_renames in A. destruct (path_cases (e_path e)) as [Hn|(q & n & Eq & Hn)].
  - rewrite iter_parents_plain in A by exact Hn. cbn in A. inversion A; subst p. exists false. apply origin_kept; auto. intros prev R. exfalso. exact (NR _ R).
  - rewrite Eq in A. rewrite rev_parents_app in A by exact Hn. destruct (origin_total old new v Wn q) as (p0 & b & O).
    assert (Hst : forall q', at_or_inside q q' -> struct_in f1 q').
    { intros q' [<-|H]; apply (wf_parents _ Wn f1 e f2 En); rewrite Eq; [exists n; reflexivity|]. apply (inside_trans _ q); [exists n; reflexivity|exact H]. }
    assert (Hs' : forall q', struct_in f1 q' -> struct_in new q') by (intros q' K; rewrite En; apply struct_in_app; exact K).
    rewrite (parent_loop old new v Wo Wn f1 s I) with (p := p0) (b := b) in A.
    + inversion A; subst p. exists b. rewrite Eq. apply origin_inside; auto. intros prev R. exfalso. rewrite <- Eq in R. exact (NR _ R).
    + intros q' (e' & H1 & H2). exists e'. split; [rewrite En; apply in_or_app; left; exact H1|exact H2].
    + exact O.
    + apply Hs', Hst. left. reflexivity.
    + intros q' H. apply struct_exists, Hst. exact H.
    + intros q' H. apply Hs', Hst. right. exact H.
Qed.

Lemma special_of : forall e n vs l, e_nbc e = Some n -> n_versions n = Versions vs -> (last vs 0 <=? v)%Z = false -> one_of l (n_desc n) = true ->
  incl (map strs l) (map strs ["repeat_children_first_point"; "repeat_children_first_point_conditional"; "repeat_children_first_point_conditional_sibling";
    "repeat_children_first_point_conditional_sibling_dynamic"; "remove_last_point_if_open_annular_centreline"]%string) -> special v e.
Proof. intros e n vs l H1 H2 H3 H4 I. exists n, vs. apply Z.leb_gt in H3. apply one_of_In in H4. auto. Qed.

Lemma direct_fun : forall q p p', drct q p -> drct q p' -> p = p'.
Proof. intros q p p' D D'. apply direct_origin in D, D'. exact (proj1 (origin_fun old new v Wn _ _ _ D _ _ D')). Qed.
Lemma same_elem : forall f, wf_fields f -> forall a b, In a f -> In b f -> e_path a = e_path b -> a = b.
Proof.
  intros f W a b Ia Ib E. assert (La : alookup (e_path a) (by_path f) = Some a) by (apply by_path_lookup; [apply W|auto]).
  assert (Lb : alookup (e_path a) (by_path f) = Some b) by (apply by_path_lookup; [apply W|auto]). congruence.
Qed.

Lemma step_rules : forall f1 e f2 s s', new = f1 ++ e :: f2 -> inv f1 s -> tinv f1 s -> nbc_step op np v e s = Ok s' -> tinv (f1 ++ [e]) s'.
Proof.
  intros f1 e f2 s s' En I T A.
  assert (Hi : In e new) by (rewrite En; apply in_or_app; right; left; reflexivity).
  (* nothing is renamed here *)
  assert (NoD : tinv f1 s' -> (forall p, ~ drct (e_path e) p) -> tinv (f1 ++ [e]) s').
  { intros [T1 T2 T3] N. split; auto. intros e' a J Ia D. apply in_app_or in J as [J|[<-|[]]]; [exact (T3 _ _ J Ia D)|]. exfalso. exact (N _ D). }
  assert (NoR : rule_of v e = None -> forall p, ~ drct (e_path e) p).
  { intros RN p (prev & R & _). apply (rule_of_iff new v Wn e prev Hi) in R. congruence. }
  (* a special rule *)
  assert (Sp : forall p, rule_of v e = None -> special v e -> process_parent_renames np (e_path e) s = Ok p ->
     (forall k, typed (o2n s') k <-> k = p \/ typed (o2n s) k) -> (forall k, typed (n2o s') k <-> k = e_path e \/ typed (n2o s) k) -> tinv (f1 ++ [e]) s').
  { intros p RN SP PP K1 K2. destruct (parent_origin f1 e f2 s p En I) as (b & O); auto.
    { intros prev R. apply (rule_of_iff new v Wn e prev Hi) in R. congruence. }
    apply NoD; [|apply NoR; exact RN]. destruct T as [T1 T2 T3]. split.
    - intros k Tk. apply K1 in Tk as [-> |Tk]; [|auto]. exists e, b. auto.
    - intros k Tk. apply K2 in Tk as [-> |Tk]; [|auto]. exists e, p, b. auto.
    - intros e' a J Ia D. destruct (T3 _ _ J Ia D) as [S|(S1 & S2)]; [auto|right]. split; [apply K1; auto|apply K2; auto]. }
  assert (Ty1 : forall m h p k, typed (set_type p h m) k <-> k = p \/ typed m k).
  { intros m h p k. unfold typed. cbn. rewrite aset_some. tauto. }
  assert (Ty2 : forall m h p k, typed (set_post p h m) k <-> k = p \/ typed m k).
  { intros m h p k. unfold typed. cbn. rewrite aset_some. tauto. }
  assert (Ty3 : forall m x k, typed (add_ignore x m) k <-> typed m k) by (intros; reflexivity).
  unfold nbc_step in A. destruct (e_nbc e) as [n|] eqn:Enb.
  2:{ inversion A; subst. apply NoD; auto. apply NoR. unfold rule_of. rewrite Enb. reflexivity. }
  destruct (n_versions n) as [| |vs] eqn:Ev; [discriminate| |].
  { inversion A; subst. apply NoD; auto. apply NoR. unfold rule_of. rewrite Enb, Ev. reflexivity. }
  destruct (negb (sortedZ vs)) eqn:Es; [discriminate|]. apply negb_false_iff in Es.
  destruct (last vs 0 <=? v)%Z eqn:El.
  { inversion A; subst. apply NoD; auto. apply NoR. unfold rule_of. rewrite Enb, Ev. destruct (n_prev n) as [names|]; [|reflexivity].
    destruct (one_of _ (n_desc n)); [|reflexivity]. destruct (select_name v vs names) eqn:K; [|reflexivity]. apply select_spec in K as (i & x & K1 & K2 & _).
    apply nth_error_In in K1. assert (x <= last vs 0)%Z by (apply sorted_last; assumption). apply Z.leb_le in El. lia. }
  destruct (one_of ["aos_renamed"; "leaf_renamed"; "structure_renamed"]%string (n_desc n)) eqn:Ed.
  2:{ assert (RN : rule_of v e = None). { unfold rule_of. rewrite Enb, Ev. destruct (n_prev n); [|reflexivity]. rewrite Ed. reflexivity. }
      assert (SO := fun l => special_of e n vs l Enb Ev El).
      destruct (one_of ["type_changed"]%string (n_desc n)); [inversion A; subst; apply NoD; auto|].
      destruct (one_of ["repeat_children_first_point"]%string (n_desc n)) eqn:D1.
      { destruct (process_parent_renames np (e_path e) s) as [p|] eqn:PP; [|discriminate]. cbn in A. inversion A; subst s'. apply (Sp p); auto.
        - apply (SO _ D1). intros x. cbn [map In]. tauto.
        - intros k. cbn [o2n n2o on_o2n on_n2o]. apply Ty2.
        - intros k. cbn [o2n n2o on_o2n on_n2o]. apply Ty2. }
      destruct (one_of ["repeat_children_first_point_conditional"]%string (n_desc n)) eqn:D2.
      { destruct (process_parent_renames np (e_path e) s) as [p|] eqn:PP; [|discriminate]. cbn in A. inversion A; subst s'. apply (Sp p); auto.
        - apply (SO _ D2). intros x. cbn [map In]. tauto.
        - intros k. cbn [o2n n2o on_o2n on_n2o]. rewrite Ty3. apply Ty1.
        - intros k. cbn [o2n n2o on_o2n on_n2o]. apply Ty1. }
      destruct (one_of ["repeat_children_first_point_conditional_sibling"; "repeat_children_first_point_conditional_sibling_dynamic"]%string (n_desc n)) eqn:D3.
      { destruct (process_parent_renames np (e_path e) s) as [p|] eqn:PP; [|discriminate]. cbn in A. inversion A; subst s'. apply (Sp p); auto.
        - apply (SO _ D3). intros x. cbn [map In]. tauto.
        - intros k. cbn [o2n n2o on_o2n on_n2o]. rewrite Ty3. apply Ty1.
        - intros k. cbn [o2n n2o on_o2n on_n2o]. apply Ty1. }
      destruct (one_of ["remove_last_point_if_open_annular_centreline"]%string (n_desc n)) eqn:D4.
      { destruct (process_parent_renames np (e_path e) s) as [p|] eqn:PP; [|discriminate]. cbn in A. inversion A; subst s'. apply (Sp p); auto.
        - apply (SO _ D4). intros x. cbn [map In]. tauto.
        - intros k. cbn [o2n n2o on_o2n on_n2o]. rewrite Ty3. apply Ty1.
        - intros k. cbn [o2n n2o on_o2n on_n2o]. apply Ty1. }
      inversion A; subst. apply NoD; auto. }
  clear Sp. destruct (n_prev n) as [names|] eqn:Epr; [|discriminate]. destruct (negb (length names =? length vs)); [discriminate|].
  destruct (select_name v vs names) as [prev|] eqn:Esel; [|discriminate].
  assert (R : rule new v (e_path e) prev).
  { apply rule_of_spec; [exact Hi|]. unfold rule_of. rewrite Enb, Ev, Epr, Ed. exact Esel. }
  destruct (get_old_path_origin old new v Wo Wn Hplain f1 e f2 s prev En I R) as (p & Gp & D1 & D2 & D3). rewrite Gp in A. cbn in A.
  destruct (alookup p op) as [oi|] eqn:Lo.
  - apply (by_path_lookup old (wf_nodup _ Wo)) in Lo. destruct Lo as [Ho Eo]. assert (Eo' : exists_in old p) by (exists oi; auto). assert (D := D1 Eo').
    assert (M := direct_moved _ _ _ _ _ D). assert (O := direct_origin _ _ _ _ _ D).
    destruct (check_data_type oi e s) as [[same s1]|] eqn:C; [|discriminate]. cbn in A.
    assert (same = true). { eapply check_supported; [|exact C]. apply Hsup; [exact Ho|exact Hi|rewrite Eo; exact M|exists prev; exact R]. }
    subst same. destruct (check_rules _ _ _ _ _ C) as (MR & C1 & C2 & C3).
    destruct (add_rename op np p (e_path e) s1) as [s2|] eqn:A2; [|discriminate]. cbn in A. apply add_rename_rules in A2.
    assert (K : m_type (o2n s') = m_type (o2n s1) /\ m_post (o2n s') = m_post (o2n s1) /\ m_type (n2o s') = m_type (n2o s1) /\ m_post (n2o s') = m_post (n2o s1)).
    { destruct (is_structure oi); [|inversion A; subst; exact A2]. apply add_below_rules in A. destruct A as (? & ? & ? & ?), A2 as (? & ? & ? & ?). repeat split; congruence. }
    destruct K as (K1 & K2 & K3 & K4).
    assert (Ko : forall k, typed (o2n s') k <-> typed (o2n s1) k) by (intros k; unfold typed; rewrite K1, K2; reflexivity).
    assert (Kn : forall k, typed (n2o s') k <-> typed (n2o s1) k) by (intros k; unfold typed; rewrite K3, K4; reflexivity).
    destruct T as [T1 T2 T3]. split.
    + intros k Tk. apply Ko, C1 in Tk as [Tk|(-> & NS)]; [auto|]. exists e, true. rewrite Eo. split; [exact Hi|]. split; [exact O|]. right. exists oi. auto.
    + intros k Tk. apply Kn, C2 in Tk as [Tk|(-> & NS)]; [auto|]. exists e, p, true. split; [exact Hi|]. split; [reflexivity|]. split; [exact O|]. right. exists oi. auto.
    + intros e' a J Ia De. apply in_app_or in J as [J|[<-|[]]].
      * destruct (T3 _ _ J Ia De) as [S|(S1 & S2)]; [auto|right]. split; [apply Ko, MR; exact S1|apply Kn, MR; exact S2].
      * assert (a = oi) as -> by (apply (same_elem old Wo); auto; rewrite Eo; apply D3; exact De).
        destruct C3 as [S|(S1 & S2)]; [auto|right]. split; [apply Ko; exact S1|apply Kn; exact S2].
  - inversion A; subst. apply NoD; [exact T|]. intros p' D'. assert (p' = p) by (apply D3; exact D'). subst p'. destruct (D2 D') as (oi & H1 & H2).
    assert (alookup p op = Some oi) by (apply by_path_lookup; [apply Wo|auto]). congruence.
Qed.
Lemma loop_rules : forall f2 f1 s s', new = f1 ++ f2 -> inv f1 s -> tinv f1 s -> nbc_loop op np v f2 s = Ok s' -> tinv new s'.
Proof.
  induction f2 as [|e f2 IH]; intros f1 s s' En I T A; cbn [nbc_loop] in A.
  - inversion A; subst s'. rewrite app_nil_r in En. rewrite En. exact T.
  - destruct (nbc_step op np v e s) as [s1|] eqn:A1; [|discriminate]. cbn in A.
    apply (IH (f1 ++ [e]) s1 s'); [rewrite <- app_assoc; exact En| | |exact A].
    + exact (nbc_step_inv old new v Wo Wn Hplain Hreuse Hsib Hone Hsup f1 e f2 s s1 En I A1).
    + exact (step_rules f1 e f2 s s1 En I T A1).
Qed.
Lemma tinv_init : tinv [] {| o2n := empty_map; n2o := empty_map |}.
Proof. split; [intros k [H|H]; destruct (H eq_refl)|intros k [H|H]; destruct (H eq_refl)|intros e a []]. Qed.

(** *** The common paths *)
Definition quiet (s : maps) (k : str) : Prop := in_map k (n2o s) = false /\ in_map k (o2n s) = false.
Lemma common_rules : forall cs s s', common_loop op np cs s = Ok s' -> more_rules s s' /\
  (forall k, typed (o2n s') k -> typed (o2n s) k \/ (quiet s k /\ exists a b, In a old /\ In b new /\ e_path a = k /\ e_path b = k /\ ~ same_type a b)) /\
  (forall k, typed (n2o s') k -> typed (n2o s) k \/ (quiet s k /\ exists a b, In a old /\ In b new /\ e_path a = k /\ e_path b = k /\ ~ same_type a b)) /\
  (forall a b, In a old -> In b new -> e_path a = e_path b -> In (e_path a) cs -> quiet s (e_path a) ->
     same_type a b \/ (typed (o2n s') (e_path a) /\ typed (n2o s') (e_path a))).
Proof.
  induction cs as [|c cs IH]; intros s s' A; cbn [common_loop] in A.
  - inversion A; subst. split; [split; auto|]. split; [auto|]. split; [auto|]. intros a b _ _ _ [].
  - destruct (in_map c (n2o s) || in_map c (o2n s)) eqn:Em.
    + destruct (IH _ _ A) as (H1 & H2 & H3 & H4). split; [auto|]. split; [auto|]. split; [auto|]. intros a b Ia Ib E [<-|J] Q; [|eauto].
      exfalso. apply orb_true_iff in Em. destruct Q as (Q1 & Q2). destruct Em; congruence.
    + apply orb_false_iff in Em as (Em1 & Em2).
      destruct (alookup c op) as [a0|] eqn:La; [|discriminate]. destruct (alookup c np) as [b0|] eqn:Lb; [|discriminate].
      apply (by_path_lookup old (wf_nodup _ Wo)) in La. apply (by_path_lookup new (wf_nodup _ Wn)) in Lb. destruct La as [Ia Pa], Lb as [Ib Pb].
      destruct (check_data_type a0 b0 s) as [[t s1]|] eqn:C; [|discriminate]. cbn in A.
      destruct (check_rules _ _ _ _ _ C) as (MR & C1 & C2 & C3). destruct (IH _ _ A) as (H1 & H2 & H3 & H4).
      assert (Q1 : forall k, quiet s1 k -> quiet s k).
      { intros k (X & Y). destruct (check_entries _ _ _ _ _ C) as [Ct Cf]. destruct t.
        - destruct (Ct eq_refl k) as (E1 & E2). unfold quiet, in_map in *. unfold entry in E1, E2. rewrite E1 in X. rewrite E2 in Y. auto.
        - destruct (Cf eq_refl k) as (E1 & E2). unfold quiet, in_map in *. unfold entry in E1, E2. rewrite E1 in X. rewrite E2 in Y.
          destruct (str_eqb k (e_path b0)); [discriminate|]. destruct (str_eqb k (e_path a0)); [discriminate|]. auto. }
      assert (Q2 : forall k, k <> c -> quiet s k -> quiet s1 k).
      { intros k Nk (X & Y). destruct (check_entries _ _ _ _ _ C) as [Ct Cf]. destruct t.
        - destruct (Ct eq_refl k) as (E1 & E2). unfold quiet, in_map in *. unfold entry in E1, E2. rewrite E1, E2. auto.
        - destruct (Cf eq_refl k) as (E1 & E2). unfold quiet, in_map in *. unfold entry in E1, E2. rewrite E1, E2. rewrite Pa, Pb.
          apply str_eqb_neq in Nk. rewrite Nk. auto. }
      split; [intros k; split; intros H; apply H1, MR; exact H|]. split; [|split].
      * intros k Tk. apply H2 in Tk as [Tk|(Q & X)]; [|auto]. apply C1 in Tk as [Tk|(-> & NS)]; [auto|]. right. split; [rewrite Pa; split; auto|]. exists a0, b0. repeat split; auto. congruence.
      * intros k Tk. apply H3 in Tk as [Tk|(Q & X)]; [|auto]. apply C2 in Tk as [Tk|(-> & NS)]; [auto|]. right. split; [rewrite Pb; split; auto|]. exists a0, b0. repeat split; auto. congruence.
      * intros a b Ja Jb E J Q. destruct (str_dec (e_path a) c) as [Ec|Nc].
        -- assert (a = a0) as -> by (apply (same_elem old Wo); congruence). assert (b = b0) as -> by (apply (same_elem new Wn); congruence).
           destruct C3 as [S|(S1 & S2)]; [auto|right]. rewrite <- E in S2. split; apply H1; auto.
        -- destruct J as [J|J]; [congruence|]. apply H4; auto.
Qed.
Lemma map_missing_rules : forall missing m, m_type (map_missing missing m) = m_type m /\ m_post (map_missing missing m) = m_post m.
Proof.
  intros missing m. unfold map_missing. generalize (skip_loop (parents_of_keys m) (sort_paths missing) []) as l. intros l. revert m.
  induction l as [|x l IH]; intros m; cbn [fold_left]; [auto|]. destruct (IH (set_path x None m)) as (H1 & H2). rewrite H1, H2. auto.
Qed.

(** *** The complete map *)
Lemma origin_unmoved : forall q p, orig q p false -> q = p.
Proof.
  intros q p H. remember false as b eqn:Eb. revert Eb. induction H; intros Eb; try discriminate; [reflexivity|]. rewrite IHorigin by exact Eb. reflexivity.
Qed.
Hypothesis Hstays : same_quantity old new v.
Hypothesis Hinside : types_inside old new v.
Hypothesis Hcapture : no_capture old new v.
Theorem rules_exact : forall order s, (forall l, Permutation (order l) l) -> build_map order old new v = Ok s ->
  (forall k, typed (o2n s) k -> reason_old k) /\ (forall k, typed (n2o s) k -> reason_new k) /\
  (forall a e, In a old -> In e new -> (exists b, orig (e_path e) (e_path a) b) -> same_type a e \/ (typed (o2n s) (e_path a) /\ typed (n2o s) (e_path e))).
Proof.
  intros order s Ord H. unfold build_map in H.
  destruct (nbc_loop op np v new {| o2n := empty_map; n2o := empty_map |}) as [s1|] eqn:L; [|discriminate]. cbn in H.
  destruct (loop_exact old new v Wo Wn Hplain Hreuse Hsib Hone Hsup s1 L) as [X1 X2].
  assert (T := loop_rules new [] _ s1 eq_refl (inv_init old new v) tinv_init L).
  set (cs := order (filter (fun p => has p np) (akeys op))) in *.
  assert (Cs : forall k, In k cs <-> exists_in old k /\ exists_in new k).
  { intros k. unfold cs. split.
    - intros K. apply (Permutation_in _ (Ord _)) in K. apply filter_In in K. rewrite by_path_keys, has_exists in K. exact K.
    - intros K. apply (Permutation_in _ (Permutation_sym (Ord _))). apply filter_In. rewrite by_path_keys, has_exists. exact K. }
  destruct (common_loop op np cs s1) as [s2|] eqn:C; [|discriminate]. cbn in H.
  destruct (common_rules cs s1 s2 C) as (MR & C1 & C2 & C3).
  assert (E1 : forall k, in_map k (n2o s1) = false <-> forall p, ~ mvd p k).
  { intros k. unfold in_map. change (alookup k (m_path (n2o s1))) with (entry (n2o s1) k). destruct (entry (n2o s1) k) as [x|] eqn:E.
    - split; [discriminate|]. intros N. apply X1 in E. destruct E as [p [_ M]]. exfalso. exact (N _ M).
    - split; [|reflexivity]. intros _ p M. assert (entry (n2o s1) k = Some (Some p)) by (apply X1; exists p; auto). congruence. }
  assert (E2 : forall k, in_map k (o2n s1) = false <-> forall q, ~ mvd k q).
  { intros k. unfold in_map. change (alookup k (m_path (o2n s1))) with (entry (o2n s1) k). destruct (entry (o2n s1) k) as [x|] eqn:E.
    - split; [discriminate|]. intros N. apply X2 in E. destruct E as [p [_ M]]. exfalso. exact (N _ M).
    - split; [|reflexivity]. intros _ p M. assert (entry (o2n s1) k = Some (Some p)) by (apply X2; exists p; auto). congruence. }
  cbn in H. inversion H as [Hs]. clear H.
  assert (K : forall k, (typed (o2n s) k <-> typed (o2n s2) k) /\ (typed (n2o s) k <-> typed (n2o s2) k)).
  { intros k. rewrite <- Hs. cbn [o2n n2o on_o2n on_n2o]. unfold typed. rewrite !(proj1 (map_missing_rules _ _)), !(proj2 (map_missing_rules _ _)). split; reflexivity. }
  rewrite Hs. destruct T as [T1 T2 T3]. split; [|split].
  - intros k Tk. apply K, C1 in Tk as [Tk|((Q1 & Q2) & a & b & Ia & Ib & Pa & Pb & NS)]; [auto|].
    exists b, false. rewrite Pb. split; [exact Ib|]. split; [|right; exists a; auto]. apply Hstays; [exists a; auto|exists b; auto|apply E2; exact Q2].
  - intros k Tk. apply K, C2 in Tk as [Tk|((Q1 & Q2) & a & b & Ia & Ib & Pa & Pb & NS)]; [auto|].
    exists b, k, false. split; [exact Ib|]. split; [exact Pb|]. split; [|right; exists a; auto]. apply Hstays; [exists a; auto|exists b; auto|apply E2; exact Q2].
  - intros a e Ia Ie (b & O). destruct b.
    + assert (M : mvd (e_path a) (e_path e)) by (split; [exists a; auto|split; [exists e; auto|exact O]]).
      destruct (origin_closest _ _ _ _ _ O) as (q1 & p1 & D & [(Eq & Ep)|(r & Eq & Ep)]).
      * rewrite <- Eq, <- Ep in D. destruct (T3 e a Ie Ia D) as [S|(S1 & S2)]; [auto|right]. split; [apply K, MR; exact S1|apply K, MR; exact S2].
      * left. apply (Hinside p1 q1 r); auto. exact (direct_moved _ _ _ _ _ D).
    + assert (E := origin_unmoved _ _ O). assert (Ek : exists_in old (e_path a)) by (exists a; auto).
      assert (Nk : exists_in new (e_path a)) by (exists e; auto).
      assert (Q1 : forall p, ~ mvd p (e_path a)).
      { intros p (_ & _ & O'). rewrite E in O. destruct (origin_fun old new v Wn _ _ _ O _ _ O') as (_ & X). discriminate. }
      assert (Q2 : forall q, ~ mvd (e_path a) q).
      { intros q M. destruct (proj2 Hcapture _ _ M Nk) as (p' & M'). exact (Q1 _ M'). }
      destruct (C3 a e Ia Ie (eq_sym E)) as [S|(S1 & S2)]; [apply Cs; auto|split; [apply E1|apply E2]; auto|auto|right].
      split; [apply K; exact S1|rewrite E; apply K; exact S2].
Qed.
End Rules.
