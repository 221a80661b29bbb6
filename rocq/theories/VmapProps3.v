(** The rules for version 3 to version 4: names and identifiers (GH#59), sign flips, obsolete quantities (GH#55). *)
From Verif Require Import Base DataTypeModel TreeSpec HashModel ValModel VmapModel VmapSpec VmapProofs VmapProofs2 VmapProofs3 VmapProofs4 VmapProps2.

(** * Specification *)
Definition nm (P : str) : str := P ++ strs "/name".
Definition idn (P : str) : str := P ++ strs "/identifier".
Definition dsc (P : str) : str := P ++ strs "/description".
(** [P] has a name and an identifier in the old version and is not an identifier structure; the new version has a description and a name. *)
Definition swapped (old new : fields) (P : str) : Prop :=
  exists_in old (nm P) /\ exists_in old (idn P) /\ ~ exists_in old (P ++ strs "/index") /\ exists_in new (dsc P) /\ exists_in new (nm P).

(** * Names and identifiers *)
Lemma nm_idn : forall P Q, nm P <> idn Q.
Proof. intros P Q E. unfold nm, idn in E. apply (f_equal (@rev ascii)) in E. rewrite !rev_app_distr in E. discriminate. Qed.
Lemma nm_dsc : forall P Q, nm P <> dsc Q.
Proof. intros P Q E. unfold nm, dsc in E. apply (f_equal (@rev ascii)) in E. rewrite !rev_app_distr in E. discriminate. Qed.
Lemma idn_dsc : forall P Q, idn P <> dsc Q.
Proof. intros P Q E. unfold idn, dsc in E. apply (f_equal (@rev ascii)) in E. rewrite !rev_app_distr in E. discriminate. Qed.
Lemma nm_inj : forall P Q, nm P = nm Q -> P = Q. Proof. intros P Q. apply app_inv_tail. Qed.
Lemma idn_inj : forall P Q, idn P = idn Q -> P = Q. Proof. intros P Q. apply app_inv_tail. Qed.
Lemma dsc_inj : forall P Q, dsc P = dsc Q -> P = Q. Proof. intros P Q. apply app_inv_tail. Qed.

Lemma ends_with_iff : forall x s, ends_with x s = true <-> exists P, s = P ++ x.
Proof.
  intros x s. unfold ends_with. rewrite andb_true_iff, Nat.leb_le, str_eqb_eq. split.
  - intros [_ E]. exists (firstn (length s - length x) s). rewrite <- E at 2. symmetry. apply firstn_skipn.
  - intros [P ->]. rewrite app_length. split; [lia|]. replace (length P + length x - length x) with (length P) by lia.
    rewrite skipn_app, skipn_all, Nat.sub_diag. reflexivity.
Qed.
Lemma before_slash_nm : forall P, before_slash (nm P) = Some P.
Proof.
  intros P. unfold before_slash, nm. change (P ++ strs "/name") with (P ++ slash :: strs "name"). rewrite iter_parents_app.
  - rewrite rev_app_distr. reflexivity.
  - intros H. cbn in H. unfold slash in H. destruct H as [H|[H|[H|[H|[]]]]]; discriminate.
Qed.
Lemma in_map_entry : forall k m, in_map k m = true <-> entry m k <> None.
Proof. intros k m. unfold in_map, entry. destruct (alookup k (m_path m)); split; congruence. Qed.
Lemma in_map_none : forall k m, in_map k m = false <-> entry m k = None.
Proof. intros k m. unfold in_map, entry. destruct (alookup k (m_path m)); split; congruence. Qed.

Section Names.
Variables (old new : fields).
Hypothesis (Wo : wf_fields old) (Wn : wf_fields new).
Local Notation op := (by_path old).
Local Notation np := (by_path new).

Lemma add_rename_entries : forall p q s s', add_rename op np p q s = Ok s' -> forall k,
  entry (o2n s') k = (if str_eqb k p then Some (Some q) else entry (o2n s) k) /\ entry (n2o s') k = (if str_eqb k q then Some (Some p) else entry (n2o s) k).
Proof.
  intros p q s s' R k. destruct (add_rename_entry old new Wo Wn _ _ _ _ R) as [a [b [co [cn [to [tn [_ [_ [_ [_ [_ [_ [_ [_ ->]]]]]]]]]]]]]].
  unfold entry. cbn. rewrite !alookup_aset. auto.
Qed.

Definition name_effect (P : str) (s s' : maps) : Prop :=
  (forall k, k <> nm P -> k <> idn P -> entry (o2n s') k = entry (o2n s) k)
  /\ (entry (o2n s) (nm P) = None -> entry (o2n s') (nm P) = Some (Some (dsc P)) /\ entry (n2o s') (dsc P) = Some (Some (nm P)))
  /\ (entry (o2n s) (nm P) <> None -> entry (o2n s') (nm P) = entry (o2n s) (nm P) /\ entry (n2o s') (dsc P) = entry (n2o s) (dsc P))
  /\ (entry (o2n s) (idn P) <> None -> entry (o2n s') (idn P) = Some (Some (nm P)) /\ entry (n2o s') (nm P) = Some (Some (idn P)))
  /\ (entry (o2n s) (idn P) = None -> entry (o2n s') (idn P) = None /\ entry (n2o s') (nm P) = entry (n2o s) (nm P))
  /\ (forall k, k <> nm P -> k <> dsc P -> entry (n2o s') k = entry (n2o s) k).

Ltac keys := repeat match goal with
  | |- context [str_eqb ?a ?a] => rewrite (str_eqb_refl a)
  | H : context [str_eqb ?a ?a] |- _ => rewrite (str_eqb_refl a) in H
  | |- context [str_eqb ?a ?b] => let E := fresh in assert (E : str_eqb a b = false) by
       (apply str_eqb_neq; first [assumption | apply nm_idn | apply nm_dsc | apply idn_dsc | apply not_eq_sym; first [apply nm_idn | apply nm_dsc | apply idn_dsc]]); rewrite E in *; clear E
  end.

Lemma name_step_spec : forall p s s', name_step op np p s = Ok s' ->
  (exists P, p = nm P /\ swapped old new P /\ name_effect P s s') \/ (~ (exists P, p = nm P /\ swapped old new P) /\ s' = s).
Proof.
  intros p s s' R. unfold name_step in R. destruct (ends_with (strs "/name") p) eqn:Ep; cbn [negb] in R.
  2: { right. inversion R. split; [|reflexivity]. intros [P [-> _]]. assert (K : ends_with (strs "/name") (nm P) = true) by (apply ends_with_iff; exists P; reflexivity). congruence. }
  apply ends_with_iff in Ep. destruct Ep as [P Ep]. fold (nm P) in Ep. subst p. rewrite before_slash_nm in R.
  change (P ++ strs "/name") with (nm P) in R. change (P ++ strs "/identifier") with (idn P) in R. change (P ++ strs "/description") with (dsc P) in R.
  assert (NO : forall (b : Prop), (swapped old new P -> b) -> ~ b -> ~ (exists P0, nm P = nm P0 /\ swapped old new P0)).
  { intros b K1 K2 [P0 [E K3]]. apply nm_inj in E. subst P0. auto. }
  destruct (has (nm P) op) eqn:H1; [|right; cbn in R; inversion R; split; [|reflexivity]; apply has_not_exists in H1; apply (NO (exists_in old (nm P))); [intros K; apply K|exact H1]].
  destruct (has (idn P) op) eqn:H2; [|right; cbn in R; inversion R; split; [|reflexivity]; apply has_not_exists in H2; apply (NO (exists_in old (idn P))); [intros K; apply K|exact H2]].
  destruct (has (P ++ strs "/index") op) eqn:H3; [right; cbn in R; inversion R; split; [|reflexivity]; apply has_exists in H3; apply (NO (~ exists_in old (P ++ strs "/index"))); [intros K; apply K|tauto]|].
  destruct (has (dsc P) np) eqn:H4; [|right; cbn in R; inversion R; split; [|reflexivity]; apply has_not_exists in H4; apply (NO (exists_in new (dsc P))); [intros K; apply K|exact H4]].
  destruct (has (nm P) np) eqn:H5; [|right; cbn in R; inversion R; split; [|reflexivity]; apply has_not_exists in H5; apply (NO (exists_in new (nm P))); [intros K; apply K|exact H5]].
  left. exists P. split; [reflexivity|]. split.
  { apply has_exists in H1, H2, H4, H5. apply has_not_exists in H3. split; [exact H1|]. split; [exact H2|]. split; [exact H3|]. split; [exact H4|exact H5]. }
  cbn [negb orb] in R.
  assert (S1 : exists s1, (if in_map (nm P) (o2n s) then Ok s else add_rename op np (nm P) (dsc P) s) = Ok s1 /\ (if in_map (idn P) (o2n s1) then add_rename op np (idn P) (nm P) s1 else Ok s1) = Ok s').
  { destruct (in_map (nm P) (o2n s)); [exists s; split; [reflexivity|exact R]|]. destruct (add_rename op np (nm P) (dsc P) s) as [s1|]; [|discriminate]. exists s1. auto. }
  clear R. destruct S1 as [s1 [R1 R2]].
  assert (Q1 : (entry (o2n s) (nm P) <> None /\ s1 = s) \/ (entry (o2n s) (nm P) = None /\ add_rename op np (nm P) (dsc P) s = Ok s1)).
  { destruct (in_map (nm P) (o2n s)) eqn:M; [apply in_map_entry in M; left; split; [exact M|congruence]|apply in_map_none in M; right; auto]. }
  assert (Q2 : (entry (o2n s1) (idn P) = None /\ s' = s1) \/ (entry (o2n s1) (idn P) <> None /\ add_rename op np (idn P) (nm P) s1 = Ok s')).
  { destruct (in_map (idn P) (o2n s1)) eqn:M; [apply in_map_entry in M; right; auto|apply in_map_none in M; left; split; [exact M|congruence]]. }
  clear R1 R2. assert (I1 : entry (o2n s1) (idn P) = entry (o2n s) (idn P)).
  { destruct Q1 as [[_ ->]|[_ R]]; [reflexivity|]. destruct (add_rename_entries _ _ _ _ R (idn P)) as [K _]. rewrite K. keys. reflexivity. }
  unfold name_effect. destruct Q1 as [[N1 ->]|[N1 R1]]; destruct Q2 as [[N2 ->]|[N2 R2]].
  - split; [reflexivity|]. split; [intros; contradiction|]. split; [auto|]. split; [intros; contradiction|]. split; auto.
  - assert (A2 := add_rename_entries _ _ _ _ R2). split; [intros k K1 K2; destruct (A2 k) as [-> _]; keys; reflexivity|].
    split; [intros; contradiction|]. split; [intros _; destruct (A2 (nm P)) as [-> _]; destruct (A2 (dsc P)) as [_ ->]; keys; auto|].
    split; [intros _; destruct (A2 (idn P)) as [-> _]; destruct (A2 (nm P)) as [_ ->]; keys; auto|]. split; [intros; contradiction|].
    intros k K1 K2. destruct (A2 k) as [_ ->]. keys. reflexivity.
  - assert (A1 := add_rename_entries _ _ _ _ R1). split; [intros k K1 K2; destruct (A1 k) as [-> _]; keys; reflexivity|].
    split; [intros _; destruct (A1 (nm P)) as [-> _]; destruct (A1 (dsc P)) as [_ ->]; keys; auto|]. split; [intros; contradiction|].
    split; [intros; congruence|]. split; [intros _; split; [congruence|]; destruct (A1 (nm P)) as [_ ->]; keys; reflexivity|].
    intros k K1 K2. destruct (A1 k) as [_ ->]. keys. reflexivity.
  - assert (A1 := add_rename_entries _ _ _ _ R1). assert (A2 := add_rename_entries _ _ _ _ R2).
    split; [intros k K1 K2; destruct (A2 k) as [-> _]; destruct (A1 k) as [-> _]; keys; reflexivity|].
    split; [intros _; destruct (A2 (nm P)) as [-> _]; destruct (A2 (dsc P)) as [_ ->]; destruct (A1 (nm P)) as [-> _]; destruct (A1 (dsc P)) as [_ ->]; keys; auto|].
    split; [intros; contradiction|].
    split; [intros _; destruct (A2 (idn P)) as [-> _]; destruct (A2 (nm P)) as [_ ->]; keys; auto|]. split; [intros; congruence|].
    intros k K1 K2. destruct (A2 k) as [_ ->]. destruct (A1 k) as [_ ->]. keys. reflexivity.
Qed.

(** ** All names *)
Definition trig_o (ps : list str) (s : maps) (k x : str) : Prop := exists P, swapped old new P /\ In (nm P) ps /\
  ((k = nm P /\ entry (o2n s) k = None /\ x = dsc P) \/ (k = idn P /\ entry (o2n s) k <> None /\ x = nm P)).
Definition trig_n (ps : list str) (s : maps) (k x : str) : Prop := exists P, swapped old new P /\ In (nm P) ps /\
  ((k = dsc P /\ entry (o2n s) (nm P) = None /\ x = nm P) \/ (k = nm P /\ entry (o2n s) (idn P) <> None /\ x = idn P)).

Lemma stays_o : forall ps s s', name_loop op np ps s = Ok s' -> forall P,
  (entry (o2n s) (nm P) <> None -> entry (o2n s') (nm P) = entry (o2n s) (nm P)) /\ (entry (o2n s) (idn P) = Some (Some (nm P)) -> entry (o2n s') (idn P) = Some (Some (nm P))).
Proof.
  induction ps as [|p ps IH]; intros s s' R P; cbn [name_loop] in R; [inversion R; auto|]. destruct (name_step op np p s) as [s1|] eqn:E; [|discriminate]. cbn in R.
  destruct (IH s1 s' R P) as [I1 I2]. destruct (name_step_spec _ _ _ E) as [[P0 [-> [_ [F1 [F2 [F3 [F4 [F5 F6]]]]]]]]|[_ ->]]; [|auto]. destruct (str_dec P P0) as [->|N].
  - split.
    + intros K. destruct (F3 K) as [K1 _]. rewrite I1 by congruence. exact K1.
    + intros K. apply I2. apply F4. congruence.
  - split.
    + intros K. assert (K1 : entry (o2n s1) (nm P) = entry (o2n s) (nm P)) by (apply F1; [intros K'; apply nm_inj in K'; auto|apply nm_idn]). rewrite I1 by congruence. exact K1.
    + intros K. apply I2. rewrite F1; [exact K|apply not_eq_sym; apply nm_idn|intros K'; apply idn_inj in K'; auto].
Qed.
Lemma stays_n : forall ps s s', name_loop op np ps s = Ok s' -> forall P,
  (entry (n2o s) (dsc P) = Some (Some (nm P)) -> entry (n2o s') (dsc P) = Some (Some (nm P))) /\ (entry (n2o s) (nm P) = Some (Some (idn P)) -> entry (n2o s') (nm P) = Some (Some (idn P))).
Proof.
  induction ps as [|p ps IH]; intros s s' R P; cbn [name_loop] in R; [inversion R; auto|]. destruct (name_step op np p s) as [s1|] eqn:E; [|discriminate]. cbn in R.
  destruct (IH s1 s' R P) as [I1 I2]. destruct (name_step_spec _ _ _ E) as [[P0 [-> [_ [F1 [F2 [F3 [F4 [F5 F6]]]]]]]]|[_ ->]]; [|auto]. destruct (str_dec P P0) as [->|N].
  - split; intros K; [apply I1|apply I2].
    + destruct (entry (o2n s) (nm P0)) eqn:Q; [|apply F2; reflexivity]. destruct (F3 ltac:(congruence)) as [_ ->]. exact K.
    + destruct (entry (o2n s) (idn P0)) eqn:Q; [apply F4; congruence|]. destruct (F5 eq_refl) as [_ ->]. exact K.
  - split; intros K; [apply I1|apply I2]; rewrite F6; try exact K.
    + apply not_eq_sym. apply nm_dsc.
    + intros K'; apply dsc_inj in K'; auto.
    + intros K'; apply nm_inj in K'; auto.
    + apply nm_dsc.
Qed.
Lemma name_loop_o : forall ps s s', name_loop op np ps s = Ok s' -> forall k,
  (forall x, trig_o ps s k x -> entry (o2n s') k = Some (Some x)) /\ ((forall x, ~ trig_o ps s k x) -> entry (o2n s') k = entry (o2n s) k).
Proof.
  induction ps as [|p ps IH]; intros s s' R k.
  { inversion R; subst. split; [intros x [P [_ [[] _]]]|auto]. }
  assert (R0 := R). cbn [name_loop] in R. destruct (name_step op np p s) as [s1|] eqn:E; [|discriminate]. cbn in R. destruct (IH s1 s' R k) as [I1 I2].
  assert (St := stays_o _ _ _ R). destruct (name_step_spec _ _ _ E) as [[P0 [-> [Sw [F1 [F2 [F3 [F4 [F5 F6]]]]]]]]|[No ->]].
  - split.
    + intros x [P [Q1 [Q2 Q3]]]. destruct (str_dec P P0) as [->|N].
      * destruct Q3 as [[-> [Q4 ->]]|[-> [Q4 ->]]].
        -- destruct (F2 Q4) as [K _]. destruct (St P0) as [S1 _]. rewrite S1; congruence.
        -- destruct (F4 Q4) as [K _]. destruct (St P0) as [_ S2]. apply S2. exact K.
      * apply I1. exists P. split; [exact Q1|]. split; [destruct Q2 as [Q2|Q2]; [apply nm_inj in Q2; congruence|exact Q2]|].
        assert (K : entry (o2n s1) k = entry (o2n s) k).
        { apply F1; destruct Q3 as [[-> _]|[-> _]].
          - intros K; apply nm_inj in K; auto.
          - apply not_eq_sym. apply nm_idn.
          - apply nm_idn.
          - intros K; apply idn_inj in K; auto. }
        rewrite K. exact Q3.
    + intros No. assert (K : entry (o2n s1) k = entry (o2n s) k).
      { destruct (str_dec k (nm P0)) as [->|N1].
        - destruct (entry (o2n s) (nm P0)) eqn:Q; [destruct (F3 ltac:(congruence)) as [K _]; exact K|].
          exfalso. apply (No (dsc P0)). exists P0. split; [exact Sw|]. split; [left; reflexivity|]. left. auto.
        - destruct (str_dec k (idn P0)) as [->|N2]; [|apply F1; assumption].
          destruct (entry (o2n s) (idn P0)) eqn:Q; [|destruct (F5 eq_refl) as [K _]; exact K].
          exfalso. apply (No (nm P0)). exists P0. split; [exact Sw|]. split; [left; reflexivity|]. right. split; [reflexivity|]. split; [congruence|reflexivity]. }
      rewrite <- K. apply I2. intros x [P [Q1 [Q2 Q3]]]. rewrite K in Q3. apply (No x). exists P. split; [exact Q1|]. split; [right; exact Q2|exact Q3].
  - assert (T : forall x, trig_o (p :: ps) s k x <-> trig_o ps s k x).
    { intros x. split; intros [P [Q1 [Q2 Q3]]]; exists P; (split; [exact Q1|]); (split; [|exact Q3]); [|right; exact Q2].
      destruct Q2 as [->|Q2]; [exfalso; apply No; exists P; auto|exact Q2]. }
    split; [intros x K; apply I1; apply T; exact K|intros K; apply I2; intros x K'; apply T in K'; exact (K x K')].
Qed.
Lemma name_loop_n : forall ps s s', name_loop op np ps s = Ok s' -> forall k,
  (forall x, trig_n ps s k x -> entry (n2o s') k = Some (Some x)) /\ ((forall x, ~ trig_n ps s k x) -> entry (n2o s') k = entry (n2o s) k).
Proof.
  induction ps as [|p ps IH]; intros s s' R k.
  { inversion R; subst. split; [intros x [P [_ [[] _]]]|auto]. }
  assert (R0 := R). cbn [name_loop] in R. destruct (name_step op np p s) as [s1|] eqn:E; [|discriminate]. cbn in R. destruct (IH s1 s' R k) as [I1 I2].
  assert (St := stays_n _ _ _ R). destruct (name_step_spec _ _ _ E) as [[P0 [-> [Sw [F1 [F2 [F3 [F4 [F5 F6]]]]]]]]|[No ->]].
  - assert (O1 : forall P, P <> P0 -> entry (o2n s1) (nm P) = entry (o2n s) (nm P)) by (intros P N; apply F1; [intros K; apply nm_inj in K; auto|apply nm_idn]).
    assert (O2 : forall P, P <> P0 -> entry (o2n s1) (idn P) = entry (o2n s) (idn P)) by (intros P N; apply F1; [apply not_eq_sym; apply nm_idn|intros K; apply idn_inj in K; auto]).
    split.
    + intros x [P [Q1 [Q2 Q3]]]. destruct (str_dec P P0) as [->|N].
      * destruct Q3 as [[-> [Q4 ->]]|[-> [Q4 ->]]].
        -- destruct (St P0) as [S1 _]. apply S1. apply F2. exact Q4.
        -- destruct (St P0) as [_ S2]. apply S2. apply F4. exact Q4.
      * apply I1. exists P. split; [exact Q1|]. split; [destruct Q2 as [Q2|Q2]; [apply nm_inj in Q2; congruence|exact Q2]|]. rewrite O1, O2 by exact N. exact Q3.
    + intros No. assert (K : entry (n2o s1) k = entry (n2o s) k).
      { destruct (str_dec k (nm P0)) as [->|N1].
        - destruct (entry (o2n s) (idn P0)) eqn:Q; [|destruct (F5 eq_refl) as [_ K]; exact K].
          exfalso. apply (No (idn P0)). exists P0. split; [exact Sw|]. split; [left; reflexivity|]. right. split; [reflexivity|]. split; [congruence|reflexivity].
        - destruct (str_dec k (dsc P0)) as [->|N2]; [|apply F6; assumption].
          destruct (entry (o2n s) (nm P0)) eqn:Q; [destruct (F3 ltac:(congruence)) as [_ K]; exact K|].
          exfalso. apply (No (nm P0)). exists P0. split; [exact Sw|]. split; [left; reflexivity|]. left. auto. }
      rewrite <- K. apply I2. intros x [P [Q1 [Q2 Q3]]]. destruct (str_dec P P0) as [->|N].
      * apply (No x). exists P0. split; [exact Q1|]. split; [left; reflexivity|]. destruct Q3 as [[-> [Q4 ->]]|[-> [Q4 ->]]].
        -- exfalso. destruct (entry (o2n s) (nm P0)) eqn:Q; [destruct (F3 ltac:(congruence)) as [K' _]; congruence|destruct (F2 eq_refl) as [K' _]; congruence].
        -- right. split; [reflexivity|]. split; [|reflexivity]. intros K'. apply Q4. apply F5. exact K'.
      * rewrite O1, O2 in Q3 by exact N. apply (No x). exists P. split; [exact Q1|]. split; [right; exact Q2|exact Q3].
  - assert (T : forall x, trig_n (p :: ps) s k x <-> trig_n ps s k x).
    { intros x. split; intros [P [Q1 [Q2 Q3]]]; exists P; (split; [exact Q1|]); (split; [|exact Q3]); [|right; exact Q2].
      destruct Q2 as [->|Q2]; [exfalso; apply No; exists P; auto|exact Q2]. }
    split; [intros x K; apply I1; apply T; exact K|intros K; apply I2; intros x K'; apply T in K'; exact (K x K')].
Qed.
End Names.

(** * Obsolete quantities (GH#55) *)

(** [e]: the map before; [m]: the map from version 3.41 to the new version.  A path without counterpart that version 3.41 has gets the
    counterpart it had in that version, and so do the paths below it; the others keep their entry. *)
Definition obsolete (m : list (str * option str)) (e : str -> option (option str)) (k : str) : Prop := e k = Some None /\ alookup k m <> None.
Inductive restored (m : list (str * option str)) (e : str -> option (option str)) (k : str) : option (option str) -> Prop :=
  | restored_here : forall v, obsolete m e k -> alookup k m = Some v -> restored m e k (Some v)
  | restored_below : forall k0 v, obsolete m e k0 -> inside k k0 -> alookup k m = Some v -> restored m e k (Some v)
  | restored_not : (alookup k m = None \/ (~ obsolete m e k /\ forall k0, inside k k0 -> ~ obsolete m e k0)) -> restored m e k (e k).

Lemma starts_with_slash : forall p k, starts_with (p ++ strs "/") k = true <-> inside k p.
Proof.
  intros p k. unfold starts_with, inside. rewrite str_eqb_eq. split.
  - intros E. exists (skipn (length (p ++ strs "/")) k). rewrite <- (firstn_skipn (length (p ++ strs "/")) k) at 1. rewrite <- E, <- app_assoc. reflexivity.
  - intros [r ->]. change (slash :: r) with (strs "/" ++ r). rewrite app_assoc, firstn_app, firstn_all, Nat.sub_diag. cbn [firstn]. rewrite app_nil_r. reflexivity.
Qed.
Lemma below_341_lookup : forall p m upd k, NoDup (akeys m) ->
  alookup k (below_341 p m upd) = if starts_with (p ++ strs "/") k then match alookup k m with Some v => Some v | None => alookup k upd end else alookup k upd.
Proof.
  intros p. induction m as [|[k0 v] m IH]; intros upd k N; [destruct (starts_with _ k); reflexivity|]. cbn [below_341 alookup]. inversion N as [|x l N1 N2]; subst. rewrite IH by exact N2.
  destruct (starts_with (p ++ strs "/") k) eqn:S.
  - destruct (str_eqb k k0) eqn:E.
    + apply str_eqb_eq in E. subst k0. rewrite S. assert (K : alookup k m = None).
      { destruct (alookup k m) eqn:K; [|reflexivity]. exfalso. apply N1. apply alookup_In in K. unfold akeys. apply in_map_iff. eexists. split; [|exact K]. reflexivity. }
      rewrite K. apply alookup_aset_same.
    + destruct (alookup k m); [reflexivity|]. destruct (starts_with (p ++ strs "/") k0); [|reflexivity]. rewrite alookup_aset, E. reflexivity.
  - destruct (starts_with (p ++ strs "/") k0) eqn:S0; [|reflexivity]. rewrite alookup_aset. destruct (str_eqb k k0) eqn:E; [apply str_eqb_eq in E; congruence|reflexivity].
Qed.
Lemma below_341_keys : forall p m upd, NoDup (akeys upd) -> NoDup (akeys (below_341 p m upd)).
Proof. intros p. induction m as [|[k v] m IH]; intros upd N; [exact N|]. cbn. apply IH. destruct (starts_with _ k); [apply TreeProofs4.akeys_aset_NoDup|]; exact N. Qed.

Lemma obsolete_fold : forall m, NoDup (akeys m) -> forall items m0 upd, NoDup (akeys items) -> NoDup (akeys upd) ->
  let r := fold_left (obsolete_step m) items (m0, upd) in
  (forall k, entry (fst r) k = match alookup k items with Some None => match alookup k m with Some v => Some v | None => entry m0 k end | _ => entry m0 k end)
  /\ NoDup (akeys (snd r))
  /\ (forall k, (forall k0, inside k k0 -> ~ (alookup k0 items = Some None /\ alookup k0 m <> None)) -> alookup k (snd r) = alookup k upd)
  /\ (forall k k0, inside k k0 -> alookup k0 items = Some None -> alookup k0 m <> None -> alookup k m <> None -> alookup k (snd r) = alookup k m)
  /\ (forall k, alookup k m = None -> alookup k (snd r) = alookup k upd)
  /\ (forall k, alookup k m <> None -> alookup k upd = alookup k m -> alookup k (snd r) = alookup k m)
  /\ ((forall k x, alookup k upd = Some x -> alookup k m = Some x) -> forall k x, alookup k (snd r) = Some x -> alookup k m = Some x)
  /\ m_post (fst r) = m_post m0.
Proof.
  intros m Nm. induction items as [|[k1 v1] items IH]; intros m0 upd Ni Nu; cbv zeta.
  { cbn. split; [reflexivity|]. split; [exact Nu|]. split; [reflexivity|]. split; [intros; discriminate|]. split; [reflexivity|]. split; [auto|]. split; [auto|reflexivity]. }
  cbn [fold_left]. inversion Ni as [|x l N1 N2]; subst. assert (Nk1 : alookup k1 items = None).
  { destruct (alookup k1 items) eqn:K; [|reflexivity]. exfalso. apply N1. apply alookup_In in K. unfold akeys. apply in_map_iff. eexists. split; [|exact K]. reflexivity. }
  assert (Case : (obsolete_step m (m0, upd) (k1, v1) = (m0, upd) /\ (v1 <> None \/ alookup k1 m = None))
              \/ (exists v, v1 = None /\ alookup k1 m = Some v /\ obsolete_step m (m0, upd) (k1, v1) = (set_path k1 v m0, below_341 k1 m upd))).
  { unfold obsolete_step. cbn [fst snd]. destruct v1 as [w|]; [left; split; [reflexivity|left; discriminate]|]. destruct (alookup k1 m) as [v|] eqn:E; [right; exists v; auto|left; auto]. }
  destruct Case as [[-> NT]|[v [-> [Hv ->]]]].
  - destruct (IH m0 upd N2 Nu) as [H1 [H2 [H3 [H4 [H5 [H6 H7]]]]]]. split; [|split; [exact H2|split; [|split; [|split; [exact H5|split; [exact H6|exact H7]]]]]].
    + intros k. rewrite H1. cbn [alookup]. destruct (str_eqb k k1) eqn:E; [|reflexivity]. apply str_eqb_eq in E. subst k1. rewrite Nk1.
      destruct v1 as [w|]; [reflexivity|]. destruct NT as [NT|NT]; [congruence|]. rewrite NT. reflexivity.
    + intros k K. apply H3. intros k0 Hk [A B]. apply (K k0 Hk). split; [|exact B]. cbn [alookup]. destruct (str_eqb k0 k1) eqn:E; [apply str_eqb_eq in E; congruence|exact A].
    + intros k k0 Hk A B C. cbn [alookup] in A. destruct (str_eqb k0 k1) eqn:E; [|exact (H4 k k0 Hk A B C)]. apply str_eqb_eq in E. subst k1. inversion A; subst v1. destruct NT as [NT|NT]; congruence.
  - destruct (IH (set_path k1 v m0) (below_341 k1 m upd) N2 (below_341_keys _ _ _ Nu)) as [H1 [H2 [H3 [H4 [H5 [H6 [H7 H8]]]]]]].
    split; [|split; [exact H2|split; [|split; [|split; [|split; [|split; [|exact H8]]]]]]].
    + intros k. rewrite H1. unfold entry. cbn [m_path set_path alookup]. rewrite alookup_aset. destruct (str_eqb k k1) eqn:E; [|reflexivity]. apply str_eqb_eq in E. subst k1.
      rewrite Nk1, Hv. reflexivity.
    + intros k K. rewrite H3.
      * rewrite below_341_lookup by exact Nm. destruct (starts_with (k1 ++ strs "/") k) eqn:S; [|reflexivity]. apply starts_with_slash in S. exfalso. apply (K k1 S). cbn [alookup]. rewrite str_eqb_refl. split; [reflexivity|congruence].
      * intros k0 Hk [A B]. apply (K k0 Hk). split; [|exact B]. cbn [alookup]. destruct (str_eqb k0 k1) eqn:E; [apply str_eqb_eq in E; congruence|exact A].
    + intros k k0 Hk A B C. cbn [alookup] in A. destruct (str_eqb k0 k1) eqn:E; [|exact (H4 k k0 Hk A B C)]. apply str_eqb_eq in E. subst k1. apply H6; [exact C|].
      rewrite below_341_lookup by exact Nm. apply starts_with_slash in Hk. rewrite Hk. destruct (alookup k m); congruence.
    + intros k K. rewrite H5 by exact K. rewrite below_341_lookup by exact Nm. rewrite K. destruct (starts_with _ k); reflexivity.
    + intros k K1 K2. apply H6; [exact K1|]. rewrite below_341_lookup by exact Nm. destruct (starts_with _ k); [|exact K2]. destruct (alookup k m); congruence.
    + intros U. apply H7. intros k x. rewrite below_341_lookup by exact Nm. destruct (starts_with _ k); [|apply U]. destruct (alookup k m) eqn:Q; [congruence|]. intros K. apply U in K. congruence.
Qed.
Lemma update_fold : forall upd m0 k, NoDup (akeys upd) -> entry (fold_left (fun m (kv : str * option str) => set_path (fst kv) (snd kv) m) upd m0) k = match alookup k upd with Some v => Some v | None => entry m0 k end.
Proof.
  induction upd as [|[k1 v] upd IH]; intros m0 k N; [reflexivity|]. inversion N as [|x l N1 N2]; subst. cbn [fold_left fst snd alookup]. rewrite IH by exact N2.
  destruct (str_eqb k k1) eqn:E.
  - apply str_eqb_eq in E. subst k1. assert (K : alookup k upd = None).
    { destruct (alookup k upd) eqn:K; [|reflexivity]. exfalso. apply N1. apply alookup_In in K. unfold akeys. apply in_map_iff. eexists. split; [|exact K]. reflexivity. }
    rewrite K. unfold entry. cbn. apply alookup_aset_same.
  - destruct (alookup k upd); [reflexivity|]. unfold entry. cbn. rewrite alookup_aset, E. reflexivity.
Qed.
Lemma obsolete_rules_entry : forall m s k r, NoDup (akeys m) -> NoDup (akeys (m_path (o2n s))) -> restored m (entry (o2n s)) k r -> entry (o2n (obsolete_rules (Some m) s)) k = r.
Proof.
  intros m s k r Nm Ns R. unfold obsolete_rules. cbn [on_o2n o2n]. destruct (obsolete_fold m Nm (m_path (o2n s)) (o2n s) [] Ns (NoDup_nil _)) as [H1 [H2 [H3 [H4 [H5 [H6 [H7 _]]]]]]].
  rewrite update_fold by exact H2. specialize (H7 ltac:(discriminate)). destruct R as [v [O1 _] Hv|k0 v [O1 O2] Hin Hv|N].
  - rewrite H1. unfold entry in O1. rewrite O1, Hv. destruct (alookup k (snd _)) eqn:E; [|reflexivity]. apply H7 in E. congruence.
  - rewrite (H4 k k0 Hin O1 O2) by congruence. rewrite Hv. reflexivity.
  - destruct N as [N|[N1 N2]].
    + rewrite (H5 k N). cbn [alookup]. rewrite H1, N. destruct (alookup k (m_path (o2n s))) as [[|]|]; reflexivity.
    + rewrite H3.
      * cbn [alookup]. rewrite H1. unfold obsolete in N1. unfold entry in *. destruct (alookup k (m_path (o2n s))) as [[|]|] eqn:E; try reflexivity.
        destruct (alookup k m) eqn:Q; [|reflexivity]. exfalso. apply N1. split; [reflexivity|discriminate].
      * intros k0 Hk K. exact (N2 k0 Hk K).
Qed.

(** * Sign flips *)
Lemma cocos_fold : forall ps s, let s' := fold_left cocos_step ps s in
  (forall k, m_path (o2n s') = m_path (o2n s) /\ m_path (n2o s') = m_path (n2o s) /\ alookup k (m_post (o2n s')) = (if mem k ps then Some H_cocos else alookup k (m_post (o2n s))))
  /\ (forall q, (exists p, In p ps /\ target_path (o2n s) p = Some q) -> alookup q (m_post (n2o s')) = Some H_cocos)
  /\ (forall q, ~ (exists p, In p ps /\ target_path (o2n s) p = Some q) -> alookup q (m_post (n2o s')) = alookup q (m_post (n2o s))).
Proof.
  induction ps as [|p ps IH]; intros s; cbv zeta.
  { split; [auto|]. split; [intros q [p [[] _]]|auto]. }
  cbn [fold_left]. destruct (IH (cocos_step s p)) as [I1 [I2 I3]]. cbv zeta in *.
  assert (P1 : m_path (o2n (cocos_step s p)) = m_path (o2n s)) by (unfold cocos_step; destruct (alookup p (m_path (o2n s))) as [[|]|]; reflexivity).
  assert (P2 : m_path (n2o (cocos_step s p)) = m_path (n2o s)) by (unfold cocos_step; destruct (alookup p (m_path (o2n s))) as [[|]|]; reflexivity).
  assert (P3 : forall k, alookup k (m_post (o2n (cocos_step s p))) = if str_eqb k p then Some H_cocos else alookup k (m_post (o2n s))).
  { intros k. unfold cocos_step. destruct (alookup p (m_path (o2n s))) as [[|]|]; cbn; apply alookup_aset. }
  assert (P4 : forall q, alookup q (m_post (n2o (cocos_step s p))) = match target_path (o2n s) p with Some q' => if str_eqb q q' then Some H_cocos else alookup q (m_post (n2o s)) | None => alookup q (m_post (n2o s)) end).
  { intros q. unfold cocos_step, target_path. destruct (alookup p (m_path (o2n s))) as [[|]|]; cbn; try apply alookup_aset; reflexivity. }
  assert (P5 : forall p', target_path (o2n (cocos_step s p)) p' = target_path (o2n s) p') by (intros p'; unfold target_path; rewrite P1; reflexivity).
  split; [|split].
  - intros k. destruct (I1 k) as [-> [-> ->]]. split; [exact P1|]. split; [exact P2|]. rewrite P3. unfold mem. cbn [existsb]. destruct (str_eqb k p); cbn [orb]; [|reflexivity]. destruct (existsb _ ps); reflexivity.
  - intros q [p' [[<-|H] T]].
    + destruct (existsb (fun p' => match target_path (o2n s) p' with Some q' => str_eqb q' q | None => false end) ps) eqn:E.
      * apply existsb_exists in E. destruct E as [p' [E1 E2]]. apply I2. exists p'. split; [exact E1|]. rewrite P5. destruct (target_path (o2n s) p'); [|discriminate]. apply str_eqb_eq in E2. congruence.
      * rewrite I3.
        -- rewrite P4, T, str_eqb_refl. reflexivity.
        -- intros [p' [H1 H2]]. rewrite P5 in H2. assert (K : existsb (fun p' => match target_path (o2n s) p' with Some q' => str_eqb q' q | None => false end) ps = true); [|congruence].
           apply existsb_exists. exists p'. split; [exact H1|]. rewrite H2. apply str_eqb_refl.
    + apply I2. exists p'. rewrite P5. auto.
  - intros q N. rewrite I3.
    + rewrite P4. destruct (target_path (o2n s) p) as [q'|] eqn:T; [|reflexivity]. destruct (str_eqb q q') eqn:E; [|reflexivity]. apply str_eqb_eq in E. subst q'. exfalso. apply N. exists p. split; [left; reflexivity|exact T].
    + intros [p' [H1 H2]]. rewrite P5 in H2. apply N. exists p'. split; [right; exact H1|exact H2].
Qed.

Lemma add_rename_posts : forall op np p q s s', add_rename op np p q s = Ok s' -> m_post (o2n s') = m_post (o2n s) /\ m_post (n2o s') = m_post (n2o s).
Proof.
  intros op np p q s s' R. unfold add_rename in R. destruct (alookup p op); [|discriminate]. destruct (alookup q np); [|discriminate].
  destruct (get_tbp _ np); [|discriminate]. destruct (get_ctxpath q np); [|discriminate]. destruct (get_tbp _ op); [|discriminate]. destruct (get_ctxpath p op); [|discriminate]. cbn in R. inversion R. auto.
Qed.
Lemma name_loop_posts : forall op np ps s s', name_loop op np ps s = Ok s' -> m_post (o2n s') = m_post (o2n s) /\ m_post (n2o s') = m_post (n2o s).
Proof.
  intros op np. induction ps as [|p ps IH]; intros s s' R; cbn [name_loop] in R; [inversion R; auto|]. destruct (name_step op np p s) as [s1|] eqn:E; [|discriminate]. cbn in R.
  destruct (IH s1 s' R) as [-> ->]. clear R IH. unfold name_step in E. destruct (negb _); [inversion E; auto|]. destruct (before_slash p) as [P|]; [|inversion E; auto].
  destruct (_ || _); [inversion E; auto|]. destruct (has _ op); [inversion E; auto|]. destruct (_ || _); [inversion E; auto|].
  destruct (in_map (P ++ strs "/name") (o2n s)).
  - cbn in E. destruct (in_map _ _); [exact (add_rename_posts _ _ _ _ _ _ E)|inversion E; auto].
  - destruct (add_rename op np _ _ s) as [s2|] eqn:E2; [|discriminate]. cbn in E. destruct (add_rename_posts _ _ _ _ _ _ E2) as [<- <-].
    destruct (in_map _ _); [exact (add_rename_posts _ _ _ _ _ _ E)|inversion E; auto].
Qed.
Lemma obsolete_rules_posts : forall m s, m_post (o2n (obsolete_rules m s)) = m_post (o2n s) /\ n2o (obsolete_rules m s) = n2o s.
Proof.
  intros [m|] s; [|auto]. split; [|reflexivity]. cbn [obsolete_rules on_o2n o2n].
  assert (A : forall upd m0, m_post (fold_left (fun m (kv : str * option str) => set_path (fst kv) (snd kv) m) upd m0) = m_post m0) by (induction upd as [|kv upd IH]; intros m0; [reflexivity|]; cbn [fold_left]; rewrite IH; reflexivity).
  rewrite A. generalize (m_path (o2n s)). intros items. assert (B : forall items m0 upd, m_post (fst (fold_left (obsolete_step m) items (m0, upd))) = m_post m0).
  { clear. induction items as [|[k v] items IH]; intros m0 upd; [reflexivity|]. cbn [fold_left]. unfold obsolete_step at 2. cbn [fst snd]. destruct v; [apply IH|]. destruct (alookup k m); [rewrite IH; reflexivity|apply IH]. }
  apply B.
Qed.

(** * The theorems *)

Definition source_path : str := strs "ids_properties/source".
Definition connections_path : str := strs "circuit/connections".
(** The quantities that change sign: those with a COCOS label like psi, and the listed ones. *)
Definition flipped (old : fields) (flips : list str) (p : str) : Prop := (exists e, In e old /\ e_path e = p /\ e_psi e = true) \/ In p flips.

(** C25: the sign rule is attached to exactly the quantities that change sign, and, in the backward map, to exactly their counterparts. *)
Theorem C25_sign_rules : forall ids_name old new flips m341 s s', apply_3to4 ids_name old new flips m341 s = Ok s' ->
  (forall k, ids_name <> strs "pf_active" \/ k <> connections_path ->
     (flipped old flips k -> alookup k (m_post (o2n s')) = Some H_cocos) /\ (~ flipped old flips k -> alookup k (m_post (o2n s')) = alookup k (m_post (o2n s)))
     /\ ((exists p, flipped old flips p /\ target_path (o2n s) p = Some k) -> alookup k (m_post (n2o s')) = Some H_cocos)
     /\ (~ (exists p, flipped old flips p /\ target_path (o2n s) p = Some k) -> alookup k (m_post (n2o s')) = alookup k (m_post (n2o s))))
  /\ (ids_name = strs "pf_active" -> alookup connections_path (m_post (o2n s')) = Some H_connections_3to4 /\ alookup connections_path (m_post (n2o s')) = Some H_connections_4to3).
Proof.
  intros ids_name old new flips m341 s s' R. unfold apply_3to4 in R. apply name_loop_posts in R. destruct R as [-> ->].
  destruct (obsolete_rules_posts m341 (special_rules ids_name (cocos_rules old flips s))) as [-> ->].
  unfold cocos_rules. set (ps := map e_path (filter e_psi old) ++ flips).
  assert (Fl : forall p, In p ps <-> flipped old flips p).
  { intros p. unfold ps, flipped. rewrite in_app_iff, in_map_iff. split; intros [H|H]; auto; left.
    - destruct H as [e [H1 H2]]. apply filter_In in H2. exists e. tauto.
    - destruct H as [e [H1 [H2 H3]]]. exists e. split; [exact H2|]. apply filter_In. auto. }
  destruct (cocos_fold ps s) as [C1 [C2 C3]]. cbv zeta in *. set (s1 := fold_left cocos_step ps s) in *.
  assert (Sp : forall k, ids_name <> strs "pf_active" \/ k <> connections_path -> alookup k (m_post (o2n (special_rules ids_name s1))) = alookup k (m_post (o2n s1)) /\ alookup k (m_post (n2o (special_rules ids_name s1))) = alookup k (m_post (n2o s1))).
  { intros k D. unfold special_rules. destruct (str_eqb ids_name (strs "equilibrium")) eqn:Eq; destruct (str_eqb ids_name (strs "pf_active")) eqn:Ep; cbn;
      try (apply str_eqb_eq in Ep; destruct D as [D|D]; [contradiction|]; rewrite !alookup_aset_other by (intros K; apply D; exact K)); auto. }
  split.
  - intros k D. destruct (Sp k D) as [-> ->]. destruct (C1 k) as [_ [_ ->]]. split; [|split; [|split]].
    + intros F. apply Fl in F. apply mem_In in F. rewrite F. reflexivity.
    + intros F. destruct (mem k ps) eqn:M; [exfalso; apply F; apply Fl; apply mem_In; exact M|reflexivity].
    + intros [p [F T]]. apply C2. exists p. split; [apply Fl; exact F|exact T].
    + intros N. apply C3. intros [p [F T]]. apply N. exists p. split; [apply Fl; exact F|exact T].
  - intros ->. clearbody s1. unfold special_rules, connections_path.
    change (str_eqb (strs "pf_active") (strs "equilibrium")) with false. change (str_eqb (strs "pf_active") (strs "pf_active")) with true. cbv iota.
    cbn [on_o2n on_n2o o2n n2o m_post set_type set_path set_post]. rewrite !alookup_aset_same. auto.
Qed.

(** The entries of the forward map before names are considered: ids_properties/source is turned into a provenance entry, obsolete
    quantities are restored. *)
Definition with_source (e : str -> option (option str)) (k : str) : option (option str) :=
  if str_eqb k source_path then Some (Some (strs "ids_properties/provenance")) else e k.
Definition prepared (m341 : option (list (str * option str))) (e : str -> option (option str)) (k : str) (r : option (option str)) : Prop :=
  match m341 with None => r = with_source e k | Some m => restored m (with_source e) k r end.

Lemma special_entries : forall ids_name s k, entry (o2n (special_rules ids_name s)) k = with_source (entry (o2n s)) k /\ entry (n2o (special_rules ids_name s)) k = entry (n2o s) k.
Proof.
  intros ids_name s k. unfold special_rules, with_source, entry, source_path. destruct (str_eqb ids_name (strs "equilibrium")); destruct (str_eqb ids_name (strs "pf_active"));
    cbn [on_o2n on_n2o o2n n2o m_path set_type set_path set_post add_ignore add_post_ids]; rewrite alookup_aset; auto.
Qed.
Lemma special_keys : forall ids_name s, NoDup (akeys (m_path (o2n s))) -> NoDup (akeys (m_path (o2n (special_rules ids_name s)))).
Proof.
  intros ids_name s N. unfold special_rules. destruct (str_eqb ids_name (strs "equilibrium")); destruct (str_eqb ids_name (strs "pf_active"));
    cbn [on_o2n on_n2o o2n n2o m_path set_type set_path set_post add_ignore add_post_ids]; apply TreeProofs4.akeys_aset_NoDup; exact N.
Qed.
Lemma restored_ext : forall m e e' k r, (forall k, e k = e' k) -> restored m e k r -> restored m e' k r.
Proof.
  intros m e e' k r H R. assert (O : forall k, obsolete m e k <-> obsolete m e' k) by (intros k0; unfold obsolete; rewrite H; reflexivity).
  destruct R as [v O1 Hv|k0 v O1 Hin Hv|N].
  - apply restored_here; [apply O|]; assumption.
  - apply (restored_below _ _ _ k0); [apply O| |]; assumption.
  - rewrite H. apply restored_not. destruct N as [N|[N1 N2]]; [left; exact N|right]. split; [intros K; apply N1; apply O; exact K|intros k0 K1 K2; apply (N2 k0 K1); apply O; exact K2].
Qed.

(** C20, C22: what the rules for version 3 to 4 do to the renamings.  A name becomes the description and an identifier the name, exactly where
    this applies; everything else keeps its entry (after obsolete quantities have been restored), in both directions. *)
Theorem C22_names_3to4 : forall ids_name old new flips m341 s s', wf_fields old -> wf_fields new ->
  NoDup (akeys (m_path (o2n s))) -> match m341 with Some m => NoDup (akeys m) | None => True end ->
  apply_3to4 ids_name old new flips m341 s = Ok s' -> let before := prepared m341 (entry (o2n s)) in
  (forall P, swapped old new P -> before (nm P) None -> entry (o2n s') (nm P) = Some (Some (dsc P)) /\ entry (n2o s') (dsc P) = Some (Some (nm P)))
  /\ (forall P x, swapped old new P -> before (idn P) (Some x) -> entry (o2n s') (idn P) = Some (Some (nm P)) /\ entry (n2o s') (nm P) = Some (Some (idn P)))
  /\ (forall k r, before k r -> (forall P, swapped old new P -> (k = nm P -> r <> None) /\ (k = idn P -> r = None)) -> entry (o2n s') k = r)
  /\ (forall k, (forall P, swapped old new P -> (k = dsc P -> exists x, before (nm P) (Some x)) /\ (k = nm P -> before (idn P) None)) -> entry (n2o s') k = entry (n2o s) k).
Proof.
  intros ids_name old new flips m341 s s' Wo Wn Ns Nm R before. unfold apply_3to4 in R.
  set (s0 := cocos_rules old flips s) in *. set (s1 := obsolete_rules m341 (special_rules ids_name s0)) in *.
  assert (E0 : forall k, entry (o2n s0) k = entry (o2n s) k /\ entry (n2o s0) k = entry (n2o s) k).
  { intros k. destruct (cocos_fold (map e_path (filter e_psi old) ++ flips) s) as [C _]. cbv zeta in C. destruct (C k) as [C1 [C2 _]]. unfold entry. unfold s0, cocos_rules. rewrite C1, C2. auto. }
  assert (N0 : NoDup (akeys (m_path (o2n s0)))).
  { destruct (cocos_fold (map e_path (filter e_psi old) ++ flips) s) as [C _]. cbv zeta in C. destruct (C []) as [C1 _]. unfold s0, cocos_rules. rewrite C1. exact Ns. }
  assert (E1 : forall k r, before k r -> entry (o2n s1) k = r).
  { intros k r B. unfold before, prepared in B. unfold s1. destruct m341 as [m|].
    - apply obsolete_rules_entry; [exact Nm|apply special_keys; exact N0|]. apply (restored_ext m (with_source (entry (o2n s)))); [|exact B].
      intros k'. destruct (special_entries ids_name s0 k') as [-> _]. unfold with_source. destruct (E0 k') as [-> _]. reflexivity.
    - cbn [obsolete_rules]. destruct (special_entries ids_name s0 k) as [-> _]. rewrite B. unfold with_source. destruct (E0 k) as [-> _]. reflexivity. }
  assert (E2 : forall k, entry (n2o s1) k = entry (n2o s) k).
  { intros k. unfold s1. destruct (obsolete_rules_posts m341 (special_rules ids_name s0)) as [_ ->]. destruct (special_entries ids_name s0 k) as [_ ->]. apply E0. }
  assert (IP : forall P, swapped old new P -> In (nm P) (akeys (by_path old))) by (intros P Sw; apply by_path_keys; apply Sw).
  assert (Lo := name_loop_o old new Wo Wn _ _ _ R). assert (Ln := name_loop_n old new Wo Wn _ _ _ R). split; [|split; [|split]].
  - intros P Sw B. apply E1 in B. split; [apply Lo|apply Ln]; exists P; (split; [exact Sw|]); (split; [apply IP; exact Sw|]); left; auto.
  - intros P x Sw B. apply E1 in B. split; [apply Lo|apply Ln]; exists P; (split; [exact Sw|]); (split; [apply IP; exact Sw|]); right; (split; [reflexivity|]); (split; [congruence|reflexivity]).
  - intros k r B N. apply E1 in B. destruct (Lo k) as [_ L]. rewrite L; [exact B|]. intros x [P [Sw [_ [[K1 [K2 _]]|[K1 [K2 _]]]]]]; destruct (N P Sw) as [N1 N2]; [apply N1; congruence|apply K2; rewrite B; auto].
  - intros k N. destruct (Ln k) as [_ L]. rewrite L; [apply E2|]. intros x [P [Sw [_ [[K1 [K2 _]]|[K1 [K2 _]]]]]]; destruct (N P Sw) as [N1 N2].
    + destruct (N1 K1) as [y B]. apply E1 in B. congruence.
    + apply K2. apply E1. auto.
Qed.
Print Assumptions C25_sign_rules.
Print Assumptions C22_names_3to4.
Print Assumptions C20_contexts.
Print Assumptions C42_common_types.

(** A coil: name and identifier become description and name; psi is flipped; an obsolete quantity is restored. *)
Definition psi (p : string) : elem := {| e_path := p; e_type := Some (strs "FLT_0D"); e_ident := false; e_dynamic := false; e_tbp := []; e_psi := true; e_nbc := None |}.
Definition fl (p t : string) : elem := {| e_path := p; e_type := Some (strs t); e_ident := false; e_dynamic := false; e_tbp := []; e_psi := false; e_nbc := None |}.
Definition old3 : fields := [fl "coil" "struct_array"; fl "coil/name" "STR_0D"; fl "coil/identifier" "STR_0D"; psi "psi"; fl "j_tor" "FLT_0D"; fl "flip" "FLT_0D"].
Definition new4 : fields := [fl "coil" "struct_array"; fl "coil/name" "STR_0D"; fl "coil/description" "STR_0D"; psi "psi"; fl "j_phi" "FLT_0D"; fl "flip" "FLT_0D"].
Definition dd341 : list (str * option str) := [(strs "j_tor", Some (strs "j_phi"))].
Example C22_names_example : exists s s', build_map (fun l => l) old3 new4 5 = Ok s /\ apply_3to4 (strs "pf") old3 new4 [strs "flip"] (Some dd341) s = Ok s'
  /\ map (fun p => entry (o2n s') (strs p)) ["coil/name"; "coil/identifier"; "j_tor"; "psi"]%string
     = [Some (Some (strs "coil/description")); Some (Some (strs "coil/name")); Some (Some (strs "j_phi")); None]
  /\ map (fun p => alookup (strs p) (m_post (o2n s'))) ["psi"; "flip"; "j_tor"]%string = [Some H_cocos; Some H_cocos; None]
  /\ map (fun p => alookup (strs p) (m_ctx (o2n s'))) ["coil/name"; "coil/identifier"]%string = [Some (strs "description"); Some (strs "name")]
  /\ wf_b old3 = true /\ wf_b new4 = true /\ nodup_b (akeys (m_path (o2n s))) = true.
Proof. do 2 eexists. split; [vm_compute; reflexivity|]. split; [vm_compute; reflexivity|]. vm_compute. repeat split; reflexivity. Qed.

(** ** The complete map *)
Definition keys_once (s : maps) : Prop := NoDup (akeys (m_path (o2n s))).
Lemma check_once : forall a b s t s', keys_once s -> check_data_type a b s = Ok (t, s') -> keys_once s'.
Proof.
  intros a b s t s' N R. unfold check_data_type in R. destruct (parse_type (e_type b)); [|discriminate]. destruct (parse_type (e_type a)); [|discriminate]. cbn in R.
  destruct (parsed_eqb _ _); [inversion R; subst; exact N|]. destruct (e_type a); [|discriminate]. destruct (e_type b); [|discriminate].
  destruct (change_handler _ _ _); inversion R; subst; unfold keys_once; cbn; [exact N|apply TreeProofs4.akeys_aset_NoDup; exact N].
Qed.
Lemma add_rename_once : forall op np p q s s', keys_once s -> add_rename op np p q s = Ok s' -> keys_once s'.
Proof.
  intros op np p q s s' N R. unfold add_rename in R. destruct (alookup p op); [|discriminate]. destruct (alookup q np); [|discriminate].
  destruct (get_tbp _ np); [|discriminate]. destruct (get_ctxpath q np); [|discriminate]. destruct (get_tbp _ op); [|discriminate]. destruct (get_ctxpath p op); [|discriminate]. cbn in R. inversion R.
  unfold keys_once. cbn. apply TreeProofs4.akeys_aset_NoDup. exact N.
Qed.
Lemma add_below_once : forall op np p q ps s s', keys_once s -> add_below op np p q ps s = Ok s' -> keys_once s'.
Proof.
  intros op np p q. induction ps as [|k ps IH]; intros s s' N R; cbn [add_below] in R; [inversion R; subst; exact N|]. destruct (_ && _); [|exact (IH _ _ N R)].
  destruct (add_rename op np k _ s) as [s1|] eqn:E; [|discriminate]. cbn in R. exact (IH _ _ (add_rename_once _ _ _ _ _ _ N E) R).
Qed.
Lemma nbc_once : forall op np v e s s', keys_once s -> nbc_step op np v e s = Ok s' -> keys_once s'.
Proof.
  intros op np v e s s' L R. unfold nbc_step in R. destruct (e_nbc e) as [n|]; [|inversion R; subst; exact L]. destruct (n_versions n) as [| |vs]; [discriminate|inversion R; subst; exact L|].
  destruct (negb (sortedZ vs)); [discriminate|]. destruct (last vs 0 <=? v)%Z; [inversion R; subst; exact L|].
  destruct (one_of ["aos_renamed"; "leaf_renamed"; "structure_renamed"]%string (n_desc n)).
  { destruct (n_prev n) as [names|]; [|discriminate]. destruct (negb _); [discriminate|]. destruct (select_name v vs names); [|discriminate].
    destruct (get_old_path np (e_path e) s0 s) as [p|]; [|discriminate]. cbn in R. destruct (alookup p op) as [a|]; [|inversion R; subst; exact L].
    destruct (check_data_type a e s) as [[t s1]|] eqn:C; [|discriminate]. cbn in R. assert (L1 := check_once _ _ _ _ _ L C). destruct t; [|inversion R; subst; exact L1].
    destruct (add_rename op np p (e_path e) s1) as [s2|] eqn:E; [|discriminate]. cbn in R. assert (L2 := add_rename_once _ _ _ _ _ _ L1 E).
    destruct (is_structure a); [exact (add_below_once _ _ _ _ _ _ _ L2 R)|inversion R; subst; exact L2]. }
  destruct (one_of ["type_changed"]%string (n_desc n)); [inversion R; subst; exact L|].
  repeat match type of R with (if one_of ?l ?d then _ else _) = _ => destruct (one_of l d) end;
    try (destruct (process_parent_renames np (e_path e) s) as [p|]; [|discriminate]; cbn in R); inversion R; subst; exact L.
Qed.
Lemma build_once : forall order old new v s, build_map order old new v = Ok s -> keys_once s.
Proof.
  intros order old new v s R. unfold build_map in R. destruct (nbc_loop _ _ v new _) as [s1|] eqn:E1; [|discriminate]. cbn in R.
  destruct (common_loop _ _ _ s1) as [s2|] eqn:E2; [|discriminate]. cbn in R. inversion R; subst s. unfold keys_once. cbn [on_o2n o2n].
  assert (L1 : keys_once s1).
  { assert (G : forall items s s', keys_once s -> nbc_loop (by_path old) (by_path new) v items s = Ok s' -> keys_once s').
    { induction items as [|e items IH]; intros s s' L R'; cbn [nbc_loop] in R'; [inversion R'; subst; exact L|].
      destruct (nbc_step _ _ v e s) as [s3|] eqn:E; [|discriminate]. cbn in R'. exact (IH _ _ (nbc_once _ _ _ _ _ _ L E) R'). }
    apply (G _ _ _ (NoDup_nil str : keys_once {| o2n := empty_map; n2o := empty_map |}) E1). }
  assert (L2 : keys_once s2).
  { assert (G : forall cs s s', keys_once s -> common_loop (by_path old) (by_path new) cs s = Ok s' -> keys_once s').
    { induction cs as [|c cs IH]; intros s s' L R'; cbn [common_loop] in R'; [inversion R'; subst; exact L|]. destruct (_ || _); [exact (IH _ _ L R')|].
      destruct (alookup c (by_path old)); [|discriminate]. destruct (alookup c (by_path new)); [|discriminate].
      destruct (check_data_type _ _ s) as [[t s3]|] eqn:C; [|discriminate]. cbn in R'. exact (IH _ _ (check_once _ _ _ _ _ L C) R'). }
    apply (G _ _ _ L1 E2). }
  assert (G : forall missing m, NoDup (akeys (m_path m)) -> NoDup (akeys (m_path (map_missing missing m)))).
  { intros missing m N. unfold map_missing. generalize (skip_loop (parents_of_keys m) (sort_paths missing) []). intros l. revert m N.
    induction l as [|k l IH]; intros m N; cbn [fold_left]; [exact N|]. apply IH. cbn. apply TreeProofs4.akeys_aset_NoDup. exact N. }
  apply G. exact L2.
Qed.

(** C20, C22: the same for the complete map between a version 3 and a version 4: the renamings of the version map are those of [build_map],
    changed as described. *)
Theorem C22_version_map_3to4 : forall order ids_name old new v flips m341 s', wf_fields old -> wf_fields new ->
  match m341 with Some m => NoDup (akeys m) | None => True end -> version_map order ids_name old new v true flips m341 = Ok s' ->
  exists s, build_map order old new v = Ok s /\ let before := prepared m341 (entry (o2n s)) in
  (forall P, swapped old new P -> before (nm P) None -> entry (o2n s') (nm P) = Some (Some (dsc P)) /\ entry (n2o s') (dsc P) = Some (Some (nm P)))
  /\ (forall P x, swapped old new P -> before (idn P) (Some x) -> entry (o2n s') (idn P) = Some (Some (nm P)) /\ entry (n2o s') (nm P) = Some (Some (idn P)))
  /\ (forall k r, before k r -> (forall P, swapped old new P -> (k = nm P -> r <> None) /\ (k = idn P -> r = None)) -> entry (o2n s') k = r)
  /\ (forall k, (forall P, swapped old new P -> (k = dsc P -> exists x, before (nm P) (Some x)) /\ (k = nm P -> before (idn P) None)) -> entry (n2o s') k = entry (n2o s) k).
Proof.
  intros order ids_name old new v flips m341 s' Wo Wn Nm R. unfold version_map in R. destruct (build_map order old new v) as [s|] eqn:B; [|discriminate]. cbn in R.
  exists s. split; [reflexivity|]. apply (C22_names_3to4 ids_name old new flips m341 s s' Wo Wn); [exact (build_once _ _ _ _ _ B)|exact Nm|exact R].
Qed.
Print Assumptions C22_version_map_3to4.
