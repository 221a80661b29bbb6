(** The rules of the map between DD 3 and DD 4. *)
From Verif Require Import Base DataTypeModel VmapModel VmapSpec EndSpec.
From Verif Require VmapProofs VmapProofs2 VmapProofs3 VmapProofs4 VmapProps EndProofs EndProofs3 EndProofs4.
From Verif Require Import VmapProps3 SignNames SignNames2.
From Coq Require Import Permutation.
Notation quiet := EndProofs4.quiet.

(** ** The renamings of names raise no exception and add no rules *)
Section Names.
Variables (old new : fields).
Hypothesis Wo : wf_fields old.
Hypothesis Wn : wf_fields new.
Hypothesis Go : forall e, In e old -> VmapProofs4.good_elem e.
Hypothesis Gn : forall e, In e new -> VmapProofs4.good_elem e.
Lemma rename_ok : forall p q s, exists_in old p -> exists_in new q -> exists s', add_rename (by_path old) (by_path new) p q s = Ok s'.
Proof.
  intros p q s Hp Hq. destruct (VmapProofs4.add_rename_ok old new Wo Wn p q {| o2n := empty_map; n2o := empty_map |}) as (s' & E & _); auto; [intros k []|].
  unfold add_rename in *. destruct (alookup p (by_path old)); [|discriminate]. destruct (alookup q (by_path new)); [|discriminate].
  destruct (get_tbp _ (by_path new)); [|discriminate]. cbn [rbind] in *. destruct (get_ctxpath q _); [|discriminate]. cbn [rbind] in *.
  destruct (get_tbp _ (by_path old)); [|discriminate]. cbn [rbind] in *. destruct (get_ctxpath p _); [|discriminate]. cbn [rbind] in *. eexists. reflexivity.
Qed.
Lemma name_step_ok : forall p s, exists s', name_step (by_path old) (by_path new) p s = Ok s'.
Proof.
  intros p s. unfold name_step. destruct (negb _); [eauto|]. destruct (before_slash p) as [P|]; [|eauto].
  destruct (has (P ++ strs "/name") (by_path old)) eqn:A; [|cbn; eauto]. destruct (has (P ++ strs "/identifier") (by_path old)) eqn:B; [|cbn; eauto]. cbn [negb orb].
  destruct (has (P ++ strs "/index") (by_path old)); [eauto|]. destruct (has (P ++ strs "/description") (by_path new)) eqn:C; [|cbn; eauto]. destruct (has (P ++ strs "/name") (by_path new)) eqn:E; [|cbn; eauto]. cbn [negb orb].
  apply VmapProofs.has_exists in A, B, C, E.
  destruct (in_map (P ++ strs "/name") (o2n s)); cbn [rbind].
  - destruct (in_map (P ++ strs "/identifier") (o2n s)); [apply rename_ok; auto|eauto].
  - destruct (rename_ok _ _ s A C) as (s1 & ->). cbn [rbind]. destruct (in_map (P ++ strs "/identifier") (o2n s1)); [apply rename_ok; auto|eauto].
Qed.
Lemma name_loop_ok : forall ps s, exists s', name_loop (by_path old) (by_path new) ps s = Ok s'.
Proof.
  induction ps as [|p ps IH]; intros s; cbn [name_loop]; [eauto|]. destruct (name_step_ok p s) as (s1 & ->). cbn [rbind]. apply IH.
Qed.
End Names.
Lemma step_adds : forall op np p s s', name_step op np p s = Ok s' ->
  m_type (o2n s') = m_type (o2n s) /\ m_type (n2o s') = m_type (n2o s) /\ (quiet s -> quiet s').
Proof.
  intros op np p s s' E. unfold name_step in E. destruct (negb _); [inversion E; auto|]. destruct (before_slash p) as [P|]; [|inversion E; auto].
  destruct (_ || _); [inversion E; auto|]. destruct (has _ op); [inversion E; auto|]. destruct (_ || _); [inversion E; auto|].
  assert (AR : forall p q s s', add_rename op np p q s = Ok s' -> m_type (o2n s') = m_type (o2n s) /\ m_type (n2o s') = m_type (n2o s) /\ (quiet s -> quiet s')).
  { intros p0 q0 a b H. destruct (EndProofs.add_rename_rules _ _ _ _ _ _ H) as (X & _ & Y & _). split; auto. split; auto. eapply EndProofs4.add_rename_quiet; eauto. }
  destruct (in_map (P ++ strs "/name") (o2n s)).
  - cbn [rbind] in E. destruct (in_map _ _); [exact (AR _ _ _ _ E)|inversion E; auto].
  - destruct (add_rename op np (P ++ strs "/name") _ s) as [s2|] eqn:E2; [|discriminate]. cbn [rbind] in E. apply AR in E2. destruct E2 as (<- & <- & Q).
    destruct (in_map _ _); [apply AR in E; destruct E as (X & Y & Z); auto|inversion E; subst; auto].
Qed.
Lemma loop_adds : forall op np ps s s', name_loop op np ps s = Ok s' ->
  m_type (o2n s') = m_type (o2n s) /\ m_type (n2o s') = m_type (n2o s) /\ (quiet s -> quiet s').
Proof.
  intros op np. induction ps as [|p ps IH]; intros s s' R; cbn [name_loop] in R; [inversion R; auto|]. destruct (name_step op np p s) as [s1|] eqn:E; [|discriminate]. cbn [rbind] in R.
  destruct (IH s1 s' R) as (-> & -> & Q). destruct (step_adds _ _ _ _ _ E) as (-> & -> & Q'). auto.
Qed.
(** ** The other rules *)
Lemma cocos_types : forall old flips s, m_type (o2n (cocos_rules old flips s)) = m_type (o2n s) /\ m_type (n2o (cocos_rules old flips s)) = m_type (n2o s) /\ (quiet s -> quiet (cocos_rules old flips s)).
Proof.
  intros old flips s. unfold cocos_rules. generalize (map e_path (filter e_psi old) ++ flips). intros l. revert s. induction l as [|p l IH]; intros s; [auto|]. cbn [fold_left].
  destruct (IH (cocos_step s p)) as (-> & -> & Q).
  assert (X : m_type (o2n (cocos_step s p)) = m_type (o2n s) /\ m_type (n2o (cocos_step s p)) = m_type (n2o s) /\ (quiet s -> quiet (cocos_step s p))).
  { unfold cocos_step. destruct (alookup p (m_path (o2n s))) as [[q|]|]; cbn; unfold quiet; cbn; auto. }
  destruct X as (-> & -> & Q'). auto.
Qed.
Lemma special_types : forall name s k, name <> strs "equilibrium" ->
  (k <> source_path -> alookup k (m_type (o2n (special_rules name s))) = alookup k (m_type (o2n s))) /\ m_type (n2o (special_rules name s)) = m_type (n2o s) /\ (quiet s -> quiet (special_rules name s)).
Proof.
  intros name s k NE. unfold special_rules. assert (X : str_eqb name (strs "equilibrium") = false) by (apply str_eqb_neq; exact NE). rewrite X.
  destruct (str_eqb name (strs "pf_active")); cbn [on_o2n on_n2o o2n n2o m_type set_type set_path set_post]; (split; [intros N; apply alookup_aset_other; exact N|split; [reflexivity|]]); unfold quiet; cbn; auto.
Qed.
Theorem apply_types : forall name old new flips s s', name <> strs "equilibrium" -> apply_3to4 name old new flips None s = Ok s' ->
  (forall k, k <> source_path -> alookup k (m_type (o2n s')) = alookup k (m_type (o2n s))) /\ m_type (n2o s') = m_type (n2o s) /\ (quiet s -> quiet s').
Proof.
  intros name old new flips s s' NE A. unfold apply_3to4 in A. cbn [obsolete_rules] in A. apply loop_adds in A. destruct A as (E1 & E2 & Q).
  destruct (cocos_types old flips s) as (C1 & C2 & QC). rewrite E1, E2.
  split; [|split].
  - intros k N. destruct (special_types name (cocos_rules old flips s) k NE) as (S1 & _). rewrite (S1 N), C1. reflexivity.
  - destruct (special_types name (cocos_rules old flips s) [] NE) as (_ & S2 & _). rewrite S2, C2. reflexivity.
  - intros q. apply Q. apply (special_types name _ [] NE). auto.
Qed.

(** ** The declared renamings raise no exception *)
Lemma declared_good : forall old new v, (forall e, In e new -> VmapProofs4.good_elem e) -> forall e, In e (declared old new v) -> VmapProofs4.good_elem e.
Proof.
  intros old new v G e I. apply in_map_iff in I as (e0 & <- & I). specialize (G e0 I). unfold declare. destruct (before_slash (e_path e0)) as [P|]; [|exact G]. destruct (swapped_b old new P); [|exact G].
  assert (W : forall prev, VmapProofs4.good_elem (was v prev e0)).
  { intros prev. destruct G as (T & _). split; [exact T|]. intros n E. cbn in E. injection E as <-. right. exists [(v + 1)%Z]. split; [reflexivity|]. split; [reflexivity|]. intros _. exists [prev]. auto. }
  destruct (str_eqb _ _); [apply W|]. destruct (str_eqb _ _); [apply W|exact G].
Qed.
Lemma declared_nbc : forall old new v, (forall e c, In e new -> e_nbc e = Some c -> n_versions c <> Versions []) -> forall e c, In e (declared old new v) -> e_nbc e = Some c -> n_versions c <> Versions [].
Proof.
  intros old new v G e c I. apply in_map_iff in I as (e0 & <- & I). specialize (G e0 c I). unfold declare. destruct (before_slash (e_path e0)) as [P|]; [|exact G]. destruct (swapped_b old new P); [|exact G].
  destruct (str_eqb _ _); [intros E; cbn in E; injection E as <-; discriminate|]. destruct (str_eqb _ _); [intros E; cbn in E; injection E as <-; discriminate|exact G].
Qed.

(** ** Which quantities of the newer version change sign *)
Section Signs.
Variables (old new : fields) (v : Z) (flips : list str).
Notation new' := (declared old new v).
Hypothesis OKn : names_ok old new v.
Hypothesis Cond : VmapProofs4.conditions old new v.
Hypothesis Cond' : VmapProofs4.conditions old new' v.
Hypothesis Hsame : same_quantity old new v.
(** a path that is listed belongs to the old version or not to the new one *)
Hypothesis Listed : forall p, In p flips -> exists_in old p \/ ~ exists_in new p.
(** names, identifiers and descriptions have no sign *)
Hypothesis Unsigned : forall P, swapped old new P -> ~ flipped old flips (nm P) /\ ~ flipped old flips (idn P) /\ ~ flipped old flips (dsc P).
Variable order : list str -> list str.
Hypothesis Ord : VmapProps.any_order order.
Variable s : maps.
Hypothesis Built : build_map order old new v = Ok s.
Let Wo : wf_fields old. Proof. apply Cond. Qed.
Let Wn : wf_fields new. Proof. apply Cond. Qed.
Definition signed_new (q : str) : Prop := exists p, flipped old flips p /\ counterpart old new' v p q.

Lemma flipped_there : forall p, flipped old flips p -> exists_in new p -> exists_in old p.
Proof. intros p [(e & I & E & _)|I] X; [exists e; auto|]. destruct (Listed p I) as [H|H]; [exact H|contradiction]. Qed.
Lemma flipped_dec : forall p, flipped old flips p \/ ~ flipped old flips p.
Proof.
  intros p. unfold flipped. destruct (existsb (fun e => str_eqb (e_path e) p && e_psi e) old) eqn:E.
  - left. left. apply existsb_exists in E as (e & I & E). apply andb_true_iff in E as (E1 & E2). apply str_eqb_eq in E1. eauto.
  - destruct (in_dec str_dec p flips) as [I|N]; [left; right; exact I|right]. intros [(e & I & E1 & E2)|I]; [|contradiction].
    assert (X : existsb (fun e => str_eqb (e_path e) p && e_psi e) old = true) by (apply existsb_exists; exists e; split; auto; rewrite E1, E2, str_eqb_refl; reflexivity). congruence.
Qed.
Lemma counterpart_dec : forall q, (exists p, counterpart old new' v p q /\ flipped old flips p) \/ ~ signed_new q.
Proof.
  intros q. pose proof (declared_wf old new v Wn) as W'. destruct (VmapProofs2.origin_total old new' v W' q) as (p & b & O). destruct (VmapProofs.exists_dec new' q) as [X|X].
  - destruct (VmapProofs.exists_dec old p) as [Y|Y].
    + destruct (flipped_dec p) as [F|F].
      * left. exists p. split; auto. split; auto. split; eauto.
      * right. intros (p' & F' & (_ & _ & b' & O')). destruct (VmapProofs.origin_fun old new' v W' _ _ _ O _ _ O') as (-> & _). auto.
    + right. intros (p' & F' & (Y' & _ & b' & O')). destruct (VmapProofs.origin_fun old new' v W' _ _ _ O _ _ O') as (-> & _). auto.
  - right. intros (p' & F' & (_ & X' & _)). auto.
Qed.
Lemma signed_new_dec : forall q, signed_new q \/ ~ signed_new q.
Proof. intros q. destruct (counterpart_dec q) as [(p & C & F)|N]; [left; exists p; auto|auto]. Qed.

Theorem signs_new : forall q, exists_in new q -> ~ new_changes old new v q -> ((exists p, flipped old flips p /\ target_path (o2n s) p = Some q) <-> signed_new q).
Proof.
  intros q X NC. pose proof (proj2 (EndProofs3.entries old new v Cond order s Ord Built)) as E. unfold VmapProofs2.entry in E. split.
  - intros (p & F & T). unfold target_path in T.
    assert (C : exists_in old p /\ exists b, origin old new v q p b).
    { destruct (alookup p (m_path (o2n s))) as [r|] eqn:L.
      - subst r. apply E in L. destruct L as [(q' & H & M)|(H & _)]; [|discriminate]. injection H as <-. destruct M as (A & _ & O). eauto.
      - injection T as ->. assert (A := flipped_there q F X). split; auto. exists false. apply Hsame; auto. intros q' M. assert (L' : alookup q (m_path (o2n s)) = Some (Some q')) by (apply E; left; eauto). congruence. }
    destruct C as (A & b & O). exists p. split; auto. split; auto. split; [apply declared_exists; exact X|]. exists b. apply (origin_clear old new v OKn Cond); auto.
    intros G. assert (G' := G). destruct G as (P & S & H). destruct (fun0 old new v Wn _ _ _ _ _ (gets_stays old new v OKn q G') O) as (<- & _). destruct (Unsigned P S) as (U1 & U2 & U3). destruct H as [-> | ->]; auto.
  - intros (p & F & (A & _ & b & O)). exists p. split; auto.
    assert (NG : ~ gets old new q).
    { intros (P & S & H). destruct (Unsigned P S) as (U1 & U2 & U3). destruct H as [-> | ->].
      - destruct (fun' old new v Wn _ _ _ _ _ O (was_d old new v OKn Wo Wn P S)) as (-> & _). auto.
      - destruct (fun' old new v Wn _ _ _ _ _ O (was_n old new v OKn Wo Wn P S)) as (-> & _). auto. }
    apply (origin_clear old new v OKn Cond) in O; auto. unfold target_path. destruct b.
    + assert (L : alookup p (m_path (o2n s)) = Some (Some q)) by (apply E; left; exists q; split; auto; split; auto). rewrite L. reflexivity.
    + assert (q = p) as -> by (exact (EndProofs.origin_unmoved old new v _ _ O)). destruct (alookup p (m_path (o2n s))) as [r|] eqn:L; [|reflexivity]. exfalso. apply E in L.
      destruct L as [(q' & _ & M)|(_ & [R|L])].
      * destruct Cond as (_ & _ & _ & _ & _ & _ & _ & Cap). destruct (proj2 Cap _ _ M X) as (p' & (_ & _ & O')). destruct (fun0 old new v Wn _ _ _ _ _ O O') as (_ & Y). discriminate.
      * destruct R as ((a & e & Ia & Ie & Ea & Ee & NT) & _). apply NC. exists p, e, false. split; auto. split; auto. split; auto. right. exists a. split; auto.
      * exact (proj1 (proj2 (proj1 L)) X).
Qed.
End Signs.
