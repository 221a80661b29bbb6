(** The map between DD 3 and DD 4 is that of the dictionary in which the renamings of names and identifiers are declared. *)
From Verif Require Import Base DataTypeModel VmapModel VmapSpec EndSpec.
From Verif Require VmapProofs VmapProofs2 VmapProofs3 VmapProofs4 VmapProps EndProofs EndProofs3 EndProofs4.
From Verif Require Import VmapProps3 SignNames.
From Coq Require Import Permutation.

Section Agree.
Variables (old new : fields) (v : Z).
Notation new' := (declared old new v).
Hypothesis OKn : names_ok old new v.
Hypothesis Cond : VmapProofs4.conditions old new v.
Hypothesis Cond' : VmapProofs4.conditions old new' v.
Let Wo : wf_fields old. Proof. apply Cond. Qed.
Let Wn : wf_fields new. Proof. apply Cond. Qed.
Let Hone' : one_successor old new' v. Proof. apply Cond'. Qed.
Let Hcap : no_capture old new v. Proof. apply Cond. Qed.
Let Hcap' : no_capture old new' v. Proof. apply Cond'. Qed.
Notation moved := (moved old new v).
Notation moved' := (VmapSpec.moved old new' v).
Notation gets := (gets old new).
Notation gives := (gives old new).
Notation old_moved := (VmapProofs3.old_moved old new v).
Notation old_moved' := (VmapProofs3.old_moved old new' v).
Notation new_moved := (VmapProofs3.new_moved old new v).
Notation new_moved' := (VmapProofs3.new_moved old new' v).
Notation retyped := (VmapProofs3.retyped old new v).
Notation retyped' := (VmapProofs3.retyped old new' v).

Lemma old_moved_same : forall p, ~ gives p -> (old_moved' p <-> old_moved p).
Proof. intros p N. split; intros (q & M); exists q; [eapply moved_from; eauto|eapply moved_to; eauto]. Qed.
Lemma old_moved_to : forall p, old_moved p -> old_moved' p.
Proof. intros p (q & M). exists q. eapply moved_to; eauto. Qed.
Lemma new_moved_same : forall q, ~ gets q -> (new_moved' q <-> new_moved q).
Proof. intros q N. split; intros (p & M); exists p; eapply moved_same; eauto. Qed.
Lemma new_moved_to : forall q, new_moved q -> new_moved' q.
Proof. intros q (p & M). exists p. eapply moved_to; eauto. Qed.
Lemma bad_same : forall k, VmapProofs3.bad_type old new' k <-> VmapProofs3.bad_type old new k.
Proof.
  intros k. unfold VmapProofs3.bad_type. split.
  - intros (a & b & Ia & Ib & Ea & Eb & N). apply in_map_iff in Ib as (b0 & <- & Ib). rewrite declare_path in Eb. exists a, b0. do 4 (split; auto).
    intros X. apply N. destruct (declare_type old new v b0) as (T1 & T2). unfold same_type, supported in *. rewrite T1, T2. exact X.
  - intros (a & b & Ia & Ib & Ea & Eb & N). exists a, (declare old new v b). rewrite declare_path. split; auto. split; [apply List.in_map; exact Ib|]. do 2 (split; auto).
    intros X. apply N. destruct (declare_type old new v b) as (T1 & T2). unfold same_type, supported in *. rewrite T1, T2 in X. exact X.
Qed.
Lemma gets_not_gives_dsc : forall P, ~ gives (dsc P).
Proof. intros P (Q & _ & [E|E]); [symmetry in E; exact (idn_dsc _ _ E)|symmetry in E; exact (nm_dsc _ _ E)]. Qed.
Lemma not_retyped_n : forall P, swapped old new P -> ~ VmapProofs3.bad_type old new (nm P).
Proof. intros P S (a & b & Ia & Ib & Ea & Eb & N). apply N. left. apply (no_type _ _ _ OKn P a b S Ia Ib); rewrite ?Ea, ?Eb; cbn; auto. Qed.
Lemma retyped_same : forall k, retyped' k <-> retyped k.
Proof.
  intros k. unfold VmapProofs3.retyped. rewrite bad_same. split; intros (B & N1 & N2); (split; [exact B|split]).
  - intros M. apply N1, old_moved_to, M.
  - intros M. apply N2, new_moved_to, M.
  - intros (q & M). assert (NG : ~ ~ gets q).
    { intros NG. apply N1. exists q. eapply moved_same; eauto. }
    apply NG. intros G. destruct (moved_gets old new v OKn Wo Wn k q M G) as (P & S & [(-> & ->)|(-> & ->)]).
    + exact (not_retyped_n P S B).
    + destruct B as (a & b & _ & Ib & _ & Eb & _). apply (no_ident _ _ _ OKn P S). exists b. auto.
  - intros (p & M). assert (NG : ~ ~ gets k).
    { intros NG. apply N2. exists p. eapply moved_same; eauto. }
    apply NG. intros G. destruct (moved_gets old new v OKn Wo Wn p k M G) as (P & S & [(-> & ->)|(-> & ->)]).
    + assert (EO : exists_in old (dsc P)) by (destruct B as (a & b & Ia & _ & Ea & _); exists a; auto).
      destruct (proj1 Hcap' _ _ M EO) as (q' & M'). apply N1. exists q'. apply (moved_from old new v OKn Wo Wn); auto. apply gets_not_gives_dsc.
    + exact (not_retyped_n P S B).
Qed.
(** in the old version *)
Lemma under : forall P n k, inside (P ++ slash :: n) k -> no_slash n -> k = P \/ inside P k.
Proof. intros P n k I N. exact (VmapProofs.inside_cases P k n N I). Qed.
Lemma above_there : forall P k, swapped old new P -> k = P \/ inside P k -> exists_in old k /\ exists_in new k.
Proof.
  intros P k S [-> | I]; destruct (swapped_parent old new Wo Wn P S) as (A & B); [auto|]. split; eapply VmapProofs3.parent_common; eauto.
Qed.
Lemma lost_old : forall k, ~ gives k -> (lost old new' old_moved' k <-> lost old new old_moved k).
Proof.
  intros k NG. unfold lost. rewrite declared_exists. split; intros (A & B & C & E); (split; [exact A|split; [exact B|split]]).
  - intros M. apply C, old_moved_to, M.
  - intros q I M. apply (E q I), old_moved_to, M.
  - intros M. apply C. apply old_moved_same; auto.
  - intros p I (q & M). assert (X : ~ ~ gets q) by (intros X; apply (E p I); exists q; eapply moved_same; eauto). apply X. intros G.
    destruct (moved_gets old new v OKn Wo Wn p q M G) as (P & S & [(-> & ->)|(-> & ->)]); apply B, (above_there P k S).
    + eapply under; [rewrite <- nm_cons; exact I|apply plain_n].
    + eapply under; [rewrite <- idn_cons; exact I|apply plain_i].
Qed.
Lemma lost_top_old : forall k, ~ gives k -> (lost_top old new' old_moved' k <-> lost_top old new old_moved k).
Proof.
  intros k NG. unfold lost_top. rewrite lost_old by auto. split; intros (L & H); (split; [exact L|]); intros q I Lq; apply (H q I); apply lost_old; auto;
    intros G; exact (gives_leaf old new v OKn Wo q k G (proj1 L) I).
Qed.
(** in the new version *)
Lemma lost_new : forall k, ~ gets k -> (lost new' old new_moved' k <-> lost new old new_moved k).
Proof.
  intros k NG. unfold lost. rewrite declared_exists. split; intros (A & B & C & E); (split; [exact A|split; [exact B|split]]).
  - intros M. apply C, new_moved_to, M.
  - intros q I M. apply (E q I), new_moved_to, M.
  - intros M. apply C. apply new_moved_same; auto.
  - intros q I (p & M). assert (X : ~ ~ gets q) by (intros X; apply (E q I); exists p; eapply moved_same; eauto). apply X. intros G.
    destruct (moved_gets old new v OKn Wo Wn p q M G) as (P & S & [(-> & ->)|(-> & ->)]); apply B, (above_there P k S).
    + eapply under; [rewrite <- dsc_cons; exact I|apply plain_d].
    + eapply under; [rewrite <- nm_cons; exact I|apply plain_n].
Qed.
Lemma lost_top_new : forall k, ~ gets k -> (lost_top new' old new_moved' k <-> lost_top new old new_moved k).
Proof.
  intros k NG. unfold lost_top. rewrite lost_new by auto. split; intros (L & H); (split; [exact L|]); intros q I Lq; apply (H q I); apply lost_new; auto;
    intros G; exact (gets_leaf old new v OKn Wn q k G (proj1 L) I).
Qed.

Variable order : list str -> list str.
Hypothesis Ord : VmapProps.any_order order.
Variables s s0 s' : maps.
Hypothesis Built : build_map order old new v = Ok s.
Hypothesis Built0 : build_map order old new' v = Ok s0.
Variables (name : str) (flips : list str).
Hypothesis Applied : apply_3to4 name old new flips None s = Ok s'.
Notation entry := VmapProofs2.entry.

Lemma none_eq : forall (a b : option (option str)), (forall x, a = Some x <-> b = Some x) -> a = b.
Proof. intros [x|] b H; [symmetry; apply H; reflexivity|]. destruct b as [y|]; [|reflexivity]. apply H. reflexivity. Qed.
Lemma opt_dec : forall a b : option (option str), {a = b} + {a <> b}.
Proof. decide equality. decide equality. apply str_dec. Qed.
Lemma name_free : forall P, swapped old new P -> entry (o2n s) (nm P) = None.
Proof.
  intros P S. destruct (entry (o2n s) (nm P)) as [x|] eqn:E; [|reflexivity]. exfalso. apply (proj2 (EndProofs3.entries old new v Cond order s Ord Built)) in E.
  assert (EN : exists_in new (nm P)) by apply S. destruct E as [(q & _ & M)|(_ & [R|L])].
  - destruct (proj2 Hcap _ _ M EN) as (p' & M'). apply (moved_not_gets old new v OKn Wn _ _ M'). exists P. auto.
  - exact (not_retyped_n P S (proj1 R)).
  - exact (proj1 (proj2 (proj1 L)) EN).
Qed.
Lemma ident_mapped : forall P, swapped old new P -> exists x, entry (o2n s) (idn P) = Some x.
Proof.
  intros P S. destruct (entry (o2n s) (idn P)) as [x|] eqn:E; [eauto|]. exfalso.
  assert (X : forall x, ~ ((exists q, x = Some q /\ moved (idn P) q) \/ (x = None /\ (retyped (idn P) \/ lost_top old new old_moved (idn P))))).
  { intros x H. apply (proj2 (EndProofs3.entries old new v Cond order s Ord Built)) in H. congruence. }
  assert (NM : ~ old_moved (idn P)) by (intros (q & M); apply (X (Some q)); left; eauto).
  apply (X None). right. split; auto. right. split.
  - split; [apply S|]. split; [apply (no_ident _ _ _ OKn P S)|]. split; auto. intros q I (q' & (EO & _)). apply (gives_leaf old new v OKn Wo (idn P) q); auto. exists P. auto.
  - intros q I L. apply (proj1 (proj2 L)). apply (above_there P q S). eapply under; [rewrite <- idn_cons; exact I|apply plain_i].
Qed.
Lemma source_not : forall P, nm P <> source_path /\ idn P <> source_path.
Proof. intros P. split; intros E; apply (f_equal (@rev ascii)) in E; unfold nm, idn in E; rewrite rev_app_distr in E; discriminate. Qed.

Lemma plain_before : forall k, k <> source_path -> with_source (entry (o2n s)) k = entry (o2n s) k.
Proof. intros k N. unfold with_source. destruct (str_eqb k source_path) eqn:E; [apply str_eqb_eq in E; contradiction|reflexivity]. Qed.
Theorem forward_entries : forall k, k <> source_path -> entry (o2n s') k = entry (o2n s0) k.
Proof.
  intros k NS. destruct (opt_dec (entry (o2n s') k) (entry (o2n s0) k)) as [E|NE]; [exact E|exfalso].
  pose proof (C22_names_3to4 name old new flips None s s' Wo Wn (build_once _ _ _ _ _ Built) I Applied) as (H1 & H2 & H3 & H4). cbn [prepared] in *.
  pose proof (proj2 (EndProofs3.entries old new v Cond order s Ord Built)) as E1. pose proof (proj2 (EndProofs3.entries old new' v Cond' order s0 Ord Built0)) as E0.
  assert (NG : ~ gives k).
  { intros (P & S & [-> | ->]); apply NE.
    - destruct (ident_mapped P S) as (x & X). destruct (H2 P x S) as (-> & _); [rewrite plain_before by (apply source_not); auto|].
      symmetry. apply E0. left. exists (nm P). split; auto. apply (moved_n old new v OKn Wo Wn P S).
    - destruct (H1 P S) as (-> & _); [rewrite plain_before by (apply source_not); symmetry; apply name_free; exact S|].
      symmetry. apply E0. left. exists (dsc P). split; auto. apply (moved_d old new v OKn Wo Wn P S). }
  apply NE. transitivity (entry (o2n s) k).
  - apply (H3 k). { symmetry. apply plain_before. exact NS. } intros P S. split; intros ->; exfalso; apply NG; exists P; auto.
  - apply none_eq. intros x. rewrite E1, E0. rewrite lost_top_old, retyped_same by exact NG. split; intros [(q & -> & M)|X]; [left|right; exact X|left|right; exact X]; exists q; split; auto.
    + eapply moved_to; eauto.
    + eapply moved_from; eauto.
Qed.
Theorem backward_entries : forall k, entry (n2o s') k = entry (n2o s0) k.
Proof.
  intros k. destruct (opt_dec (entry (n2o s') k) (entry (n2o s0) k)) as [E|NE]; [exact E|exfalso].
  pose proof (C22_names_3to4 name old new flips None s s' Wo Wn (build_once _ _ _ _ _ Built) I Applied) as (H1 & H2 & H3 & H4). cbn [prepared] in *.
  pose proof (proj1 (EndProofs3.entries old new v Cond order s Ord Built)) as E1. pose proof (proj1 (EndProofs3.entries old new' v Cond' order s0 Ord Built0)) as E0.
  assert (NG : ~ gets k).
  { intros (P & S & [-> | ->]); apply NE.
    - destruct (H1 P S) as (_ & ->); [rewrite plain_before by (apply source_not); symmetry; apply name_free; exact S|].
      symmetry. apply E0. left. exists (nm P). split; auto. apply (moved_d old new v OKn Wo Wn P S).
    - destruct (ident_mapped P S) as (x & X). destruct (H2 P x S) as (_ & ->); [rewrite plain_before by (apply source_not); auto|].
      symmetry. apply E0. left. exists (idn P). split; auto. apply (moved_n old new v OKn Wo Wn P S). }
  apply NE. transitivity (entry (n2o s) k).
  - apply (H4 k). intros P S. split; intros ->; exfalso; apply NG; exists P; auto.
  - apply none_eq. intros x. rewrite E1, E0. rewrite lost_top_new, retyped_same by exact NG. split; intros [(q & -> & M)|X]; [left|right; exact X|left|right; exact X]; exists q; split; auto; eapply moved_same; eauto.
Qed.

(** ** Other changes *)
Lemma origin_clear : forall q p b, exists_in new q -> ~ gets q -> (origin old new' v q p b <-> origin old new v q p b).
Proof. intros q p b E N. pose proof (clear_exists old new v OKn Wn q E N) as C. split; intros H; [eapply origin_from; eauto|eapply origin_to; eauto]. Qed.
Lemma changes_not_gets : forall p q, changes_to old new v p q -> ~ gets q.
Proof.
  intros p q (e & b & I & E & O & H) G. assert (G' := G). destruct G as (P & S & X). destruct (fun0 old new v Wn _ _ _ _ _ (gets_stays old new v OKn q G') O) as (<- & _).
  assert (Q : In q [nm P; dsc P]) by (cbn; intuition). destruct H as [(n & vs & B & _)|(a & Ia & Ea & NT)].
  - assert (Y : e_nbc e = None) by (apply (no_nbc _ _ _ OKn P e S I); rewrite E; exact Q). congruence.
  - apply NT. apply (no_type _ _ _ OKn P a e S Ia I); rewrite ?Ea, ?E; cbn in *; intuition.
Qed.
Lemma changes_declared : forall p q, changes_to old new v p q -> changes_to old new' v p q.
Proof.
  intros p q H. assert (N := changes_not_gets p q H). destruct H as (e & b & I & E & O & H). exists e, b.
  assert (EX : exists_in new q) by (exists e; auto).
  split; [|split; [exact E|split; [apply origin_clear; auto|exact H]]].
  rewrite <- (declare_other old new v e) by (rewrite E; exact N). apply List.in_map. exact I.
Qed.
End Agree.
