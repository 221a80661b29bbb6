(** The renaming of names and identifiers between DD 3 and DD 4 (GH#59), as renamings declared in the newer dictionary. *)
From Verif Require Import Base DataTypeModel VmapModel VmapSpec EndSpec.
From Verif Require VmapProofs VmapProofs2 VmapProofs3 VmapProofs4 VmapProps EndProofs EndProofs3.
From Verif Require Import VmapProps3.
From Coq Require Import Permutation.

(** ** The newer dictionary with the renamings name -> description and identifier -> name *)
Section Declared.
Variables (old new : fields) (v : Z).
Definition swapped_b (P : str) : bool :=
  has (nm P) (by_path old) && has (idn P) (by_path old) && negb (has (P ++ strs "/index") (by_path old)) && has (dsc P) (by_path new) && has (nm P) (by_path new).
(** the element was called [prev] up to version v *)
Definition was (prev : str) (e : elem) : elem :=
  {| e_path := e_path e; e_type := e_type e; e_ident := e_ident e; e_dynamic := e_dynamic e; e_tbp := e_tbp e; e_psi := e_psi e;
     e_nbc := Some {| n_desc := strs "leaf_renamed"; n_versions := Versions [(v + 1)%Z]; n_prev := Some [prev] |} |}.
Definition declare (e : elem) : elem :=
  match before_slash (e_path e) with
  | Some P => if swapped_b P then if str_eqb (e_path e) (dsc P) then was (strs "name") e else if str_eqb (e_path e) (nm P) then was (strs "identifier") e else e else e
  | None => e
  end.
Definition declared : fields := map declare new.
(** Conditions: the parent is the same quantity in both versions; the identifier is gone; names, identifiers and descriptions are data nodes
    of one type; the newer dictionary says nothing else about them. *)
Record names_ok : Prop := {
  no_parent : forall P, swapped old new P -> origin old new v P P false;
  no_ident : forall P, swapped old new P -> ~ exists_in new (idn P);
  no_type : forall P a b, swapped old new P -> In a old -> In b new -> In (e_path a) [nm P; idn P; dsc P] -> In (e_path b) [nm P; dsc P] -> same_type a b;
  no_nbc : forall P b, swapped old new P -> In b new -> In (e_path b) [nm P; dsc P] -> e_nbc b = None /\ is_structure b = false;
  no_struct : forall P a, swapped old new P -> In a old -> In (e_path a) [nm P; idn P] -> is_structure a = false }.

Lemma declare_path : forall e, e_path (declare e) = e_path e.
Proof. intros e. unfold declare. destruct (before_slash (e_path e)); [|reflexivity]. destruct (swapped_b _); [|reflexivity]. destruct (str_eqb _ _); [reflexivity|]. destruct (str_eqb _ _); reflexivity. Qed.
Lemma declare_type : forall e, e_type (declare e) = e_type e /\ e_ident (declare e) = e_ident e.
Proof. intros e. unfold declare. destruct (before_slash (e_path e)); [|auto]. destruct (swapped_b _); [|auto]. destruct (str_eqb _ _); [auto|]. destruct (str_eqb _ _); auto. Qed.
Lemma declared_exists : forall p, exists_in declared p <-> exists_in new p.
Proof.
  intros p. unfold exists_in, declared. split.
  - intros (e & I & <-). apply in_map_iff in I as (e0 & <- & I). exists e0. rewrite declare_path. auto.
  - intros (e & I & <-). exists (declare e). rewrite declare_path. split; [apply List.in_map; exact I|reflexivity].
Qed.
Lemma declared_described : forall m, described m new -> described m declared.
Proof.
  intros m [D1 D2 D3]. split; [exact D1| |].
  - intros p m' A N. destruct (D2 p m' A N) as (e & I & E). exists (declare e). rewrite declare_path. split; [apply List.in_map; exact I|exact E].
  - intros e I. apply in_map_iff in I as (e0 & <- & I). destruct (D3 e0 I) as (p & m' & N & A & E & T). exists p, m'. rewrite declare_path, (proj1 (declare_type e0)). auto.
Qed.
Lemma swapped_b_iff : forall P, swapped_b P = true <-> swapped old new P.
Proof.
  intros P. unfold swapped_b, swapped. rewrite !andb_true_iff, negb_true_iff, !VmapProofs.has_exists, VmapProofs.has_not_exists. tauto.
Qed.

Definition gets (q : str) : Prop := exists P, swapped old new P /\ (q = dsc P \/ q = nm P).
Definition gives (p : str) : Prop := exists P, swapped old new P /\ (p = idn P \/ p = nm P).
Lemma dsc_cons : forall P, dsc P = P ++ slash :: strs "description". Proof. reflexivity. Qed.
Lemma nm_cons : forall P, nm P = P ++ slash :: strs "name". Proof. reflexivity. Qed.
Lemma idn_cons : forall P, idn P = P ++ slash :: strs "identifier". Proof. reflexivity. Qed.
Lemma plain_d : no_slash (strs "description"). Proof. unfold no_slash. cbn. intuition discriminate. Qed.
Lemma plain_n : no_slash (strs "name"). Proof. unfold no_slash. cbn. intuition discriminate. Qed.
Lemma plain_i : no_slash (strs "identifier"). Proof. unfold no_slash. cbn. intuition discriminate. Qed.
Lemma before_d : forall P, before_slash (dsc P) = Some P. Proof. intros P. apply VmapProofs.before_slash_app, plain_d. Qed.
Lemma before_n : forall P, before_slash (nm P) = Some P. Proof. intros P. apply VmapProofs.before_slash_app, plain_n. Qed.
Lemma nm_inj : forall P Q, nm P = nm Q -> P = Q. Proof. intros P Q E. apply (f_equal before_slash) in E. rewrite !before_n in E. congruence. Qed.
Lemma dsc_inj : forall P Q, dsc P = dsc Q -> P = Q. Proof. intros P Q E. apply (f_equal before_slash) in E. rewrite !before_d in E. congruence. Qed.

Lemma declare_d : forall P e, swapped old new P -> e_path e = dsc P -> declare e = was (strs "name") e.
Proof. intros P e S E. unfold declare. rewrite E, before_d, (proj2 (swapped_b_iff P) S), str_eqb_refl. reflexivity. Qed.
Lemma declare_n : forall P e, swapped old new P -> e_path e = nm P -> declare e = was (strs "identifier") e.
Proof. intros P e S E. unfold declare. rewrite E, before_n, (proj2 (swapped_b_iff P) S), str_eqb_refl. replace (str_eqb (nm P) (dsc P)) with false; [reflexivity|]. symmetry. apply str_eqb_neq. apply nm_dsc. Qed.
Lemma declare_other : forall e, ~ gets (e_path e) -> declare e = e.
Proof.
  intros e N. unfold declare. destruct (before_slash (e_path e)) as [P|]; [|reflexivity]. destruct (swapped_b P) eqn:S; [|reflexivity]. apply swapped_b_iff in S.
  destruct (str_eqb (e_path e) (dsc P)) eqn:E; [exfalso; apply N; exists P; split; auto; left; apply str_eqb_eq; exact E|].
  destruct (str_eqb (e_path e) (nm P)) eqn:E2; [exfalso; apply N; exists P; split; auto; right; apply str_eqb_eq; exact E2|reflexivity].
Qed.

(** ** Previous names *)
Hypothesis OKn : names_ok.
Lemma rule_new : forall q prev, gets q -> ~ rule new v q prev.
Proof.
  intros q prev (P & S & E) (e & n & vs & ns & i & x & I & <- & B & _). assert (X : e_nbc e = None) by (apply (no_nbc OKn P e S I); cbn; intuition). congruence.
Qed.
Lemma rule_other : forall q prev, ~ gets q -> (rule declared v q prev <-> rule new v q prev).
Proof.
  intros q prev N. unfold rule. split; intros (e & R).
  - destruct R as (n & vs & ns & i & x & I & E & R). apply in_map_iff in I as (e0 & <- & I). rewrite declare_path in E. rewrite declare_other in R by (rewrite E; exact N).
    exists e0, n, vs, ns, i, x. auto.
  - destruct R as (n & vs & ns & i & x & I & E & R). exists (declare e). rewrite declare_other by (rewrite E; exact N). exists n, vs, ns, i, x. split; [|auto].
    replace e with (declare e) by (apply declare_other; rewrite E; exact N). apply List.in_map. exact I.
Qed.
Lemma rule_was : forall q e prev x, In e new -> e_path e = q -> declare e = was prev e -> wf_fields new -> (rule declared v q x <-> x = prev).
Proof.
  intros q e prev x I E W Wf. unfold rule. split.
  - intros (e1 & n & vs & ns & i & y & I1 & E1 & B & _ & V & P & A1 & A2 & _ & A3). apply in_map_iff in I1 as (e0 & <- & I1). rewrite declare_path in E1.
    assert (e0 = e) as -> by (apply (EndProofs.same_elem new Wf); congruence). rewrite W in B. cbn in B. injection B as <-. cbn in V, P. injection V as <-. injection P as <-.
    destruct i as [|[|i]]; cbn in A1, A3; congruence.
  - intros ->. exists (declare e), {| n_desc := strs "leaf_renamed"; n_versions := Versions [(v + 1)%Z]; n_prev := Some [prev] |}, [(v + 1)%Z], [prev], 0%nat, (v + 1)%Z.
    rewrite declare_path. split; [apply List.in_map; exact I|]. split; auto. rewrite W. split; [reflexivity|]. split; [right; left; reflexivity|]. split; [reflexivity|]. split; [reflexivity|]. split; [reflexivity|].
    split; [lia|]. split; [intros j y L; lia|reflexivity].
Qed.

(** ** Where quantities come from *)
Hypothesis Wo : wf_fields old.
Hypothesis Wn : wf_fields new.
Notation new' := declared.
Definition clear (q : str) : Prop := ~ gets q /\ forall d, gets d -> ~ inside q d.
Lemma clear_up : forall q n, clear (q ++ slash :: n) -> clear q.
Proof.
  intros q n (N & I). split.
  - intros G. apply (I q G). exists n. reflexivity.
  - intros d G (r & E). apply (I d G). exists (r ++ slash :: n). rewrite E, <- app_assoc. reflexivity.
Qed.
Lemma origin_to : forall q p b, origin old new v q p b -> clear q -> origin old new' v q p b.
Proof.
  intros q p b H. induction H as [n H1 H2|n prev H1 H2 H3|q p b n H IH H1 H2|q p b n prev H IH H1 H2 H3]; intros C.
  - constructor; auto. intros prev R. apply H2. apply rule_other; auto. apply C.
  - constructor; auto. apply rule_other; auto. apply C.
  - constructor; auto; [apply IH; eapply clear_up; eauto|]. intros prev R. apply H2. apply rule_other; auto. apply C.
  - eapply origin_inside_renamed; eauto; [apply IH; eapply clear_up; eauto|]. apply rule_other; auto. apply C.
Qed.
Lemma origin_from : forall q p b, origin old new' v q p b -> clear q -> origin old new v q p b.
Proof.
  intros q p b H. induction H as [n H1 H2|n prev H1 H2 H3|q p b n H IH H1 H2|q p b n prev H IH H1 H2 H3]; intros C.
  - constructor; auto. intros prev R. apply H2. apply rule_other; auto. apply C.
  - constructor; auto. apply (rule_other _ _ (proj1 C)). auto.
  - constructor; auto; [apply IH; eapply clear_up; eauto|]. intros prev R. apply H2. apply rule_other; auto. apply C.
  - eapply origin_inside_renamed; eauto; [apply IH; eapply clear_up; eauto|]. apply (rule_other _ _ (proj1 C)). auto.
Qed.
Lemma elem_of : forall f p, exists_in f p -> exists e, In e f /\ e_path e = p. Proof. auto. Qed.
Lemma gets_leaf : forall d q, gets d -> exists_in new q -> ~ inside q d.
Proof.
  intros d q (P & S & E) (e & I & <-) IN. apply in_split in I as (l1 & l2 & EL). destruct (wf_parents _ Wn l1 e l2 EL d IN) as (e' & I1 & E1 & ST).
  assert (X : is_structure e' = false) by (apply (no_nbc OKn P e' S); [rewrite EL; apply in_or_app; auto|rewrite E1; cbn; intuition]). congruence.
Qed.
Lemma gives_leaf : forall d q, gives d -> exists_in old q -> ~ inside q d.
Proof.
  intros d q (P & S & E) (e & I & <-) IN. apply in_split in I as (l1 & l2 & EL). destruct (wf_parents _ Wo l1 e l2 EL d IN) as (e' & I1 & E1 & ST).
  assert (X : is_structure e' = false) by (apply (no_struct OKn P e' S); [rewrite EL; apply in_or_app; auto|rewrite E1; cbn; intuition]). congruence.
Qed.
Lemma clear_exists : forall q, exists_in new q -> ~ gets q -> clear q.
Proof. intros q E N. split; auto. intros d G. apply gets_leaf; auto. Qed.
Lemma swapped_parent : forall P, swapped old new P -> exists_in old P /\ exists_in new P.
Proof.
  intros P (A & B & _ & C & E). split; [apply (VmapProofs3.parent_common old (idn P) P Wo B)|apply (VmapProofs3.parent_common new (dsc P) P Wn C)]; eexists; [apply idn_cons|apply dsc_cons].
Qed.
Lemma parent_clear : forall P, swapped old new P -> clear P.
Proof.
  intros P S. pose proof (proj2 (swapped_parent P S)) as E. apply clear_exists; auto. intros G. destruct S as (_ & _ & _ & X & _). apply (gets_leaf P (dsc P) G X). eexists. apply dsc_cons.
Qed.
Lemma gets_stays : forall q, gets q -> origin old new v q q false.
Proof.
  intros q G. pose proof (rule_new q) as R. destruct G as (P & S & E). assert (O := no_parent OKn P S). destruct E as [-> | ->]; [rewrite dsc_cons|rewrite nm_cons]; constructor; auto using plain_d, plain_n;
    intros prev RR; exfalso; eapply R; eauto; exists P; auto.
Qed.
Lemma was_d : forall P, swapped old new P -> origin old new' v (dsc P) (nm P) true.
Proof.
  intros P S. rewrite dsc_cons, nm_cons. eapply origin_inside_renamed; [|apply plain_d| |].
  - apply origin_to; [apply (no_parent OKn P S)|apply parent_clear; exact S].
  - pose proof S as (_ & _ & _ & (e & I & E) & _). rewrite <- dsc_cons. apply (rule_was (dsc P) e (strs "name") (strs "name") I E (declare_d P e S E) Wn). reflexivity.
  - apply S.
Qed.
Lemma was_n : forall P, swapped old new P -> origin old new' v (nm P) (idn P) true.
Proof.
  intros P S. rewrite idn_cons, (nm_cons P). eapply origin_inside_renamed; [|apply plain_n| |].
  - apply origin_to; [apply (no_parent OKn P S)|apply parent_clear; exact S].
  - pose proof S as (_ & _ & _ & _ & (e & I & E)). rewrite <- nm_cons. apply (rule_was (nm P) e (strs "identifier") (strs "identifier") I E (declare_n P e S E) Wn). reflexivity.
  - apply S.
Qed.
Lemma declared_wf : wf_fields new'.
Proof.
  split.
  - unfold declared. rewrite map_map. rewrite (map_ext _ _ (declare_path)). apply Wn.
  - intros e I. apply in_map_iff in I as (e0 & <- & I). rewrite declare_path. apply (wf_nonempty _ Wn); exact I.
  - intros f1 e f2 E p IN. unfold declared in E. apply map_eq_app in E. destruct E as (l1 & l2 & E & E1 & E2). destruct l2 as [|e0 l2]; [discriminate|]. cbn in E2. injection E2 as <- E2.
    rewrite declare_path in IN. destruct (wf_parents _ Wn l1 e0 l2 E p IN) as (a & A1 & A2 & A3). subst f1. exists (declare a). rewrite declare_path. split; [apply List.in_map; exact A1|]. split; auto.
    unfold is_structure, is_type in *. rewrite (proj1 (declare_type a)). exact A3.
Qed.
Notation moved := (moved old new v).
Notation moved' := (VmapSpec.moved old new' v).
Lemma fun' : forall q p b p' b', origin old new' v q p b -> origin old new' v q p' b' -> p = p' /\ b = b'.
Proof. intros q p b p' b' A B. exact (VmapProofs.origin_fun old new' v declared_wf _ _ _ A _ _ B). Qed.
Lemma fun0 : forall q p b p' b', origin old new v q p b -> origin old new v q p' b' -> p = p' /\ b = b'.
Proof. intros q p b p' b' A B. exact (VmapProofs.origin_fun old new v Wn _ _ _ A _ _ B). Qed.
Lemma moved_not_gets : forall p q, moved p q -> ~ gets q.
Proof. intros p q (_ & _ & O) G. destruct (fun0 _ _ _ _ _ (gets_stays q G) O) as (_ & X). discriminate. Qed.
Lemma moved_same : forall p q, ~ gets q -> (moved' p q <-> moved p q).
Proof.
  intros p q N. unfold VmapSpec.moved. rewrite declared_exists. split; intros (A & B & C); (split; [exact A|split; [exact B|]]).
  - apply origin_from; auto. apply clear_exists; auto.
  - apply origin_to; auto. apply clear_exists; auto.
Qed.
Lemma moved_to : forall p q, moved p q -> moved' p q.
Proof. intros p q M. apply moved_same; [eapply moved_not_gets; eauto|exact M]. Qed.
Lemma moved_d : forall P, swapped old new P -> moved' (nm P) (dsc P).
Proof. intros P S. split; [apply S|]. split; [apply declared_exists, S|apply was_d; exact S]. Qed.
Lemma moved_n : forall P, swapped old new P -> moved' (idn P) (nm P).
Proof. intros P S. split; [apply S|]. split; [apply declared_exists, S|apply was_n; exact S]. Qed.
Lemma moved_gets : forall p q, moved' p q -> gets q -> exists P, swapped old new P /\ ((p = nm P /\ q = dsc P) \/ (p = idn P /\ q = nm P)).
Proof.
  intros p q (_ & _ & O) (P & S & [-> | ->]); exists P; split; auto; [left|right]; split; auto.
  - apply (fun' _ _ _ _ _ O (was_d P S)).
  - apply (fun' _ _ _ _ _ O (was_n P S)).
Qed.
Lemma moved_from : forall p q, ~ gives p -> moved' p q -> moved p q.
Proof.
  intros p q N M. apply moved_same; auto. intros G. destruct (moved_gets p q M G) as (P & S & [(-> & _)|(-> & _)]); apply N; exists P; auto.
Qed.
End Declared.
