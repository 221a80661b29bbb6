(** C65: reports about the use of the data dictionary. *)
From Coq Require Import Permutation Sorted.
From Verif Require Import Base TreeModel HashModel HashProofs2 HashProofs3 AnalysisModel AnalysisProps ReportModel.

(** ** analyze-db *)
(** What a run has to record: its folders in order, if all of their files can be read. *)
Definition readable (f : folder) : Prop := forall s d, In (s, d) (fd_files f) -> s <> strs "master" -> d <> None.
(** The result of a readable folder. *)
Definition result_for (f : folder) (r : result_) : Prop :=
  rs_path r = fd_path f /\
  Forall2 (fun sd i => exists d, snd sd = Some d /\ i = info_of_file (fst sd) d) (filter (fun sd => negb (str_eqb (fst sd) "master"%string)) (fd_files f)) (rs_infos r).
Lemma folder_some : forall f, readable f -> exists r, analyze_folder f = Some r /\ result_for f r.
Proof.
  intros f R. unfold analyze_folder.
  assert (X : forall l, (forall s d, In (s, d) l -> d <> None) -> exists r, all_some (map (fun sd => option_map (info_of_file (fst sd)) (snd sd)) l) = Some r /\
     Forall2 (fun sd i => exists d, snd sd = Some d /\ i = info_of_file (fst sd) d) l r).
  { induction l as [|[s d] l IH]; intros H; [exists []; split; [reflexivity|constructor]|]. destruct IH as (r & E & F); [intros; apply (H s0 d0); now right|].
    destruct d as [d|]; [|exfalso; apply (H s None); [now left|reflexivity]]. exists (info_of_file s d :: r). split; [cbn [map all_some fst snd option_map]; now rewrite E|apply Forall2_cons; [exists d; auto|exact F]]. }
  destruct (X (filter (fun sd => negb (str_eqb (fst sd) "master"%string)) (fd_files f))) as (r & E & F).
  { intros s d I. apply filter_In in I as [I N]. apply (R s d I). intro. subst. now rewrite str_eqb_refl in N. }
  rewrite E. eexists. split; [reflexivity|]. split; [reflexivity|exact F].
Qed.
Lemma folder_none : forall f, ~ readable f -> analyze_folder f = None.
Proof.
  intros f R. unfold analyze_folder. destruct (all_some _) as [l|] eqn:E; [|reflexivity]. exfalso. apply R. intros s d I N D. subst.
  assert (J : In (s, None) (filter (fun sd : str * option (list str) => negb (str_eqb (fst sd) "master"%string)) (fd_files f))).
  { apply filter_In. split; auto. cbn [fst]. destruct (str_eqb s _) eqn:Q; auto. apply str_eqb_eq in Q. contradiction. }
  clear -E J. revert l E. induction (filter _ _) as [|[a b] k IH]; intros l E; [destruct J|]. cbn [map all_some fst snd] in E. destruct J as [Q|J].
  - injection Q as -> ->. discriminate E.
  - destruct (option_map _ b); [|discriminate E]. destruct (all_some (map _ k)); [|discriminate E]. eapply IH; eauto.
Qed.
Lemma readable_dec : forall f, readable f \/ ~ readable f.
Proof.
  intros f. unfold readable. induction (fd_files f) as [|[s d] l IH]; [left; intros s d []|].
  destruct (str_dec s (strs "master")) as [E|N].
  - destruct IH as [H|H]; [left|right]; [intros s' d' [Q|I] Ns; [injection Q as <- <-; contradiction|eauto]|intro G; apply H; intros; eapply G; eauto; now right].
  - destruct d as [d|].
    + destruct IH as [H|H]; [left|right]; [intros s' d' [Q|I] Ns; [injection Q as <- <-; discriminate|eauto]|intro G; apply H; intros; eapply G; eauto; now right].
    + right. intro G. apply (G s None); auto. now left.
Qed.
Lemma all_results : forall fs data, (Forall readable fs -> exists l, analyze_all fs data = Some (data ++ l) /\ Forall2 result_for fs l) /\ (~ Forall readable fs -> analyze_all fs data = None).
Proof.
  induction fs as [|f fs IH]; intros data; split; intros H.
  - exists []. rewrite app_nil_r. split; [reflexivity|constructor].
  - exfalso. apply H. constructor.
  - inversion H as [|x y R Rs]; subst. destruct (folder_some f R) as (r & E & F). cbn [analyze_all skipped]. rewrite E. destruct (proj1 (IH (data ++ [r])) Rs) as (l & El & Fl).
    exists (r :: l). split; [now rewrite El, <- app_assoc|now constructor].
  - cbn [analyze_all skipped]. destruct (readable_dec f) as [R|R]; [|now rewrite folder_none].
    destruct (folder_some f R) as (r & E & F). rewrite E. apply IH. intro G. apply H. now constructor.
Qed.

(** One run: the results of all its folders are appended, or nothing is changed. *)
Definition old (out : file) : list result_ := match out with Data l => l | _ => [] end.
Theorem C65_run : forall h5py out fs, let o := analyze_db h5py out fs in
  (h5py = true -> out <> Corrupt -> Forall readable fs ->
   snd o = Finished /\ exists l, Forall2 result_for fs l /\ old (fst o) = old out ++ l /\ (fst o = Absent <-> out = Absent /\ fs = []) /\ fst o <> Corrupt) /\
  (h5py = false \/ out = Corrupt \/ ~ Forall readable fs -> fst o = out /\ snd o <> Finished).
Proof.
  intros h5py out fs. cbv zeta. unfold analyze_db. split.
  - intros -> C R. cbn [negb]. destruct out as [| |old_]; [|contradiction|]; cbn [old].
    + destruct (proj1 (all_results fs []) R) as (l & E & F). rewrite E. cbn [app]. destruct l as [|r l]; cbn [fst snd]; (split; [reflexivity|]).
      * exists []. repeat split; auto; try discriminate. inversion F; auto.
      * exists (r :: l). repeat split; auto; try discriminate. intros [_ ->]. inversion F.
    + destruct (proj1 (all_results fs old_) R) as (l & E & F). rewrite E. destruct (old_ ++ l) as [|r k] eqn:Q; cbn [fst snd]; (split; [reflexivity|]).
      * apply app_eq_nil in Q as [-> ->]. exists []. repeat split; auto; try discriminate. now intros [? _].
      * exists l. repeat split; auto; try discriminate. now intros [? _].
  - intros H. destruct h5py; cbn [negb]; [|cbn; split; auto; discriminate]. destruct out as [| |l]; cbn [fst snd]; try (split; [reflexivity|discriminate]);
    destruct H as [H|[H|H]]; try discriminate H; rewrite (proj2 (all_results fs _) H); cbn; split; auto; discriminate.
Qed.

(** Any sequence of runs: the file has the results of the folders of all runs that finished, in order. *)
Definition finishes (r : bool * list folder) : Prop := fst r = true /\ Forall readable (snd r).
Inductive recorded : list (bool * list folder) -> list folder -> Prop :=
| rec_nil : recorded [] []
| rec_ok : forall r l fs, finishes r -> recorded l fs -> recorded (r :: l) (snd r ++ fs)
| rec_fail : forall r l fs, ~ finishes r -> recorded l fs -> recorded (r :: l) fs.
Lemma Forall2_app' {A B} (R : A -> B -> Prop) : forall a b x y, Forall2 R a x -> Forall2 R b y -> Forall2 R (a ++ b) (x ++ y).
Proof. intros. now apply Forall2_app. Qed.
Theorem C65_accumulates : forall l fs, recorded l fs -> runs l <> Corrupt /\ (runs l = Absent <-> fs = []) /\ Forall2 result_for fs (old (runs l)).
Proof.
  assert (X : forall l fs, recorded l fs -> forall out, out <> Corrupt ->
    let o := fold_left (fun out r => fst (analyze_db (fst r) out (snd r))) l out in
    o <> Corrupt /\ (o = Absent <-> out = Absent /\ fs = []) /\ exists k, Forall2 result_for fs k /\ old o = old out ++ k).
  { induction 1 as [|r l fs F R IH|r l fs F R IH]; intros out C; cbn [fold_left].
    - cbv zeta. split; [auto|]. split; [tauto|]. exists []. split; [constructor|now rewrite app_nil_r].
    - destruct F as [F1 F2]. destruct (proj1 (C65_run (fst r) out (snd r)) F1 C F2) as (_ & k & K1 & K2 & K3 & K4).
      destruct (IH _ K4) as (I1 & I2 & k2 & I3 & I4). cbv zeta. split; [exact I1|]. split.
      + rewrite I2, K3. split; [intros [[-> E] ->]; rewrite E; auto|intros [-> E]; apply app_eq_nil in E; tauto].
      + exists (k ++ k2). split; [now apply Forall2_app'|]. now rewrite I4, K2, app_assoc.
    - assert (G : fst (analyze_db (fst r) out (snd r)) = out).
      { apply (proj2 (C65_run (fst r) out (snd r))). destruct (fst r) eqn:E; [|auto]. right. right. intro G. apply F. split; auto. }
      rewrite G. now apply IH. }
  intros l fs R. destruct (X l fs R Absent) as (A & B & k & D & E); [discriminate|]. fold (runs l) in A, B, E. split; [exact A|]. split; [rewrite B; tauto|]. rewrite E. exact D.
Qed.
(** Every sequence of runs is covered. *)
Theorem C65_recorded : forall l, exists fs, recorded l fs.
Proof.
  induction l as [|r l (fs & IH)]; [exists []; constructor|].
  assert (D : finishes r \/ ~ finishes r).
  { unfold finishes. destruct (fst r); [|right; intros [E _]; discriminate E].
    assert (F : Forall readable (snd r) \/ ~ Forall readable (snd r)); [|destruct F; [left|right]; intuition].
    induction (snd r) as [|f k IHk]; [left; constructor|]. destruct (readable_dec f), IHk; try (right; intro G; inversion G; contradiction). left. now constructor. }
  destruct D; [exists (snd r ++ fs)|exists fs]; now constructor.
Qed.
(** A folder without master.h5 is recorded, though the message says that it is skipped. *)
Theorem C65_master_refuted : exists f, fd_master f = false /\ old (runs [(true, [f])]) <> [].
Proof. exists {| fd_path := strs "x"; fd_master := false; fd_files := [] |}. split; [reflexivity|]. vm_compute. discriminate. Qed.

(** ** The tree of one IDS *)
(** All nodes of an IDS in document order, each with the structures around it. *)
Fixpoint preorder (chain : list (str * meta)) (p : str) (m : meta) : list (list (str * meta) * str * meta) :=
  (chain, p, m) :: concat (map (fun c => preorder (chain ++ [(p, m)]) (child_path p (mname c)) c) (mchildren m)).
Definition all_nodes (ids : meta) := concat (map (fun c => preorder [] (mname c) c) (mchildren ids)).
Section Tree.
Variable filled : str -> bool.
(** a structure with a filled data node below it *)
Definition in_use (s : str * meta) : bool := existsb filled (data_paths (fst s) (snd s)).
(** shown are data nodes that are filled, and structures, if all structures around them are in use *)
Definition visible (x : list (str * meta) * str * meta) : bool :=
  let '(chain, p, m) := x in forallb in_use chain && match mchildren m with [] => filled p | _ => true end.
Definition line (x : list (str * meta) * str * meta) : list str * label :=
  let '(chain, p, m) := x in
  (map fst chain, match mchildren m with [] => IsUsed p | _ => Counts p (length (filter filled (data_paths p m))) (length (data_paths p m)) end).
End Tree.
(** The lines of a tree with the paths of the branches around them. *)
Definition l_path (l : label) : str := match l with IsUsed p | Counts p _ _ => p end.
Fixpoint lines (above : list str) (b : branch) : list (list str * label) :=
  match b with Branch l sub => (above, l) :: concat (map (lines (above ++ [l_path l])) sub) end.

Lemma node_of_unfold : forall filled p m, node_of filled p m = match mchildren m with [] => ANode p (filled p) [] 0 0
  | _ => finish p (map (fun c => node_of filled (child_path p (mname c)) c) (mchildren m)) end.
Proof. intros filled p [n k cs]. reflexivity. Qed.
Lemma node_leaf : forall filled p m, mchildren m = [] -> node_of filled p m = ANode p (filled p) [] 0 0.
Proof. intros filled p m E. rewrite node_of_unfold. now rewrite E. Qed.
Lemma node_kids : forall filled p m, a_kids (node_of filled p m) = map (fun c => node_of filled (child_path p (mname c)) c) (mchildren m).
Proof. intros filled p m. rewrite node_of_unfold. destruct (mchildren m); reflexivity. Qed.
Lemma node_counts : forall filled p m, (a_total (node_of filled p m), a_full (node_of filled p m)) = (length (data_paths p m), length (filter filled (data_paths p m))) /\
  (mchildren m <> [] -> a_used (node_of filled p m) = existsb filled (data_paths p m)).
Proof.
  intros filled p m.
  assert (X : (a_total (node_of filled p m), a_full (node_of filled p m)) = (length (data_paths p m), length (filter filled (data_paths p m)))).
  { revert p. induction m as [m IH] using meta_ind'. intros p. rewrite node_of_unfold, data_paths_unfold. destruct (mchildren m) as [|c0 cs0] eqn:E0; [reflexivity|]. rewrite <- E0 in *. clear E0 c0 cs0.
    unfold finish. cbn [a_total a_full].
    assert (G : forall cs s, (forall c, In c cs -> forall p, (a_total (node_of filled p c), a_full (node_of filled p c)) = (length (data_paths p c), length (filter filled (data_paths p c)))) ->
      fold_left add_kid (map (fun c => node_of filled (child_path p (mname c)) c) cs) s =
      let l := concat (map (fun c => match mchildren c with [] => [child_path p (mname c)] | _ => data_paths (child_path p (mname c)) c end) cs) in
      (fst s + length l, snd s + length (filter filled l))).
    { induction cs as [|c cs IHc]; intros s Hc; cbv zeta; [destruct s; cbn; f_equal; lia|]. cbn [map fold_left concat]. rewrite IHc by (intros; apply Hc; now right). cbv zeta.
      rewrite app_length, filter_len_app. unfold add_kid. rewrite node_kids. destruct (mchildren c) eqn:Ec.
      - cbn [map]. rewrite (node_leaf _ _ c Ec). cbn [a_used fst snd length filter]. destruct (filled (child_path p (mname c))); cbn [length]; f_equal; lia.
      - cbn [map]. pose proof (Hc c (or_introl eq_refl) (child_path p (mname c))) as Q. injection Q as Q1 Q2. rewrite Q1, Q2. cbn [fst snd]. f_equal; lia. }
    rewrite G by auto. reflexivity. }
  split; [exact X|]. intros N. rewrite node_of_unfold in *. destruct (mchildren m) eqn:E; [contradiction|]. unfold finish in *. cbn [a_used a_total a_full] in *. pose proof (f_equal snd X) as X2. cbv beta iota delta [snd] in X2. fold (@snd nat nat) in X2. change (snd (fold_left add_kid (map (fun c => node_of filled (child_path p (mname c)) c) (m0 :: l)) (0, 0)) = length (filter filled (data_paths p m))) in X2. rewrite X2.
  destruct (existsb filled (data_paths p m)) eqn:Q; [apply existsb_filter in Q; destruct (filter filled (data_paths p m)); [contradiction|reflexivity]|].
  destruct (filter filled (data_paths p m)) eqn:Q2; [reflexivity|]. assert (existsb filled (data_paths p m) = true) by (apply existsb_filter; congruence). congruence.
Qed.
Lemma preorder_unfold : forall chain p m, preorder chain p m = (chain, p, m) :: concat (map (fun c => preorder (chain ++ [(p, m)]) (child_path p (mname c)) c) (mchildren m)).
Proof. intros chain p [n k cs]. reflexivity. Qed.
Lemma hidden : forall filled m chain p, forallb (in_use filled) chain = false -> filter (visible filled) (preorder chain p m) = [].
Proof.
  intros filled. induction m as [m IH] using meta_ind'. intros chain p H. rewrite preorder_unfold. cbn [filter]. unfold visible at 1. rewrite H. cbn [andb].
  rewrite <- flat_map_concat_map.
  assert (G : forall cs, (forall c, In c cs -> In c (mchildren m)) -> filter (visible filled) (flat_map (fun c => preorder (chain ++ [(p, m)]) (child_path p (mname c)) c) cs) = []).
  { induction cs as [|c cs IHc]; intros Hc; [reflexivity|]. cbn [flat_map]. rewrite filter_app, IHc by (intros; apply Hc; now right). rewrite IH; [reflexivity|apply Hc; now left|]. now rewrite forallb_app, H. }
  apply G. auto.
Qed.
Lemma tree_lines : forall filled m chain p, forallb (in_use filled) chain = true ->
  concat (map (lines (map fst chain)) (fill_tree (node_of filled p m))) = map (line filled) (filter (visible filled) (preorder chain p m)).
Proof.
  intros filled. induction m as [m IH] using meta_ind'. intros chain p H. rewrite preorder_unfold. cbn [filter]. unfold visible at 1. rewrite H. cbn [andb].
  destruct (node_counts filled p m) as [C U]. destruct (mchildren m) as [|c0 cs0] eqn:E0.
  - rewrite (node_leaf _ _ m E0). cbn [fill_tree map concat]. destruct (filled p); cbn [map concat lines filter]; [|reflexivity]. unfold line. now rewrite E0.
  - rewrite <- E0 in *. assert (K := node_kids filled p m). destruct (node_of filled p m) as [q u ks t f] eqn:En. cbn [a_kids a_used a_total a_full] in *.
    assert (q = p) by (rewrite node_of_unfold, E0 in En; unfold finish in En; now injection En). subst q. injection C as -> ->.
    assert (Hn : mchildren m <> []) by (rewrite E0; discriminate). specialize (U Hn). subst u.
    assert (fill_tree (ANode p (existsb filled (data_paths p m)) ks (length (data_paths p m)) (length (filter filled (data_paths p m)))) =
      [Branch (Counts p (length (filter filled (data_paths p m))) (length (data_paths p m))) (if existsb filled (data_paths p m) then concat (map fill_tree ks) else [])]) as ->.
    { destruct ks; [|reflexivity]. rewrite E0 in K. discriminate K. }
    cbn [map concat lines l_path]. rewrite app_nil_r. unfold line at 1.
    replace (match mchildren m with [] => IsUsed p | _ :: _ => Counts p (length (filter filled (data_paths p m))) (length (data_paths p m)) end)
      with (Counts p (length (filter filled (data_paths p m))) (length (data_paths p m))) by (rewrite E0; reflexivity).
    f_equal. destruct (existsb filled (data_paths p m)) eqn:Q.
    + rewrite K. clear K En E0 Hn.
      assert (Hc : forallb (in_use filled) (chain ++ [(p, m)]) = true) by (rewrite forallb_app, H; cbn; unfold in_use; cbn [fst snd]; now rewrite Q).
      assert (G : forall cs, (forall c, In c cs -> In c (mchildren m)) ->
        concat (map (lines (map fst chain ++ [p])) (concat (map fill_tree (map (fun c => node_of filled (child_path p (mname c)) c) cs)))) =
        map (line filled) (filter (visible filled) (concat (map (fun c => preorder (chain ++ [(p, m)]) (child_path p (mname c)) c) cs)))).
      { induction cs as [|c cs IHc]; intros Hi; [reflexivity|]. cbn [map concat]. rewrite map_app, concat_app, filter_app, map_app, IHc by (intros; apply Hi; now right). f_equal.
        rewrite <- IH; [|apply Hi; now left|exact Hc]. now rewrite map_app. }
      apply G. auto.
    + cbn [map concat].
      assert (Hc : forallb (in_use filled) (chain ++ [(p, m)]) = false) by (rewrite forallb_app, H; cbn; unfold in_use; cbn [fst snd]; now rewrite Q).
      assert (G : forall cs, filter (visible filled) (concat (map (fun c => preorder (chain ++ [(p, m)]) (child_path p (mname c)) c) cs)) = []).
      { induction cs as [|c cs IHc]; [reflexivity|]. cbn [map concat]. now rewrite filter_app, IHc, hidden. }
      now rewrite G.
Qed.
(** The tree of an IDS shows exactly the visible nodes, in document order, each below the structures around it and with the right numbers. *)
Theorem C65_tree : forall filled ids, concat (map (lines []) (details (ids_node filled ids))) = map (line filled) (filter (visible filled) (all_nodes ids)).
Proof.
  intros filled ids. unfold details, ids_node, finish, all_nodes. cbn [a_kids]. induction (mchildren ids) as [|c cs IH]; [reflexivity|]. cbn [map concat].
  rewrite map_app, concat_app, filter_app, map_app, IH. f_equal. now apply (tree_lines filled c []).
Qed.

(** ** The table *)
Definition fuller_or_equal (a b : str * anode) : Prop := (a_full (snd b) * a_total (snd a) <= a_full (snd a) * a_total (snd b))%nat.
Definition same_fraction (a b : str * anode) : bool := negb (less_full a b) && negb (less_full b a).
Lemma insert_perm : forall x l, Permutation (insert x l) (x :: l).
Proof. induction l as [|y l IH]; cbn [insert]; auto. destruct (less_full x y); auto. eapply perm_trans; [apply perm_skip, IH|apply perm_swap]. Qed.
Lemma sort_perm : forall l, Permutation (sort l) l.
Proof. induction l as [|x l IH]; [constructor|]. cbn [sort fold_right]. eapply perm_trans; [apply insert_perm|now apply perm_skip]. Qed.
Definition positive (a : str * anode) : Prop := a_total (snd a) <> 0.
Lemma foe_trans : forall a b c, positive b -> fuller_or_equal a b -> fuller_or_equal b c -> fuller_or_equal a c.
Proof. unfold fuller_or_equal, positive. intros [? a] [? b] [? c]; cbn [snd]. intros. nia. Qed.
Lemma insert_sorted : forall x l, positive x -> Forall positive l -> StronglySorted fuller_or_equal l -> StronglySorted fuller_or_equal (insert x l).
Proof.
  induction l as [|y l IH]; intros Px Pl S_; cbn [insert]; [repeat constructor|]. inversion Pl as [|? ? Py Pl']; inversion S_ as [|? ? S1 S2]; subst. destruct (less_full x y) eqn:E.
  - constructor; auto. apply Forall_forall. intros z I. apply (Permutation_in _ (insert_perm x l)) in I. destruct I as [<-|I].
    + unfold less_full in E. apply Nat.ltb_lt in E. unfold fuller_or_equal. lia.
    + now apply (proj1 (Forall_forall _ _) S2).
  - assert (F : fuller_or_equal x y) by (unfold less_full in E; apply Nat.ltb_ge in E; unfold fuller_or_equal; lia).
    constructor; [exact S_|]. constructor; [exact F|]. apply Forall_forall. intros z I. apply (foe_trans x y z Py F). now apply (proj1 (Forall_forall _ _) S2).
Qed.
Lemma sort_sorted : forall l, Forall positive l -> StronglySorted fuller_or_equal (sort l).
Proof.
  induction l as [|x l IH]; intros H; [constructor|]. inversion H as [|? ? Px Pl]; subst. cbn [sort fold_right]. apply insert_sorted; auto.
  apply Forall_forall. intros z I. apply (Permutation_in _ (sort_perm l)) in I. now apply (proj1 (Forall_forall _ _) Pl).
Qed.
Lemma insert_stable : forall a x l, positive a -> positive x -> Forall positive l -> filter (same_fraction a) (insert x l) = filter (same_fraction a) (x :: l).
Proof.
  intros a x. induction l as [|y l IH]; intros Pa Px Pl; [reflexivity|]. inversion Pl as [|? ? Py Pl']; subst. cbn [insert]. destruct (less_full x y) eqn:E; [|reflexivity]. cbn [filter] in *.
  rewrite IH; auto. destruct (same_fraction a y) eqn:Sy, (same_fraction a x) eqn:Sx; auto. exfalso. clear -Pa Px Py E Sy Sx. unfold same_fraction, less_full, positive in *. destruct a as [? a], x as [? x], y as [? y]. cbn [snd] in *.
  apply andb_prop in Sy as [A B]. apply andb_prop in Sx as [C D]. apply negb_true_iff, Nat.ltb_ge in A, B, C, D. apply Nat.ltb_lt in E. nia.
Qed.
Lemma sort_stable : forall a l, positive a -> Forall positive l -> filter (same_fraction a) (sort l) = filter (same_fraction a) l.
Proof.
  intros a. induction l as [|x l IH]; intros Pa H; [reflexivity|]. inversion H as [|? ? Px Pl]; subst. cbn [sort fold_right]. fold (sort l). rewrite insert_stable; auto.
  - cbn [filter]. now rewrite IH.
  - apply Forall_forall. intros z I. apply (Permutation_in _ (sort_perm l)) in I. now apply (proj1 (Forall_forall _ _) Pl).
Qed.
(** The table has one row per IDS that is found in the files and in the data dictionary (without --show-empty-ids: that has a filled node),
    with the numbers of its data nodes, those with the greatest fraction first. *)
Definition listed (es : list entry) (n : str) : Prop := exists e i, In e es /\ In i e /\ ii_name i = n.
Definition filled_somewhere (es : list entry) (n p : str) : Prop := exists e i, In e es /\ In i e /\ ii_name i = n /\ In p (ii_filled i).
Lemma listed_occurrences : forall es n, occurrences n es <> [] <-> listed es n.
Proof.
  intros es n. unfold occurrences. rewrite <- existsb_filter, existsb_exists. split.
  - intros (i & I & N). apply in_concat in I as (e & I & J). exists e, i. repeat split; auto. now apply str_eqb_eq.
  - intros (e & i & I & J & N). exists i. split; [apply in_concat; eauto|]. unfold named. subst. apply str_eqb_refl.
Qed.
Lemma listed_in_some : forall n p l, listed_in n p l <> 0 <-> exists i, In i l /\ ii_name i = n /\ In p (ii_filled i).
Proof.
  induction l as [|i l IH]; cbn [listed_in]; [split; [congruence|intros (? & [] & _)]|].
  split.
  - intros H. destruct (named n i && negb (times p (ii_filled i) =? 0)%nat) eqn:Q.
    + apply andb_prop in Q as [A B]. exists i. split; [now left|]. split; [now apply str_eqb_eq|]. apply times_In. intro Z. now rewrite Z in B.
    + destruct IH as [IH _]. destruct IH as (j & J & K); [|exists j; split; [now right|auto]].
      unfold named in *. destruct (str_eqb (ii_name i) n); [|exact H]. cbn [andb] in Q. apply negb_false_iff, Nat.eqb_eq in Q. rewrite Q in H. exact H.
  - intros (j & [<-|J] & A & B).
    + apply times_In in B. unfold named. subst n. rewrite str_eqb_refl. lia.
    + assert (listed_in n p l <> 0) by (apply IH; eauto). lia.
Qed.
Theorem C65_table : forall files factory show rows, let es := concat files in NoDup (akeys factory) ->
  table show (analysis_nodes factory (read_files files)) = Some rows ->
  NoDup (map (fun r => fst (fst r)) rows) /\
  StronglySorted (fun a b => snd (fst b) * snd a <= snd (fst a) * snd b)%nat rows /\
  (forall n full total, In (n, full, total) rows <->
     listed es n /\ exists m (filled : str -> bool), In (n, m) factory /\ (forall p, filled p = true <-> filled_somewhere es n p) /\
       full = length (filter filled (data_paths [] m)) /\ total = length (data_paths [] m) /\ (show = true \/ full <> 0)).
Proof.
  intros files factory show rows es ND E. pose proof (tot_read files) as T. change (concat files) with es in T. set (t := read_files files) in *.
  unfold table in E. destruct (existsb _ _) eqn:Z in E; [discriminate E|]. injection E as <-.
  set (nodes := analysis_nodes factory t) in *.
  assert (Pos : Forall positive nodes).
  { apply Forall_forall. intros x I Q. assert (existsb (fun n => (a_total (snd n) =? 0)%nat) nodes = true); [|congruence]. apply existsb_exists. exists x. split; auto. now apply Nat.eqb_eq. }
  assert (Nod : NoDup (map fst nodes)).
  { destruct (t_ook _ _ T) as [K _]. unfold nodes, analysis_nodes. clear -K. unfold akeys in K. induction (per_occurrence t) as [|[n u] l IH]; [constructor|]. cbn [map concat fst snd] in *. inversion K as [|? ? K1 K2]; subst.
    rewrite map_app. destruct (alookup n factory); cbn [map app fst]; [|auto]. constructor; auto. intro I. apply K1. clear -I.
    apply in_map_iff in I as ([n' a] & E & I). cbn [fst] in E. subst n'. apply in_concat in I as (x & I & J). apply in_map_iff in I as ([n' u] & <- & I). cbn [fst snd] in J. destruct (alookup n' factory); [|destruct J].
    destruct J as [Q|[]]. injection Q as -> _. apply in_map_iff. exists (n, u). auto. }
  assert (Mem : forall n a, In (n, a) nodes <-> exists m (filled : str -> bool), listed es n /\ In (n, m) factory /\ (forall p, filled p = true <-> filled_somewhere es n p) /\ a = ids_node filled m).
  { assert (Fill : forall n u, In (n, u) (per_occurrence t) -> forall p, has_key p (path_counter u) = true <-> filled_somewhere es n p).
    { intros n u I p. destruct (t_ook _ _ T) as [K1 K2]. rewrite has_key_In. rewrite (proj2 (K2 n u I) p).
      assert (usage_of (per_occurrence t) n = u) as <- by (unfold usage_of; rewrite (alookup_NoDup_In _ n u K1 I); reflexivity). change (cnt (per_occurrence t) n p <> 0 <-> filled_somewhere es n p). rewrite (t_ocnt _ _ T), listed_in_some. unfold filled_somewhere. split.
      - intros (i & Ii & A & B). apply in_concat in Ii as (e & Ie & Ij). exists e, i. auto.
      - intros (e & i & Ie & Ij & A & B). exists i. split; [apply in_concat; eauto|auto]. }
    intros n a. unfold nodes, analysis_nodes. rewrite in_concat. split.
    - intros (x & I & J). apply in_map_iff in I as ([n' u] & <- & I). cbn [fst snd] in J. destruct (alookup n' factory) as [m|] eqn:L; [|destruct J]. destruct J as [Q|[]]. injection Q as -> <-.
      exists m, (fun p => has_key p (path_counter u)). split; [|split; [now apply alookup_In|split; [now apply Fill|reflexivity]]].
      apply listed_occurrences, (t_okeys _ _ T). apply in_map_iff. exists (n, u). auto.
    - intros (m & filled & Li & Im & Ff & ->). apply listed_occurrences, (t_okeys _ _ T) in Li. apply in_map_iff in Li as ([n' u] & Q & I). cbn [fst] in Q. subst n'.
      exists [(n, ids_node (fun p => has_key p (path_counter u)) m)]. split; [apply in_map_iff; exists (n, u); split; auto; cbn [fst snd]; now rewrite (alookup_NoDup_In _ n m ND Im)|]. left. f_equal.
      assert (X : forall f g : str -> bool, (forall p, f p = g p) -> forall m p, node_of f p m = node_of g p m).
      { intros f g H. induction m0 as [m0 IH] using meta_ind'. intros p. rewrite !node_of_unfold. destruct (mchildren m0) eqn:E; [now rewrite H|]. rewrite <- E in *. f_equal. apply map_ext_in. auto. }
      unfold ids_node. f_equal. apply map_ext. intros c. apply X. intros p. apply eq_true_iff_eq. rewrite (Fill n u I p), Ff. tauto. }
  assert (Cnt : forall filled m, a_total (ids_node filled m) = length (data_paths [] m) /\ a_full (ids_node filled m) = length (filter filled (data_paths [] m))).
  { intros filled m. destruct (mchildren m) eqn:E; [unfold ids_node; rewrite data_paths_unfold, E; auto|].
    assert (Q : ids_node filled m = node_of filled [] m) by (unfold ids_node; rewrite node_of_unfold, E; reflexivity). rewrite Q. destruct (node_counts filled [] m) as [C _]. now injection C as -> ->. }
  split; [|split].
  - rewrite map_map. cbn [fst]. assert (N2 : NoDup (map fst (sort nodes))) by (eapply Permutation_NoDup; [apply Permutation_map, Permutation_sym, sort_perm|exact Nod]).
    clear -N2. induction (sort nodes) as [|x l IH]; [constructor|]. cbn [filter map] in *. inversion N2; subst. destruct (show || _); cbn [map]; auto. constructor; auto.
    intro I. apply H1. apply in_map_iff in I as (y & Q & I). apply filter_In in I as [I _]. rewrite <- Q. now apply in_map.
  - pose proof (sort_sorted nodes Pos) as S_. clear -S_. induction (sort nodes) as [|x l IH]; [constructor|]. inversion S_ as [|? ? S1 S2]; subst. cbn [filter]. destruct (show || _); cbn [map]; auto.
    constructor; auto. apply Forall_forall. intros r I. apply in_map_iff in I as (y & <- & I). apply filter_In in I as [I _]. cbn [fst snd]. apply (proj1 (Forall_forall _ _) S2 y I).
  - intros n full total. rewrite in_map_iff. split.
    + intros ([n' a] & Q & I). cbn [fst snd] in Q. injection Q as -> <- <-. apply filter_In in I as [I V]. apply (Permutation_in _ (sort_perm nodes)) in I. apply Mem in I as (m & filled & A & B & C & ->).
      split; auto. exists m, filled. destruct (Cnt filled m) as [C1 C2]. repeat split; auto; try apply C. cbn [snd] in V. apply orb_prop in V as [V|V]; auto. right. intro Q. now rewrite Q in V.
    + intros (A & m & filled & B & C & -> & -> & V). exists (n, ids_node filled m). destruct (Cnt filled m) as [C1 C2]. cbn [fst snd]. rewrite C1, C2. split; auto. apply filter_In. split.
      * apply (Permutation_in _ (Permutation_sym (sort_perm nodes))), Mem. exists m, filled. auto.
      * cbn [snd]. rewrite C2. apply orb_true_iff. destruct V as [V|V]; auto. right. apply negb_true_iff. now apply Nat.eqb_neq.
Qed.
(** IDSs with the same fraction stay in the order in which they were found. *)
Theorem C65_stable : forall factory t a, (forall x, In x (a :: analysis_nodes factory t) -> a_total (snd x) <> 0) ->
  filter (same_fraction a) (sort (analysis_nodes factory t)) = filter (same_fraction a) (analysis_nodes factory t).
Proof. intros factory t a H. apply sort_stable; [apply H; now left|]. apply Forall_forall. intros x I. apply H. now right. Qed.

(** An IDS with a structure in use, an empty one, and an unused data node. *)
Definition demo_meta : meta :=
  Meta "core"%string KStruct [Meta "time"%string (KLeaf FLT 1) [];
    Meta "a"%string KStruct [Meta "b"%string (KLeaf FLT 0) []; Meta "c"%string KAoS [Meta "d"%string (KLeaf FLT 0) []]]; Meta "e"%string KStruct [Meta "f"%string KStruct [Meta "g"%string (KLeaf FLT 0) []]]].
Definition demo_folder (path stem : string) (l : list string) : folder :=
  {| fd_path := path; fd_master := true; fd_files := [(strs "master", None); (strs stem, Some (map strs l))] |}.
Definition demo_runs : list (bool * list folder) :=
  [(true, [demo_folder "x" "core" ["a&b"; "a&b_SHAPE"; "time"]]); (false, [demo_folder "y" "core" []]); (true, [demo_folder "z" "core_1" ["a&b"]; demo_folder "u" "other" []])]%string.
Example C65_ex :
  map rs_path (old (runs demo_runs)) = [strs "x"; strs "z"; strs "u"] /\
  (let t := read_files [map rs_infos (old (runs demo_runs))] in let nodes := analysis_nodes [(strs "core", demo_meta)] t in
   table false nodes = Some [(strs "core", 2, 4)] /\
   map (fun n => concat (map (lines []) (details (snd n)))) nodes =
     [[([], IsUsed "time"%string); ([], Counts "a"%string 1 2); ([strs "a"], IsUsed "a/b"%string); ([strs "a"], Counts "a/c"%string 0 1); ([], Counts "e"%string 0 1)]]).
Proof. vm_compute. auto. Qed.
Print Assumptions C65_run.
Print Assumptions C65_accumulates.
Print Assumptions C65_recorded.
Print Assumptions C65_master_refuted.
Print Assumptions C65_tree.
Print Assumptions C65_table.
Print Assumptions C65_stable.

(** ** Names of datasets in the files *)
(** A dataset of a quantity is named by the names of the nodes around it, joined with &; arrays of structures have [] after their names. *)
Definition dataset_of (l : list (str * bool)) : str := join_with "&"%char (map (fun nb : str * bool => (fst nb ++ (if snd nb then strs "[]" else []))%list) l).
Definition plain_name (n : str) : Prop := ~ In "&"%char n /\ ~ In "["%char n /\ ~ In "]"%char n.
Lemma dataset_path_app : forall a b, dataset_path (a ++ b) = (dataset_path a ++ dataset_path b)%list.
Proof. intros. unfold dataset_path. now rewrite filter_app, map_app. Qed.
Lemma dataset_path_plain : forall n, plain_name n -> dataset_path n = n.
Proof.
  induction n as [|c n IH]; intros (A & B & C); [reflexivity|]. unfold dataset_path. cbn [filter].
  destruct (Ascii.eqb_spec c "["%char) as [->|_]; [exfalso; apply B; now left|].
  destruct (Ascii.eqb_spec c "]"%char) as [->|_]; [exfalso; apply C; now left|]. cbn [orb negb map].
  destruct (Ascii.eqb_spec c "&"%char) as [->|_]; [exfalso; apply A; now left|]. f_equal. apply IH.
  repeat split; intros H; [apply A|apply B|apply C]; now right.
Qed.
(** The file of an IDS lists the path of every dataset with / between the names, in order, and leaves out those with shapes. *)
Theorem C65_datasets : forall stem ds,
  (forall l, Forall (fun nb => plain_name (fst nb)) l -> dataset_path (dataset_of l) = join_with "/"%char (map fst l)) /\
  ii_filled (info_of_file stem ds) = map dataset_path (filter (fun d => negb (ends_with (strs "SHAPE") d)) ds) /\
  (forall d, ends_with (strs "SHAPE") d = true <-> exists a, d = (a ++ strs "SHAPE")%list).
Proof.
  intros stem ds. split; [|split; [reflexivity|]].
  - induction l as [|[n b] l IH]; intros H; [reflexivity|]. inversion H as [|? ? Hn Hl]; subst. specialize (IH Hl). cbn [fst] in Hn.
    assert (P : dataset_path (n ++ if b then strs "[]" else []) = n)
      by (rewrite dataset_path_app, dataset_path_plain by exact Hn; destruct b; apply app_nil_r).
    unfold dataset_of in *. destruct l as [|q l]; [exact P|]. cbn [map join_with fst snd] in *.
    rewrite dataset_path_app, P. f_equal.
    match goal with |- dataset_path (?c :: ?t) = _ => change (c :: t) with ([c] ++ t)%list end.
    rewrite dataset_path_app. cbn [app]. change (dataset_path ["&"%char]) with ["/"%char]. cbn [app]. f_equal. exact IH.
  - intros d. unfold ends_with. rewrite str_eqb_eq. split.
    + intros H. exists (firstn (length d - length (strs "SHAPE")) d). rewrite H at 2. symmetry. apply firstn_skipn.
    + intros (a & ->). rewrite app_length, Nat.add_sub, skipn_app, skipn_all, Nat.sub_diag. reflexivity.
Qed.
Example C65_datasets_ex :
  dataset_of [(strs "profiles_1d", true); (strs "grid", false); (strs "rho", false)] = strs "profiles_1d[]&grid&rho" /\
  ii_filled (info_of_file (strs "core_profiles") [strs "profiles_1d[]&grid&rho"; strs "profiles_1d[]&AOS_SHAPE"]) = [strs "profiles_1d/grid/rho"].
Proof. split; reflexivity. Qed.
Print Assumptions C65_datasets.
