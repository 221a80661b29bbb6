(** Properties C12 - C15: emptiness, iteration, differences and equality of IDS structures. *)
From Verif Require Import Base TreeModel TreeSpec TreeProofs TreeProofs2 TreeProofs3 TreeProofs4.

(** A small data dictionary: a structure with a scalar, an array, a nested structure holding an array of structures. *)
Definition ex_meta : meta :=
  Meta (strs "eq") KStruct
    [ Meta (strs "ids_properties") KStruct [Meta (strs "homogeneous_time") (KLeaf INT 0) []; Meta (strs "comment") (KLeaf STR 0) []];
      Meta (strs "grid") KStruct [Meta (strs "slice") KAoS [Meta (strs "r") (KLeaf FLT 1) []]];
      Meta (strs "time") (KLeaf FLT 1) [] ].
Definition nan_bits : flt := 9221120237041090560%Z.
Definition ex_node : node :=
  NStruct [ (strs "time", NLeaf (Some (VFltA [2] [0%Z; nan_bits])));
            (strs "grid", NStruct [(strs "slice", NAoS [NStruct []; NStruct [(strs "r", NLeaf (Some (VFltA [1] [0%Z])))]])]);
            (strs "ids_properties", NStruct [(strs "homogeneous_time", NLeaf (Some (VInt 1))); (strs "comment", NLeaf None)]) ].
(** the same, with [slice] of size 1 holding an empty element; and of size 2 holding empty elements; and absent *)
Definition hollow (k : nat) : node :=
  NStruct [ (strs "time", NLeaf (Some (VFltA [2] [0%Z; nan_bits])));
            (strs "grid", NStruct [(strs "slice", NAoS (repeat (NStruct []) k))]) ].
Definition no_grid : node := NStruct [ (strs "time", NLeaf (Some (VFltA [2] [0%Z; nan_bits]))) ].

Ltac solve_in := let H := fresh in intros ? H; simpl in H; repeat (destruct H as [<-|H]); try contradiction.
Ltac solve_wf := repeat (constructor; simpl; try (intros; discriminate); try (intros; congruence));
  try (intros ? [C|C]; [discriminate|]); auto.

Lemma ex_meta_wf : wf_meta ex_meta.
Proof.
  unfold ex_meta.
  constructor; [repeat constructor; simpl; intuition discriminate| |discriminate].
  solve_in; (constructor; [repeat constructor; simpl; intuition discriminate| |intros; auto; discriminate]).
  - solve_in; constructor; simpl; try constructor; try tauto; try discriminate; auto.
  - solve_in. constructor; [repeat constructor; simpl; intuition discriminate| |discriminate].
    solve_in; constructor; simpl; try constructor; try tauto; try discriminate; auto.
  - solve_in.
Qed.
Lemma ex_meta_str : str_ok ex_meta.
Proof.
  unfold ex_meta. constructor; [discriminate|]. solve_in; (constructor; [try discriminate|]).
  - solve_in; constructor; simpl; try tauto; intros nd H; inversion H; auto.
  - solve_in. constructor; [discriminate|]. solve_in. constructor; simpl; try tauto; discriminate.
  - solve_in.
Qed.

Ltac solve_conf :=
  match goal with
  | |- conf (Meta _ KStruct _) (NStruct _) =>
    apply conf_struct;
    [ let Hin := fresh in let E := fresh in intros ? ? Hin E; simpl in Hin;
      repeat (destruct Hin as [<-|Hin]); try contradiction; simpl in E; try discriminate; inversion E; subst; clear E; solve_conf
    | simpl; intuition subst; auto
    | repeat constructor; simpl; intuition discriminate ]
  | |- conf (Meta _ KAoS _) (NAoS _) =>
    apply conf_aos; let Hin := fresh in intros ? Hin; simpl in Hin; repeat (destruct Hin as [<-|Hin]); try contradiction; solve_conf
  | |- conf (Meta _ (KLeaf _ _) _) (NLeaf None) => apply conf_none
  | |- conf (Meta _ (KLeaf _ _) _) (NLeaf (Some _)) => apply conf_leaf; solve_conf
  | |- val_ok INT 0 _ => apply vo_int
  | |- val_ok STR 0 _ => apply vo_str
  | |- val_ok FLT 1 (VFltA ?sh _) => apply (vo_flta sh); [discriminate|reflexivity]
  end.
Lemma ex_node_conf : conf ex_meta ex_node.
Proof. unfold ex_meta, ex_node. solve_conf. Qed.
Lemma hollow_conf : forall k, conf ex_meta (hollow k).
Proof.
  intros k. unfold ex_meta, hollow. apply conf_struct.
  - intros c ch Hin E. simpl in Hin. repeat (destruct Hin as [<-|Hin]); try contradiction; simpl in E; try discriminate; inversion E; subst; clear E.
    + apply conf_struct.
      * intros c ch Hin E. simpl in Hin. repeat (destruct Hin as [<-|Hin]); try contradiction; simpl in E; inversion E; subst; clear E.
        apply conf_aos. intros e He. apply repeat_spec in He. subst e. solve_conf. 
      * simpl; intuition subst; auto.
      * repeat constructor; simpl; intuition discriminate.
    + solve_conf.
  - simpl; intuition subst; auto.
  - repeat constructor; simpl; intuition discriminate.
Qed.
Lemma no_grid_conf : conf ex_meta no_grid.
Proof. unfold ex_meta, no_grid. solve_conf. Qed.

(** ** C12 Emptiness does not depend on which children were looked at *)

(** has_value is a statement about the stored data only. *)
Theorem C12_has_value_iff_content : forall m n, conf m n -> (has_value m n = true <-> nonempty m n).
Proof. exact has_value_nonempty. Qed.
Print Assumptions C12_has_value_iff_content.

(** Reading any sequence of nodes (creating children, storing defaults of 1+D data nodes) leaves has_value, the filled data
    nodes listed by iteration, and equality unchanged. *)
Theorem C12_reads_keep_has_value : forall m n ls, wf_meta m -> str_ok m -> conf m n ->
  has_value m (fold_left (access m) ls n) = has_value m n.
Proof.
  intros m n ls Hw Hs Hc. destruct (reads_item ls m n Hw Hs Hc) as (H1 & H2). apply has_value_items; auto.
Qed.
Print Assumptions C12_reads_keep_has_value.

Theorem C12_reads_keep_iteration : forall m n ls, wf_meta m -> str_ok m -> conf m n ->
  tree_iter true false false m (fold_left (access m) ls n) = tree_iter true false false m n.
Proof.
  intros m n ls Hw Hs Hc. destruct (reads_item ls m n Hw Hs Hc) as (H1 & H2).
  unfold tree_iter. destruct (mkind m); auto; cbn [andb app]; apply leaf_iter_items; auto.
Qed.
Print Assumptions C12_reads_keep_iteration.

Lemma handle_reads_ok : forall dd h ls, str_ok (struct_view (h_meta h)) -> handle_ok dd h -> handle_ok dd
  {| h_version := h_version h; h_ids := h_ids h; h_path := h_path h; h_meta := h_meta h;
     h_node := fold_left (access (struct_view (h_meta h))) ls (h_node h) |}.
Proof.
  intros dd h ls Hs (D & W & C & P). unfold handle_ok. cbn. repeat split; auto.
  apply reads_item; auto. destruct (h_meta h) as [n k c]. simpl. eapply wf_struct; eauto.
Qed.

Theorem C12_reads_keep_equality : forall dd a b ls ls', handle_ok dd a -> handle_ok dd b ->
  str_ok (struct_view (h_meta a)) -> str_ok (struct_view (h_meta b)) ->
  let reads h ls := {| h_version := h_version h; h_ids := h_ids h; h_path := h_path h; h_meta := h_meta h;
                       h_node := fold_left (access (struct_view (h_meta h))) ls (h_node h) |} in
  ids_eq (reads a ls) (reads b ls') = ids_eq a b.
Proof.
  intros dd a b ls ls' Ha Hb Sa Sb reads.
  pose proof (handle_reads_ok dd a ls Sa Ha) as Ra. pose proof (handle_reads_ok dd b ls' Sb Hb) as Rb.
  pose proof (idsdiffgen_nil dd _ _ Ra Rb) as E1. pose proof (idsdiffgen_nil dd a b Ha Hb) as E2.
  assert (W : forall h, handle_ok dd h -> wf_meta (struct_view (h_meta h))).
  { intros h (_ & K & _). destruct (h_meta h) as [n k c]. simpl. eapply wf_struct; eauto. }
  destruct (reads_item ls (struct_view (h_meta a)) (h_node a)) as (Ca & Ia); auto. { apply Ha. }
  destruct (reads_item ls' (struct_view (h_meta b)) (h_node b)) as (Cb & Ib); auto. { apply Hb. }
  assert (X : idsdiffgen (reads a ls) (reads b ls') = [] <-> idsdiffgen a b = []).
  { unfold reads. rewrite E1, E2. unfold same_place. cbn. split; intros ((P1 & P2 & P3) & A); (split; [auto|]).
    - assert (Hm : h_meta b = h_meta a) by (destruct Ha as (-> & _), Hb as (-> & _); congruence).
      rewrite Hm in Ib, A. rewrite ?Hm. eapply agree_items; [apply W; exact Ha| | |exact A]; intros; [apply Ia|apply Ib].
    - assert (Hm : h_meta b = h_meta a) by (destruct Ha as (-> & _), Hb as (-> & _); congruence).
      rewrite Hm in Ib. rewrite ?Hm. eapply agree_items; [apply W; exact Ha| | |exact A]; intros; symmetry; [apply Ia|apply Ib]. }
  unfold ids_eq. destruct (idsdiffgen (reads a ls) (reads b ls')), (idsdiffgen a b); auto; exfalso.
  - assert (d :: l = []) by (apply X; auto). discriminate.
  - assert (d :: l = []) by (apply X; auto). discriminate.
Qed.
Print Assumptions C12_reads_keep_equality.

(** Not vacuous: a read which does change the tree. *)
Example C12_example : wf_meta ex_meta /\ str_ok ex_meta /\ conf ex_meta ex_node /\
  access ex_meta ex_node [Child (strs "grid"); Child (strs "slice"); Elem 0; Child (strs "r")] <> ex_node /\
  has_value ex_meta ex_node = true.
Proof.
  split; [exact ex_meta_wf|]. split; [exact ex_meta_str|]. split; [exact ex_node_conf|]. split; [discriminate|reflexivity].
Qed.

(** ** C13 tree_iter visits every data node exactly once *)

(** Default flags: exactly the filled data nodes ... *)
Theorem C13_leaves_exact : forall m n, conf m n -> ~ is_leaf m -> forall l x,
  In (l, x) (tree_iter true false false m n) <-> exists v, x = NLeaf (Some v) /\ leaf_at m n l v.
Proof.
  intros m n Hc Hnl l x. unfold tree_iter.
  assert (Hb : In (l, x) (tree_iter_below true false m n) <-> exists v, x = NLeaf (Some v) /\ leaf_at m n l v).
  { rewrite in_leaf_iter by auto. split; [intros (_ & H); auto|]. intros (v & -> & H). split; eauto.
    intros ->. destruct H as (m' & Hl & Hat & _). apply node_at_nil_inv in Hat as (-> & _). auto. }
  destruct (mkind m) eqn:Ek; auto. exfalso. apply Hnl. unfold is_leaf. eauto.
Qed.
Print Assumptions C13_leaves_exact.

(** ... with [leaf_only=False] also the non-empty structures and arrays and all elements of arrays ... *)
Theorem C13_nodes_exact : forall m n, conf m n -> ~ is_leaf m -> forall l x,
  In (l, x) (tree_iter false false false m n) <-> l <> [] /\ exists m', node_at m n l m' x /\ visible false m' l x.
Proof.
  intros m n Hc Hnl l x. unfold tree_iter. rewrite <- tree_iter_below_spec by auto.
  destruct (mkind m) eqn:Ek; simpl; try tauto. exfalso. apply Hnl. unfold is_leaf. eauto.
Qed.
Print Assumptions C13_nodes_exact.

(** ... with [visit_empty=True] every node of the completed tree (all children of all existing structures) ... *)
Theorem C13_visit_empty_exact : forall lo m n, conf m n -> ~ is_leaf m -> forall l x,
  In (l, x) (tree_iter lo true false m n) <->
  l <> [] /\ exists m', vnode_at m n l m' x /\ (lo = true -> is_leaf m').
Proof.
  intros lo m n Hc Hnl l x. unfold tree_iter. rewrite <- tree_iter_below_ve by auto.
  destruct (mkind m) eqn:Ek; simpl; try tauto. exfalso. apply Hnl. unfold is_leaf. eauto.
Qed.
Print Assumptions C13_visit_empty_exact.

(** ... [include_node] adds the start node itself in front (only with [leaf_only=False] unless it is a data node) ... *)
Theorem C13_include_node : forall lo ve m n, tree_iter lo ve true m n =
  match lo, mkind m with
  | true, KStruct | true, KAoS => tree_iter lo ve false m n
  | _, _ => ([], n) :: tree_iter lo ve false m n
  end.
Proof. intros lo ve [nm [| |dt nd] cs] n; destruct lo; reflexivity. Qed.
Print Assumptions C13_include_node.

(** ... in document order, each node once, for all flags. *)
Theorem C13_document_order : forall lo ve inc m n, wf_meta m ->
  sorted_by (before m) (map fst (tree_iter lo ve inc m n)) /\ NoDup (map fst (tree_iter lo ve inc m n)).
Proof.
  intros lo ve inc m n Hw.
  assert (Hs : sorted_by (before m) (map fst (tree_iter lo ve inc m n))).
  { unfold tree_iter. pose proof (tree_iter_sorted lo ve m n) as H.
    assert (G : sorted_by (before m) (map fst ((if inc && negb lo then [([], n)] else []) ++ tree_iter_below lo ve m n))).
    { destruct (inc && negb lo); simpl; auto. constructor; auto. intros y Hy.
      apply in_map_iff in Hy as ((l & x) & <- & Hin). apply tree_iter_below_nonnil in Hin. simpl. destruct l; [congruence|constructor]. }
    destruct (mkind m); auto. destruct inc; simpl; repeat constructor. simpl. tauto. }
  split; auto. eapply sorted_nodup; eauto. intros x. apply before_irrefl; auto.
Qed.
Print Assumptions C13_document_order.

Example C13_example : conf ex_meta ex_node /\ ~ is_leaf ex_meta /\
  map fst (tree_iter true false false ex_meta ex_node) =
    [ [Child (strs "ids_properties"); Child (strs "homogeneous_time")];
      [Child (strs "grid"); Child (strs "slice"); Elem 1; Child (strs "r")];
      [Child (strs "time")] ].
Proof. split; [exact ex_node_conf|]. split; [intros (? & ? & H); discriminate|reflexivity]. Qed.

(** With [leaf_only=False] nodes holding nothing are listed although [visit_empty] is False: elements of arrays are not
    checked.  Finding. *)
Theorem C13_skips_empty_nodes_refuted : exists m n l x m', wf_meta m /\ conf m n /\
  In (l, x) (tree_iter false false false m n) /\ node_at m n l m' x /\ ~ nonempty m' x.
Proof.
  exists ex_meta, ex_node, [Child (strs "grid"); Child (strs "slice"); Elem 0], (NStruct []),
    (Meta (strs "slice") KStruct [Meta (strs "r") (KLeaf FLT 1) []]).
  split; [exact ex_meta_wf|]. split; [exact ex_node_conf|]. split; [vm_compute; tauto|].
  assert (G : node_at ex_meta ex_node ([] ++ [Child (strs "grid"); Child (strs "slice"); Elem 0]) (Meta (strs "slice") KStruct [Meta (strs "r") (KLeaf FLT 1) []]) (NStruct [])).
  { simpl app. unfold ex_meta, ex_node.
    eapply (na_child _ _ _ (Meta (strs "grid") KStruct _)); [simpl; auto|reflexivity|].
    eapply (na_child _ _ _ (Meta (strs "slice") KAoS _)); [simpl; auto|reflexivity|].
    econstructor; [reflexivity|constructor]. }
  split; [exact G|]. rewrite nonempty_struct. intros (c & ch & _ & E & _). discriminate.
Qed.
Print Assumptions C13_skips_empty_nodes_refuted.

(** ** C14 idsdiffgen reports a difference exactly when the contents differ *)

(** Exact: no difference is reported iff same version, IDS and path, the same filled data nodes with the same values,
    and the same sizes of the arrays of structures except those inside a sub-structure that is empty on the other side. *)
Theorem C14_no_difference_iff : forall dd a b, handle_ok dd a -> handle_ok dd b ->
  (idsdiffgen a b = [] <->
   same_place a b /\
   leaves_in (struct_view (h_meta a)) (h_node a) (h_node b) /\ leaves_in (struct_view (h_meta a)) (h_node b) (h_node a) /\
   sizes_in_visible (struct_view (h_meta a)) (h_node a) (h_node b) /\
   sizes_in_visible (struct_view (h_meta a)) (h_node b) (h_node a)).
Proof. exact idsdiffgen_nil. Qed.
Print Assumptions C14_no_difference_iff.

(** Consequence: when the contents are the same nothing is reported. *)
Theorem C14_same_contents_no_report : forall dd a b, handle_ok dd a -> handle_ok dd b -> same_place a b ->
  leaves_in (struct_view (h_meta a)) (h_node a) (h_node b) -> leaves_in (struct_view (h_meta a)) (h_node b) (h_node a) ->
  sizes_in (struct_view (h_meta a)) (h_node a) (h_node b) -> sizes_in (struct_view (h_meta a)) (h_node b) (h_node a) ->
  idsdiffgen a b = [].
Proof.
  intros dd a b Ha Hb Hp L1 L2 S1 S2. apply (C14_no_difference_iff dd); auto. repeat split; auto; try apply Hp.
  - intros l k H. left. auto.
  - intros l k H. left. auto.
Qed.
Print Assumptions C14_same_contents_no_report.

(** A reported node difference exists: two different filled values or array sizes at the same location, or a node that is
    filled on one side only. *)
Theorem C14_reports_are_real : forall dd a b d, handle_ok dd a -> handle_ok dd b -> same_place a b -> In d (idsdiffgen a b) ->
  real (struct_view (h_meta a)) (h_node a) (h_node b) (h_path a) d.
Proof.
  intros dd a b d (Da & Wa & Ca & Pa) (Db & Wb & Cb & Pb) (E1 & E2 & E3) H.
  assert (Hm : h_meta b = h_meta a) by congruence. rewrite Hm in *.
  unfold idsdiffgen in H. rewrite E1, E2, E3 in H. rewrite !str_eqb_refl in H.
  rewrite (proj2 (list_eqb_str (h_path b) (h_path b)) eq_refl) in H. cbn [app] in H. rewrite <- E3 in H.
  unfold idsdiff_struct in H. rewrite Hm in H.
  assert (W : wf_meta (struct_view (h_meta a))).
  { destruct (h_meta a) as [n k c]. simpl. eapply wf_struct; eauto. }
  assert (G : forall d pre, In d (diff_child pre (struct_view (h_meta a)) (h_node a) (struct_view (h_meta a)) (h_node b)) ->
     real (struct_view (h_meta a)) (h_node a) (h_node b) (pre ++ [mname (h_meta a)]) d).
  { intros d0 pre Hd. apply (diff_real _ W); auto.
    - intros (? & ? & K). discriminate.
    - discriminate. }
  destruct Pa as [Pa|(p & Pa)].
  - rewrite Pa in *. apply in_map_iff in H as (d0 & <- & H). apply G in H. simpl app in H.
    destruct H as (l & [(m' & x & y & -> & H)|[(m' & x & -> & H)|(m' & x & -> & H)]]); exists l; simpl app; cbn [drop_ids_name].
    + left. exists m', x, y. auto.
    + right; left. exists m', x. auto.
    + right; right. exists m', x. auto.
  - rewrite Pa in H. rewrite removelast_last in H. rewrite Pa. destruct (p ++ [mname (h_meta a)]) eqn:E; [destruct p; discriminate|].
    rewrite <- E. apply G. exact H.
Qed.
Print Assumptions C14_reports_are_real.

(** Every filled data node (or array size) of one side that is not the same on the other side is reported, at its own path
    or at the path of one of its ancestors. *)
Theorem C14_differences_are_reported : forall dd a b l, handle_ok dd a -> handle_ok dd b -> same_place a b ->
  differs (struct_view (h_meta a)) (h_node a) (h_node b) l \/ differs (struct_view (h_meta a)) (h_node b) (h_node a) l ->
  exists p q x y, l = p ++ q /\ In (DNode (h_path a ++ loc_names p) x y) (idsdiffgen a b).
Proof.
  intros dd a b l (Da & Wa & Ca & Pa) (Db & Wb & Cb & Pb) (E1 & E2 & E3) H.
  assert (Hm : h_meta b = h_meta a) by congruence. rewrite Hm in *.
  unfold idsdiffgen. rewrite E1, E2, E3. rewrite !str_eqb_refl.
  rewrite (proj2 (list_eqb_str (h_path b) (h_path b)) eq_refl). cbn [app]. rewrite <- E3.
  unfold idsdiff_struct. rewrite Hm.
  assert (W : wf_meta (struct_view (h_meta a))).
  { destruct (h_meta a) as [n k c]. simpl. eapply wf_struct; eauto. }
  destruct (diff_reported _ W (h_node a) (h_node b) (removelast (h_path a)) l Ca Cb) as (p & q & x & y & -> & Hin); auto.
  { intros (? & ? & K). discriminate. }
  exists p, q, x, y. split; auto. cbn [mname struct_view] in Hin.
  destruct Pa as [Pa|(p0 & Pa)].
  - rewrite Pa in *. simpl app in Hin. apply in_map_iff. eexists. split; [|exact Hin]. reflexivity.
  - rewrite Pa in *. rewrite removelast_last in *. rewrite <- app_assoc. simpl app.
    destruct (p0 ++ [mname (h_meta a)]) eqn:E; [destruct p0; discriminate|]. exact Hin.
Qed.
Print Assumptions C14_differences_are_reported.

(** The full property "a different size of any array of structures is reported" is false: arrays of empty elements inside a
    structure which is absent on the other side are not reported.  Finding. *)
Definition ex_handle (n : node) : handle :=
  {| h_version := strs "4.0.0"; h_ids := strs "eq"; h_path := []; h_meta := ex_meta; h_node := n |}.
Definition ex_dd : str -> str -> list str -> meta := fun _ _ _ => ex_meta.
Lemma ex_handle_ok : forall n, conf ex_meta n -> handle_ok ex_dd (ex_handle n).
Proof. intros n H. split; [reflexivity|]. split; [exact ex_meta_wf|]. split; [exact H|left; reflexivity]. Qed.

Theorem C14_array_size_refuted : exists dd a b, handle_ok dd a /\ handle_ok dd b /\ same_place a b /\
  ~ sizes_in (struct_view (h_meta a)) (h_node a) (h_node b) /\ idsdiffgen a b = [].
Proof.
  exists ex_dd, (ex_handle (hollow 1)), (ex_handle no_grid).
  split; [apply ex_handle_ok, hollow_conf|]. split; [apply ex_handle_ok, no_grid_conf|].
  split; [repeat split|]. split; [|vm_compute; reflexivity].
  intros H. assert (K : aos_at ex_meta no_grid [Child (strs "grid"); Child (strs "slice")] 1).
  { apply H. cbn [h_node ex_handle h_meta]. change (struct_view ex_meta) with ex_meta.
    exists (Meta (strs "slice") KAoS [Meta (strs "r") (KLeaf FLT 1) []]), [NStruct []].
    split; [|repeat split; auto]. unfold ex_meta, hollow.
    eapply (na_child _ _ _ (Meta (strs "grid") KStruct _)); [simpl; auto|reflexivity|].
    eapply (na_child _ _ _ (Meta (strs "slice") KAoS _)); [simpl; auto|reflexivity|]. constructor. }
  destruct K as (m' & els & K & _). apply node_at_struct_inv in K as [(K & _)|(c & ch & l' & K & _ & E & _)]; [discriminate|].
  inversion K as [[K1 K2]]. rewrite <- K1 in E. discriminate.
Qed.
Print Assumptions C14_array_size_refuted.

Example C14_example : handle_ok ex_dd (ex_handle ex_node) /\ handle_ok ex_dd (ex_handle (hollow 2)) /\
  same_place (ex_handle ex_node) (ex_handle (hollow 2)) /\ length (idsdiffgen (ex_handle ex_node) (ex_handle (hollow 2))) = 2.
Proof.
  split; [apply ex_handle_ok, ex_node_conf|]. split; [apply ex_handle_ok, hollow_conf|]. split; [repeat split|vm_compute; reflexivity].
Qed.

(** ** C15 Equality *)
Theorem C15_reflexive : forall dd a, handle_ok dd a -> ids_eq a a = true.
Proof.
  intros dd a Ha. unfold ids_eq. rewrite (proj2 (C14_no_difference_iff dd a a Ha Ha)); auto.
  split; [repeat split|]. apply agree_refl.
Qed.
Print Assumptions C15_reflexive.

Theorem C15_symmetric : forall dd a b, handle_ok dd a -> handle_ok dd b -> ids_eq a b = ids_eq b a.
Proof.
  intros dd a b Ha Hb.
  assert (G : forall a b, handle_ok dd a -> handle_ok dd b -> idsdiffgen a b = [] -> idsdiffgen b a = []).
  { clear. intros a b Ha Hb H. apply (idsdiffgen_nil dd) in H as ((P1 & P2 & P3) & A); auto.
    apply (idsdiffgen_nil dd); auto. split; [repeat split; auto|].
    assert (Hm : h_meta b = h_meta a) by (destruct Ha as (-> & _), Hb as (-> & _); congruence). rewrite Hm. apply agree_sym. auto. }
  unfold ids_eq. destruct (idsdiffgen a b) eqn:E1, (idsdiffgen b a) eqn:E2; auto.
  - apply G in E1; auto. congruence.
  - apply G in E2; auto. congruence.
Qed.
Print Assumptions C15_symmetric.

(** Transitive for structures in which every non-empty sub-structure holds some filled data node. *)
Theorem C15_transitive_solid : forall dd a b c, handle_ok dd a -> handle_ok dd b -> handle_ok dd c ->
  solid (struct_view (h_meta a)) (h_node a) -> solid (struct_view (h_meta b)) (h_node b) ->
  solid (struct_view (h_meta c)) (h_node c) ->
  ids_eq a b = true -> ids_eq b c = true -> ids_eq a c = true.
Proof.
  intros dd a b c Ha Hb Hc Sa Sb Sc H1 H2. unfold ids_eq in *.
  destruct (idsdiffgen a b) eqn:E1; [|discriminate]. destruct (idsdiffgen b c) eqn:E2; [|discriminate].
  apply (idsdiffgen_nil dd) in E1 as ((P1 & P2 & P3) & L1 & L2 & Z1 & Z2); auto.
  apply (idsdiffgen_nil dd) in E2 as ((Q1 & Q2 & Q3) & M1 & M2 & Y1 & Y2); auto.
  assert (Hmb : h_meta b = h_meta a) by (destruct Ha as (-> & _), Hb as (-> & _); congruence).
  assert (Hmc : h_meta c = h_meta a) by (destruct Ha as (-> & _), Hc as (-> & _); congruence).
  rewrite Hmb, Hmc in *.
  assert (W : wf_meta (struct_view (h_meta a))).
  { destruct Ha as (_ & Wa & _). destruct (h_meta a) as [n k cc]. simpl. eapply wf_struct; eauto. }
  apply solid_sizes in Z1; auto. apply solid_sizes in Z2; auto. apply solid_sizes in Y1; auto. apply solid_sizes in Y2; auto.
  rewrite (C14_same_contents_no_report dd a c); auto; try rewrite Hmc; auto.
  - repeat split; congruence.
  - intros l v Hv. destruct (L1 l v Hv) as (w & Hw & S1). destruct (M1 l w Hw) as (u & Hu & S2).
    exists u. split; auto. eapply same_value_trans; eauto.
  - intros l v Hv. destruct (M2 l v Hv) as (w & Hw & S1). destruct (L2 l w Hw) as (u & Hu & S2).
    exists u. split; auto. eapply same_value_trans; eauto.
  - intros l k Hk. auto.
  - intros l k Hk. auto.
Qed.
Print Assumptions C15_transitive_solid.

(** Not transitive in general: an absent structure equals one holding an array of one empty element and one holding an
    array of two, which differ from each other.  Finding. *)
Theorem C15_transitive_refuted : exists dd a b c, handle_ok dd a /\ handle_ok dd b /\ handle_ok dd c /\
  ids_eq a b = true /\ ids_eq b c = true /\ ids_eq a c = false.
Proof.
  exists ex_dd, (ex_handle (hollow 1)), (ex_handle no_grid), (ex_handle (hollow 2)).
  split; [apply ex_handle_ok, hollow_conf|]. split; [apply ex_handle_ok, no_grid_conf|]. split; [apply ex_handle_ok, hollow_conf|].
  vm_compute. auto.
Qed.
Print Assumptions C15_transitive_refuted.

(** The hypotheses are met by [ex_node]; it also shows that NaN is equal to itself here. *)
Example C15_example : handle_ok ex_dd (ex_handle ex_node) /\ solid (struct_view ex_meta) no_grid /\
  ids_eq (ex_handle ex_node) (ex_handle ex_node) = true.
Proof.
  split; [apply ex_handle_ok, ex_node_conf|]. split; [|vm_compute; reflexivity].
  intros p nm mp np Hat Hk Hn. exfalso. change (struct_view ex_meta) with ex_meta in Hat. unfold ex_meta, no_grid in Hat.
  destruct p as [|s p]; simpl in Hat.
  - apply node_at_struct_inv in Hat as [(K & _)|(c & ch & l' & K & Hin & E & H)]; [discriminate|].
    inversion K; subst. apply node_at_nil_inv in H as (-> & ->). simpl in Hin.
    repeat (destruct Hin as [<-|Hin]); try contradiction; simpl in *; discriminate.
  - apply node_at_struct_inv in Hat as [(K & _)|(c & ch & l' & K & Hin & E & H)]; [discriminate|].
    inversion K; subst. simpl in Hin.
    repeat (destruct Hin as [<-|Hin]); try contradiction; simpl in E; try discriminate. inversion E; subst.
    apply node_at_leafv_inv in H as (K2 & _). destruct p; discriminate.
Qed.
