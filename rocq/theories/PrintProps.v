(** Property C62: what print_tree, print_metadata_tree and idsdiff show. *)
From Verif Require Import Base TreeModel TreeSpec TreeProofs TreeProofs2 TreeProps PrintModel PrintSpec PrintProofs PrintProofs2.

Lemma In_items : forall hide p m n l x, In (l, x) (tree_iter_below false (negb hide) m n) ->
  exists r, In (l, x, r) (annot hide p m n).
Proof.
  intros hide p m n l x H. rewrite <- (annot_bare hide m p n) in H. unfold bare in H. apply in_map_iff in H as ((y & r) & <- & H). eauto.
Qed.
Lemma items_In : forall hide p m n l x r, In (l, x, r) (annot hide p m n) -> In (l, x) (tree_iter_below false (negb hide) m n).
Proof. intros. rewrite <- (annot_bare hide m p n). unfold bare. apply in_map_iff. exists (l, x, r). auto. Qed.

Lemma sorted_sub : forall hide p m n, sorted_by (before m) (map (fun y => fst (fst y)) (filter keep (annot hide p m n))).
Proof.
  intros. pose proof (tree_iter_sorted false (negb hide) m n) as S. rewrite <- (annot_bare hide m p n) in S.
  unfold bare in S. rewrite map_map in S. revert S. generalize (annot hide p m n). intros l S.
  induction l as [|y l IH]; [constructor|]. cbn [map] in S. inversion S as [|? ? Hx Hs]; subst. cbn [filter].
  destruct (keep y); auto. cbn [map]. constructor; auto. intros z Hz. apply Hx. apply in_map_iff in Hz as (w & <- & Hw).
  apply filter_In in Hw as (Hw & _). apply (List.in_map (fun y : item => fst (fst y))). auto.
Qed.

Lemma keep_aos : forall m' x, conf m' x -> (match x with NAoS (_ :: _) => false | _ => true end = true <-> ~ full_aos m' x).
Proof.
  intros m' x C. split.
  - intros H (_ & e & els & ->). discriminate.
  - intros H. destruct x as [|[|e els]|]; auto. exfalso. apply H. split; eauto. inversion C. reflexivity.
Qed.

Lemma lines_of_items : forall hide p m n, conf m n -> named m n -> (p = [] -> mkind m = KStruct) ->
  Forall2 (line_of p m n) (map (fun y => fst (fst y)) (filter keep (annot hide p m n))) (lines_below (make_rows hide p m n)).
Proof.
  intros hide p m n C N P. rewrite annot_lines by auto. unfold kept.
  assert (G : forall l, incl l (annot hide p m n) -> Forall2 (line_of p m n) (map (fun y => fst (fst y)) l) (map snd l)).
  { induction l as [|((l0 & x) & r) l IH]; intros I; cbn [map fst snd]; constructor.
    - eapply annot_line; eauto. apply I. left. reflexivity.
    - apply IH. intros y Hy. apply I. right. auto. }
  apply G. intros y Hy. apply filter_In in Hy. tauto.
Qed.

(** print_tree with hide_empty_nodes (the default): the root is the name, the lines are, in document order and each once, those
    of the filled data nodes, the non-empty structures and all elements of arrays of structures; the line is below those of the
    structures that contain the node; arrays of structures have no line of their own. *)
Theorem C62_tree : forall p m n, wf_meta m -> conf m n -> ~ is_leaf m -> named m n -> (p = [] -> mkind m = KStruct) ->
  exists ts ls, print_tree true p m n = Some (T (LName (mname m)) ts) /\ sorted_by (before m) ls /\ NoDup ls /\
    (forall l, In l ls <-> l <> [] /\ exists m' x, node_at m n l m' x /\ visible false m' l x /\ ~ full_aos m' x) /\
    Forall2 (line_of p m n) ls (lines_below ts).
Proof.
  intros p m n W C L N P. exists (make_rows true p m n), (map (fun y => fst (fst y)) (filter keep (annot true p m n))).
  split; [unfold print_tree; destruct (mkind m) eqn:E; auto; exfalso; apply L; unfold is_leaf; eauto|].
  pose proof (sorted_sub true p m n) as S. split; [exact S|]. split; [eapply sorted_nodup; eauto; intros x; apply before_irrefl; auto|].
  split; [|apply lines_of_items; auto]. intros l. rewrite in_map_iff. split.
  - intros (((l0 & x) & r) & <- & H). cbn [fst]. apply filter_In in H as (H & K). apply items_In in H. cbn [negb] in H.
    apply tree_iter_below_spec in H as (Hn & m' & H1 & H2); auto. split; auto. exists m', x. split; auto. split; auto.
    apply keep_aos; [eapply node_at_conf; eauto|exact K].
  - intros (Hn & m' & x & H1 & H2 & H3). destruct (In_items true p m n l x) as (r & H).
    { apply tree_iter_below_spec; eauto. }
    exists (l, x, r). split; auto. apply filter_In. split; auto. apply (keep_aos m' x) in H3; [exact H3|eapply node_at_conf; eauto].
Qed.
Print Assumptions C62_tree.

(** ... without: the lines of all nodes, also of those that were never accessed. *)
Theorem C62_tree_all : forall p m n, wf_meta m -> conf m n -> ~ is_leaf m -> named m n -> (p = [] -> mkind m = KStruct) ->
  exists ts ls, print_tree false p m n = Some (T (LName (mname m)) ts) /\ sorted_by (before m) ls /\ NoDup ls /\
    (forall l, In l ls <-> l <> [] /\ exists m' x, vnode_at m n l m' x /\ ~ full_aos m' x) /\
    Forall2 (line_of p m n) ls (lines_below ts).
Proof.
  intros p m n W C L N P. exists (make_rows false p m n), (map (fun y => fst (fst y)) (filter keep (annot false p m n))).
  split; [unfold print_tree; destruct (mkind m) eqn:E; auto; exfalso; apply L; unfold is_leaf; eauto|].
  pose proof (sorted_sub false p m n) as S. split; [exact S|]. split; [eapply sorted_nodup; eauto; intros x; apply before_irrefl; auto|].
  split; [|apply lines_of_items; auto]. intros l. rewrite in_map_iff. split.
  - intros (((l0 & x) & r) & <- & H). cbn [fst]. apply filter_In in H as (H & K). apply items_In in H. cbn [negb] in H.
    apply tree_iter_below_ve in H as (Hn & m' & H1 & _); auto. split; auto. exists m', x. split; auto.
    apply keep_aos; [eapply vnode_at_conf; eauto|exact K].
  - intros (Hn & m' & x & H1 & H3). destruct (In_items false p m n l x) as (r & H).
    { apply tree_iter_below_ve; auto. split; auto. exists m'. split; auto. discriminate. }
    exists (l, x, r). split; auto. apply filter_In. split; auto. apply (keep_aos m' x) in H3; [exact H3|eapply vnode_at_conf; eauto].
Qed.
Print Assumptions C62_tree_all.

(** The line of a location is determined: C62_tree and C62_tree_all say all about the output. *)
Theorem C62_line_unique : forall p m n l r r', wf_meta m -> conf m n -> line_of p m n l r -> line_of p m n l r' -> r = r'.
Proof. exact line_fun. Qed.
Print Assumptions C62_line_unique.

(** Every filled value is printed: there is exactly one line for its location, and it ends with name and value. *)
Theorem C62_values : forall p m n l v, wf_meta m -> conf m n -> ~ is_leaf m -> named m n -> (p = [] -> mkind m = KStruct) ->
  leaf_at m n l v ->
  exists ts r m', print_tree true p m n = Some (T (LName (mname m)) ts) /\ node_at m n l m' (NLeaf (Some v)) /\
    In (r ++ [LValue (mname m') (Some v)]) (lines_below ts) /\ line_of p m n l (r ++ [LValue (mname m') (Some v)]).
Proof.
  intros p m n l v W C L N P (m' & Hl & Hat & Hf). destruct (C62_tree p m n W C L N P) as (ts & ls & E & _ & _ & I & F).
  assert (Hn : l <> []). { intros ->. apply node_at_nil_inv in Hat as (-> & _). auto. }
  assert (In l ls) as Hi.
  { apply I. split; auto. exists m', (NLeaf (Some v)). split; auto. split.
    - left. split; auto. exists []. left. exists v, m'. split; auto. split; auto. constructor.
    - intros (K & _). destruct Hl as (dt & nd & K'). congruence. }
  assert (G : exists r, In r (lines_below ts) /\ line_of p m n l r).
  { clear - F Hi. induction F as [|x y xs ys H F IH]; [destruct Hi|]. destruct Hi as [-> |Hi].
    - exists y. split; auto. left. auto.
    - destruct (IH Hi) as (r & H1 & H2). exists r. split; auto. right. auto. }
  destruct G as (r & H1 & H2). pose proof H2 as (os & Fo & Er).
  destruct (exists_last Hn) as (l0 & s & El).
  assert (Ei : inits l = inits l0 ++ [l]).
  { subst l. unfold inits. rewrite app_length. cbn [length]. rewrite Nat.add_1_r, seq_S, map_app. cbn [map]. f_equal.
    - apply map_ext_in. intros k Hk. apply in_seq in Hk. rewrite firstn_app. replace (k - length l0) with 0 by lia. cbn. apply app_nil_r.
    - f_equal. apply firstn_all2. rewrite app_length. cbn. lia. }
  rewrite Ei in Fo. apply Forall2_app_inv_l in Fo as (o1 & o2 & _ & F2 & ->). inversion F2 as [|? o ? o3 (m2 & x2 & V & Lb) F3]; subst.
  inversion F3; subst. destruct (vnode_at_inj _ _ _ _ _ (node_vnode _ _ _ _ _ Hat) W _ _ V) as (<- & <-).
  assert (o = Some (LValue (mname m') (Some v))) as ->.
  { eapply labelled_fun; [|exact Lb|]; [eapply node_at_conf; eauto|]. constructor; auto. }
  assert (Es : somes (o1 ++ [Some (LValue (mname m') (Some v))]) = somes o1 ++ [LValue (mname m') (Some v)]).
  { unfold somes. rewrite flat_map_app. reflexivity. }
  rewrite Es in *. exists ts, (somes o1), m'. auto.
Qed.
Print Assumptions C62_values.

(** A data node cannot be printed (TypeError). *)
Theorem C62_leaf : forall hide p m n, is_leaf m -> print_tree hide p m n = None.
Proof. intros hide p m n (dt & nd & E). unfold print_tree. rewrite E. reflexivity. Qed.
Print Assumptions C62_leaf.

Lemma ex_named : named ex_meta ex_node.
Proof.
  assert (N : forall l m n m' x, vnode_at m n l m' x -> (forall c, In c (mchildren m) -> mname c <> []) ->
     (mname m <> []) -> (fix nm (m : meta) : bool := match m with Meta n _ cs => negb (match n with [] => true | _ => false end) && forallb nm cs end) m = true ->
     mname m' <> []).
  { set (nm := fix nm (m : meta) : bool := match m with Meta n _ cs => negb (match n with [] => true | _ => false end) && forallb nm cs end).
    induction 1 as [m n|nm0 cs fs c ch l m' n' Hin Hch H IH|nm0 cs els i e l m' n' Hi H IH]; intros Hk Hm Hb; auto.
    cbn [nm] in Hb. apply andb_true_iff in Hb as (_ & Hb).
    rewrite forallb_forall in Hb. specialize (Hb _ Hin). apply IH; auto.
    - intros c' Hc'. destruct c as [cn ck cc]. cbn [nm] in Hb. apply andb_true_iff in Hb as (_ & Hb).
      rewrite forallb_forall in Hb. specialize (Hb _ Hc'). destruct c' as [cn' ck' cc']. cbn [nm] in Hb.
      apply andb_true_iff in Hb as (Hb & _). cbn. destruct cn'; [discriminate|congruence]. }
  intros l m' x H _. eapply (N _ _ _ _ _ H).
  - intros c Hc. cbn in Hc. repeat (destruct Hc as [<-|Hc]; [discriminate|]). destruct Hc.
  - discriminate.
  - vm_compute. reflexivity.
Qed.
Example C62_tree_example : named ex_meta ex_node /\
  option_map lines (print_tree true [] ex_meta ex_node) = Some
   [ [LName (strs "eq")];
     [LName (strs "eq"); LPath (strs "ids_properties")];
     [LName (strs "eq"); LPath (strs "ids_properties"); LValue (strs "homogeneous_time") (Some (VInt 1))];
     [LName (strs "eq"); LPath (strs "grid")];
     [LName (strs "eq"); LPath (strs "grid"); LPath (strs "grid/slice[0]")];
     [LName (strs "eq"); LPath (strs "grid"); LPath (strs "grid/slice[1]")];
     [LName (strs "eq"); LPath (strs "grid"); LPath (strs "grid/slice[1]"); LValue (strs "r") (Some (VFltA [1] [0%Z]))];
     [LName (strs "eq"); LValue (strs "time") (Some (VFltA [2] [0%Z; nan_bits]))] ].
Proof. split; [exact ex_named|vm_compute; reflexivity]. Qed.

(** "hide_empty_nodes: Show or hide nodes without value": elements of arrays of structures are shown also when they are empty. *)
Theorem C62_hidden_refuted : exists m n l m' x ts r, wf_meta m /\ conf m n /\ print_tree true [] m n = Some (T (LName (mname m)) ts) /\
  node_at m n l m' x /\ ~ nonempty m' x /\ In (r ++ [LPath (path_below [] l)]) (lines_below ts).
Proof.
  exists ex_meta, ex_node, [Child (strs "grid"); Child (strs "slice"); Elem 0],
    (Meta (strs "slice") KStruct [Meta (strs "r") (KLeaf FLT 1) []]), (NStruct []).
  destruct (print_tree true [] ex_meta ex_node) as [[l ts]|] eqn:E; [|vm_compute in E; discriminate].
  exists ts, [LPath (strs "grid")]. split; [exact ex_meta_wf|]. split; [exact ex_node_conf|].
  vm_compute in E. inversion E; subst; clear E. split; [vm_compute; reflexivity|]. split.
  { unfold ex_meta, ex_node.
    eapply (na_child _ _ _ (Meta (strs "grid") KStruct _)); [simpl; auto|reflexivity|].
    eapply (na_child _ _ _ (Meta (strs "slice") KAoS _)); [simpl; auto|reflexivity|].
    econstructor; [reflexivity|constructor]. }
  split; [|vm_compute; tauto]. rewrite nonempty_struct. intros (c & ch & _ & E & _). discriminate.
Qed.
Print Assumptions C62_hidden_refuted.

(** print_metadata_tree: the lines of exactly the descendants with at most maxdepth (at least 1) steps, of all if maxdepth is 0,
    in document order, each below those that contain it; a structure in the last level has one more line: that its
    children are hidden. *)
Theorem C62_metadata : forall maxdepth m, pm_ok m ->
  exists ts ls, print_metadata_tree maxdepth m = T (LName (pm_name m)) ts /\
    lines_below ts = map (fun x : list pmeta * bool => map meta_label (fst x) ++ if snd x then [LHidden] else []) ls /\
    (forall l, In (l, false) ls <-> l <> [] /\ meta_at m l /\ (maxdepth = 0 \/ Z.of_nat (length l) <= Z.max 1 maxdepth)%Z) /\
    (forall l, In (l, true) ls <-> exists l' c, l = l' ++ [c] /\ meta_at m l /\ pm_composite c = true /\
        maxdepth <> 0%Z /\ Z.of_nat (length l) = Z.max 1 maxdepth) /\
    sorted_by (pm_before m) (map fst (filter (fun x : list pmeta * bool => negb (snd x)) ls)).
Proof.
  intros maxdepth m W. exists (meta_rows maxdepth 1 m), (chains maxdepth 1 m). split; [reflexivity|].
  split; [apply chains_lines|]. split; [|split; [|apply chains_sorted]].
  - intros l. rewrite chains_shown by auto. unfold shown_at. split; intros (H1 & H2 & H3); split; auto; split; auto.
    + destruct H3 as [H3|[H3|H3]]; [auto|right; lia|right; lia].
    + destruct H3 as [H3|H3]; [auto|]. destruct l as [|c [|c2 l]]; [congruence|auto|]. right. right. cbn [length] in *. lia.
  - intros l. rewrite chains_hidden by auto. unfold shown_at. split; intros (l' & c & -> & H2 & H3 & H4).
    + destruct H4 as (H4 & H5 & H6). exists l', c. split; auto. split; auto. split; auto. split; auto.
      assert (0 < length (l' ++ [c])) by (rewrite app_length; cbn; lia). destruct H4 as [H4|[H4|H4]]; [contradiction|lia|lia].
    + destruct H4 as (H4 & H5). exists l', c. split; auto. split; auto. split; auto. split; [|split; auto; lia].
      assert (0 < length (l' ++ [c])) by (rewrite app_length; cbn; lia).
      destruct (Z.max_spec 1 maxdepth) as [(K1 & K2)|(K1 & K2)]; [right; right; lia|right; left; lia].
Qed.
Print Assumptions C62_metadata.

Definition ex_pm : pmeta :=
  PMeta (strs "core_profiles") [] true
   [ PMeta (strs "profiles_1d") (strs "profiles_1d(itime)") true
      [ PMeta (strs "grid") (strs "profiles_1d(itime)/grid") true [PMeta (strs "rho") (strs "profiles_1d(itime)/grid/rho(:)") false []];
        PMeta (strs "time") (strs "profiles_1d(itime)/time") false [] ];
     PMeta (strs "time") (strs "time(:)") false [] ].
Example C62_metadata_example : pm_ok ex_pm /\
  lines_below (meta_rows 2 1 ex_pm) =
   [ [LPath (strs "profiles_1d(itime)")];
     [LPath (strs "profiles_1d(itime)"); LPath (strs "profiles_1d(itime)/grid")];
     [LPath (strs "profiles_1d(itime)"); LPath (strs "profiles_1d(itime)/grid"); LHidden];
     [LPath (strs "profiles_1d(itime)"); LLeaf (strs "profiles_1d(itime)/time")];
     [LLeaf (strs "time(:)")] ] /\
  length (lines_below (meta_rows 0 1 ex_pm)) = 5 /\ length (lines_below (meta_rows 1 1 ex_pm)) = 3.
Proof.
  split; [|split; [|split]; vm_compute; reflexivity].
  repeat (constructor; [try discriminate; auto|]; intros ? K; cbn in K; repeat (destruct K as [<-|K]); try destruct K).
Qed.

(** idsdiff: each row shows both texts in full, and what is not highlighted is the same in both columns ... *)
Theorem C62_text : forall t1 t2 bs, blocks_ok t1 t2 0 0 bs ->
  text (fst (mark t1 t2 0 0 bs)) = t1 /\ text (snd (mark t1 t2 0 0 bs)) = t2 /\
  plain (fst (mark t1 t2 0 0 bs)) = plain (snd (mark t1 t2 0 0 bs)).
Proof. intros t1 t2 bs H. apply mark_spec in H. exact H. Qed.
Print Assumptions C62_text.

(** ... so if the texts differ something is highlighted. *)
Theorem C62_highlight : forall t1 t2 bs, blocks_ok t1 t2 0 0 bs -> t1 <> t2 ->
  exists s, s <> [] /\ (In (true, s) (fst (mark t1 t2 0 0 bs)) \/ In (true, s) (snd (mark t1 t2 0 0 bs))).
Proof.
  intros t1 t2 bs H Ht. destruct (C62_text t1 t2 bs H) as (H1 & H2 & H3).
  assert (G : forall o, (exists s, s <> [] /\ In (true, s) o) \/ plain o = text o).
  { induction o as [|(h & s) o IH]; [right; reflexivity|]. destruct IH as [(s' & Hs & Hi)|IH]; [left; exists s'; split; auto; right; auto|].
    destruct h.
    - destruct s as [|a s]; [right; exact IH|left; exists (a :: s); split; [discriminate|left; reflexivity]].
    - right. unfold plain, text in *. cbn [filter fst negb flat_map snd]. rewrite IH. reflexivity. }
  destruct (G (fst (mark t1 t2 0 0 bs))) as [(s & Hs & Hi)|E1]; [eauto|].
  destruct (G (snd (mark t1 t2 0 0 bs))) as [(s & Hs & Hi)|E2]; [eauto|]. exfalso. congruence.
Qed.
Print Assumptions C62_highlight.

Section Diff.
  Variable blocks : str -> str -> list block.
  Variable repr : node -> str.
  Variable path_text : list str -> str.
  Hypothesis blocks_good : forall t1 t2, blocks_ok t1 t2 0 0 (blocks t1 t2).

  (** "Structures ... are identical" is printed exactly if the structures are equal (see C14, C15); otherwise there is a row for
      every difference, in order, with the texts of both sides ... *)
  Theorem C62_diff : forall a b,
    (idsdiff blocks repr path_text a b = Identical <-> ids_eq a b = true) /\
    (forall rows, idsdiff blocks repr path_text a b = Table rows ->
       map (fun r => (text (fst r), text (snd r))) rows = map (texts repr path_text a b) (idsdiffgen a b)).
  Proof.
    intros a b. unfold idsdiff, ids_eq. destruct (idsdiffgen a b) as [|d ds]; cbn [map].
    - split; [tauto|]. discriminate.
    - split; [split; discriminate|]. intros rows E. inversion E; subst; clear E.
      assert (G : forall d, (text (fst (diff_row blocks repr path_text a b d)), text (snd (diff_row blocks repr path_text a b d))) =
         texts repr path_text a b d).
      { intros d0. unfold diff_row. destruct (texts repr path_text a b d0) as (t1 & t2).
        destruct (C62_text t1 t2 (blocks t1 t2) (blocks_good t1 t2)) as (-> & -> & _). reflexivity. }
      cbn [map]. rewrite G. f_equal. rewrite map_map. apply map_ext. exact G.
  Qed.

  (** ... where a side without the node has "-" and the other side the node that differs (C14_reports_are_real). *)
  Theorem C62_rows : forall dd a b d, handle_ok dd a -> handle_ok dd b -> same_place a b -> In d (idsdiffgen a b) ->
    (exists l r, texts repr path_text a b d = (match l with Some n => repr n | None => strs "-" end, match r with Some n => repr n | None => strs "-" end) /\
       real (struct_view (h_meta a)) (h_node a) (h_node b) (h_path a) d /\ (l <> None \/ r <> None)).
  Proof.
    intros dd a b d Ha Hb Hp Hd. pose proof (C14_reports_are_real dd a b d Ha Hb Hp Hd) as R.
    destruct R as (loc & R). pose proof (C14_reports_are_real dd a b d Ha Hb Hp Hd) as R0.
    destruct R as [(m' & x & y & -> & R)|[(m' & x & -> & R)|(m' & y & -> & R)]].
    - exists (Some x), (Some y). split; [reflexivity|]. split; auto. left. discriminate.
    - exists (Some x), None. split; [reflexivity|]. split; auto. left. discriminate.
    - exists None, (Some y). split; [reflexivity|]. split; auto. right. discriminate.
  Qed.
End Diff.
Print Assumptions C62_diff.
Print Assumptions C62_rows.

(** blocks of "time: 1.0" and "time: 12.0": "time: 1" and ".0" are common *)
Example C62_diff_example :
  let t1 := strs "time: 1.0" in let t2 := strs "time: 12.0" in
  let bs := [{| b_a := 0; b_b := 0; b_size := 7 |}; {| b_a := 7; b_b := 8; b_size := 2 |}; {| b_a := 9; b_b := 10; b_size := 0 |}] in
  blocks_ok t1 t2 0 0 bs /\
  snd (mark t1 t2 0 0 bs) = [(false, strs "time: 1"); (true, strs "2"); (false, strs ".0"); (false, []); (true, [])].
Proof.
  cbv zeta. split; [|vm_compute; reflexivity].
  apply bo_cons; [cbn; lia|cbn; lia|vm_compute; lia|vm_compute; lia|vm_compute; reflexivity|].
  apply bo_cons; [cbn; lia|cbn; lia|vm_compute; lia|vm_compute; lia|vm_compute; reflexivity|].
  apply (bo_last (strs "time: 1.0") (strs "time: 12.0")); vm_compute; lia.
Qed.
