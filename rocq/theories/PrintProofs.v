(** Lemmas about printed trees. *)
From Verif Require Import Base TreeModel TreeSpec TreeProofs TreeProofs2 PrintModel PrintSpec.

Definition item := (loc * node * list label)%type.
Definition under (s : step) (own : list label) (l : list item) : list item :=
  map (fun y => (s :: fst (fst y), snd (fst y), own ++ snd y)) l.
Definition own_label (p : str) (c : meta) (ch : node) : list label :=
  match mkind c, ch with
  | KLeaf _ nd, NLeaf v => [LValue (mname c) (if leaf_has_value nd v then v else None)]
  | KStruct, _ => [LPath p]
  | KAoS, _ => if has_value c ch then [] else [LNoElems p]
  | _, _ => []
  end.

(** The nodes of the iteration with their lines *)
Fixpoint annot (hide : bool) (p : str) (m : meta) (n : node) {struct m} : list item :=
  match m with
  | Meta _ k cs =>
    let of_struct (p : str) (fs : fields) :=
      flat_map (fun c =>
        let show ch := under (Child (mname c)) (own_label (child_path p (mname c)) c ch)
          (([], ch, []) :: match mkind c with KLeaf _ _ => [] | _ => annot hide (child_path p (mname c)) c ch end) in
        match alookup (mname c) fs with
        | Some ch => if negb hide || has_value c ch then show ch else []
        | None => if negb hide then show (new_node c) else []
        end) cs in
    match k, n with
    | KStruct, NStruct fs => of_struct p fs
    | KAoS, NAoS els => flat_map (fun ie => under (Elem (fst ie)) [LPath (elem_path p (fst ie))]
                          (([], snd ie, []) :: of_struct (elem_path p (fst ie)) (node_fields (snd ie)))) (enum els)
    | _, _ => []
    end
  end.
Definition annot_struct (hide : bool) (cs : list meta) (p : str) (fs : fields) : list item :=
  flat_map (fun c =>
        let show ch := under (Child (mname c)) (own_label (child_path p (mname c)) c ch)
          (([], ch, []) :: match mkind c with KLeaf _ _ => [] | _ => annot hide (child_path p (mname c)) c ch end) in
        match alookup (mname c) fs with
        | Some ch => if negb hide || has_value c ch then show ch else []
        | None => if negb hide then show (new_node c) else []
        end) cs.
Definition rows_struct (hide : bool) (cs : list meta) (p : str) (fs : fields) : list rtree :=
  flat_map (fun c =>
        let show ch :=
          match mkind c, ch with
          | KLeaf _ nd, NLeaf v => [T (LValue (mname c) (if leaf_has_value nd v then v else None)) []]
          | KStruct, _ => [T (LPath (child_path p (mname c))) (make_rows hide (child_path p (mname c)) c ch)]
          | KAoS, _ => (if has_value c ch then [] else [T (LNoElems (child_path p (mname c))) []])
                       ++ make_rows hide (child_path p (mname c)) c ch
          | _, _ => []
          end in
        match alookup (mname c) fs with
        | Some ch => if negb hide || has_value c ch then show ch else []
        | None => if negb hide then show (new_node c) else []
        end) cs.

(** ** The nodes are those of tree_iter *)
Definition bare (l : list item) : list (loc * node) := map fst l.
Lemma bare_under : forall s o l, bare (under s o l) = prefix_items s (bare l).
Proof. intros. unfold bare, under, prefix_items. rewrite !map_map. apply map_ext. intros ((? & ?) & ?). reflexivity. Qed.
Lemma bare_flat : forall {A} (f : A -> list item) l, bare (flat_map f l) = flat_map (fun x => bare (f x)) l.
Proof. intros A f l. induction l as [|a l IH]; [reflexivity|]. cbn [flat_map]. unfold bare at 1. rewrite map_app. unfold bare in *. f_equal. exact IH. Qed.
Lemma flat_map_ext_in : forall {A B} (f g : A -> list B) l, (forall x, In x l -> f x = g x) -> flat_map f l = flat_map g l.
Proof. intros A B f g l H. induction l; cbn [flat_map]; auto. rewrite H, IHl; auto with datatypes. Qed.

Lemma annot_bare : forall hide m p n, bare (annot hide p m n) = tree_iter_below false (negb hide) m n.
Proof.
  intros hide m. meta_induction m. intros p x.
  assert (S : forall p fs, bare (annot_struct hide cs p fs) = below_struct false (negb hide) cs fs).
  { intros q fs. unfold annot_struct, below_struct. rewrite bare_flat. apply flat_map_ext_in. intros c Hc. cbn zeta.
    assert (G : forall ch, bare (under (Child (mname c)) (own_label (child_path q (mname c)) c ch)
          (([], ch, []) :: match mkind c with KLeaf _ _ => [] | _ => annot hide (child_path q (mname c)) c ch end)) =
       prefix_items (Child (mname c)) (match mkind c with
             | KLeaf _ _ => [([], ch)]
             | _ => [([], ch)] ++ tree_iter_below false (negb hide) c ch end)).
    { intros ch. rewrite bare_under. f_equal. unfold bare at 1. cbn [map fst app].
      destruct (mkind c); [| |reflexivity]; f_equal; apply IH; auto. }
    destruct (alookup (mname c) fs) as [ch|].
    - destruct (negb hide || has_value c ch); [apply G|reflexivity].
    - destruct (negb hide); [apply G|reflexivity]. }
  destruct k; destruct x as [fs|els|v]; try reflexivity.
  - apply S.
  - change (bare (flat_map (fun ie => under (Elem (fst ie)) [LPath (elem_path p (fst ie))]
       (([], snd ie, []) :: annot_struct hide cs (elem_path p (fst ie)) (node_fields (snd ie)))) (enum els)) =
       tree_iter_below false (negb hide) (Meta n KAoS cs) (NAoS els)).
    rewrite tree_iter_aos, bare_flat. apply flat_map_ext_in. intros (i & e) _. rewrite bare_under. f_equal.
    unfold bare at 1. cbn [map fst snd app]. f_equal. apply S.
Qed.

(** ** The lines are those of the nodes that are not arrays with elements *)
Definition keep (y : item) : bool := match snd (fst y) with NAoS (_ :: _) => false | _ => true end.
Definition kept (l : list item) : list (list label) := map snd (filter keep l).
Lemma kept_app : forall a b, kept (a ++ b) = kept a ++ kept b.
Proof. intros. unfold kept. rewrite filter_app, map_app. reflexivity. Qed.
Lemma kept_under : forall s o l, kept (under s o l) = map (fun r => o ++ r) (kept l).
Proof.
  intros s o l. unfold kept, under. induction l as [|y l IH]; auto. cbn [map filter].
  change (keep (s :: fst (fst y), snd (fst y), o ++ snd y)) with (keep y).
  destruct (keep y); cbn [map snd]; rewrite IH; reflexivity.
Qed.
Lemma lines_app : forall a b, lines_below (a ++ b) = lines_below a ++ lines_below b.
Proof. intros. apply flat_map_app. Qed.

Lemma annot_lines : forall hide m p n, conf m n -> lines_below (make_rows hide p m n) = kept (annot hide p m n).
Proof.
  intros hide m. meta_induction m. intros p x Hc.
  assert (S : forall nm p fs, conf (Meta nm KStruct cs) (NStruct fs) ->
     lines_below (rows_struct hide cs p fs) = kept (annot_struct hide cs p fs)).
  { intros nm q fs Hs. unfold rows_struct, annot_struct.
    assert (G : forall c ch, In c cs -> conf c ch ->
       lines_below (match mkind c, ch with
          | KLeaf _ nd, NLeaf v => [T (LValue (mname c) (if leaf_has_value nd v then v else None)) []]
          | KStruct, _ => [T (LPath (child_path q (mname c))) (make_rows hide (child_path q (mname c)) c ch)]
          | KAoS, _ => (if has_value c ch then [] else [T (LNoElems (child_path q (mname c))) []])
                       ++ make_rows hide (child_path q (mname c)) c ch
          | _, _ => []
          end) =
       kept (under (Child (mname c)) (own_label (child_path q (mname c)) c ch)
          (([], ch, []) :: match mkind c with KLeaf _ _ => [] | _ => annot hide (child_path q (mname c)) c ch end))).
    { intros c ch Hin Hcc. rewrite kept_under. destruct (mkind c) as [| |dt nd] eqn:Ek.
      - unfold own_label. rewrite Ek. unfold lines_below at 1. cbn [flat_map lines]. rewrite app_nil_r.
        fold (lines_below (make_rows hide (child_path q (mname c)) c ch)). rewrite IH; auto.
        destruct c as [cn ck cc]. cbn [mkind] in Ek. subst ck. destruct (conf_struct_inv _ _ _ Hcc) as (f & ->). reflexivity.
      - destruct c as [cn ck cc]. cbn [mkind] in Ek. subst ck. destruct (conf_aos_inv _ _ _ Hcc) as (els & ->).
        unfold own_label. cbn [mkind]. rewrite lines_app. rewrite IH; auto.
        destruct els as [|e els].
        + reflexivity.
        + change (has_value (Meta cn KAoS cc) (NAoS (e :: els))) with true.
          change (kept (([], NAoS (e :: els), []) :: annot hide (child_path q (mname (Meta cn KAoS cc))) (Meta cn KAoS cc) (NAoS (e :: els))))
            with (kept (annot hide (child_path q (mname (Meta cn KAoS cc))) (Meta cn KAoS cc) (NAoS (e :: els)))).
          cbn [app]. rewrite map_id. reflexivity.
      - destruct c as [cn ck cc]. cbn [mkind] in Ek. subst ck.
        assert (V : exists v, ch = NLeaf v) by (inversion Hcc; eauto). destruct V as (v & ->).
        unfold own_label. cbn [mkind]. reflexivity. }
    assert (A : forall cs', incl cs' cs ->
      lines_below (flat_map (fun c => match alookup (mname c) fs with
        | Some ch => if negb hide || has_value c ch then match mkind c, ch with
          | KLeaf _ nd, NLeaf v => [T (LValue (mname c) (if leaf_has_value nd v then v else None)) []]
          | KStruct, _ => [T (LPath (child_path q (mname c))) (make_rows hide (child_path q (mname c)) c ch)]
          | KAoS, _ => (if has_value c ch then [] else [T (LNoElems (child_path q (mname c))) []])
                       ++ make_rows hide (child_path q (mname c)) c ch
          | _, _ => []
          end else []
        | None => if negb hide then match mkind c, new_node c with
          | KLeaf _ nd, NLeaf v => [T (LValue (mname c) (if leaf_has_value nd v then v else None)) []]
          | KStruct, _ => [T (LPath (child_path q (mname c))) (make_rows hide (child_path q (mname c)) c (new_node c))]
          | KAoS, _ => (if has_value c (new_node c) then [] else [T (LNoElems (child_path q (mname c))) []])
                       ++ make_rows hide (child_path q (mname c)) c (new_node c)
          | _, _ => []
          end else [] end) cs') =
      kept (annot_struct hide cs' q fs)).
    { induction cs' as [|c cs' IHc]; intros Hi; [reflexivity|]. unfold annot_struct. cbn [flat_map].
      rewrite lines_app, kept_app. fold (annot_struct hide cs' q fs). rewrite IHc by (intros y Hy; apply Hi; right; auto). f_equal.
      assert (Hin : In c cs) by (apply Hi; left; auto).
      destruct (alookup (mname c) fs) as [ch|] eqn:E.
      - destruct (negb hide || has_value c ch); [|reflexivity]. apply G; auto. eapply conf_child; eauto.
      - destruct (negb hide); [|reflexivity]. apply G; auto. apply new_node_conf. }
    apply A. apply incl_refl. }
  destruct k; destruct x as [fs|els|v]; try reflexivity.
  - eapply S. eauto.
  - change (lines_below (map (fun ie => T (LPath (elem_path p (fst ie))) (rows_struct hide cs (elem_path p (fst ie)) (node_fields (snd ie)))) (enum els)) =
       kept (flat_map (fun ie => under (Elem (fst ie)) [LPath (elem_path p (fst ie))]
       (([], snd ie, []) :: annot_struct hide cs (elem_path p (fst ie)) (node_fields (snd ie)))) (enum els))).
    assert (A : forall l, (forall ie, In ie l -> conf (Meta n KStruct cs) (snd ie)) ->
      lines_below (map (fun ie => T (LPath (elem_path p (fst ie))) (rows_struct hide cs (elem_path p (fst ie)) (node_fields (snd ie)))) l) =
       kept (flat_map (fun ie => under (Elem (fst ie)) [LPath (elem_path p (fst ie))]
       (([], snd ie, []) :: annot_struct hide cs (elem_path p (fst ie)) (node_fields (snd ie)))) l)).
    { induction l as [|ie l IHl]; intros H; [reflexivity|]. cbn [map flat_map]. rewrite kept_app, kept_under.
      unfold lines_below at 1. cbn [flat_map]. fold (lines_below (map (fun ie => T (LPath (elem_path p (fst ie))) (rows_struct hide cs (elem_path p (fst ie)) (node_fields (snd ie)))) l)).
      rewrite IHl by auto with datatypes. f_equal. cbn [lines].
      assert (He : conf (Meta n KStruct cs) (snd ie)) by auto with datatypes. destruct (conf_struct_inv _ _ _ He) as (f & Ef).
      rewrite Ef in *. cbn [node_fields].
      change (flat_map lines (rows_struct hide cs (elem_path p (fst ie)) f)) with (lines_below (rows_struct hide cs (elem_path p (fst ie)) f)).
      rewrite (S n) by auto. reflexivity. }
    apply A. intros (i & e) Hin. cbn [snd]. apply in_enum in Hin. eapply conf_elem; eauto. eapply nth_error_In; eauto.
Qed.

(** ** Each line is the line of its location *)
Lemma inits_cons : forall s l, inits (s :: l) = [s] :: map (cons s) (inits l).
Proof.
  intros s l. unfold inits. cbn [length seq map firstn]. f_equal. rewrite <- seq_shift, !map_map. reflexivity.
Qed.
Lemma path_child : forall p c l, c <> [] -> path_below (child_path p c) l = path_below p (Child c :: l).
Proof.
  intros p c l Hc. unfold path_below, child_path. destruct p as [|a p].
  - cbn [flat_map seg tl app]. destruct c; [congruence|]. reflexivity.
  - cbn [flat_map seg app]. rewrite <- app_assoc. reflexivity.
Qed.
Lemma path_elem : forall p i l, p <> [] -> path_below (elem_path p i) l = path_below p (Elem i :: l).
Proof.
  intros p i l Hp. unfold path_below, elem_path. destruct p as [|a p]; [congruence|].
  cbn [flat_map seg app]. rewrite <- !app_assoc. cbn [app]. rewrite <- !app_assoc. reflexivity.
Qed.
Lemma path_below_nil : forall p, path_below p [] = p.
Proof. intros [|a p]; unfold path_below; cbn; auto. rewrite app_nil_r. reflexivity. Qed.
Lemma child_path_nonnil : forall p c, c <> [] -> child_path p c <> [].
Proof. intros [|a p] c H; cbn; auto. discriminate. Qed.
Lemma elem_path_nonnil : forall p i, elem_path p i <> [].
Proof. intros [|a p] i; discriminate. Qed.

Lemma own_labelled : forall p c ch, conf c ch -> exists o, labelled p c ch o /\ own_label p c ch = somes [o].
Proof.
  intros p [cn ck cc] ch Hc. unfold own_label. cbn [mkind]. destruct ck as [| |dt nd].
  - exists (Some (LPath p)). split; [constructor; reflexivity|reflexivity].
  - destruct (conf_aos_inv _ _ _ Hc) as ([|e els] & ->).
    + exists (Some (LNoElems p)). split; [constructor; reflexivity|reflexivity].
    + exists None. split; [constructor; reflexivity|reflexivity].
  - assert (L : is_leaf (Meta cn (KLeaf dt nd) cc)) by (unfold is_leaf; cbn; eauto).
    inversion Hc; subst.
    + exists (Some (LValue cn None)). split; [|reflexivity]. apply (lb_unset p (Meta cn (KLeaf dt nd) cc)); auto.
      rewrite <- has_value_empty; auto.
    + destruct (leaf_has_value nd (Some v)) eqn:E.
      * exists (Some (LValue cn (Some v))). split; [|reflexivity]. apply (lb_value p (Meta cn (KLeaf dt nd) cc)); auto.
        eapply filled_value_len; eauto.
      * exists (Some (LValue cn None)). split; [|reflexivity]. apply (lb_unset p (Meta cn (KLeaf dt nd) cc)); auto.
        rewrite <- has_value_empty; auto.
Qed.

Lemma somes_cons : forall {A} (o : option A) l, somes (o :: l) = somes [o] ++ somes l.
Proof. intros. unfold somes. cbn [flat_map]. rewrite app_nil_r. reflexivity. Qed.

Lemma line_child : forall p nm cs fs c ch o l r, In c cs -> mname c <> [] ->
  alookup (mname c) fs = Some ch \/ (alookup (mname c) fs = None /\ ch = new_node c) ->
  labelled (child_path p (mname c)) c ch o -> line_of (child_path p (mname c)) c ch l r ->
  line_of p (Meta nm KStruct cs) (NStruct fs) (Child (mname c) :: l) (somes [o] ++ r).
Proof.
  intros p nm cs fs c ch o l r Hin Hn Hch Ho (os & F & ->). exists (o :: os). split; [|symmetry; apply somes_cons].
  rewrite inits_cons. constructor.
  - exists c, ch. split; [econstructor; eauto; constructor|]. rewrite <- path_child, path_below_nil by auto. auto.
  - clear Ho. induction F as [|l' o' ls os (m' & x & Hx & Hl) F IHF]; cbn [map]; constructor; auto.
    exists m', x. split; [econstructor; eauto|]. rewrite <- path_child by auto. auto.
Qed.
Lemma line_elem : forall p nm cs els i e l r, p <> [] -> nth_error els i = Some e ->
  line_of (elem_path p i) (Meta nm KStruct cs) e l r ->
  line_of p (Meta nm KAoS cs) (NAoS els) (Elem i :: l) (LPath (elem_path p i) :: r).
Proof.
  intros p nm cs els i e l r Hp Hi (os & F & ->). exists (Some (LPath (elem_path p i)) :: os). split; [|reflexivity].
  rewrite inits_cons. constructor.
  - exists (Meta nm KStruct cs), e. split; [econstructor; eauto; constructor|].
    rewrite <- path_elem, path_below_nil by auto. constructor. reflexivity.
  - induction F as [|l' o' ls os (m' & x & Hx & Hl) F IHF]; cbn [map]; constructor; auto.
    exists m', x. split; [econstructor; eauto|]. rewrite <- path_elem by auto. auto.
Qed.

Definition named (m : meta) (n : node) : Prop := forall l m' x, vnode_at m n l m' x -> l <> [] -> mname m' <> [].

Lemma line_here : forall p m n, line_of p m n [] [].
Proof. intros. exists []. split; [constructor|reflexivity]. Qed.

Lemma annot_line : forall hide m p n, conf m n -> named m n -> (p = [] -> mkind m = KStruct) ->
  forall l x r, In (l, x, r) (annot hide p m n) -> line_of p m n l r.
Proof.
  intros hide m. meta_induction m. intros p x Hc Hn Hp l y r Hin.
  assert (S : forall nm p fs, conf (Meta nm KStruct cs) (NStruct fs) -> named (Meta nm KStruct cs) (NStruct fs) ->
     forall l y r, In (l, y, r) (annot_struct hide cs p fs) -> line_of p (Meta nm KStruct cs) (NStruct fs) l r).
  { clear - IH. intros nm p fs Hc Hn l y r Hin. unfold annot_struct in Hin. apply in_flat_map in Hin as (c & Hcs & Hin). cbn zeta in Hin.
    assert (G : exists ch, (alookup (mname c) fs = Some ch \/ (alookup (mname c) fs = None /\ ch = new_node c)) /\ conf c ch /\
      In (l, y, r) (under (Child (mname c)) (own_label (child_path p (mname c)) c ch)
          (([], ch, []) :: match mkind c with KLeaf _ _ => [] | _ => annot hide (child_path p (mname c)) c ch end))).
    { destruct (alookup (mname c) fs) as [ch|] eqn:E.
      - exists ch. split; auto. split; [eapply conf_child; eauto|]. destruct (negb hide || has_value c ch); [exact Hin|destruct Hin].
      - exists (new_node c). split; auto. split; [apply new_node_conf|]. destruct (negb hide); [exact Hin|destruct Hin]. }
    destruct G as (ch & Hch & Hcc & G). unfold under in G. apply in_map_iff in G as (((l' & y') & r') & E & G).
    cbn [fst snd] in E. inversion E; subst; clear E.
    assert (Hnc : mname c <> []).
    { apply (Hn [Child (mname c)] c ch); [|discriminate]. econstructor; eauto. constructor. }
    destruct (own_labelled (child_path p (mname c)) c ch Hcc) as (o & Ho & ->).
    eapply line_child; eauto.
    destruct G as [G|G]; [inversion G; subst; apply line_here|].
    assert (G' : In (l', y, r') (annot hide (child_path p (mname c)) c ch)) by (destruct (mkind c); auto; destruct G).
    eapply IH; eauto.
    - intros l0 m' x0 H0 _. apply (Hn (Child (mname c) :: l0) m' x0); [|discriminate]. econstructor; eauto.
    - intros K. exfalso. eapply child_path_nonnil; eauto. }
  destruct k; destruct x as [fs|els|v]; try (destruct Hin; fail).
  - eapply S; eauto.
  - change (In (l, y, r) (flat_map (fun ie => under (Elem (fst ie)) [LPath (elem_path p (fst ie))]
       (([], snd ie, []) :: annot_struct hide cs (elem_path p (fst ie)) (node_fields (snd ie)))) (enum els))) in Hin.
    apply in_flat_map in Hin as ((i & e) & Hi & Hin). cbn [fst snd] in Hin. apply in_enum in Hi.
    unfold under in Hin. apply in_map_iff in Hin as (((l' & y') & r') & E & G). cbn [fst snd] in E. inversion E; subst; clear E.
    assert (Hpn : p <> []) by (intros ->; specialize (Hp eq_refl); discriminate).
    cbn [app]. eapply line_elem; eauto.
    assert (He : conf (Meta n KStruct cs) e) by (eapply conf_elem; eauto; eapply nth_error_In; eauto).
    destruct (conf_struct_inv _ _ _ He) as (f & ->). cbn [node_fields] in G.
    destruct G as [G|G]; [inversion G; subst; apply line_here|]. eapply S; eauto.
    intros l0 m' x0 H0 _. apply (Hn (Elem i :: l0) m' x0); [|discriminate]. econstructor; eauto.
Qed.
