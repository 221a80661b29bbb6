(** Conversion: copying stays where it should. *)
From Verif Require Import Base PathModel TreeModel TreeSpec TreeProofs TreeProofs2 TreeProofs4 ValModel ValProofs ValProofs2 PrimModel ConvModel ConvSpec ConvProofs.
From Verif Require VmapModel.
Import VmapModel(handler(..), nmap).

Lemma step_dec : forall a b : TreeModel.step, {a = b} + {a <> b}.
Proof. decide equality; [apply str_dec|apply Nat.eq_dec]. Qed.
Lemma loc_dec : forall a b : loc, {a = b} + {a <> b}. Proof. apply list_eq_dec, step_dec. Qed.
Lemma within_dec : forall l q, within l q \/ ~ within l q.
Proof.
  induction l as [|a l IH]; intros q; [left; exists q; reflexivity|].
  destruct q as [|b q]; [right; intros (r & E); discriminate|].
  destruct (step_dec a b) as [->|N]; [|right; intros (r & E); injection E; congruence].
  destruct (IH q) as [(r & ->)|N]; [left; exists r; reflexivity|right]. intros (r & E). injection E as ->. apply N. exists r. reflexivity.
Qed.

Section Copy.
Variables (sm tm : meta).
Variable src : node.
Variable rm : nmap.
Variable deepcopy : bool.
Variable str_of : pyval -> str.
Variable parse_float : str -> option flt.
Variable parse_cpx : str -> option (flt * flt).
Variable flt_of_int : Z -> option flt.
Variable np_cast : dtype -> pyval -> result pexn value.
Variable array_items : value -> list pyval.
Variable close : pyval -> pyval -> bool.
Variable np_int32 : flt -> result pexn Z.
Variable enum_of : list str -> option (Z -> option (str * str)).

Notation assign := (assign tm str_of parse_float parse_cpx flt_of_int np_cast array_items).
Notation resize := (resize tm).
Notation type_change := (type_change sm tm src str_of parse_float parse_cpx flt_of_int np_cast array_items close np_int32 enum_of).
Notation post_process := (post_process tm str_of parse_float parse_cpx flt_of_int np_cast array_items).
Notation copy_item := (copy_item sm tm src rm deepcopy str_of parse_float parse_cpx flt_of_int np_cast array_items close np_int32 enum_of).
Notation copy_toplevel := (copy_toplevel sm tm src rm deepcopy str_of parse_float parse_cpx flt_of_int np_cast array_items close np_int32 enum_of).

(** the loop over the children of a structure *)
Definition copy_children (cs : list meta) (fs : fields) (sl tl : loc) : CM unit :=
  citer (fun d => match alookup (mname d) fs with
                  | Some ch => if has_value d ch then copy_item d ch (sl ++ [Child (mname d)]) tl else cret tt
                  | None => cret tt
                  end) cs.
(** after the target is found *)
Definition copy_rest (c : meta) (n : node) (sl t : loc) : CM unit :=
  doc r <- match alookup (path_string sl) (VmapModel.m_type rm) with
           | None => cret (Some (n, sl, t))
           | Some None => cfail CType
           | Some (Some h) => type_change h c n sl t
           end;
  match r with
  | None => cret tt
  | Some (n2, sl2, tl2) =>
    doc _ <- match n2 with
      | NAoS els =>
        doc _ <- resize tl2 (length els);
        citer (fun x => copy_children (mchildren c) (node_fields (snd x)) (sl2 ++ [Elem (fst x)]) (tl2 ++ [Elem (fst x)])) (enum els)
      | NStruct fs => copy_children (mchildren c) fs sl2 tl2
      | NLeaf _ => assign tl2 (if deepcopy then None else Some sl2) (of_value (leaf_value c n2))
      end;
    match alookup (path_string sl) (VmapModel.m_post rm) with Some h => post_process h tl2 | None => cret tt end
  end.
Lemma copy_item_eq : forall name k cs n sl tl, copy_item (Meta name k cs) n sl tl =
  (doc t <- target_item tm rm (path_string sl) name tl;
   match t with None => cret tt | Some t => copy_rest (Meta name k cs) n sl t end).
Proof. reflexivity. Qed.
Lemma copy_toplevel_eq : copy_toplevel = copy_children (mchildren sm) (node_fields src) [] []. Proof. reflexivity. Qed.

(** the nodes that remain to be copied after a type change *)
Lemma type_change_result : forall h m n sl tl s s' n2 sl2 tl2, type_change h m n sl tl s = (s', Ok (Some (n2, sl2, tl2))) ->
  within tl tl2 /\ ((n2 = n /\ sl2 = sl) \/ (exists e, n = NAoS [e] /\ n2 = e /\ sl2 = sl ++ [Elem 0])).
Proof.
  assert (HB : forall A (c : CM A) s s' x, cbind c (fun _ => handled) s = (s', Ok (Some x)) -> False).
  { intros A c s s' x. unfold cbind. destruct (c s) as [? [?|?]]; discriminate. }
  assert (HC : forall A B (c : CM A) (f : A -> CM B) s s' x, cbind c f s = (s', Ok x) -> exists a s1, f a s1 = (s', Ok x)).
  { intros A B c f s s' x. unfold cbind. destruct (c s) as [? [?|?]]; try discriminate. eauto. }
  intros h m n sl tl s s' n2 sl2 tl2 H. destruct h; simpl in H; try discriminate.
  - unfold type_structure_aos in H. destruct n as [fs|els|v]; try discriminate.
    + apply HC in H as (i & s1 & H). destruct i; try discriminate. apply HC in H as (u & s2 & H). injection H as <- <- <- <-. auto with conv.
    + apply HC in H as (i & s1 & H). destruct els as [|e [|e2 els]], i; try discriminate. injection H as <- <- <- <-.
      split; auto with conv. right. eauto.
  - exfalso. unfold type_0d_1d in H. destruct (mkind m) as [| |dt [|nd]]; try discriminate.
    + eapply HB; eauto.
    + destruct (elems_of (leaf_value m n)) as [[|x [|y t]]|]; try discriminate. eapply HB; eauto.
  - exfalso. unfold type_to_identifier in H. destruct m as [nm [| |[| | |] [|[|nd]]] cs], n as [fs|[|e els]|v]; try discriminate.
    + apply HC in H as (? & ? & H). eapply HB; eauto.
    + destruct (leaf_value _ _) as [| | | | |? [|? ?]| |]; try discriminate. apply HC in H as (? & ? & H). eapply HB; eauto.
  - exfalso. unfold type_flt_int in H. destruct (leaf_value m n); try discriminate.
    + destruct (flt_of_int z); try discriminate. eapply HB; eauto.
    + destruct (np_int32 f) as [z|]; try discriminate. destruct (feqz f z); try discriminate. eapply HB; eauto.
  - exfalso. unfold type_remove_last in H. do 4 apply HC in H as (? & ? & H). eapply HB; eauto.
  - exfalso. unfold type_repeat_first in H. do 3 apply HC in H as (? & ? & H). eapply HB; eauto.
  - exfalso. unfold type_centreline in H. do 4 apply HC in H as (? & ? & H). match type of H with (if ?b then _ else _) _ = _ => destruct b end.
    + eapply HB; eauto.
    + apply HC in H as (? & ? & H). eapply HB; eauto.
  - exfalso. unfold type_centreline in H. do 4 apply HC in H as (? & ? & H). eapply HB; eauto.
  - exfalso. unfold type_ids_source in H. apply HC in H as (? & ? & H). apply HC in H as (i & ? & H). destruct i as [|[|k]|]; try discriminate.
    do 4 apply HC in H as (? & ? & H). eapply HB; eauto.
Qed.

Section Pres.
Variable R : node -> node -> Prop.
Variable ok : loc -> Prop.
Hypothesis R_refl : forall n, R n n.
Hypothesis R_trans : forall a b c, R a b -> R b c -> R a c.
Hypothesis R_access : forall n l, R n (access tm n l).
Hypothesis R_assign : forall l from p s, ok l -> not_node p -> R (c_tree s) (c_tree (fst (assign l from p s))).
Hypothesis R_resize : forall l k s, (forall r, ok (l ++ r)) -> R (c_tree s) (c_tree (fst (resize l k s))).
Notation pres := (pres R).

Variable t0 : loc.
Hypothesis ok_in : forall l, within t0 l -> ok l.
Hypothesis ok_closed : ok (removelast t0 ++ [Child closed_name]).

Definition stays (c : meta) (p0 : list str) : Prop :=
  forall r mr s ip tl n n' t, at_path c r mr -> alookup (slashed (p0 ++ r)) (VmapModel.m_path rm) = Some (Some s) -> parse s = Ok ip ->
    within t0 tl -> goto tm tl ip n = (n', Ok t) -> within t0 t.

Lemma pres_target_item : forall p nm tl, pres (target_item tm rm p nm tl).
Proof.
  intros. unfold target_item. destruct (alookup p (VmapModel.m_path rm)) as [[q|]|].
  - destruct (parse q); [|apply pres_fail; auto]. eapply pres_bind; eauto. { eapply pres_lift; eauto. eapply reads_goto; eauto. }
    intros. apply pres_ret; auto.
  - apply pres_ret; auto.
  - eapply pres_bind; eauto; [eapply pres_view; eauto|]. intros [cs|k|nd v]; try (apply pres_fail; auto).
    destruct (child_meta nm cs); [|apply pres_ret; auto]. eapply pres_bind; eauto; [eapply pres_getattr; eauto|]. intros. apply pres_ret; auto.
Qed.
Lemma target_item_within : forall c sl nm tl s s' t, stays c (loc_names sl) -> within t0 tl ->
  target_item tm rm (path_string sl) nm tl s = (s', Ok (Some t)) -> within t0 t.
Proof.
  intros c sl nm tl s s' t ST W. unfold target_item. destruct (alookup (path_string sl) (VmapModel.m_path rm)) as [[q|]|] eqn:A.
  - destruct (parse q) as [ip|] eqn:P; try discriminate. unfold cbind, lift. destruct (goto tm tl ip (c_tree s)) as [n' [t'|]] eqn:G; simpl; try discriminate.
    intros E. injection E as <- <-. eapply (ST [] c); eauto; [constructor|]. rewrite app_nil_r. exact A.
  - discriminate.
  - unfold cbind, cview, lift, view. simpl. destruct (info_at tm (c_tree s) tl) as [[cs|k|nd v]|]; simpl; try discriminate.
    destruct (child_meta nm cs); simpl.
    + destruct (getattr tm tl nm _) as [s1 [a|]] eqn:G; simpl; try discriminate. apply getattr_loc in G. subst.
      intros E. injection E as <- <-. auto with conv.
    + intros E. injection E as <- <-. auto.
Qed.
Lemma ok_next_to : forall tl, within t0 tl -> ok (removelast tl ++ [Child closed_name]).
Proof.
  intros tl (r & ->). destruct r as [|x r]; [rewrite app_nil_r; auto|]. apply ok_in.
  rewrite removelast_app by discriminate. rewrite <- app_assoc. exists (removelast (x :: r) ++ [Child closed_name]). reflexivity.
Qed.
Lemma names_elem : forall l i, loc_names (l ++ [Elem i]) = loc_names l.
Proof. intros. rewrite names_app. simpl. apply app_nil_r. Qed.

(** what follows after the target is found *)
Definition stays_below (c : meta) (p0 : list str) : Prop := forall d, In d (mchildren c) -> stays d (p0 ++ [mname d]).
Lemma pres_copy_rest_of : forall c n sl t, (forall d n sl tl, In d (mchildren c) -> stays d (loc_names sl) -> within t0 tl -> pres (copy_item d n sl tl)) ->
  stays_below c (loc_names sl) -> within t0 t -> pres (copy_rest c n sl t).
Proof.
  intros c n sl t IH ST WT. unfold copy_rest. set (cs := mchildren c) in *.
  assert (KIDS : forall fs sl' tl', loc_names sl' = loc_names sl -> within t0 tl' -> pres (copy_children cs fs sl' tl')).
  { intros fs sl' tl' N W'. unfold copy_children. apply pres_iter; auto. intros d I. destruct (alookup (mname d) fs); [|apply pres_ret; auto].
    destruct (has_value d n0); [|apply pres_ret; auto]. apply IH; auto. rewrite names_app, N. apply ST; auto. }
  assert (OI : forall l, within t l -> ok l) by (intros l WL; apply ok_in; eapply within_trans; eauto).
  eapply pres_bind_r; eauto.
  { destruct (alookup (path_string sl) (VmapModel.m_type rm)) as [[h|]|]; [|apply pres_fail; auto|apply pres_ret; auto].
    eapply pres_type_change; eauto. apply ok_next_to; auto. }
  intros s1 s1' [[[n2 sl2] tl2]|] E; [|apply pres_ret; auto].
  assert (G : within t tl2 /\ loc_names sl2 = loc_names sl).
  { destruct (alookup (path_string sl) (VmapModel.m_type rm)) as [[h|]|].
    - apply type_change_result in E as (A & [(_ & ->)|(e & _ & _ & ->)]); auto. split; auto. apply names_elem.
    - discriminate.
    - injection E as <- <- <- <-. auto with conv. }
  destruct G as (W2 & N2). assert (W3 : within t0 tl2) by (eapply within_trans; eauto).
  eapply pres_bind; eauto.
  - destruct n2 as [fs|els|v].
    + apply KIDS; auto.
    + eapply pres_bind; eauto. { eapply pres_resize; eauto. intros. apply ok_in. auto with conv. }
      intros _. apply pres_iter; auto. intros [j e] _. apply KIDS; auto with conv. simpl. rewrite names_elem. auto.
    + eapply pres_assign; eauto with conv.
  - intros _. destruct (alookup (path_string sl) (VmapModel.m_post rm)); [|apply pres_ret; auto]. eapply pres_post_process; eauto.
    intros l WL. apply ok_in. eapply within_trans; eauto.
Qed.
Lemma stays_child : forall c p, stays c p -> stays_below c p.
Proof.
  intros c p ST d I r mr s ip tl m1 m2 t AP A. eapply (ST (mname d :: r) mr); [constructor; auto|]. rewrite <- app_assoc in A. exact A.
Qed.
Theorem pres_copy_item : forall c n sl tl, stays c (loc_names sl) -> within t0 tl -> pres (copy_item c n sl tl).
Proof.
  induction c as [name k cs IH] using meta_ind'. intros n sl tl ST W. rewrite copy_item_eq.
  eapply pres_bind_r; eauto; [apply pres_target_item|]. intros s s' [t|] TI; [|apply pres_ret; auto].
  pose proof (target_item_within _ _ _ _ _ _ _ ST W TI) as WT.
  apply pres_copy_rest_of; auto using stays_child.
Qed.
Theorem pres_copy_rest : forall c n sl t, stays_below c (loc_names sl) -> within t0 t -> pres (copy_rest c n sl t).
Proof. intros. apply pres_copy_rest_of; auto. intros. apply pres_copy_item; auto. Qed.
End Pres.

(** ** Instances: the tree keeps the form required by the data dictionary; only some nodes change *)
Hypothesis W : wf_meta tm.
Hypothesis SO : str_ok tm.
Hypothesis np_typed : forall dt p v, np_cast dt p = Ok v -> typed_array dt v.

Lemma look_str_ok : forall l m n m' n', str_ok m -> look m n l = Some (m', n') -> str_ok m'.
Proof.
  induction l as [|[nm|i] l IH]; intros m n m' n' S L; simpl in L.
  - injection L as <- <-. auto.
  - destruct m as [name k cs]; simpl in *. destruct k; try discriminate. destruct n; try discriminate.
    destruct (child_meta nm cs) as [c|] eqn:CM; try discriminate. apply child_meta_Some in CM as (I & _). eapply IH; [|eauto]. inversion S; subst; auto.
  - destruct m as [name k cs]; simpl in *. destruct k; try discriminate. destruct n as [|els|]; try discriminate.
    destruct (nth_error els i); try discriminate. eapply IH; [|eauto]. inversion S; subst. constructor; auto. discriminate.
Qed.
Lemma python_type_ok : forall dt p v, python_type str_of parse_float parse_cpx flt_of_int dt p = Ok v -> val_ok dt 0 v.
Proof.
  intros dt p v. unfold python_type. destruct dt.
  - destruct (cast_str _ p); try discriminate. intros E; injection E as <-. constructor.
  - destruct (to_int p); try discriminate. intros E; injection E as <-. constructor.
  - destruct (to_flt _ _ p); try discriminate. intros E; injection E as <-. constructor.
  - destruct (to_cpx _ _ _ p) as [[r i]|]; try discriminate. intros E; injection E as <-. constructor.
Qed.
Lemma cast_array_ok : forall dt nd p v, cast_array np_cast dt (S nd) p = Ok v -> val_ok dt (S nd) v.
Proof.
  intros dt nd p v. unfold cast_array. destruct (np_cast dt p) as [w|] eqn:N; try discriminate.
  destruct (length (value_shape w) =? S nd) eqn:L; try discriminate. apply Nat.eqb_eq in L. intros E. injection E as ->.
  apply np_typed in N. destruct N; simpl in L; rewrite <- L; constructor; auto; intros ->; discriminate.
Qed.
Lemma cast_value_ok : forall dt nd p v, (dt = STR -> nd <= 1) ->
  cast_value str_of parse_float parse_cpx flt_of_int np_cast array_items dt nd p = Ok v -> val_ok dt nd v.
Proof.
  intros dt nd p v L. unfold cast_value. destruct nd as [|nd].
  - destruct dt; [apply python_type_ok|..];
      (unfold cast_num; cbv zeta; destruct (python_type _ _ _ _ _ _) eqn:P; try discriminate; match goal with |- context [if ?b then _ else _] => destruct b end; try discriminate;
       intros E; injection E as <-; eapply python_type_ok; eauto).
  - destruct dt; try apply cast_array_ok. assert (nd = 0) as -> by (specialize (L eq_refl); lia).
    unfold cast_list. destruct (items array_items p) as [l|].
    + destruct (cast_strs str_of l); try discriminate. intros E. injection E as <-. constructor.
    + destruct (cast_str str_of p); try discriminate. intros E. injection E as <-. constructor.
Qed.
Lemma conf_assign : forall l from p s, not_node p -> conf tm (c_tree s) -> conf tm (c_tree (fst (assign l from p s))).
Proof.
  intros l from p s NN C. unfold ConvModel.assign. destruct (look tm (c_tree s) l) as [[[nm [| |dt nd] cs] [fs|els|old]]|] eqn:L; auto.
  unfold set_value. simpl. destruct (assigned _ _ _ _ _ _ dt nd p) as [v|e] eqn:A; auto. simpl.
  eapply conf_update; eauto. pose proof (look_str_ok _ _ _ _ _ SO L) as S. inversion S; subst.
  destruct ((nd =? 0) && is_empty dt v); constructor.
  eapply cast_value_ok with (p := p); [|destruct p; try exact A; contradiction]. intros ->. eauto.
Qed.
Lemma conf_resize : forall l k s, conf tm (c_tree s) -> conf tm (c_tree (fst (resize l k s))).
Proof.
  intros l k s C. unfold ConvModel.resize. destruct (look tm (c_tree s) l) as [[[nm [| |dt nd] cs] [fs|els|old]]|] eqn:L; auto. simpl.
  eapply conf_update; eauto. constructor. intros e I. apply repeat_spec in I. subst. apply (new_node_conf (Meta nm KStruct cs)).
Qed.
Definition R_conf (n n' : node) : Prop := conf tm n -> conf tm n'.
Lemma copy_item_conf : forall c n sl tl s, conf tm (c_tree s) -> conf tm (c_tree (fst (copy_item c n sl tl s))).
Proof.
  intros c n sl tl s. change (R_conf (c_tree s) (c_tree (fst (copy_item c n sl tl s)))).
  apply pres_copy_item with (ok := fun _ => True) (t0 := []); auto; unfold R_conf; try solve [intros; auto].
  - intros. apply access_conf; auto.
  - intros. apply conf_assign; auto.
  - intros. apply conf_resize; auto.
  - intros r mr s' ip tl' n1 n' t _ _ _ _ _. exists t. reflexivity.
  - exists tl. reflexivity.
Qed.

(** only locations for which [ok] holds change *)
Definition R_frame (ok : loc -> Prop) (n n' : node) : Prop :=
  forall l, ~ ok l -> fval tm n' l = fval tm n l /\ fsize tm n' l = fsize tm n l.
Section Frame.
Variable ok : loc -> Prop.
Lemma frame_refl : forall n, R_frame ok n n. Proof. intros n l _. auto. Qed.
Lemma frame_trans : forall a b c, R_frame ok a b -> R_frame ok b c -> R_frame ok a c.
Proof. intros a b c H1 H2 l N. destruct (H1 l N), (H2 l N). split; congruence. Qed.
Lemma frame_access : forall n l, R_frame ok n (access tm n l). Proof. intros n l p _. apply obs_access. Qed.
Lemma fval_leaf : forall nm dt nd cs v x r, fval (Meta nm (KLeaf dt nd) cs) v (x :: r) = None /\ fsize (Meta nm (KLeaf dt nd) cs) v (x :: r) = None.
Proof. intros. destruct x; split; reflexivity. Qed.
Lemma obs_set_leaf : forall n l nm dt nd cs old v q, look tm n l = Some (Meta nm (KLeaf dt nd) cs, NLeaf old) -> q <> l ->
  fval tm (update tm n l (fun _ => NLeaf v)) q = fval tm n q /\ fsize tm (update tm n l (fun _ => NLeaf v)) q = fsize tm n q.
Proof.
  intros n l nm dt nd cs old v q L NQ.
  destruct (within_dec l q) as [(r & ->)|N]; [|apply obs_update; auto].
  destruct r as [|x r]; [rewrite app_nil_r in NQ; congruence|].
  unfold fval, fsize. rewrite (look_update _ _ _ _ (x :: r) _ _ L), look_app, L. destruct x; auto.
Qed.
Lemma frame_assign : forall l from p s, ok l -> not_node p -> R_frame ok (c_tree s) (c_tree (fst (assign l from p s))).
Proof.
  intros l from p s O _ q NQ. unfold ConvModel.assign. destruct (look tm (c_tree s) l) as [[[nm [| |dt nd] cs] [fs|els|old]]|] eqn:L; auto.
  destruct (set_value _ _ _ _ _ _ _ _ _ _ _) as [v [u|e]]; auto. simpl. eapply obs_set_leaf; eauto. congruence.
Qed.
Lemma frame_resize : forall l k s, (forall r, ok (l ++ r)) -> R_frame ok (c_tree s) (c_tree (fst (resize l k s))).
Proof.
  intros l k s O q NQ. unfold ConvModel.resize. destruct (look tm (c_tree s) l) as [[[nm [| |dt nd] cs] [fs|els|old]]|] eqn:L; auto. simpl.
  apply obs_update. intros (r & ->). auto.
Qed.
End Frame.

End Copy.

Section Goto.
Variable tm : meta.
(** [goto] along a path without indices: the result is determined by how much the two paths have in common *)
Lemma steps_some : forall nested from q i e n n' t,
  goto_steps tm nested from (repeat INone (length q)) q i (Some e) n = (n', Ok t) -> t = e ++ map Child q.
Proof.
  intros nested from. induction q as [|x q IH]; intros i e n n' t; simpl.
  - unfold ret. intros H. injection H as <- <-. rewrite app_nil_r. reflexivity.
  - unfold bind at 1. destruct (getattr_ tm e x n) as [n1 [c|]] eqn:G; [|discriminate]. intros H. apply IH in H. subst t.
    assert (c = e ++ [Child x]) as ->.
    { unfold getattr_, bind, view in G. simpl in G. destruct (info_at tm n e) as [[cs|k|nd v]|]; simpl in G; try discriminate.
      destruct (child_meta x cs); simpl in G; [injection G; congruence|discriminate]. }
    rewrite <- app_assoc. reflexivity.
Qed.
Lemma steps_none : forall nested from q i n n' t,
  goto_steps tm nested from (repeat INone (length q)) q i None n = (n', Ok t) ->
  exists k, k <= length q /\ (forall j, j < k -> nth_error (loc_names from) (i + j) = nth_error q j) /\
    (k = length q \/ nth_error (loc_names from) (i + k) <> nth_error q k) /\
    t = upto (i + k) from ++ map Child (skipn k q).
Proof.
  intros nested from. induction q as [|x q IH]; intros i n n' t; simpl.
  - unfold ret. intros H. injection H as <- <-. exists 0. rewrite app_nil_r, Nat.add_0_r. split; auto. split; [lia|]. auto.
  - destruct (nth_error (loc_names from) i) as [y|] eqn:N; [destruct (str_eqb x y) eqn:E|].
    + apply str_eqb_eq in E. subst y. intros H. apply IH in H as (k & K & A & B & ->). exists (S k). split; [lia|].
      split; [|split].
      * intros [|j] J; [rewrite Nat.add_0_r; auto|]. replace (i + S j) with (S i + j) by lia. simpl. apply A. lia.
      * destruct B as [->|B]; [left; auto|right]. replace (i + S k) with (S i + k) by lia. auto.
      * replace (i + S k) with (S i + k) by lia. reflexivity.
    + unfold bind at 1. destruct (getattr_ tm (upto i from) x n) as [n1 [c|]] eqn:G; [|discriminate]. intros H. apply steps_some in H. subst t.
      assert (c = upto i from ++ [Child x]) as ->.
      { unfold getattr_, bind, view in G. simpl in G. destruct (info_at tm n (upto i from)) as [[cs|k|nd v]|]; simpl in G; try discriminate.
        destruct (child_meta x cs); simpl in G; [injection G; congruence|discriminate]. }
      exists 0. split; [lia|]. split; [lia|]. rewrite Nat.add_0_r. split; [right|rewrite <- app_assoc; reflexivity].
      rewrite N. simpl. intros Q. injection Q as ->. rewrite str_eqb_refl in E. discriminate.
    + unfold bind at 1. destruct (getattr_ tm (upto i from) x n) as [n1 [c|]] eqn:G; [|discriminate]. intros H. apply steps_some in H. subst t.
      assert (c = upto i from ++ [Child x]) as ->.
      { unfold getattr_, bind, view in G. simpl in G. destruct (info_at tm n (upto i from)) as [[cs|k|nd v]|]; simpl in G; try discriminate.
        destruct (child_meta x cs); simpl in G; [injection G; congruence|discriminate]. }
      exists 0. split; [lia|]. split; [lia|]. rewrite Nat.add_0_r. split; [right|rewrite <- app_assoc; reflexivity].
      rewrite N. discriminate.
Qed.
Lemma upto_app : forall a b k, upto (length (loc_names a) + k) (a ++ b) = a ++ upto k b.
Proof. induction a as [|[x|i] a IH]; intros b k; simpl; auto; f_equal; apply IH. Qed.
Lemma upto_childs : forall x k, upto k (map Child x) = map Child (firstn k x).
Proof. induction x as [|a x IH]; intros [|k]; simpl; auto. f_equal. apply IH. Qed.
Lemma names_childs : forall x, loc_names (map Child x) = x.
Proof. induction x as [|a x IH]; simpl; auto. f_equal. exact IH. Qed.
Lemma idx_childs : forall x, loc_idx (map Child x) = [].
Proof. induction x as [|a x IH]; simpl; auto. Qed.
Lemma idx_app : forall a b, loc_idx (a ++ b) = loc_idx a ++ loc_idx b.
Proof. intros. unfold loc_idx. apply flat_map_app. Qed.

Definition plain (q : list str) : path := (q, repeat INone (length q)).
(** if the start is inside t0, and so is the path, the result is inside as well *)
Lemma goto_within : forall t0 r q n n' t, goto tm (t0 ++ r) (plain (loc_names t0 ++ q)) n = (n', Ok t) -> within t0 t.
Proof.
  intros t0 r q n n' t H. apply steps_none in H as (k & K & A & B & ->). rewrite Nat.add_0_l in *. unfold plain in *; cbn [fst snd] in *.
  destruct (Nat.le_gt_cases (length (loc_names t0)) k) as [L|L].
  - replace k with (length (loc_names t0) + (k - length (loc_names t0))) by lia. rewrite upto_app, <- app_assoc. eexists. reflexivity.
  - exfalso. destruct B as [B|B]; [rewrite B, app_length in L; lia|]. apply B. rewrite names_app.
    rewrite !nth_error_app1 by auto. reflexivity.
Qed.
(** from inside an element of an array, along structures *)
Lemma goto_elem : forall ta i x q n n' t, goto tm (ta ++ Elem i :: map Child x) (plain (loc_names ta ++ q)) n = (n', Ok t) ->
  t = ta ++ Elem i :: map Child q.
Proof.
  intros ta i x q n n' t H. apply steps_none in H as (k & K & A & B & ->). rewrite Nat.add_0_l in *. unfold plain in *; cbn [fst snd] in *. rewrite names_app in A, B. simpl in A, B.
  rewrite names_childs in A, B.
  destruct (Nat.le_gt_cases (length (loc_names ta)) k) as [L|L].
  - replace k with (length (loc_names ta) + (k - length (loc_names ta))) by lia. set (j := k - length (loc_names ta)) in *.
    rewrite upto_app. simpl. rewrite upto_childs, <- app_assoc. f_equal. simpl. f_equal.
    rewrite skipn_app. replace (length (loc_names ta) + j - length (loc_names ta)) with j by lia.
    rewrite skipn_all2 by lia. simpl. rewrite <- map_app. f_equal.
    assert (E : firstn j x = firstn j q).
    { assert (J : forall m, m < j -> nth_error x m = nth_error q m).
      { intros m M. specialize (A (length (loc_names ta) + m)). rewrite !nth_error_app2 in A by lia.
        replace (length (loc_names ta) + m - length (loc_names ta)) with m in A by lia. apply A. lia. }
      clear - J. revert x q J. induction j as [|j IH]; intros x q J; auto.
      pose proof (J 0 ltac:(lia)) as J0. destruct x as [|a x], q as [|b q]; simpl in *; auto; try discriminate. injection J0 as ->. f_equal.
      apply IH. intros m M. apply (J (S m)). lia. }
    rewrite E. apply firstn_skipn.
  - exfalso. destruct B as [B|B]; [rewrite B, app_length in L; lia|]. apply B. rewrite !nth_error_app1 by auto. reflexivity.
Qed.
Lemma goto_root : forall x q n n' t, goto tm (map Child x) (plain q) n = (n', Ok t) -> t = map Child q.
Proof.
  intros x q n n' t H. apply steps_none in H as (k & K & A & B & ->). rewrite Nat.add_0_l in *. unfold plain in *; cbn [fst snd] in *. rewrite names_childs in A.
  rewrite upto_childs, <- map_app. f_equal.
  assert (E : firstn k x = firstn k q).
  { clear - A. revert x q A. induction k as [|k IH]; intros x q J; auto.
    pose proof (J 0 ltac:(lia)) as J0. destruct x as [|a x], q as [|b q]; simpl in *; auto; try discriminate. injection J0 as ->. f_equal.
    apply IH. intros m M. apply (J (S m)). lia. }
  rewrite E. apply firstn_skipn.
Qed.
End Goto.
