(** The model of coordinates against its specification: resolution of paths and lookup of coordinates. *)
From Verif Require Import Base PathModel TreeModel TreeSpec TreeProofs TreeProofs2 TreeProofs4 ValModel ValSpec ValProofs.

Lemma child_meta_iff : forall cs nm c, NoDup (map mname cs) -> (child_meta nm cs = Some c <-> In c cs /\ mname c = nm).
Proof.
  intros cs nm c ND. split; [apply child_meta_Some|]. intros (I & E). unfold child_meta. induction cs as [|x t IH]; [destruct I|].
  simpl in *. inversion ND; subst. destruct I as [->|I].
  - rewrite str_eqb_refl. reflexivity.
  - destruct (str_eqb (mname c) (mname x)) eqn:B; auto. apply str_eqb_eq in B. exfalso. apply H1. rewrite <- B. apply in_map; auto.
Qed.

Lemma look_vnode : forall l m n m' n', wf_meta m -> (look m n l = Some (m', n') <-> vnode_at m n l m' n').
Proof.
  induction l as [|[c|i] l IH]; intros m n m' n' W; simpl.
  - split; [intros [= <- <-]; constructor|intros H; inversion H; reflexivity].
  - destruct m as [nm k cs]. simpl. inversion W; subst. split.
    + destruct k; try discriminate. destruct n as [fs|?|?]; try discriminate.
      destruct (child_meta c cs) as [d|] eqn:D; try discriminate. apply child_meta_iff in D; auto. destruct D as (I & <-).
      intros H. apply IH in H; auto. eapply vna_child; eauto. unfold child_or_new. destruct (alookup (mname d) fs); auto.
    + intros H. inversion H; subst. assert (D : child_meta (mname c0) cs = Some c0) by (apply child_meta_iff; auto).
      rewrite D. apply IH; auto. unfold child_or_new.
      match goal with A : _ \/ _ |- _ => destruct A as [E|(E & ->)]; rewrite E; auto end.
  - destruct m as [nm k cs]. simpl. split.
    + destruct k; try discriminate. destruct n as [?|els|?]; try discriminate.
      destruct (nth_error els i) as [e|] eqn:E; try discriminate. intros H. apply IH in H.
      * econstructor; eauto.
      * inversion W; subst. constructor; auto. intros; discriminate.
    + intros H. inversion H; subst. match goal with A : nth_error _ _ = _ |- _ => rewrite A end. apply IH; auto. inversion W; subst. constructor; auto. intros; discriminate.
Qed.
Lemma vnode_conf : forall l m n m' n', vnode_at m n l m' n' -> wf_meta m -> conf m n -> wf_meta m' /\ conf m' n'.
Proof.
  intros l m n m' n' H. induction H; intros W C; auto.
  - inversion W; inversion C; subst. apply IHvnode_at; auto. destruct H0 as [E|(E & ->)]; [eauto|apply new_node_conf].
  - inversion W; inversion C; subst. apply IHvnode_at; [|eauto using nth_error_In]. constructor; auto. intros; discriminate.
Qed.

Lemma py_idx_spec : forall z k j, py_idx z k = Some j <-> position z k j.
Proof.
  intros z k j. unfold py_idx, position.
  destruct ((0 <=? z)%Z && (z <? Z.of_nat k)%Z) eqn:A.
  - apply andb_true_iff in A. destruct A as (A & B). apply Z.leb_le in A. apply Z.ltb_lt in B. split.
    + intros [= <-]. split; lia.
    + intros (L & H). f_equal. lia.
  - destruct ((- Z.of_nat k <=? z)%Z && (z <? 0)%Z) eqn:B.
    + apply andb_true_iff in B. destruct B as (B & D). apply Z.leb_le in B. apply Z.ltb_lt in D. split.
      * intros [= <-]. split; lia.
      * intros (L & H). f_equal. lia.
    + split; [discriminate|]. intros (L & H). apply andb_false_iff in A, B. rewrite Z.leb_gt, Z.ltb_ge in A, B. lia.
Qed.

Section Run.
Variable m : meta.
Variable n : node.
Hypothesis Hw : wf_meta m.
Hypothesis Hs : str_ok m.
Hypothesis Hc : conf m n.

Definition run {E A} (c : M E A) : result E A := snd (c n).

Lemma info_elems : forall l k, elems_at m n l k <-> info_at m n l = Some (IAoS k).
Proof.
  intros l k. unfold elems_at, info_at. split.
  - intros (m' & els & V & K & <-). apply look_vnode in V; auto. rewrite V. unfold info_of. rewrite K. reflexivity.
  - destruct (look m n l) as [[m' n']|] eqn:L; [|discriminate]. apply look_vnode in L; auto. unfold info_of.
    destruct (mkind m') eqn:K; destruct n'; try discriminate. intros [= <-]. eauto 6.
Qed.
Lemma info_value : forall l v, value_at m n l v <-> exists nd, info_at m n l = Some (ILeaf nd v).
Proof.
  intros l v. unfold value_at, info_at. split.
  - intros (m' & x & dt & nd & V & K & ->). apply look_vnode in V; auto. rewrite V. unfold info_of, leaf_value. rewrite K.
    exists nd. destruct x; reflexivity.
  - intros (nd & H). destruct (look m n l) as [[m' n']|] eqn:L; [|discriminate]. apply look_vnode in L; auto. unfold info_of, leaf_value in H.
    destruct (mkind m') eqn:K; destruct n'; try discriminate. inversion H; subst. exists m', v0, dt, nd. repeat split; auto.
Qed.
Lemma leaf_shape : forall l nd v, info_at m n l = Some (ILeaf nd v) -> length (value_shape v) = nd \/ exists d, v = VStrs d.
Proof.
  intros l nd v H. unfold info_at in H. destruct (look m n l) as [[m' n']|] eqn:L; [|discriminate]. apply look_vnode in L; auto.
  destruct (vnode_conf _ _ _ _ _ L Hw Hc) as (W' & C'). unfold info_of, leaf_value in H.
  destruct (mkind m') as [| |dt nd'] eqn:K; destruct n' as [| |x]; try discriminate. inversion H; subst. clear H.
  destruct m' as [nm k cs]. simpl in K. subst k. inversion C'; subst.
  - destruct nd as [|nd]; destruct dt; simpl; auto; rewrite ?repeat_length; auto. right. eauto.
  - match goal with A : val_ok _ _ _ |- _ => inversion A; subst; simpl; eauto end.
Qed.
Lemma info_dims : forall l sh, dims_at m n l sh <-> exists i, info_at m n l = Some i /\ shape_of i = Some sh.
Proof.
  intros l sh. unfold dims_at. split.
  - intros [(k & E & ->)|(v & V & ->)].
    + apply info_elems in E. eauto.
    + apply info_value in V. destruct V as (nd & V). exists (ILeaf nd v). split; auto. simpl. f_equal.
      destruct nd; auto. destruct (leaf_shape _ _ _ V) as [E|(d & ->)]; [destruct (value_shape v); auto; discriminate|].
      exfalso. unfold info_at in V. destruct (look m n l) as [[m' n']|] eqn:L; [|discriminate]. apply look_vnode in L; auto.
      destruct (vnode_conf _ _ _ _ _ L Hw Hc) as (W' & C'). unfold info_of, leaf_value in V.
      destruct (mkind m') as [| |dt nd'] eqn:K; destruct n' as [| |[x|]]; try discriminate; inversion V; subst.
      * destruct m' as [nm k cs]. simpl in K. subst k. inversion C'; subst. match goal with A : val_ok _ _ _ |- _ => inversion A; subst; discriminate end.
      * destruct dt; discriminate.
  - intros (i & I & S). destruct i as [cs|k|nd v]; simpl in S; inversion S; subst.
    + left. exists k. split; auto. apply info_elems; auto.
    + right. exists v. split; [apply info_value; eauto|]. destruct nd; auto.
      destruct (leaf_shape _ _ _ I) as [E|(d & ->)]; [destruct (value_shape v); auto; discriminate|].
      exfalso. clear S. unfold info_at in I. destruct (look m n l) as [[m' n']|] eqn:L; [|discriminate]. apply look_vnode in L; auto.
      destruct (vnode_conf _ _ _ _ _ L Hw Hc) as (W' & C'). unfold info_of, leaf_value in I.
      destruct (mkind m') as [| |dt nd'] eqn:K; destruct n' as [| |[x|]]; try discriminate; inversion I; subst.
      * destruct m' as [nm k cs]. simpl in K. subst k. inversion C'; subst. match goal with A : val_ok _ _ _ |- _ => inversion A; subst; discriminate end.
      * destruct dt; discriminate.
Qed.
Lemma info_child : forall l nm, child_at m n l nm <-> exists cs c, info_at m n l = Some (IStruct cs) /\ child_meta nm cs = Some c.
Proof.
  intros l nm. unfold child_at, info_at. split.
  - intros (m' & n' & c & V & K & I & E). destruct (vnode_conf _ _ _ _ _ V Hw Hc) as (W' & C').
    pose proof V as V'. apply look_vnode in V'; auto. rewrite V'. destruct m' as [nm' k cs]. simpl in *. subst k.
    inversion C'; subst. exists cs, c. split; auto. apply child_meta_iff; auto. inversion W'; auto.
  - intros (cs & c & H & D). destruct (look m n l) as [[m' n']|] eqn:L; [|discriminate]. apply look_vnode in L; auto.
    unfold info_of in H. destruct (mkind m') eqn:K; destruct n'; try discriminate. inversion H; subst.
    apply child_meta_Some in D. destruct D. eauto 8.
Qed.

Notation gd := (good m).
Lemma rb : forall {E A B} (c : M E A) (f : A -> M E B), gd c -> (forall a, gd (f a)) ->
  run (bind c f) = match run c with Ok a => run (f a) | Err e => Err e end.
Proof. intros. apply run_bind with (m := m); auto. Qed.
Lemma run_view : forall {E} (e : E) l, run (view m e l) = match info_at m n l with Some i => Ok i | None => Err e end.
Proof. reflexivity. Qed.

Lemma run_getattr : forall l p r, run (getattr_ m l p) = r <->
  (child_at m n l p /\ r = Ok (l ++ [Child p])) \/ (~ child_at m n l p /\ r = Err EOther).
Proof.
  intros l p r. rewrite info_child. unfold getattr_, run, bind, view. cbn [snd fst]. 
  destruct (info_at m n l) as [[cs|k|nd v]|] eqn:I; simpl.
  - destruct (child_meta p cs) as [c|] eqn:D; simpl.
    + split; [intros <-; left; split; eauto|]. intros [(_ & ->)|(N & _)]; auto. exfalso. apply N. eauto.
    + split; [intros <-; right; split; auto; intros (? & ? & [= <-] & ?); congruence|].
      intros [((? & ? & [= <-] & ?) & _)|(_ & ->)]; auto; congruence.
  - split; [intros <-; right; split; auto; intros (? & ? & ? & ?); congruence|].
    intros [((? & ? & ? & ?) & _)|(_ & ->)]; auto; congruence.
  - split; [intros <-; right; split; auto; intros (? & ? & ? & ?); congruence|].
    intros [((? & ? & ? & ?) & _)|(_ & ->)]; auto; congruence.
  - split; [intros <-; right; split; auto; intros (? & ? & ? & ?); congruence|].
    intros [((? & ? & ? & ?) & _)|(_ & ->)]; auto; congruence.
Qed.
Lemma run_getitem : forall l z r, run (getitem m l z) = r <->
  (exists k j, elems_at m n l k /\ position z k j /\ r = Ok (l ++ [Elem j])) \/
  (exists k, elems_at m n l k /\ (forall j, ~ position z k j) /\ r = Err EIndex) \/
  ((forall k, ~ elems_at m n l k) /\ r = Err EOther).
Proof.
  intros l z r. setoid_rewrite info_elems. unfold getitem, run, bind, view. cbn [snd fst].
  assert (N : forall i, info_at m n l = i -> (forall k, i <> Some (IAoS k)) ->
    (Err EOther = r <-> (exists k j, info_at m n l = Some (IAoS k) /\ position z k j /\ r = Ok (l ++ [Elem j])) \/
     (exists k, info_at m n l = Some (IAoS k) /\ (forall j, ~ position z k j) /\ r = Err EIndex) \/
     ((forall k, info_at m n l <> Some (IAoS k)) /\ r = Err EOther))).
  { intros i -> Hi. split; [intros <-; right; right; auto|]. intros [(k & j & E & _)|[(k & E & _)|(_ & ->)]]; auto; destruct (Hi _ E). }
  destruct (info_at m n l) as [[cs|k|nd v]|] eqn:I; simpl; try (apply (N _ eq_refl); intros; discriminate).
  clear N. destruct (py_idx z k) as [j|] eqn:P; simpl.
  - pose proof (proj1 (py_idx_spec _ _ _) P) as P'. split; [intros <-; left; eauto 6|].
    intros [(k' & j' & [= <-] & Q & ->)|[(k' & [= <-] & Q & ->)|(Q & _)]].
    + apply py_idx_spec in Q. congruence.
    + destruct (Q _ P').
    + destruct (Q k); auto.
  - assert (P' : forall j, ~ position z k j) by (intros j Q; apply py_idx_spec in Q; congruence).
    split; [intros <-; right; left; eauto|].
    intros [(k' & j' & [= <-] & Q & ->)|[(k' & [= <-] & Q & ->)|(Q & _)]]; auto.
    + destruct (P' _ Q).
    + destruct (Q k); auto.
Qed.

(** ** Paths *)
Lemma names_app : forall a b, loc_names (a ++ b) = loc_names a ++ loc_names b.
Proof. intros. unfold loc_names. apply flat_map_app. Qed.
Lemma upto_ancestor : forall from k l0, k <= length (loc_names from) -> (ancestor from k l0 <-> l0 = upto k from).
Proof.
  induction from as [|[c|i] t IH]; intros k l0 L; simpl in L.
  - assert (k = 0) by lia. subst. simpl. split.
    + intros (suf & E & _). symmetry in E. apply app_eq_nil in E. tauto.
    + intros ->. exists []. auto.
  - destruct k as [|k]; simpl.
    + split.
      * intros (suf & E & N & D). destruct l0 as [|[d|j] l0]; auto; simpl in *; discriminate.
      * intros ->. exists (Child c :: t). repeat split; eauto.
    + split.
      * intros (suf & E & N & D). destruct l0 as [|[d|j] l0]; simpl in *; try discriminate. inversion E; subst. f_equal.
        apply IH; [lia|]. exists suf. repeat split; auto.
      * intros ->. destruct (proj2 (IH k (upto k t) ltac:(lia)) eq_refl) as (suf & E & N & D). exists suf. simpl. rewrite <- E. auto.
  - simpl. split.
    + intros (suf & E & N & D). destruct l0 as [|[d|j] l0]; simpl in *; try discriminate.
      * destruct D as [->|(c & t' & ->)]; discriminate.
      * inversion E; subst. f_equal. apply IH; [lia|]. exists suf. repeat split; auto.
    + intros ->. destruct (proj2 (IH k (upto k t) ltac:(lia)) eq_refl) as (suf & E & N & D). exists suf. simpl. rewrite <- E. auto.
Qed.

Section Steps.
Variable from : loc.
Variable nested : index -> M lexn Z.
Hypothesis Gn : forall i, gd (nested i).
(** what is known of the nested indices *)
Definition nested_ok (i : index) : Prop := forall ps ix, i = IPath ps ix -> forall r,
  run (nested i) = r <-> number m n from i (match r with Ok z => Ok (z - 1)%Z | Err e => Err e end).

Lemma steps_follow : forall ix, (forall i, In i ix -> nested_ok i) -> forall ps i e r,
  run (goto_steps m nested from ix ps i (Some e)) = r <-> follow m n from e (combine ps ix) r.
Proof.
  induction ix as [|idx ix IH]; intros Hn ps i e r.
  - replace (combine ps []) with (@nil (str * index)) by (destruct ps; reflexivity). cbn. split; [intros <-; constructor|]. intros H. inversion H. auto.
  - assert (Hn' : forall i, In i ix -> nested_ok i) by (intros; apply Hn; right; auto).
    assert (Hi : nested_ok idx) by (apply Hn; left; auto). specialize (IH Hn').
    destruct ps as [|p ps]; [cbn; split; [intros <-; constructor|intros H; inversion H; auto]|].
    cbn [goto_steps combine].
    assert (Gs : forall ps i elt, gd (goto_steps m nested from ix ps i elt)) by (intros; apply good_steps; auto).
    (* an index with a number *)
    assert (Item : forall z r, run (bind (getitem m (e ++ [Child p]) z) (fun c2 => goto_steps m nested from ix ps (S i) (Some c2))) = r <->
      (exists k j, elems_at m n (e ++ [Child p]) k /\ position z k j /\ follow m n from ((e ++ [Child p]) ++ [Elem j]) (combine ps ix) r) \/
      (exists k, elems_at m n (e ++ [Child p]) k /\ (forall j, ~ position z k j) /\ r = Err EIndex) \/
      ((forall k, ~ elems_at m n (e ++ [Child p]) k) /\ r = Err EOther)).
    { intros z r'. rewrite rb; auto using good_getitem.
      destruct (proj1 (run_getitem (e ++ [Child p]) z _) eq_refl) as [(k & j & E & P & ->)|[(k & E & P & ->)|(E & ->)]].
      - rewrite IH. split; [intros F; left; eauto 6|].
        intros [(k' & j' & E' & P' & F)|[(k' & E' & P' & _)|(E' & _)]].
        + apply info_elems in E, E'. rewrite E in E'. inversion E'; subst k'. apply py_idx_spec in P, P'. congruence.
        + apply info_elems in E, E'. rewrite E in E'. inversion E'; subst k'. destruct (P' _ P).
        + destruct (E' _ E).
      - split; [intros <-; right; left; eauto|]. intros [(k' & j' & E' & P' & F)|[(k' & E' & P' & ->)|(E' & _)]]; auto.
        + apply info_elems in E, E'. rewrite E in E'. inversion E'; subst k'. destruct (P _ P').
        + destruct (E' _ E).
      - split; [intros <-; right; right; auto|]. intros [(k' & j' & E' & P' & F)|[(k' & E' & P' & ->)|(E' & ->)]]; auto; destruct (E _ E'). }
    (* the child itself *)
    assert (Step : forall (k : loc -> M lexn loc) (Q : result lexn loc -> Prop), (forall c, gd (k c)) ->
      (forall r, run (k (e ++ [Child p])) = r <-> Q r) ->
      forall r, run (bind (getattr_ m e p) k) = r <-> (child_at m n e p /\ Q r) \/ (~ child_at m n e p /\ r = Err EOther)).
    { intros k Q Gk HQ r'. rewrite rb; auto using good_getattr.
      destruct (proj1 (run_getattr e p _) eq_refl) as [(C & ->)|(C & ->)].
      - rewrite HQ. tauto.
      - split; [intros <-; auto|]. intros [(C' & _)|(_ & ->)]; auto. contradiction. }
    destruct idx as [|s|z|a b|ps' ix'].
    + rewrite Step with (Q := follow m n from (e ++ [Child p]) (combine ps ix)); auto.
      split; [intros [(C & F)|(C & ->)]; [apply fw_child; auto|apply fw_missing; auto]|].
      intros F. inversion F; subst; auto; match goal with H : number _ _ _ INone _ |- _ => inversion H end.
    + rewrite Step with (Q := fun r => r = Err EOther); [|intros; apply good_fail|intros; split; intros; symmetry; auto].
      split; [intros [(_ & ->)|(_ & ->)]; apply fw_gen|].
      intros F. assert (r = Err EOther) as -> by (inversion F; subst; auto; match goal with H : number _ _ _ (IGen _) _ |- _ => inversion H end).
      destruct (proj1 (run_getattr e p _) eq_refl) as [(C & _)|(C & _)]; auto.
    + rewrite Step with (Q := fun r =>
        (exists k j, elems_at m n (e ++ [Child p]) k /\ position z k j /\ follow m n from ((e ++ [Child p]) ++ [Elem j]) (combine ps ix) r) \/
        (exists k, elems_at m n (e ++ [Child p]) k /\ (forall j, ~ position z k j) /\ r = Err EIndex) \/
        ((forall k, ~ elems_at m n (e ++ [Child p]) k) /\ r = Err EOther)); [|intros; apply good_bind; auto using good_getitem|apply Item].
      pose proof (nb_num m n from z) as NB. split.
      * intros [(C & [(k & j & E & P & F)|[(k & E & P & ->)|(E & ->)]])|(C & ->)];
          [eapply fw_elem|eapply fw_range|eapply fw_noaos|eapply fw_missing]; eauto.
      * intros F. inversion F; subst; auto; match goal with H : number _ _ _ (INum _) _ |- _ => inversion H; subst end; left; split; eauto 8.
    + cbn. split; [intros <-; apply fw_slice|]. intros F. inversion F; subst; auto;
        match goal with H : number _ _ _ (ISlice _ _) _ |- _ => inversion H end.
    + set (idx := IPath ps' ix') in *.
      rewrite Step with (Q := fun r =>
        (exists z, number m n from idx (Ok z) /\
        ((exists k j, elems_at m n (e ++ [Child p]) k /\ position z k j /\ follow m n from ((e ++ [Child p]) ++ [Elem j]) (combine ps ix) r) \/
        (exists k, elems_at m n (e ++ [Child p]) k /\ (forall j, ~ position z k j) /\ r = Err EIndex) \/
        ((forall k, ~ elems_at m n (e ++ [Child p]) k) /\ r = Err EOther))) \/ (exists x, number m n from idx (Err x) /\ r = Err x)).
      * split.
        -- intros [(C & [(z & N & [(k & j & E & P & F)|[(k & E & P & ->)|(E & ->)]])|(x & N & ->)])|(C & ->)];
             [eapply fw_elem|eapply fw_range|eapply fw_noaos|eapply fw_number|eapply fw_missing]; eauto.
        -- intros F. inversion F; subst; auto; left; split; eauto; left; eexists; (split; [eassumption|]); eauto 8.
      * intros; apply good_bind; auto. intros; apply good_bind; auto using good_getitem.
      * intros r'. rewrite rb; auto; [|intros; apply good_bind; auto using good_getitem].
        destruct (run (nested idx)) as [z|x] eqn:N.
        -- assert (N' : number m n from idx (Ok (z - 1)%Z)) by (apply (proj1 (Hi ps' ix' eq_refl (Ok z))); auto).
           rewrite Item. split; [intros H; left; eauto|]. intros [(z' & Z' & H)|(x & X & _)].
           ++ assert (run (nested idx) = Ok (z' + 1)%Z) as U by (apply (proj2 (Hi ps' ix' eq_refl (Ok (z' + 1)%Z))); replace (z' + 1 - 1)%Z with z' by lia; auto).
              rewrite N in U. inversion U; subst. replace (z' + 1 - 1)%Z with z' by lia. auto.
           ++ assert (run (nested idx) = Err x) as U by (apply (proj2 (Hi ps' ix' eq_refl (Err x))); auto). congruence.
        -- assert (N' : number m n from idx (Err x)) by (apply (proj1 (Hi ps' ix' eq_refl (Err x))); auto).
           split; [intros <-; right; eauto|]. intros [(z' & Z' & H)|(x' & X & ->)].
           ++ assert (run (nested idx) = Ok (z' + 1)%Z) as U by (apply (proj2 (Hi ps' ix' eq_refl (Ok (z' + 1)%Z))); replace (z' + 1 - 1)%Z with z' by lia; auto).
              congruence.
           ++ assert (run (nested idx) = Err x') as U by (apply (proj2 (Hi ps' ix' eq_refl (Err x'))); auto). congruence.
Qed.

(** the part shared with the path of the node, from name number i on *)
Definition leads_at (i : nat) (steps : list (str * index)) (r : result lexn loc) : Prop :=
  (exists pre rest l0, steps = pre ++ rest /\ i + length pre <= length (loc_names from) /\
    map fst pre = firstn (length pre) (skipn i (loc_names from)) /\
    (forall x t, rest = x :: t -> nth_error (loc_names from) (i + length pre) <> Some (fst x)) /\
    (forall x, In x pre -> ~ is_slice (snd x)) /\ ancestor from (i + length pre) l0 /\ follow m n from l0 rest r) \/
  (exists pre x rest, steps = pre ++ x :: rest /\ i + length pre < length (loc_names from) /\
    map fst (pre ++ [x]) = firstn (S (length pre)) (skipn i (loc_names from)) /\ is_slice (snd x) /\ r = Err EOther).

Lemma leads_at_0 : forall steps r, leads_at 0 steps r <-> leads m n from steps r.
Proof.
  intros steps r. split.
  - intros [(pre & rest & l0 & -> & A & B & C & D & E & F)|(pre & x & rest & -> & A & B & C & ->)].
    + eapply ld_follow; eauto.
    + eapply ld_slice; eauto.
  - intros H. inversion H; subst; [left|right]; eauto 12.
Qed.

Lemma follow_slice : forall l0 p a b rest r, follow m n from l0 ((p, ISlice a b) :: rest) r -> r = Err EOther.
Proof. intros l0 p a b rest r H. inversion H; subst; auto; match goal with H : number _ _ _ (ISlice _ _) _ |- _ => inversion H end. Qed.

Lemma skipn_nth : forall {A} (l : list A) i x, nth_error l i = Some x -> skipn i l = x :: skipn (S i) l.
Proof. intros A l. induction l as [|y t IH]; intros [|i] x H; simpl in *; try discriminate; [congruence|]. apply IH; auto. Qed.

Lemma steps_leads : forall ix, (forall i, In i ix -> nested_ok i) -> forall ps i r, i <= length (loc_names from) ->
  run (goto_steps m nested from ix ps i None) = r <-> leads_at i (combine ps ix) r.
Proof.
  assert (Nil : forall i r, i <= length (loc_names from) -> (Ok (upto i from) = r <-> leads_at i [] r)).
  { intros i r L. split.
    - intros <-. left. exists [], [], (upto i from). simpl. rewrite Nat.add_0_r. repeat split; auto; try (intros; discriminate).
      + apply upto_ancestor; auto.
      + constructor.
    - intros [(pre & rest & l0 & E & A & B & C & D & AN & F)|(pre & x & rest & E & _)]; [|destruct pre; discriminate].
      symmetry in E. apply app_eq_nil in E. destruct E; subst. simpl in *. rewrite Nat.add_0_r in *. apply upto_ancestor in AN; auto.
      inversion F; subst. reflexivity. }
  induction ix as [|idx ix IH]; intros Hn ps i r L.
  - replace (combine ps []) with (@nil (str * index)) by (destruct ps; reflexivity). cbn. apply Nil; auto.
  - assert (Hn' : forall i, In i ix -> nested_ok i) by (intros; apply Hn; right; auto). specialize (IH Hn').
    destruct ps as [|p ps]; [apply Nil; auto|].
    assert (Same : goto_steps m nested from (idx :: ix) (p :: ps) i None =
      match idx with
      | ISlice _ _ => fail EOther
      | _ => if match nth_error (loc_names from) i with Some q => str_eqb p q | None => false end
             then goto_steps m nested from ix ps (S i) None
             else goto_steps m nested from (idx :: ix) (p :: ps) i (Some (upto i from))
      end).
    { cbn [goto_steps]. destruct idx; reflexivity. }
    rewrite Same. cbn [combine].
    destruct (match nth_error (loc_names from) i with Some q => str_eqb p q | None => false end) eqn:Q.
    + destruct (nth_error (loc_names from) i) as [q|] eqn:N; [|discriminate]. apply str_eqb_eq in Q. subst q.
      assert (Li : i < length (loc_names from)) by (apply nth_error_Some; congruence).
      assert (Slice : is_slice idx -> (Err EOther = r <-> leads_at i ((p, idx) :: combine ps ix) r)).
      { intros Sl. split.
        - intros <-. right. exists [], (p, idx), (combine ps ix). simpl. rewrite Nat.add_0_r, (skipn_nth _ _ _ N). auto.
        - intros [(pre & rest & l0 & E & A & B & C & D & AN & F)|(pre & x & rest & E & A & B & C & ->)]; auto.
          destruct pre as [|y pre].
          + simpl in E. subst rest. rewrite Nat.add_0_r in *. destruct (C _ _ eq_refl). auto.
          + inversion E; subst. destruct (D (p, idx) (or_introl eq_refl)); auto. }
      assert (NoSlice : ~ is_slice idx -> (run (goto_steps m nested from ix ps (S i) None) = r <-> leads_at i ((p, idx) :: combine ps ix) r)).
      { intros NS. rewrite IH by lia. unfold leads_at. rewrite (skipn_nth _ _ _ N). split.
        - intros [(pre & rest & l0 & E & A & B & C & D & AN & F)|(pre & x & rest & E & A & B & C & ->)].
          + left. exists ((p, idx) :: pre), rest, l0. simpl. replace (i + S (length pre)) with (S i + length pre) by lia.
            split; [now rewrite E|]. split; auto. split; [now rewrite B|]. split; auto. split; auto.
            intros x [<-|I]; auto.
          + right. exists ((p, idx) :: pre), x, rest. simpl. replace (i + S (length pre)) with (S i + length pre) by lia.
            rewrite B. repeat split; auto. now rewrite E.
        - intros [(pre & rest & l0 & E & A & B & C & D & AN & F)|(pre & x & rest & E & A & B & C & ->)].
          + left. destruct pre as [|y pre].
            * simpl in E. subst rest. rewrite Nat.add_0_r in *. destruct (C _ _ eq_refl). auto.
            * inversion E; subst. simpl in *. replace (i + S (length pre)) with (S i + length pre) in * by lia.
              inversion B. exists pre, rest, l0. repeat split; auto.
          + right. destruct pre as [|y pre].
            * inversion E; subst. contradiction.
            * inversion E; subst. simpl in *. replace (i + S (length pre)) with (S i + length pre) in * by lia.
              inversion B. exists pre, x, rest. repeat split; auto. }
      destruct idx; try (apply NoSlice; intros (? & ? & K); discriminate). apply Slice. unfold is_slice; eauto.
    + assert (Off : leads_at i ((p, idx) :: combine ps ix) r <-> follow m n from (upto i from) ((p, idx) :: combine ps ix) r).
      { split.
        - intros [(pre & rest & l0 & E & A & B & C & D & AN & F)|(pre & x & rest & E & A & B & C & ->)].
          + destruct pre as [|y pre].
            * simpl in *. rewrite Nat.add_0_r in *. apply upto_ancestor in AN; auto. subst. auto.
            * exfalso. inversion E; subst. simpl in *. destruct (nth_error (loc_names from) i) as [q|] eqn:N.
              -- rewrite (skipn_nth _ _ _ N) in B. inversion B; subst. rewrite str_eqb_refl in Q. discriminate.
              -- apply nth_error_None in N. lia.
          + exfalso. destruct (nth_error (loc_names from) i) as [q|] eqn:N.
            * rewrite (skipn_nth _ _ _ N) in B. destruct pre as [|y pre]; inversion E; subst; simpl in B; inversion B; subst; rewrite str_eqb_refl in Q; discriminate.
            * apply nth_error_None in N. lia.
        - intros F. left. exists [], ((p, idx) :: combine ps ix), (upto i from). simpl. rewrite Nat.add_0_r. repeat split; auto.
          + intros x t [= <- <-] H. rewrite H in Q. simpl in Q. rewrite str_eqb_refl in Q. discriminate.
          + apply upto_ancestor; auto. }
      rewrite Off. change ((p, idx) :: combine ps ix) with (combine (p :: ps) (idx :: ix)).
      destruct idx; try (apply steps_follow; auto). cbn [combine]. split; [intros <-; apply fw_slice|].
      intros F. apply follow_slice in F. auto.
Qed.
End Steps.

Lemma run_read_value : forall l r, run (read m l) = r <->
  (exists v, value_at m n l v /\ r = Ok v) \/ ((forall v, ~ value_at m n l v) /\ r = Err EOther).
Proof.
  intros l r. unfold run. rewrite run_read. setoid_rewrite info_value.
  destruct (info_at m n l) as [[cs|k|nd v]|] eqn:I.
  - split; [intros <-; right; split; auto; intros v (nd & H); discriminate|]. intros [(v & (nd & H) & _)|(_ & ->)]; auto; discriminate.
  - split; [intros <-; right; split; auto; intros v (nd & H); discriminate|]. intros [(v & (nd & H) & _)|(_ & ->)]; auto; discriminate.
  - split; [intros <-; left; eauto|]. intros [(v' & (nd' & [= <- <-]) & ->)|(H & _)]; auto. destruct (H v). eauto.
  - split; [intros <-; right; split; auto; intros v (nd & H); discriminate|]. intros [(v & (nd & H) & _)|(_ & ->)]; auto; discriminate.
Qed.
Lemma value_at_fun : forall l v w, value_at m n l v -> value_at m n l w -> v = w.
Proof. intros l v w A B. apply info_value in A, B. destruct A as (? & A), B as (? & B). congruence. Qed.
Lemma dims_at_fun : forall l v w, dims_at m n l v -> dims_at m n l w -> v = w.
Proof. intros l v w A B. apply info_dims in A, B. destruct A as (? & A & A'), B as (? & B & B'). congruence. Qed.
Lemma elems_at_fun : forall l v w, elems_at m n l v -> elems_at m n l w -> v = w.
Proof. intros l v w A B. apply info_elems in A, B. congruence. Qed.

Lemma run_index : forall from i, nested_ok from (goto_index m from) i.
Proof.
  intros from i. induction i as [|s|z|a b|ps ix IH] using index_ind'; intros ps' ix' E; try discriminate.
  inversion E; subst ps' ix'. clear E. intros r. simpl goto_index.
  rewrite rb; [|apply good_steps; auto; intros; apply good_index; auto|
    intros q; apply good_bind; auto using good_read; intros v; apply good_as_int].
  assert (L : forall r, run (goto_steps m (goto_index m from) from ix ps 0 None) = r <-> leads m n from (combine ps ix) r).
  { intros r'. rewrite <- leads_at_0. apply steps_leads; auto; [intros; apply good_index; auto|lia]. }
  destruct (run (goto_steps m (goto_index m from) from ix ps 0 None)) as [q|e] eqn:G.
  - assert (Q : forall r', leads m n from (combine ps ix) r' -> r' = Ok q) by (intros r' H; apply L in H; congruence).
    pose proof (proj1 (L _) eq_refl) as G0. clear G. rename G0 into G.
    rewrite rb; auto using good_read, good_as_int.
    destruct (run (read m q)) as [v|e] eqn:R; apply run_read_value in R.
    + destruct R as [(v' & V & [= <-])|(_ & ?)]; [|discriminate]. destruct v as [s|z|f|re im|ss|sh d|sh d|sh d]; cbn;
        try (split; [intros <-; eapply nb_noint; eauto; intros z W; pose proof (value_at_fun _ _ _ V W); discriminate|];
             intros N; inversion N as [|? ? q' z' G' W|? ? q' G' W|? ? e' G']; subst;
             [ pose proof (Q _ G') as [= <-]; pose proof (value_at_fun _ _ _ V W); discriminate
             | destruct r; congruence
             | apply Q in G'; discriminate ]).
      split.
      * intros <-. eapply nb_path; eauto.
      * intros N. destruct r as [z0|e0]; inversion N as [|? ? q' z' G' W|? ? q' G' W|? ? e' G']; subst.
        -- pose proof (Q _ G') as [= <-]. pose proof (value_at_fun _ _ _ V W) as [= <-]. f_equal. lia.
        -- pose proof (Q _ G') as [= <-]. destruct (W _ V).
        -- apply Q in G'. discriminate.
    + destruct R as [(v' & V & ?)|(NV & [= ->])]; [discriminate|]. split.
      * intros <-. eapply nb_noint; eauto.
      * intros N. destruct r as [z0|e0]; inversion N as [|? ? q' z' G' W|? ? q' G' W|? ? e' G']; subst; auto.
        -- pose proof (Q _ G') as [= <-]. destruct (NV _ W).
        -- apply Q in G'. discriminate.
  - assert (Q : forall r', leads m n from (combine ps ix) r' -> r' = Err e) by (intros r' H; apply L in H; congruence).
    pose proof (proj1 (L _) eq_refl) as G0. clear G. rename G0 into G.
    split.
    + intros <-. apply nb_err; auto.
    + intros N. destruct r as [z0|e0]; inversion N as [|? ? q' z' G' W|? ? q' G' W|? ? e' G']; subst; apply Q in G'; congruence.
Qed.

Theorem run_goto : forall from p r, run (goto m from p) = r <-> resolves m n from p r.
Proof.
  intros from p r. unfold resolves. rewrite <- leads_at_0. apply steps_leads.
  - intros; apply good_index; auto.
  - intros; apply run_index.
  - lia.
Qed.
End Run.
