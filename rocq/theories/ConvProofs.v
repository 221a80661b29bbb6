(** Conversion: which data nodes and arrays the operations of ConvModel.v can change. *)
From Verif Require Import Base PathModel TreeModel TreeSpec TreeProofs TreeProofs2 TreeProofs4 ValModel ValProofs ValProofs2 PrimModel ConvModel ConvSpec.
From Verif Require VmapModel.
Import VmapModel(handler(..), nmap).

(** the value of a filled data node, the size of an array of structures *)
Definition fval (m : meta) (n : node) (l : loc) : option value :=
  match look m n l with
  | Some (Meta _ (KLeaf _ nd) _, NLeaf v) => if leaf_has_value nd v then v else None
  | _ => None
  end.
Definition fsize (m : meta) (n : node) (l : loc) : option nat :=
  match look m n l with Some (Meta _ KAoS _, NAoS els) => Some (length els) | _ => None end.

Lemma look_app : forall a m n b, look m n (a ++ b) = match look m n a with Some (m', n') => look m' n' b | None => None end.
Proof.
  induction a as [|[nm|i] a IH]; intros m n b; simpl; auto.
  - destruct (mkind m), n; auto. destruct (child_meta nm (mchildren m)); auto.
  - destruct (mkind m), n as [|els|]; auto. destruct (nth_error els i); auto.
Qed.
Lemma fval_app : forall a m n b, fval m n (a ++ b) = match look m n a with Some (m', n') => fval m' n' b | None => None end.
Proof. intros. unfold fval. rewrite look_app. destruct (look m n a) as [[m' n']|]; auto. Qed.
Lemma fsize_app : forall a m n b, fsize m n (a ++ b) = match look m n a with Some (m', n') => fsize m' n' b | None => None end.
Proof. intros. unfold fsize. rewrite look_app. destruct (look m n a) as [[m' n']|]; auto. Qed.

(** ** Reading *)
Definition same_obs (m : meta) (n n' : node) : Prop := forall l, fval m n' l = fval m n l /\ fsize m n' l = fsize m n l.
Lemma same_obs_refl : forall m n, same_obs m n n. Proof. split; auto. Qed.
Lemma default_not_filled : forall dt nd, leaf_has_value (S nd) (Some (default_value dt (S nd))) = false.
Proof.
  intros. destruct dt; simpl; unfold leaf_has_value, leaf_size; simpl; auto; destruct nd; reflexivity.
Qed.
Lemma obs_access : forall l m n, same_obs m n (access m n l).
Proof.
  induction l as [|s l IH]; intros m n p.
  - simpl. destruct m as [nm [| |dt [|nd]] cs]; simpl; auto. destruct n as [|?|[v|]]; auto.
    destruct p as [|[x|i] p]; auto. split; auto.
    change (fval (Meta nm (KLeaf dt (S nd)) cs) (NLeaf (Some (default_value dt (S nd)))) [] = None).
    unfold fval, look. rewrite default_not_filled. auto.
  - destruct s as [nm|i]; simpl.
    + destruct (mkind m) eqn:K; auto. destruct n as [fs|els|v]; auto. destruct (child_meta nm (mchildren m)) as [c|] eqn:CM; auto.
      destruct (child_meta_Some _ _ _ CM) as (_ & CN). fold (child_or_new c fs).
      destruct p as [|[x|j] p]; [destruct m as [? k ?]; simpl in *; subst; auto|..].
      * unfold fval, fsize. simpl. rewrite K.
        destruct (child_meta x (mchildren m)) as [d|] eqn:DM; auto.
        destruct (str_eqb x nm) eqn:E.
        -- apply str_eqb_eq in E. subst x. rewrite DM in CM. injection CM as ->. subst nm. rewrite child_or_new_aset by auto.
           apply IH.
        -- rewrite child_or_new_aset_ne; auto. destruct (child_meta_Some _ _ _ DM) as (_ & DN).
           intro Q. rewrite <- DN, Q, str_eqb_refl in E. discriminate.
      * unfold fval, fsize. simpl. rewrite K. auto.
    + destruct (mkind m) eqn:K; auto. destruct n as [fs|els|v]; auto. destruct (nth_error els i) as [e|] eqn:NE; auto.
      destruct p as [|[x|j] p]; [destruct m as [? k ?]; simpl in *; subst; unfold fval, fsize; simpl; rewrite list_set_length; auto|..].
      * unfold fval, fsize. simpl. rewrite K. auto.
      * unfold fval, fsize. simpl. rewrite K. rewrite nth_error_list_set.
        destruct (Nat.eqb_spec i j) as [->|NE2]; auto. rewrite NE. apply IH.
Qed.

(** ** Changing a node *)
Lemma look_update : forall l m n f r m0 n0, look m n l = Some (m0, n0) -> look m (update m n l f) (l ++ r) = look m0 (f n0) r.
Proof.
  induction l as [|[nm|i] l IH]; intros m n f r m0 n0 L; simpl in L |- *.
  - injection L as <- <-. reflexivity.
  - destruct (mkind m) eqn:K; try discriminate. destruct n as [fs|els|v]; try discriminate.
    destruct (child_meta nm (mchildren m)) as [c|] eqn:CM; try discriminate. destruct (child_meta_Some _ _ _ CM) as (_ & <-).
    simpl. rewrite child_or_new_aset by auto. eapply IH; eauto.
  - destruct (mkind m) eqn:K; try discriminate. destruct n as [fs|els|v]; try discriminate.
    destruct (nth_error els i) as [e|] eqn:NE; try discriminate. simpl. rewrite nth_error_list_set, Nat.eqb_refl, NE. eapply IH; eauto.
Qed.
Lemma obs_update : forall l m n f p, ~ within l p ->
  fval m (update m n l f) p = fval m n p /\ fsize m (update m n l f) p = fsize m n p.
Proof.
  induction l as [|s l IH]; intros m n f p NW.
  - exfalso. apply NW. exists p. reflexivity.
  - destruct s as [nm|i]; simpl.
    + destruct (mkind m) eqn:K; auto. destruct n as [fs|els|v]; auto. destruct (child_meta nm (mchildren m)) as [c|] eqn:CM; auto.
      destruct (child_meta_Some _ _ _ CM) as (_ & CN).
      destruct p as [|[x|j] p]; [destruct m as [? k ?]; simpl in *; subst; auto|..].
      * unfold fval, fsize. simpl. rewrite K.
        destruct (child_meta x (mchildren m)) as [d|] eqn:DM; auto.
        destruct (str_eqb x nm) eqn:E.
        -- apply str_eqb_eq in E. subst x. rewrite DM in CM. injection CM as ->. subst nm. rewrite child_or_new_aset by auto.
           apply IH. intros (r & ->). apply NW. exists r. reflexivity.
        -- rewrite child_or_new_aset_ne; auto. destruct (child_meta_Some _ _ _ DM) as (_ & DN).
           intro Q. rewrite <- DN, Q, str_eqb_refl in E. discriminate.
      * unfold fval, fsize. simpl. rewrite K. auto.
    + destruct (mkind m) eqn:K; auto. destruct n as [fs|els|v]; auto. destruct (nth_error els i) as [e|] eqn:NE; auto.
      destruct p as [|[x|j] p]; [destruct m as [? k ?]; simpl in *; subst; unfold fval, fsize; simpl; rewrite list_set_length; auto|..].
      * unfold fval, fsize. simpl. rewrite K. auto.
      * unfold fval, fsize. simpl. rewrite K. rewrite nth_error_list_set.
        destruct (Nat.eqb_spec i j) as [->|NE2]; auto. rewrite NE. apply IH. intros (r & ->). apply NW. exists r. reflexivity.
Qed.
Lemma conf_update : forall l m n f m0 n0, wf_meta m -> conf m n -> look m n l = Some (m0, n0) -> conf m0 (f n0) -> conf m (update m n l f).
Proof.
  induction l as [|[nm|i] l IH]; intros m n f m0 n0 W C L F; simpl in L |- *.
  - injection L as <- <-. auto.
  - destruct m as [name k cs]; simpl in *. destruct k; try discriminate. destruct n as [fs|els|v]; try discriminate.
    destruct (child_meta nm cs) as [c|] eqn:CM; try discriminate. destruct (child_meta_Some _ _ _ CM) as (I & <-).
    inversion W; subst. inversion C; subst.
    assert (CC : conf c (update c (child_or_new c fs) l f)).
    { eapply IH; eauto. unfold child_or_new. destruct (alookup (mname c) fs) eqn:A; eauto. apply new_node_conf. }
    constructor.
    + intros c' ch I' A. destruct (list_eq_dec ascii_dec (mname c') (mname c)) as [E|E].
      * rewrite E, alookup_aset_same in A. injection A as <-.
        assert (c' = c) as -> by (eapply nodup_name; eauto). auto.
      * rewrite alookup_aset_other in A by auto. eauto.
    + intros k' IK. apply akeys_aset_In in IK. destruct IK as [->|IK]; auto. apply in_map; auto.
    + apply akeys_aset_NoDup; auto.
  - destruct m as [name k cs]; simpl in *. destruct k; try discriminate. destruct n as [fs|els|v]; try discriminate.
    destruct (nth_error els i) as [e|] eqn:NE; try discriminate. inversion C; subst.
    constructor. intros e' I'. apply In_nth_error in I' as (j & NJ). rewrite nth_error_list_set in NJ.
    destruct (Nat.eqb_spec i j) as [->|NE2].
    + rewrite NE in NJ. injection NJ as <-. eapply IH; eauto using wf_struct. match goal with H : forall e, In e els -> _ |- _ => apply H end.
      eapply nth_error_In; eauto.
    + match goal with H : forall e, In e els -> _ |- _ => apply H end. eapply nth_error_In; eauto.
Qed.

(** ** A relation between the tree before and after, for programs *)
Lemma within_refl : forall l, within l l. Proof. intros l. exists []. rewrite app_nil_r. reflexivity. Qed.
Lemma within_app : forall a b c, within a b -> within a (b ++ c). Proof. intros a b c (r & ->). exists (r ++ c). rewrite app_assoc. reflexivity. Qed.
Lemma within_trans : forall a b c, within a b -> within b c -> within a c.
Proof. intros a b c W (r & ->). apply within_app; auto. Qed.
#[global] Hint Resolve within_refl within_app : conv.

Definition not_node (p : pyval) : Prop := match p with PNode _ _ _ => False | _ => True end.
Lemma of_value_nn : forall v, not_node (of_value v). Proof. intros []; exact I. Qed.
Lemma elems_nn : forall v l x, elems_of v = Some l -> In x l -> not_node x.
Proof.
  intros v l x E In. destruct v as [| | | |l'|sh d|sh d|sh d]; try discriminate; try (destruct sh as [|? [|? ?]]; try discriminate);
    injection E as <-; apply in_map_iff in In as (y & <- & _); exact I.
Qed.
#[global] Hint Resolve of_value_nn : conv.

Section Pres.
Variables (sm tm : meta).
Variable src : node.
Variable rm : nmap.
Variable deepcopy : bool.
Variable str_of : pyval -> str.
Variable parse_float : str -> option flt.
Variable parse_cpx : str -> option (flt * flt).
Variable flt_of_int : Z -> option flt.
Variable np_cast : dtype -> pyval -> result pexn value.
Variable array_items : value -> list pyval.
Variable close : pyval -> pyval -> bool.
Variable np_int32 : flt -> result pexn Z.
Variable enum_of : list str -> option (Z -> option (str * str)).

Notation assign := (assign tm str_of parse_float parse_cpx flt_of_int np_cast array_items).
Notation resize := (resize tm).

Variable R : node -> node -> Prop.
Variable ok : loc -> Prop.
Hypothesis R_refl : forall n, R n n.
Hypothesis R_trans : forall a b c, R a b -> R b c -> R a c.
Hypothesis R_access : forall n l, R n (access tm n l).
Hypothesis R_assign : forall l from p s, ok l -> not_node p -> R (c_tree s) (c_tree (fst (assign l from p s))).
Hypothesis R_resize : forall l k s, (forall r, ok (l ++ r)) -> R (c_tree s) (c_tree (fst (resize l k s))).

Definition pres {A} (c : CM A) : Prop := forall s, R (c_tree s) (c_tree (fst (c s))).
Lemma pres_ret : forall A (a : A), pres (cret a). Proof. intros A a s. simpl. auto. Qed.
Lemma pres_fail : forall A e, pres (cfail (A := A) e). Proof. intros A e s. simpl. auto. Qed.
Lemma pres_bind : forall A B (c : CM A) (f : A -> CM B), pres c -> (forall a, pres (f a)) -> pres (cbind c f).
Proof.
  intros A B c f Hc Hf s. unfold cbind. specialize (Hc s). destruct (c s) as [s' [a|e]]; simpl in *; auto.
  eapply R_trans; [exact Hc|apply Hf].
Qed.
Lemma pres_bind_r : forall A B (c : CM A) (f : A -> CM B), pres c -> (forall s s' a, c s = (s', Ok a) -> pres (f a)) -> pres (cbind c f).
Proof.
  intros A B c f Hc Hf s. unfold cbind. specialize (Hc s). destruct (c s) as [s' [a|e]] eqn:E; simpl in *; auto.
  eapply R_trans; [exact Hc|eapply Hf; eauto].
Qed.
Lemma pres_if : forall A (b : bool) (c d : CM A), pres c -> pres d -> pres (if b then c else d).
Proof. intros. destruct b; auto. Qed.
Lemma pres_iter : forall A (f : A -> CM unit) l, (forall a, In a l -> pres (f a)) -> pres (citer f l).
Proof.
  intros A f l. induction l as [|x t IH]; intros H; simpl; [apply pres_ret|]. apply pres_bind; [apply H; left; auto|].
  intros _. apply IH. intros. apply H. right. auto.
Qed.
Lemma pres_option : forall A e (o : option A), pres (of_option e o). Proof. intros A e [a|]; [apply pres_ret|apply pres_fail]. Qed.
Definition reads {E A} (c : M E A) : Prop := forall n, R n (fst (c n)).
Lemma reads_ret : forall E A (a : A), reads (ret (E := E) a). Proof. intros E A a n. simpl. auto. Qed.
Lemma reads_fail : forall E A (e : E), reads (fail (A := A) e). Proof. intros E A e n. simpl. auto. Qed.
Lemma reads_bind : forall E A B (c : M E A) (f : A -> M E B), reads c -> (forall a, reads (f a)) -> reads (bind c f).
Proof.
  intros E A B c f Hc Hf n. unfold bind. specialize (Hc n). destruct (c n) as [n' [a|e]]; simpl in *; auto.
  eapply R_trans; [exact Hc|apply Hf].
Qed.
Lemma reads_view : forall E (e : E) l, reads (view tm e l). Proof. intros E e l n. simpl. auto. Qed.
Lemma reads_touch : forall E l, reads (touch tm (E := E) l). Proof. intros E l n. simpl. auto. Qed.
Lemma reads_read : forall l, reads (read tm l). Proof. intros l n. simpl. auto. Qed.
Lemma reads_getattr : forall l p, reads (getattr_ tm l p).
Proof.
  intros. unfold getattr_. apply reads_bind; [apply reads_view|]. intros [cs|k|nd v]; try apply reads_fail.
  destruct (child_meta p cs); [|apply reads_fail]. apply reads_bind; [apply reads_touch|]. intros. apply reads_ret.
Qed.
Lemma reads_getitem : forall l z, reads (getitem tm l z).
Proof.
  intros. unfold getitem. apply reads_bind; [apply reads_view|]. intros [cs|k|nd v]; try apply reads_fail.
  destruct (py_idx z k); [apply reads_ret|apply reads_fail].
Qed.
Lemma reads_steps : forall nested from ix, (forall i, In i ix -> reads (nested i)) ->
  forall ps i elt, reads (goto_steps tm nested from ix ps i elt).
Proof.
  intros nested from ix. induction ix as [|idx ix IH]; intros G ps i elt; [simpl; apply reads_ret|].
  assert (G' : forall j, In j ix -> reads (nested j)) by (intros; apply G; right; auto).
  assert (Gi : reads (nested idx)) by (apply G; left; auto). specialize (IH G').
  destruct ps as [|p ps]; [simpl; apply reads_ret|]. simpl.
  destruct idx; try apply reads_fail;
    (match goal with |- reads (if ?b then _ else _) => destruct b end; [apply IH|]); (apply reads_bind; [apply reads_getattr|intros c]);
    try apply reads_fail; try apply IH.
  - apply reads_bind; [apply reads_getitem|]. intros; apply IH.
  - apply reads_bind; auto. intros z. apply reads_bind; [apply reads_getitem|intros; apply IH].
Qed.
Lemma reads_index : forall from i, reads (goto_index tm from i).
Proof.
  intros from i. induction i using index_ind'; simpl; try apply reads_fail.
  apply reads_bind; [apply reads_steps; auto|]. intros q. apply reads_bind; [apply reads_read|].
  intros v; destruct v; simpl; try apply reads_fail; apply reads_ret.
Qed.
Lemma reads_goto : forall from p, reads (goto tm from p).
Proof. intros. unfold goto. apply reads_steps. intros; apply reads_index. Qed.
Lemma pres_lift : forall A (c : M lexn A), reads c -> pres (lift c).
Proof. intros A c H s. unfold lift. specialize (H (c_tree s)). destruct (c (c_tree s)) as [n' r]. exact H. Qed.
Lemma pres_view : forall l, pres (cview tm l). Proof. intros. apply pres_lift, reads_view. Qed.
Lemma pres_getattr : forall l nm, pres (getattr tm l nm).
Proof.
  intros. unfold getattr. apply pres_bind; [apply pres_view|]. intros [cs|k|nd v]; try apply pres_fail.
  destruct (child_meta nm cs); [|apply pres_fail]. apply pres_bind; [apply pres_lift, reads_touch|]. intros. apply pres_ret.
Qed.
Lemma pres_assign : forall l from p, ok l -> not_node p -> pres (assign l from p). Proof. intros l from p O NN s. apply R_assign; auto. Qed.
Lemma pres_resize : forall l k, (forall r, ok (l ++ r)) -> pres (resize l k). Proof. intros l k O s. apply R_resize; auto. Qed.
Lemma pres_target_value : forall l, pres (target_value tm l).
Proof.
  intros. unfold target_value. apply pres_bind; [apply pres_view|]. intros [cs|k|nd v]; try apply pres_fail. apply pres_lift, reads_read.
Qed.
Lemma pres_filled_children : forall l, pres (filled_children tm l).
Proof. intros l s. unfold filled_children. destruct (look tm (c_tree s) l) as [[[? k cs] [fs|els|v]]|]; simpl; auto. Qed.
Lemma pres_reassign : forall keep l f, ok l ->
  pres (reassign tm str_of parse_float parse_cpx flt_of_int np_cast array_items keep l f).
Proof.
  intros. unfold reassign. apply pres_bind; [apply pres_target_value|]. intros v. apply pres_bind; [apply pres_option|].
  intros w s. cbv zeta. apply pres_assign; auto with conv.
Qed.
Lemma pres_truth : forall v, pres (truth v). Proof. intros [| | | | | | |]; simpl; try apply pres_fail; apply pres_ret. Qed.
Lemma pres_source_truth : forall l, pres (source_truth sm src l).
Proof.
  intros. unfold source_truth. destruct (source_at sm src l) as [[m [?|?|?]]|]; try apply pres_fail. apply pres_truth.
Qed.
Lemma pres_source_closed : forall l, pres (source_closed sm src l).
Proof. intros. unfold source_closed. destruct (source_attr sm src l closed_name); [apply pres_ret|apply pres_option]. Qed.

(** the location given by getattr *)
Lemma getattr_loc : forall l nm s s' a, getattr tm l nm s = (s', Ok a) -> a = l ++ [Child nm].
Proof.
  intros l nm s s' a. unfold getattr, cbind, cview, lift, view. simpl. destruct (info_at tm (c_tree s) l) as [[cs|k|nd v]|]; simpl; try discriminate.
  destruct (child_meta nm cs); simpl; intros H; injection H; congruence.
Qed.

Ltac ps :=
  repeat (first
   [ apply pres_ret | apply pres_fail | apply pres_option | apply pres_view | apply pres_getattr | apply pres_target_value
   | apply pres_truth | apply pres_source_truth | apply pres_source_closed | apply pres_filled_children | assumption
   | apply pres_if | (apply pres_bind; [|intros ?])
   | match goal with |- pres (match ?x with _ => _ end) => destruct x end ]).

Section Handlers.
Variable tl : loc.
Hypothesis ok_in : forall l, within tl l -> ok l.
Hypothesis ok_closed : ok (removelast tl ++ [Child closed_name]).

Ltac asg := first [apply pres_assign; [apply ok_in; auto 10 with conv|first [exact I|apply of_value_nn]] | apply pres_resize; intros; apply ok_in; auto 10 with conv].

Lemma pres_identifier : forall en i z, pres (identifier tm str_of parse_float parse_cpx flt_of_int np_cast array_items tl en i z).
Proof.
  intros. unfold identifier.
  assert (A : forall nm a s s', getattr tm (tl ++ [Elem i]) nm s = (s', Ok a) -> ok a).
  { intros nm a s s' G. apply getattr_loc in G. subst. apply ok_in. auto with conv. }
  assert (B : forall nm v, not_node v -> pres (doc b <- getattr tm (tl ++ [Elem i]) nm; assign b None v)).
  { intros. apply pres_bind_r; [apply pres_getattr|]. intros. apply pres_assign; eauto. }
  destruct (match en with Some f => f z | None => None end) as [[nm d]|]; [|apply B; exact I].
  apply pres_bind_r; [apply pres_getattr|]. intros s s' a G. apply pres_bind; [apply pres_assign; [eauto|exact I]|intros _].
  apply pres_bind_r; [apply pres_getattr|]. intros s1 s1' a1 G1. apply pres_bind; [apply pres_assign; [eauto|exact I]|intros _]. apply B. exact I.
Qed.
Lemma pres_target_closed : forall A (f : loc -> CM A), (forall l, ok l -> pres (f l)) -> pres (doc c <- target_closed tm tl; f c).
Proof.
  intros A f H. apply pres_bind_r; [unfold target_closed; ps|]. intros s s' a G. apply H.
  unfold target_closed, cbind, cview, lift, view in G. simpl in G. destruct (info_at tm (c_tree s) tl) as [[cs|k|nd v]|]; try discriminate.
  - destruct (child_meta closed_name cs); apply getattr_loc in G; subst; auto with conv.
  - apply getattr_loc in G; subst; auto.
  - apply getattr_loc in G; subst; auto.
Qed.
(** the pairs of nodes that the contour handlers visit *)
Lemma pairs_spec : forall n sl s s' l, pairs tm n sl tl s = (s', Ok l) -> forall e a t, In (e, a, t) l -> within tl t.
Proof.
  intros n sl s s' l. unfold pairs. destruct n as [fs|els|v]; simpl.
  - intros G. injection G as <- <-. intros e a t [G|[]]. injection G as <- <- <-. auto with conv.
  - unfold cbind. destruct (resize tl (length els) s) as [s1 [u|e]]; simpl; intros G; [|discriminate].
    injection G as <- <-. intros e a t I. apply in_map_iff in I as ([j x] & G & I). injection G as <- <- <-. auto with conv.
  - intros G. injection G as <- <-. intros e a t [G|[]]. injection G as <- <- <-. auto with conv.
Qed.
Lemma pres_pairs : forall n sl, pres (pairs tm n sl tl).
Proof. intros. unfold pairs. destruct n; ps. asg. Qed.
Lemma pres_set_child : forall t nm sl v, within tl t -> pres (set_child tm str_of parse_float parse_cpx flt_of_int np_cast array_items t nm sl v).
Proof.
  intros. unfold set_child. apply pres_bind_r; [apply pres_getattr|]. intros s s' a G. apply getattr_loc in G. subst.
  apply pres_assign; [apply ok_in|]; auto with conv.
Qed.

Theorem pres_type_change : forall h m n sl,
  pres (type_change sm tm src str_of parse_float parse_cpx flt_of_int np_cast array_items close np_int32 enum_of h m n sl tl).
Proof.
  intros h m n sl. destruct h; simpl; try apply pres_fail.
  - unfold type_structure_aos. destruct n as [fs|els|v]; ps. asg.
  - unfold type_0d_1d. destruct (mkind m) as [| |dt [|nd]]; try apply pres_fail; [ps; asg|].
    destruct (elems_of (leaf_value m n)) as [[|x [|y t]]|] eqn:E; try apply pres_ret.
    apply pres_bind; [|intros; apply pres_ret]. apply pres_assign; [apply ok_in; auto with conv|]. eapply elems_nn; eauto. left; auto.
  - unfold type_to_identifier. destruct m as [nm [| |[| | |] [|[|nd]]] cs], n as [fs|[|e els]|v]; ps; try asg;
      try apply pres_identifier; match goal with |- pres (?g ?l) => apply (pres_iter _ (fun x => identifier tm str_of parse_float parse_cpx flt_of_int np_cast array_items tl (enum_of (loc_names tl)) (fst x) (snd x)) l) end;
      intros; apply pres_identifier.
  - unfold type_flt_int. ps; asg.
  - unfold type_remove_last. apply pres_target_closed. intros c Oc. apply pres_bind; [apply pres_option|intros closed].
    apply pres_bind; [apply pres_assign; [auto|exact I]|intros _].
    apply pres_bind_r; [apply pres_pairs|]. intros s s' l G. apply pres_bind; [|intros; apply pres_ret]. apply pres_iter. intros [[e a] t] I.
    pose proof (pairs_spec _ _ _ _ _ G _ _ _ I). apply pres_iter. intros [cm ch] _.
    destruct (mkind cm); try apply pres_fail. cbv zeta. apply pres_bind; [ps|]. intros w. apply pres_set_child; auto.
  - unfold type_repeat_first. apply pres_bind; [apply pres_source_closed|intros cl].
    apply pres_bind; [apply pres_source_truth|intros closed].
    apply pres_bind_r; [apply pres_pairs|]. intros s s' l G. apply pres_bind; [|intros; apply pres_ret]. apply pres_iter. intros [[e a] t] I.
    pose proof (pairs_spec _ _ _ _ _ G _ _ _ I). apply pres_iter. intros [cm ch] _. apply pres_if; [apply pres_ret|]. destruct (mkind cm); try apply pres_fail. cbv zeta.
    apply pres_if; [|apply pres_set_child; auto]. apply pres_bind; [apply pres_option|intros w].
    apply pres_bind_r; [apply pres_getattr|]. intros. match goal with H : getattr _ _ _ _ = _ |- _ => apply getattr_loc in H; subst end. asg.
  - unfold type_centreline. ps; asg.
  - unfold type_centreline. ps; asg.
  - unfold type_ids_source.
    apply pres_bind_r; [apply pres_getattr|]. intros ? ? a G. apply getattr_loc in G. subst. 
    apply pres_bind; [apply pres_view|intros [cs|[|k]|nd v]]; try apply pres_fail; try apply pres_ret.
    apply pres_bind; [asg|intros _].
    apply pres_bind_r; [apply pres_getattr|]. intros ? ? a G. apply getattr_loc in G. subst. apply pres_bind; [asg|intros _].
    apply pres_bind_r; [apply pres_getattr|]. intros ? ? a G. apply getattr_loc in G. subst. ps; asg.
Qed.
Theorem pres_post_process : forall h,
  pres (post_process tm str_of parse_float parse_cpx flt_of_int np_cast array_items h tl).
Proof.
  intros h. destruct h; simpl; try apply pres_fail.
  - unfold each_child. ps. apply pres_iter. intros nm _. apply pres_reassign, ok_in. auto with conv.
  - unfold each_child. ps. apply pres_iter. intros nm _. apply pres_reassign, ok_in. auto with conv.
  - apply pres_bind; [apply pres_view|intros i].
    assert (D : pres (if str_eqb (path_string tl) (strs "flux_loop/flux") then doc d <- getattr tm tl (strs "data");
       reassign tm str_of parse_float parse_cpx flt_of_int np_cast array_items false d negate else cret tt)).
    { apply pres_if; [|apply pres_ret]. apply pres_bind_r; [apply pres_getattr|]. intros ? ? a G. apply getattr_loc in G. subst.
      apply pres_reassign, ok_in. auto with conv. }
    destruct i; auto. apply pres_reassign, ok_in. auto with conv.
  - apply pres_reassign, ok_in. auto with conv.
  - apply pres_bind; [apply pres_target_value|intros v]. destruct (value_shape v) as [|a [|b t]]; try apply pres_fail.
    apply pres_if; [apply pres_ret|]. apply pres_reassign, ok_in. auto with conv.
Qed.
End Handlers.
End Pres.
