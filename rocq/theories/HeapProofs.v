(** Lemmas about the heap model: heap updates and the invariant [tidy]. *)
From Verif Require Import Base TreeModel TreeProofs4 PathModel HeapModel HeapSpec.

Definition with_body (b : body) (ob : obj) : obj :=
  {| o_parent := o_parent ob; o_path := o_path ob; o_meta := o_meta ob; o_body := b |}.
Definition with_parent (p : oid) (ob : obj) : obj :=
  {| o_parent := Some p; o_path := o_path ob; o_meta := o_meta ob; o_body := o_body ob |}.

Lemma get_lt : forall h x ob, get h x = Some ob -> x < length (h_objs h).
Proof. intros h x ob H. apply nth_error_Some. unfold get in H. congruence. Qed.
Lemma get_some : forall h x, x < length (h_objs h) -> exists ob, get h x = Some ob.
Proof. intros h x H. apply nth_error_Some in H. unfold get. destruct (nth_error (h_objs h) x); eauto; congruence. Qed.

Lemma get_set_body : forall h x b y,
  get (set_body h x b) y = if x =? y then option_map (with_body b) (get h x) else get h y.
Proof.
  intros. unfold set_body. destruct (get h x) as [ob|] eqn:E.
  - unfold get, put in *. simpl. rewrite nth_error_list_set, E. destruct (x =? y); auto.
  - destruct (Nat.eqb_spec x y); subst; auto.
Qed.
Lemma get_set_parent : forall h x p y,
  get (set_parent h x p) y = if x =? y then option_map (with_parent p) (get h x) else get h y.
Proof.
  intros. unfold set_parent. destruct (get h x) as [ob|] eqn:E.
  - unfold get, put in *. simpl. rewrite nth_error_list_set, E. destruct (x =? y); auto.
  - destruct (Nat.eqb_spec x y); subst; auto.
Qed.
Lemma get_alloc : forall h ob y, get (fst (alloc h ob)) y = if y =? length (h_objs h) then Some ob else get h y.
Proof.
  intros. unfold get, alloc. simpl. destruct (Nat.eqb_spec y (length (h_objs h))) as [->|N].
  - rewrite nth_error_app2, Nat.sub_diag by lia. auto.
  - destruct (Nat.lt_ge_cases y (length (h_objs h))).
    + now rewrite nth_error_app1.
    + rewrite nth_error_app2 by lia. transitivity (@None obj).
      * apply nth_error_None. simpl. lia.
      * symmetry. apply nth_error_None. lia.
Qed.
Lemma len_set_body : forall h x b, length (h_objs (set_body h x b)) = length (h_objs h).
Proof. intros. unfold set_body. destruct (get h x); auto. simpl. apply list_set_length. Qed.
Lemma len_set_parent : forall h x p, length (h_objs (set_parent h x p)) = length (h_objs h).
Proof. intros. unfold set_parent. destruct (get h x); auto. simpl. apply list_set_length. Qed.
Lemma len_alloc : forall h ob, length (h_objs (fst (alloc h ob))) = S (length (h_objs h)).
Proof. intros. simpl. rewrite app_length. simpl. lia. Qed.
Lemma bufs_set_body : forall h x b, h_bufs (set_body h x b) = h_bufs h.
Proof. intros. unfold set_body. destruct (get h x); auto. Qed.
Lemma bufs_set_parent : forall h x b, h_bufs (set_parent h x b) = h_bufs h.
Proof. intros. unfold set_parent. destruct (get h x); auto. Qed.
#[export] Hint Rewrite len_set_body len_set_parent len_alloc bufs_set_body bufs_set_parent : heap.

(** Body of an object *)
Definition body_of (h : heap) (x : oid) : option body := option_map o_body (get h x).
Definition in_body (b : body) (s : step) (x : oid) : Prop :=
  match b, s with
  | BStruct fs, Child k => In (k, x) fs
  | BAoS els, Elem i => nth_error els i = Some x
  | _, _ => False
  end.
Lemma slot_iff : forall h c s x, slot h c s x <-> exists b, body_of h c = Some b /\ in_body b s x.
Proof.
  intros. unfold body_of. split.
  - intros [ob fs k y G B I|ob els i y G B I]; rewrite G; simpl; eexists; split; eauto; rewrite B; auto.
  - intros (b & E & I). destruct (get h c) as [ob|] eqn:G; simpl in E; [|discriminate]. inversion E; subst b.
    destruct (o_body ob) as [fs|els|] eqn:B, s; simpl in I; try tauto; econstructor; eauto.
Qed.
Lemma body_of_set_body : forall h x b y,
  body_of (set_body h x b) y = if x =? y then option_map (fun _ => b) (get h x) else body_of h y.
Proof. intros. unfold body_of. rewrite get_set_body. destruct (x =? y); auto. destruct (get h x); auto. Qed.
Lemma body_of_set_parent : forall h x p y, body_of (set_parent h x p) y = body_of h y.
Proof.
  intros. unfold body_of. rewrite get_set_parent. destruct (Nat.eqb_spec x y) as [->|]; auto. destruct (get h y); auto.
Qed.
Lemma body_of_alloc : forall h ob y, body_of (fst (alloc h ob)) y = if y =? length (h_objs h) then Some (o_body ob) else body_of h y.
Proof. intros. unfold body_of. rewrite get_alloc. destruct (y =? _); auto. Qed.
Lemma parent_set_body : forall h x b y, parent (set_body h x b) y = parent h y.
Proof.
  intros. unfold parent. rewrite get_set_body. destruct (Nat.eqb_spec x y) as [->|]; auto. destruct (get h y); auto.
Qed.
Lemma parent_set_parent : forall h x p y, parent (set_parent h x p) y =
  if x =? y then option_map (fun _ => p) (get h x) else parent h y.
Proof. intros. unfold parent. rewrite get_set_parent. destruct (x =? y); auto. destruct (get h x); auto. Qed.
Lemma parent_alloc : forall h ob y, parent (fst (alloc h ob)) y = if y =? length (h_objs h) then o_parent ob else parent h y.
Proof. intros. unfold parent. rewrite get_alloc. destruct (y =? _); auto. Qed.
Lemma slot_set_parent : forall h v p c s x, slot (set_parent h v p) c s x <-> slot h c s x.
Proof. intros. rewrite !slot_iff. setoid_rewrite body_of_set_parent. tauto. Qed.
Lemma slot_set_body : forall h o b c s x, o < length (h_objs h) ->
  (slot (set_body h o b) c s x <-> (c = o /\ in_body b s x) \/ (c <> o /\ slot h c s x)).
Proof.
  intros h o b c s x Ho. rewrite !slot_iff. setoid_rewrite body_of_set_body. destruct (get_some h o Ho) as (ob & G). rewrite G. simpl.
  destruct (Nat.eqb_spec o c) as [->|N].
  - split.
    + intros (b' & E & I). inversion E; subst. auto.
    + intros [(_ & I)|(X & _)]; [eauto|congruence].
  - split.
    + intros H. right. split; auto.
    + intros [(-> & _)|(_ & H)]; [congruence|auto].
Qed.
Lemma slot_lt : forall h c s x, slot h c s x -> c < length (h_objs h).
Proof. intros h c s x H. apply slot_iff in H as (b & E & _). unfold body_of in E. destruct (get h c) eqn:G; [|discriminate]. eapply get_lt; eauto. Qed.
Lemma slot_alloc : forall h ob c s x, (forall s x, ~ in_body (o_body ob) s x) ->
  (slot (fst (alloc h ob)) c s x <-> slot h c s x).
Proof.
  intros h ob c s x He. split; intros H.
  - apply slot_iff in H as (b & E & I). rewrite body_of_alloc in E. destruct (c =? _).
    + inversion E; subst. elim (He s x I).
    + apply slot_iff. eauto.
  - pose proof (slot_lt _ _ _ _ H). apply slot_iff in H as (b & E & I). apply slot_iff. exists b. split; auto.
    rewrite body_of_alloc. destruct (Nat.eqb_spec c (length (h_objs h))); auto. lia.
Qed.
Lemma is_struct_iff : forall h x, is_struct h x <-> exists fs, body_of h x = Some (BStruct fs).
Proof.
  intros. unfold is_struct, body_of. split.
  - intros (ob & fs & G & B). rewrite G. simpl. rewrite B. eauto.
  - intros (fs & E). destruct (get h x) as [ob|]; simpl in E; inversion E. eauto.
Qed.

(** ** Acyclic relations *)
Section Acyclic.
  Context {A : Type}.
  Inductive rtc (R : A -> A -> Prop) : A -> A -> Prop :=
  | rtc_refl : forall x, rtc R x x
  | rtc_cons : forall x y z, R x y -> rtc R y z -> rtc R x z.
  Lemma rtc_trans : forall R x y z, rtc R x y -> rtc R y z -> rtc R x z.
  Proof. induction 1; intros; auto. econstructor; eauto. Qed.
  Lemma rtc_one : forall (R : A -> A -> Prop) x y, R x y -> rtc R x y.
  Proof. intros. econstructor; eauto. constructor. Qed.
  Lemma rtc_mono : forall (R R' : A -> A -> Prop) x y, (forall a b, R a b -> R' a b) -> rtc R x y -> rtc R' x y.
  Proof. induction 2; [constructor|econstructor; eauto]. Qed.
  Lemma rtc_new : forall (R R' : A -> A -> Prop) o, (forall a b, R' a b -> R a b \/ (a = o /\ ~ rtc R b o)) ->
    forall a b, rtc R' a b -> rtc R a b \/ (rtc R a o /\ exists w, ~ rtc R w o /\ rtc R w b).
  Proof.
    intros R R' o H a b Hr. induction Hr as [x|x y z E Hr IH]; [left; constructor|].
    apply H in E as [E|(-> & N)].
    - destruct IH as [IH|(IH & W)]; [left|right; split; auto]; econstructor; eauto.
    - destruct IH as [IH|(IH & W)]; [|contradiction]. right. split; [constructor|]. eauto.
  Qed.
  Lemma acyclic_new : forall (R R' : A -> A -> Prop) o, (forall a b, R' a b -> R a b \/ (a = o /\ ~ rtc R b o)) ->
    (forall a b, R a b -> ~ rtc R b a) -> forall a b, R' a b -> ~ rtc R' b a.
  Proof.
    intros R R' o H Ha a b E Hr. pose proof (rtc_new R R' o H _ _ Hr) as [K|(K & w & N & W)].
    - apply H in E as [E|(-> & N)]; [exact (Ha a b E K)|contradiction].
    - apply H in E as [E|(-> & N')]; [|contradiction]. apply N. eapply rtc_trans; eauto. econstructor; eauto.
  Qed.
End Acyclic.
Lemma reach_rtc : forall h x y, reach h x y <-> rtc (contained h) x y.
Proof. split; induction 1; econstructor; eauto. Qed.
Lemma reach_trans : forall h x y z, reach h x y -> reach h y z -> reach h x z.
Proof. intros h x y z. rewrite !reach_rtc. apply rtc_trans. Qed.

(** ** Preservation of [tidy] *)
(** It only depends on the objects. *)
Lemma tidy_objs : forall h h', h_objs h' = h_objs h -> tidy h -> tidy h'.
Proof.
  intros [o b] [o' b'] E. simpl in E. subst o'. intros T.
  assert (S : forall c s x, slot {| h_objs := o; h_bufs := b' |} c s x <-> slot {| h_objs := o; h_bufs := b |} c s x).
  { intros. rewrite !slot_iff. unfold body_of, get. simpl. tauto. }
  assert (Ct : forall c x, contained {| h_objs := o; h_bufs := b' |} c x <-> contained {| h_objs := o; h_bufs := b |} c x).
  { intros. unfold contained. setoid_rewrite S. tauto. }
  constructor.
  - intros c s x Hs. apply S in Hs. exact (t_exists _ T _ _ _ Hs).
  - intros c s x Hs. apply S in Hs. exact (t_parent _ T _ _ _ Hs).
  - intros c s s' x Hs Hs'. apply S in Hs, Hs'. exact (t_once _ T _ _ _ _ Hs Hs').
  - exact (t_keys _ T).
  - intros c k x xo Hs. apply S in Hs. exact (t_name _ T _ _ _ _ Hs).
  - intros c i x Hs. apply S in Hs. exact (t_elem _ T _ _ _ Hs).
  - intros c x Hc Hr. apply Ct in Hc. apply (t_acyclic _ T _ _ Hc). apply reach_rtc in Hr. apply reach_rtc.
    eapply rtc_mono; [|exact Hr]. intros a d. apply Ct.
Qed.

Lemma tidy_alloc : forall h ob, tidy h -> (forall s x, ~ in_body (o_body ob) s x) -> tidy (fst (alloc h ob)).
Proof.
  intros h ob T He. pose proof (slot_alloc h ob) as S.
  assert (S' : forall c s x, slot (fst (alloc h ob)) c s x <-> slot h c s x) by (intros; apply S; auto). clear S.
  assert (L : forall x, x < length (h_objs h) -> (x =? length (h_objs h)) = false) by (intros; apply Nat.eqb_neq; lia).
  constructor.
  - intros c s x Hs. apply S' in Hs. rewrite len_alloc. apply (t_exists _ T) in Hs. lia.
  - intros c s x Hs. apply S' in Hs. rewrite parent_alloc, L; [|eapply t_exists; eauto]. eapply t_parent; eauto.
  - intros c s s' x Hs Hs'. apply S' in Hs, Hs'. eapply t_once; eauto.
  - intros c oc fs G B. rewrite get_alloc in G. destruct (c =? _).
    + inversion G; subst oc. rewrite B in He. destruct fs as [|[k y] fs]; [constructor|].
      elim (He (Child k) y). simpl. auto.
    + eapply t_keys; eauto.
  - intros c k x xo Hs G. apply S' in Hs. rewrite get_alloc, L in G; [|eapply t_exists; eauto]. eapply t_name; eauto.
  - intros c i x Hs. apply S' in Hs. apply is_struct_iff. rewrite body_of_alloc, L; [|eapply t_exists; eauto].
    apply is_struct_iff. eapply t_elem; eauto.
  - intros c x (s & Hs) Hr. apply S' in Hs. apply (t_acyclic _ T c x); [exists s; auto|]. apply reach_rtc in Hr. apply reach_rtc.
    eapply rtc_mono; [|exact Hr]. intros a b (s' & K). exists s'. apply S'. auto.
Qed.

Lemma tidy_parent : forall h v p, tidy h -> (forall c, contained h c v -> c = p) -> tidy (set_parent h v p).
Proof.
  intros h v p T Hp. pose proof (slot_set_parent h v p) as S. constructor.
  - intros c s x Hs. apply S in Hs. rewrite len_set_parent. eapply t_exists; eauto.
  - intros c s x Hs. apply S in Hs. rewrite parent_set_parent. destruct (Nat.eqb_spec v x) as [->|N].
    + rewrite (Hp c) by (exists s; auto). destruct (get_some h x) as (ob & G); [eapply t_exists; eauto|]. rewrite G. auto.
    + eapply t_parent; eauto.
  - intros c s s' x Hs Hs'. apply S in Hs, Hs'. eapply t_once; eauto.
  - intros c oc fs G B. rewrite get_set_parent in G. destruct (Nat.eqb_spec v c) as [->|N].
    + destruct (get h c) as [o|] eqn:G'; simpl in G; inversion G; subst oc. eapply t_keys; eauto.
    + eapply t_keys; eauto.
  - intros c k x xo Hs G. apply S in Hs. rewrite get_set_parent in G. destruct (Nat.eqb_spec v x) as [->|N].
    + destruct (get h x) as [o|] eqn:G'; simpl in G; inversion G; subst xo. eapply (t_name _ T c k x o); eauto.
    + eapply t_name; eauto.
  - intros c i x Hs. apply S in Hs. apply is_struct_iff. rewrite body_of_set_parent. apply is_struct_iff. eapply t_elem; eauto.
  - intros c x (s & Hs) Hr. apply S in Hs. apply (t_acyclic _ T c x); [exists s; auto|]. apply reach_rtc in Hr. apply reach_rtc.
    eapply rtc_mono; [|exact Hr]. intros a b (s' & K). exists s'. apply S. auto.
Qed.

Definition same_kind (b b' : body) : Prop :=
  match b, b' with BStruct _, BStruct _ | BAoS _, BAoS _ | BPrim _, BPrim _ => True | _, _ => False end.

Lemma tidy_body : forall h o b0 b, tidy h -> body_of h o = Some b0 -> same_kind b0 b ->
  (forall s x, in_body b s x -> x < length (h_objs h) /\ parent h x = Some o) ->
  (forall s s' x, in_body b s x -> in_body b s' x -> s = s') ->
  (forall fs, b = BStruct fs -> NoDup (akeys fs)) ->
  (forall k x xo, in_body b (Child k) x -> get h x = Some xo -> mname (o_meta xo) = k) ->
  (forall i x, in_body b (Elem i) x -> is_struct h x) ->
  (forall s x, in_body b s x -> contained h o x \/ ~ reach h x o) ->
  tidy (set_body h o b).
Proof.
  intros h o b0 b T E0 K H1 H2 H3 H4 H5 H6.
  assert (Ho : o < length (h_objs h)). { unfold body_of in E0. destruct (get h o) eqn:G; [|discriminate]. eapply get_lt; eauto. }
  pose proof (fun c s x => slot_set_body h o b c s x Ho) as S.
  assert (Q : forall x, is_struct h x -> is_struct (set_body h o b) x).
  { intros x. rewrite !is_struct_iff, body_of_set_body. intros (fs & Ex). destruct (Nat.eqb_spec o x) as [->|]; [|eauto].
    rewrite E0 in Ex. inversion Ex; subst. destruct b; simpl in K; try tauto. destruct (get_some h x Ho) as (ob & ->). simpl. eauto. }
  constructor.
  - intros c s x Hs. rewrite len_set_body. apply S in Hs as [(-> & I)|(N & I)]; [apply (H1 s x I)|eapply t_exists; eauto].
  - intros c s x Hs. rewrite parent_set_body. apply S in Hs as [(-> & I)|(N & I)]; [apply (H1 s x I)|eapply t_parent; eauto].
  - intros c s s' x Hs Hs'. apply S in Hs as [(-> & I)|(N & I)]; apply S in Hs' as [(E & I')|(N' & I')]; try congruence; eauto.
    eapply t_once; eauto.
  - intros c oc fs G B. rewrite get_set_body in G. destruct (Nat.eqb_spec o c) as [->|N].
    + destruct (get h c) as [ob|]; simpl in G; inversion G; subst oc. simpl in B. auto.
    + eapply t_keys; eauto.
  - intros c k x xo Hs G. assert (exists xo', get h x = Some xo' /\ o_meta xo' = o_meta xo) as (xo' & G' & <-).
    { rewrite get_set_body in G. destruct (Nat.eqb_spec o x) as [->|]; eauto. destruct (get h x) as [z|] eqn:Gx; simpl in G; inversion G; subst. eauto. }
    apply S in Hs as [(-> & I)|(N & I)]; [eapply H4; eauto|eapply t_name; eauto].
  - intros c i x Hs. apply Q. apply S in Hs as [(-> & I)|(N & I)]; [eapply H5; eauto|eapply t_elem; eauto].
  - intros c x Hc Hr. apply reach_rtc in Hr. revert c x Hc Hr.
    apply (acyclic_new (contained h) (contained (set_body h o b)) o).
    + intros a d (s & Hs). apply S in Hs as [(-> & I)|(N & I)]; [|left; exists s; auto].
      destruct (H6 s d I) as [?|X]; auto. right. split; auto. now rewrite <- reach_rtc.
    + intros a d Hc. rewrite <- reach_rtc. apply (t_acyclic _ T); auto.
Qed.

Lemma tidy_prim : forall h o v v', tidy h -> body_of h o = Some (BPrim v) -> tidy (set_body h o (BPrim v')).
Proof. intros h o v v' T E. eapply tidy_body; eauto; simpl; auto; try tauto; discriminate. Qed.

Lemma aset_new : forall {V} k (v : V) l, alookup k l = None -> aset k v l = l ++ [(k, v)].
Proof.
  induction l as [|[k' v'] l IH]; simpl; intros H; auto. destruct (str_eqb k k'); [discriminate|]. now rewrite IH.
Qed.
Lemma in_aset : forall {V} k (v : V) l k' v', NoDup (akeys l) ->
  (In (k', v') (aset k v l) <-> (k' = k /\ v' = v) \/ (k' <> k /\ In (k', v') l)).
Proof.
  intros V k v l k' v' Hn. induction l as [|[k1 v1] l IH]; simpl.
  - split; [intros [E|[]]; inversion E; auto|intros [(-> & ->)|(_ & [])]; auto].
  - inversion Hn as [|? ? N1 N2]; subst. destruct (str_eqb k k1) eqn:E; simpl.
    + apply str_eqb_eq in E; subst. split.
      * intros [X|X]; [inversion X; auto|]. right. split; auto. intros ->. apply N1. apply in_map_iff. exists (k1, v'). auto.
      * intros [(-> & ->)|(N & [X|X])]; auto. inversion X; congruence.
    + apply str_eqb_neq in E. rewrite IH by auto. split.
      * intros [X|[X|(N & X)]]; auto. inversion X; subst. right. split; auto.
      * intros [X|(N & [X|X])]; auto.
Qed.
Lemma nodup_aset : forall {V} k (v : V) l, NoDup (akeys l) -> NoDup (akeys (aset k v l)).
Proof.
  intros V k v l Hn. induction l as [|[k1 v1] l IH]; simpl; [repeat constructor; auto|].
  inversion Hn as [|? ? N1 N2]; subst. destruct (str_eqb k k1) eqn:E; simpl; [constructor; auto|].
  constructor; auto. intros H. apply akeys_aset_In in H as [->|H]; auto. rewrite str_eqb_refl in E. discriminate.
Qed.

Lemma reach_empty : forall h x z, (forall s y, ~ slot h x s y) -> reach h x z -> z = x.
Proof. intros h x z H R. inversion R as [|? y ? (s & K) ?]; auto; subst. elim (H s y K). Qed.

Lemma new_body_empty : forall m s x, ~ in_body (new_body m) s x.
Proof. intros m s x. unfold new_body. destruct (mkind m), s; simpl; auto. destruct i; discriminate. Qed.
