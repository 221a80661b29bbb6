(** The invariants under all operations except deep copy. *)
From Verif Require Import Base TreeModel TreeProofs4 PathModel HeapModel HeapSpec HeapProofs HeapProofs2 HeapProofs3.

(** The last part of the path of a node is its name; fields have a path. *)
Record named (h : heap) : Prop := {
  n_last : forall x ob, get h x = Some ob -> o_path ob <> [] -> last (o_path ob) [] = mname (o_meta ob);
  n_field : forall c k x ob, slot h c (Child k) x -> get h x = Some ob -> o_path ob <> [] }.

Lemma named_objs : forall h h', h_objs h' = h_objs h -> named h -> named h'.
Proof.
  intros [o b] [o' b'] E N. simpl in E. subst o'. constructor.
  - exact (n_last _ N).
  - intros c k x ob Hs G. apply (n_field _ N c k x ob); auto. apply slot_iff in Hs as (bd & Eb & Ib). apply slot_iff. exists bd. auto.
Qed.
Lemma named_alloc : forall h ob, named h -> (o_path ob <> [] -> last (o_path ob) [] = mname (o_meta ob)) ->
  (forall s x, ~ in_body (o_body ob) s x) -> tidy h -> named (fst (alloc h ob)).
Proof.
  intros h ob N Hl He T. constructor.
  - intros x xo G. rewrite get_alloc in G. destruct (x =? _); [inversion G; subst; auto|]. eapply n_last; eauto.
  - intros c k x xo Hs G. apply slot_alloc in Hs; auto. rewrite get_alloc in G. pose proof (t_exists _ T _ _ _ Hs).
    destruct (Nat.eqb_spec x (length (h_objs h))); [lia|]. eapply n_field; eauto.
Qed.
Lemma named_set_parent : forall h v p, named h -> named (set_parent h v p).
Proof.
  intros h v p N.
  assert (X : forall x ob, get (set_parent h v p) x = Some ob -> exists ob', get h x = Some ob' /\ o_path ob = o_path ob' /\ o_meta ob = o_meta ob').
  { intros x ob G. rewrite get_set_parent in G. destruct (Nat.eqb_spec v x) as [->|]; eauto.
    destruct (get h x) as [o|]; inversion G; subst. exists o. auto. }
  constructor.
  - intros x ob G. apply X in G as (ob' & G & -> & ->). eapply n_last; eauto.
  - intros c k x ob Hs G. apply slot_set_parent in Hs. apply X in G as (ob' & G & -> & _). eapply n_field; eauto.
Qed.
Lemma named_set_body : forall h o b, named h -> (forall k x ob, in_body b (Child k) x -> get h x = Some ob -> o_path ob <> []) ->
  named (set_body h o b).
Proof.
  intros h o b N Hb. destruct (get h o) as [oo|] eqn:Go; [|unfold set_body; rewrite Go; auto].
  assert (X : forall x ob, get (set_body h o b) x = Some ob -> exists ob', get h x = Some ob' /\ o_path ob = o_path ob' /\ o_meta ob = o_meta ob').
  { intros x ob G. rewrite get_set_body in G. destruct (Nat.eqb_spec o x) as [->|]; eauto.
    destruct (get h x) as [o'|]; inversion G; subst. exists o'. auto. }
  constructor.
  - intros x ob G. apply X in G as (ob' & G & -> & ->). eapply n_last; eauto.
  - intros c k x ob Hs G. apply slot_set_body in Hs; [|eapply get_lt; eauto]. apply X in G as (ob' & G & -> & _).
    destruct Hs as [(-> & I)|(_ & I)]; [eapply Hb; eauto|eapply n_field; eauto].
Qed.

Definition inv (h : heap) : Prop := tidy h /\ named h.

Record grow (h h' : heap) : Prop := {
  g_slot : forall c s y, slot h c s y -> slot h' c s y;
  g_back : forall c s y, slot h' c s y -> y < length (h_objs h) -> slot h c s y;
  g_obj : forall x ob, get h x = Some ob -> exists ob', get h' x = Some ob' /\ o_parent ob' = o_parent ob /\
            o_path ob' = o_path ob /\ o_meta ob' = o_meta ob /\ same_kind (o_body ob) (o_body ob') }.
Lemma same_kind_refl : forall b, same_kind b b.
Proof. destruct b; exact I. Qed.
Lemma same_kind_trans : forall a b c, same_kind a b -> same_kind b c -> same_kind a c.
Proof. destruct a, b, c; simpl; tauto. Qed.
Lemma grow_lt : forall h h' x, grow h h' -> x < length (h_objs h) -> x < length (h_objs h').
Proof. intros h h' x G L. apply get_some in L as (ob & E). apply (g_obj _ _ G) in E as (ob' & E & _). eapply get_lt; eauto. Qed.
Lemma grow_refl : forall h, grow h h.
Proof. intros h. constructor; auto. intros x ob G. exists ob. auto 10 using same_kind_refl. Qed.
Lemma grow_trans : forall a b c, grow a b -> grow b c -> grow a c.
Proof.
  intros a b c G1 G2. constructor.
  - intros. apply (g_slot _ _ G2). apply (g_slot _ _ G1). auto.
  - intros. apply (g_back _ _ G1); auto. apply (g_back _ _ G2); auto. eapply grow_lt; eauto.
  - intros x ob E. apply (g_obj _ _ G1) in E as (ob1 & E & A1 & A2 & A3 & A4). apply (g_obj _ _ G2) in E as (ob2 & E & B1 & B2 & B3 & B4).
    exists ob2. repeat split; try congruence. eapply same_kind_trans; eauto.
Qed.
Lemma grow_detached : forall h h' v, grow h h' -> detached h v -> detached h' v.
Proof. intros h h' v G (L & D). split; [eapply grow_lt; eauto|]. intros c (s & Hs). apply (D c). exists s. apply (g_back _ _ G); auto. Qed.
Lemma reach_snoc_ind : forall h x z, reach h x z -> x = z \/ exists y, reach h x y /\ contained h y z.
Proof.
  intros h x z R. induction R as [x|x y z C R IH]; auto. right. destruct IH as [->|(w & R' & C')].
  - exists x. split; [constructor|auto].
  - exists w. split; auto. econstructor; eauto.
Qed.
Lemma grow_reach : forall h h' x y, grow h h' -> reach h x y -> reach h' x y.
Proof.
  intros h h' x y G R. induction R as [x|x y z (s & C) R IH]; [constructor|]. econstructor; eauto. exists s. apply (g_slot _ _ G); auto.
Qed.
Lemma grow_reach_back : forall h h' x y, grow h h' -> reach h' x y -> y < length (h_objs h) -> reach h x y.
Proof.
  intros h h' x y G R. apply reach_rtc in R. intros L.
  induction R as [x|x z y C R IH]; [constructor|]. specialize (IH L).
  assert (Lz : z < length (h_objs h)).
  { inversion IH as [|? w ? (s & Hs) ?]; subst; auto. eapply slot_lt; eauto. }
  econstructor; eauto. destruct C as (s & Hs). exists s. apply (g_back _ _ G); auto.
Qed.
Lemma grow_struct : forall h h' x, grow h h' -> is_struct h x -> is_struct h' x.
Proof.
  intros h h' x G (ob & fs & E & B). apply (g_obj _ _ G) in E as (ob' & E & _ & _ & _ & K). rewrite B in K.
  destruct (o_body ob') as [fs'| |] eqn:B'; simpl in K; try tauto. exists ob', fs'. auto.
Qed.

Lemma grow_getattr : forall h o name, tidy h -> grow h (fst (getattr h o name)).
Proof.
  intros h o name T. destruct (getattr h o name) as (h', r) eqn:E. simpl.
  apply getattr_cases in E as [(-> & _)|(ob & fs & cm & G & B & A & C & -> & ->)]; [apply grow_refl|].
  set (n := length (h_objs h)). set (h1 := fst (alloc h (new_child o (o_path ob) cm))).
  assert (Lo : o < n) by (eapply get_lt; eauto).
  assert (Lo1 : o < length (h_objs h1)) by (unfold h1; rewrite len_alloc; fold n; lia).
  assert (Bo : body_of h o = Some (BStruct fs)) by (rewrite (body_of_get _ _ _ G), B; auto).
  rewrite (aset_new _ _ _ A).
  assert (S1 : forall c s y, slot h1 c s y <-> slot h c s y) by (intros; apply slot_alloc, new_body_empty).
  constructor.
  - intros c s y Hs. apply slot_set_body; auto. destruct (Nat.eq_dec c o) as [->|N].
    + left. split; auto. apply slot_iff in Hs as (b & Eb & I). rewrite Bo in Eb. inversion Eb; subst b.
      destruct s; simpl in *; auto. apply in_or_app; auto.
    + right. split; auto. now apply S1.
  - intros c s y Hs L. apply slot_set_body in Hs; auto. destruct Hs as [(-> & I)|(_ & I)]; [|now apply S1].
    destruct s as [k|i]; simpl in I; [|tauto]. apply in_app_or in I as [I|[I|[]]]; [|inversion I; subst; unfold n in *; lia].
    apply slot_iff. exists (BStruct fs). auto.
  - intros x xo Gx. assert (x < n) by (eapply get_lt; eauto). rewrite get_set_body. unfold h1. rewrite !get_alloc. fold n.
    destruct (Nat.eqb_spec o n); [lia|]. destruct (Nat.eqb_spec x n); [lia|].
    destruct (Nat.eqb_spec o x) as [->|].
    + rewrite Gx. simpl. eexists. split; [reflexivity|]. simpl. rewrite G in Gx. inversion Gx; subst xo. rewrite B. simpl. auto 10.
    + exists xo. auto 10 using same_kind_refl.
Qed.
Lemma grow_bodies : forall h h', (forall y, get h' y = get h y \/
     exists ob b, get h y = Some ob /\ o_body ob = BPrim None /\ get h' y = Some (with_body (BPrim (Some (SBuf b))) ob)) -> grow h h'.
Proof.
  intros h h' H.
  assert (Bo : forall y b, body_of h y = Some b -> body_of h' y = Some b \/ b = BPrim None).
  { intros y b E. unfold body_of in *. destruct (H y) as [->|(ob & bf & G & B & ->)]; auto. rewrite G in E. simpl in E. inversion E. right. congruence. }
  assert (Bo' : forall y b s z, body_of h' y = Some b -> in_body b s z -> body_of h y = Some b).
  { intros y b s z E I. unfold body_of in *. destruct (H y) as [<-|(ob & bf & G & B & X)]; auto. rewrite X in E. simpl in E. inversion E; subst.
    destruct s; elim I. }
  constructor.
  - intros c s y Hs. apply slot_iff in Hs as (b & Eb & I). apply slot_iff. exists b. split; auto.
    destruct (Bo _ _ Eb) as [|X]; auto. subst b. destruct s; elim I.
  - intros c s y Hs _. apply slot_iff in Hs as (b & Eb & I). apply slot_iff. exists b. split; eauto.
  - intros x ob G. destruct (H x) as [->|(ob' & bf & G' & B & ->)].
    + exists ob. auto 10 using same_kind_refl.
    + rewrite G in G'. inversion G'; subst ob'. eexists. split; [reflexivity|]. simpl. rewrite B. simpl. auto 10.
Qed.
Lemma grow_value : forall h p, grow h (fst (prim_value h p)).
Proof.
  intros h p. apply grow_bodies. intros y. destruct (prim_value h p) as (h1, r) eqn:E. simpl.
  destruct (objs_value _ _ _ _ E y) as [->|(-> & ob & b & X)]; eauto.
Qed.

Lemma named_getattr : forall h o name, tidy h -> named h -> named (fst (getattr h o name)).
Proof.
  intros h o name T N. destruct (getattr h o name) as (h', r) eqn:E. simpl.
  apply getattr_cases in E as [(-> & _)|(ob & fs & cm & G & B & A & C & -> & ->)]; auto.
  assert (Ln : o_path ob ++ [mname cm] <> []) by (destruct (o_path ob); discriminate).
  apply named_set_body.
  - apply named_alloc; auto; [|apply new_body_empty]. intros _. simpl. apply last_last.
  - intros k x xo I Gx. simpl in I. rewrite (aset_new _ _ _ A) in I. rewrite get_alloc in Gx.
    destruct (Nat.eqb_spec x (length (h_objs h))); [inversion Gx; subst; auto|].
    apply in_app_or in I as [I|[I|[]]]; [|inversion I; congruence].
    apply (n_field _ N o k x xo); auto. econstructor; eauto.
Qed.
Lemma named_bodies : forall h h', (forall y, get h' y = get h y \/
     exists ob b, get h y = Some ob /\ o_body ob = BPrim None /\ get h' y = Some (with_body (BPrim (Some (SBuf b))) ob)) ->
  named h -> named h'.
Proof.
  intros h h' H N.
  assert (X : forall x ob, get h' x = Some ob -> exists ob', get h x = Some ob' /\ o_path ob = o_path ob' /\ o_meta ob = o_meta ob').
  { intros x ob G. destruct (H x) as [<-|(ob' & bf & G' & B & Y)]; eauto. rewrite Y in G. inversion G; subst. exists ob'. auto. }
  constructor.
  - intros x ob G. apply X in G as (ob' & G & -> & ->). eapply n_last; eauto.
  - intros c k x ob Hs G. apply X in G as (ob' & G & -> & _). apply (n_field _ N c k x ob'); auto.
    apply slot_iff in Hs as (b & Eb & I). apply slot_iff. exists b. split; auto. unfold body_of in *.
    destruct (H c) as [<-|(oc & bf & Gc & B & Y)]; auto. rewrite Y in Eb. inversion Eb; subst b. elim I.
Qed.
Lemma named_value : forall h p, named h -> named (fst (prim_value h p)).
Proof.
  intros h p. apply named_bodies. intros y. destruct (prim_value h p) as (h1, r) eqn:E. simpl.
  destruct (objs_value _ _ _ _ E y) as [->|(-> & ob & b & X)]; eauto.
Qed.

(** Reading and navigating *)
Definition step_ok (h h' : heap) : Prop := inv h -> inv h' /\ grow h h'.
Lemma step_refl : forall h, step_ok h h.
Proof. intros h I. split; auto. apply grow_refl. Qed.
Lemma step_trans : forall a b c, step_ok a b -> step_ok b c -> step_ok a c.
Proof. intros a b c H1 H2 I. destruct (H1 I) as (I1 & G1). destruct (H2 I1) as (I2 & G2). split; auto. eapply grow_trans; eauto. Qed.
Lemma step_getattr : forall h o k, step_ok h (fst (getattr h o k)).
Proof. intros h o k (T & N). split; [split; [apply tidy_getattr|apply named_getattr]|apply grow_getattr]; auto. Qed.
Lemma step_value : forall h p, step_ok h (fst (prim_value h p)).
Proof. intros h o (T & N). split; [split; [apply tidy_value|apply named_value]|apply grow_value]; auto. Qed.

Lemma getattr_slot : forall h o k h1 x, getattr h o k = (h1, Ok x) -> exists fs, body_of h1 o = Some (BStruct fs) /\ In (k, x) fs.
Proof.
  intros h o k h1 x E. apply getattr_cases in E as [(-> & [(e & X)|(fs & y & X & B & A)])|(ob & fs & cm & G & B & A & C & X & ->)].
  - discriminate.
  - inversion X; subst y. exists fs. split; auto. now apply alookup_In.
  - inversion X; subst x. exists (aset k (length (h_objs h)) fs). split.
    + assert (Lo : o < length (h_objs h)) by (eapply get_lt; eauto). rewrite body_of_set_body, Nat.eqb_refl, get_alloc.
      destruct (Nat.eqb_spec o (length (h_objs h))); [lia|]. now rewrite G.
    + rewrite (aset_new _ _ _ A). apply in_or_app. simpl. auto.
Qed.
Lemma getitem_slot : forall h a i h1 x, aos_getitem h a i = (h1, Ok x) -> exists k els, body_of h1 a = Some (BAoS els) /\ nth_error els k = Some x.
Proof.
  intros h a i h1 x. unfold aos_getitem. destruct (get h a) as [ob|] eqn:G; [|discriminate].
  destruct (o_body ob) as [|els|] eqn:B; try discriminate. destruct (py_index (length els) i) as [k|]; [|discriminate].
  destruct (nth_error els k) eqn:E; intros X; inversion X; subst. exists k, els. split; auto. rewrite (body_of_get _ _ _ G), B. auto.
Qed.

Lemma all_closed : closed_under step_ok (fun _ _ => True).
Proof.
  constructor; auto.
  - intros h e k h1 r _ E. split; auto. pose proof (step_getattr h e k) as X. rewrite E in X. auto.
  - intros h q h1 r _ E. pose proof (step_value h q) as X. rewrite E in X. auto.
Qed.
Lemma step_goto : forall p h from fr, step_ok h (fst (goto p h from fr)).
Proof.
  intros p h from fr. destruct (goto p h from fr) as (h', r) eqn:E. simpl.
  assert (U : up_closed (fun (_ : heap) (_ : oid) => True)) by (intros h0 x y _ _; exact I).
  exact (proj1 (goto_up _ step_refl step_trans _ all_closed U p h from fr h' r I E)).
Qed.
Lemma step_struct_getitem : forall h o key, step_ok h (fst (struct_getitem h o key)).
Proof.
  intros h o key. unfold struct_getitem. destruct (get h o) as [ob|]; [|apply step_refl].
  destruct (child_meta key _); [apply step_getattr|]. destruct (parse key) as [(ps, ix)|]; [|apply step_refl].
  destruct ps as [|a [|b ps]]; try apply step_goto. destruct ix as [|[| | | |] [|]]; try apply step_goto. apply step_refl.
Qed.

(** Everything found from a node is below it. *)
Lemma goto_reach : forall p h from h' x, inv h -> goto p h from false = (h', Ok x) -> reach h' from x.
Proof.
  intros p h from h' x Iv E.
  assert (C : closed_under step_ok (fun h x => inv h /\ reach h from x)).
  { constructor.
    - intros h0 h1 y S (I0 & Hr). destruct (S I0) as (I1 & G). split; auto. eapply grow_reach; eauto.
    - intros h0 e k h1 r (I0 & Hr) E1. pose proof (step_getattr h0 e k) as X. rewrite E1 in X. simpl in X. split; auto.
      intros c ->. destruct (X I0) as (I1 & G). split; auto. eapply reach_trans; [eapply grow_reach; eauto|].
      apply getattr_slot in E1 as (fs & B & I). econstructor; [|constructor]. exists (Child k). apply slot_iff. exists (BStruct fs). auto.
    - intros h0 c z h1 r (I0 & Hr) E1 e ->. pose proof (getitem_same _ _ _ _ _ E1); subst h1. split; auto.
      eapply reach_trans; [exact Hr|]. apply getitem_slot in E1 as (k & els & B & I). econstructor; [|constructor].
      exists (Elem k). apply slot_iff. exists (BAoS els). auto.
    - intros h0 q h1 r _ E1. pose proof (step_value h0 q) as X. rewrite E1 in X. auto. }
  assert (U : up_closed (fun (_ : heap) (_ : oid) => True)) by (intros h0 z y _ _; exact I).
  destruct (goto_down _ step_refl step_trans _ _ C all_closed U (fun _ _ _ => I) p h from h' (Ok x) (conj Iv (reach_here h from)) E) as (_ & X).
  apply X. reflexivity.
Qed.
