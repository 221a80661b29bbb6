(** Property theorems about navigation upwards (C67), and about full paths (C05) as read by [get_full_path]. *)
From Verif Require Import Base TreeModel TreeSpec TreeCheck TreeProofs PathModel HeapModel HeapSpec HeapProofs HeapProofs2 HeapProofs4 HeapProofs9
  HeapProofs11 HeapProps NavModel.
From Verif Require PathSpec.

(** No element of an array of structures is itself a whole IDS.  ([append] and [aos[i] = v] accept any object, also an IDSToplevel:
    see [C67_nested_refuted].) *)
Definition plain (h : heap) : Prop := forall c i x ob, slot h c (Elem i) x -> get h x = Some ob -> o_path ob <> [].
(** ... and nor is any field *)
Definition plain_all (h : heap) : Prop := forall c s x ob, slot h c s x -> get h x = Some ob -> o_path ob <> [].
(** n times [get_parent] *)
Fixpoint climb (n : nat) (h : heap) (x : oid) : option oid :=
  match n with O => Some x | S m => match get_parent h x with Some p => climb m h p | None => None end end.
(** The node is what its place says: elements of arrays have the definition of the array, other nodes have not. *)
Definition typed_at (h : heap) (s : step) (x : oid) : Prop :=
  forall ob, get h x = Some ob ->
    match s, o_body ob with Elem _, _ => mkind (o_meta ob) = KAoS | Child _, BStruct _ => mkind (o_meta ob) <> KAoS | _, _ => True end.

Section WithCast.
Variable cast : dtype -> nat -> value -> result exn value.

Lemma hist_tidy : forall h, history cast h -> tidy h.
Proof. intros h H. now destruct (history_inv cast h H) as ((T & _) & _). Qed.
(** A field is never a whole IDS, whatever was assigned. *)
Theorem C67_fields : forall h c k x ob, history cast h -> slot h c (Child k) x -> get h x = Some ob -> is_top ob = false.
Proof.
  intros h c k x ob H S G. destruct (history_inv cast h H) as ((_ & N) & _). pose proof (n_field _ N _ _ _ _ S G) as Np.
  unfold is_top. destruct (o_path ob); [congruence|reflexivity].
Qed.
Lemma hist_plain : forall h, history cast h -> plain h -> plain_all h.
Proof.
  intros h H P c [k|i] x ob S G; [|exact (P c i x ob S G)]. destruct (history_inv cast h H) as ((_ & N) & _). exact (n_field _ N _ _ _ _ S G).
Qed.
Lemma located_one : forall h r s x, located h r [s] x <-> slot h r s x.
Proof.
  intros. split; [intros L; inversion L as [|? ? y ? ? S L1]; subst; inversion L1; subst; auto|]. intros S. econstructor; [exact S|constructor].
Qed.
Lemma located_two : forall h r s s' x, located h r [s; s'] x -> exists y, slot h r s y /\ slot h y s' x.
Proof. intros h r s s' x L. inversion L as [|? ? y ? ? S L1]; subst. apply located_one in L1. eauto. Qed.
Lemma slot_top : forall h c s x, tidy h -> plain_all h -> slot h c s x -> get_parent h x = Some c /\ exists ob, get h x = Some ob /\ is_top ob = false /\ o_parent ob = Some c.
Proof.
  intros h c s x T P S. pose proof (t_parent _ T _ _ _ S) as E. unfold parent in E. unfold get_parent. destruct (get h x) as [ob|] eqn:G; [|discriminate].
  pose proof (P _ _ _ _ S G) as N. unfold is_top. destruct (o_path ob) eqn:O; [congruence|]. split; auto. exists ob. rewrite O. auto.
Qed.

(** The ancestors of a node, found by [get_parent] again and again, are the nodes on its place in the IDS, from the last to the
    IDS itself; there they end. *)
Lemma climb_located : forall h, tidy h -> plain_all h -> forall l2 y x, located h y l2 x -> climb (length l2) h x = Some y.
Proof.
  intros h T P. induction l2 as [|s l IH] using rev_ind; intros y x L.
  - inversion L; subst. reflexivity.
  - apply located_app in L as (z & L1 & L2). apply located_one in L2. destruct (slot_top h z s x T P L2) as (Gp & _).
    rewrite app_length. cbn [length]. rewrite Nat.add_1_r. cbn [climb]. rewrite Gp. now apply IH.
Qed.
Theorem C67_ancestors : forall h r l x, history cast h -> plain h -> toplevel h r -> located h r l x ->
  (forall l1 l2, l = l1 ++ l2 -> exists y, located h r l1 y /\ climb (length l2) h x = Some y) /\
  get_parent h r = None /\ (get_parent h x = None <-> x = r).
Proof.
  intros h r l x H P0 Tr L. pose proof (hist_tidy h H) as T. pose proof (hist_plain h H P0) as P. split; [|split].
  - intros l1 l2 ->. apply located_app in L as (y & L1 & L2). exists y. split; auto. now apply (climb_located h T P).
  - destruct Tr as (ob & fs & G & _ & O & _). unfold get_parent, is_top. now rewrite G, O.
  - split.
    + intros N. destruct l as [|s l] using rev_ind; [inversion L; auto|]. apply located_app in L as (z & _ & L2). apply located_one in L2.
      destruct (slot_top h z s x T P L2) as (Gp & _). congruence.
    + intros ->. destruct Tr as (ob & fs & G & _ & O & _). unfold get_parent, is_top. now rewrite G, O.
Qed.

(** [get_toplevel] of any node of an IDS is that IDS. *)
Lemma toplevel_located : forall h r, tidy h -> plain_all h -> toplevel h r -> forall l x f, located h r l x -> length l < f -> get_toplevel f h x = Some r.
Proof.
  intros h r T P Tr. induction l as [|s l IH] using rev_ind; intros x f L Lf.
  - inversion L; subst. destruct f; [simpl in Lf; lia|]. destruct Tr as (ob & fs & G & _ & O & _). cbn [get_toplevel]. unfold is_top. now rewrite G, O.
  - apply located_app in L as (z & L1 & L2). apply located_one in L2. rewrite app_length in Lf. cbn [length] in Lf. destruct f; [lia|].
    destruct (slot_top h z s x T P L2) as (_ & ob & G & Nt & Pa). cbn [get_toplevel]. rewrite G, Nt, Pa. apply IH; auto. lia.
Qed.
Theorem C67_toplevel : forall h r x, history cast h -> plain h -> toplevel h r -> reach h r x ->
  exists n, forall f, n <= f -> get_toplevel f h x = Some r.
Proof.
  intros h r x H P0 Tr R. pose proof (hist_plain h H P0) as P. destruct (reach_located h _ _ R) as (l & L). exists (S (length l)). intros f Lf.
  apply (toplevel_located h r (hist_tidy h H) P Tr l x f L). lia.
Qed.
(** So no node is in two IDSs, *)
Theorem C67_disjoint : forall h r r' x, history cast h -> plain h -> toplevel h r -> toplevel h r' -> reach h r x -> reach h r' x -> r = r'.
Proof.
  intros h r r' x H P Tr Tr' R R'. destruct (C67_toplevel h r x H P Tr R) as (n & E). destruct (C67_toplevel h r' x H P Tr' R') as (n' & E').
  specialize (E (n + n') ltac:(lia)). specialize (E' (n + n') ltac:(lia)). congruence.
Qed.

(** [get_time_mode] of every node is the one node ids_properties/homogeneous_time of its IDS: if that exists it is found and
    nothing changes; *)
Lemma mode_located : forall h r, tidy h -> plain_all h -> toplevel h r -> forall l x f, located h r l x -> length l < f -> get_time_mode f h x = Some (homogeneous h r).
Proof.
  intros h r T P Tr. induction l as [|s l IH] using rev_ind; intros x f L Lf.
  - inversion L; subst. destruct f; [simpl in Lf; lia|]. destruct Tr as (ob & fs & G & _ & O & _). cbn [get_time_mode]. unfold is_top. now rewrite G, O.
  - apply located_app in L as (z & L1 & L2). apply located_one in L2. rewrite app_length in Lf. cbn [length] in Lf. destruct f; [lia|].
    destruct (slot_top h z s x T P L2) as (_ & ob & G & Nt & Pa). cbn [get_time_mode]. rewrite G, Nt, Pa. apply IH; auto. lia.
Qed.
Definition mode_loc : loc := [Child (strs "ids_properties"); Child (strs "homogeneous_time")].
Theorem C67_time_mode : forall h r x t, history cast h -> plain h -> toplevel h r -> reach h r x -> located h r mode_loc t ->
  exists n, forall f, n <= f -> get_time_mode f h x = Some (h, Ok t).
Proof.
  intros h r x t H P0 Tr R Lt. pose proof (hist_plain h H P0) as P. destruct (reach_located h _ _ R) as (l & L). exists (S (length l)). intros f Lf.
  pose proof (hist_tidy h H) as T. rewrite (mode_located h r T P Tr l x f L ltac:(lia)). f_equal.
  apply located_two in Lt as (y & S1 & L1). unfold homogeneous.
  rewrite (slot_getattr h T _ _ _ S1). now apply slot_getattr.
Qed.
(** if it does not exist yet it is made: the node given is at that place, all other places are as before, and from then on every
    node of the IDS gives this one. *)
Lemma slot_of_getattr : forall h o k h1 x, getattr h o k = (h1, Ok x) -> slot h1 o (Child k) x.
Proof. intros h o k h1 x E. apply getattr_slot in E as (fs & B & I). apply slot_iff. exists (BStruct fs). auto. Qed.
Lemma elem_getattr : forall h o k c i x, slot (fst (getattr h o k)) c (Elem i) x -> slot h c (Elem i) x.
Proof.
  intros h o k c i x S. destruct (getattr h o k) as (h', r) eqn:E. cbn [fst] in S.
  apply getattr_cases in E as [(-> & _)|(ob & fs & cm & G & B & A & C & -> & ->)]; auto. apply slot_iff in S as (b & Eb & I).
  rewrite body_of_set_body in Eb. destruct (o =? c).
  - destruct (get (fst (alloc h (new_child o (o_path ob) cm))) o); [|discriminate]. cbn [option_map] in Eb. injection Eb as <-. destruct I.
  - rewrite body_of_alloc in Eb. destruct (c =? _).
    + injection Eb as <-. unfold new_child, new_body in I. cbn [o_body] in I. destruct (mkind cm); cbn in I; try tauto. destruct i; discriminate.
    + apply slot_iff. eauto.
Qed.
Lemma plain_getattr : forall h o k, inv h -> plain_all h -> plain_all (fst (getattr h o k)).
Proof.
  intros h o k I P c [n|i] x ob S G.
  - destruct (step_getattr h o k I) as ((_ & N) & _). exact (n_field _ N _ _ _ _ S G).
  - apply elem_getattr in S. destruct I as (T & N). pose proof (t_exists _ T _ _ _ S) as L. apply nth_error_Some in L. fold (get h x) in L.
    destruct (get h x) as [ob0|] eqn:G0; [|congruence]. destruct (g_obj _ _ (grow_getattr h o k T) _ _ G0) as (ob' & G' & _ & Pa & _).
    rewrite G in G'. injection G' as <-. rewrite Pa. exact (P _ _ _ _ S G0).
Qed.
Lemma grow_located : forall h h' l r x, grow h h' -> located h r l x -> located h' r l x.
Proof. intros h h' l r x G L. induction L; econstructor; eauto. now apply (g_slot _ _ G). Qed.
Theorem C67_time_mode_new : forall h r x f h' t, history cast h -> plain h -> toplevel h r -> reach h r x ->
  get_time_mode f h x = Some (h', Ok t) ->
  located h' r mode_loc t /\ (forall l y, located h r l y -> located h' r l y) /\
  (forall y, reach h' r y -> exists n, forall g, n <= g -> get_time_mode g h' y = Some (h', Ok t)).
Proof.
  intros h r x f h' t H P0 Tr R E. pose proof (hist_tidy h H) as T. pose proof (hist_plain h H P0) as P. destruct (reach_located h _ _ R) as (l & L).
  assert (M : forall f' v, get_time_mode f' h x = Some v -> get_time_mode (f' + S (length l)) h x = Some v).
  { clear. intros f'. revert x. induction f' as [|f' IH]; intros x v; [discriminate|]. cbn [get_time_mode Nat.add]. destruct (get h x) as [ob|]; auto.
    destruct (is_top ob); auto. destruct (o_parent ob); auto. }
  apply M in E. rewrite (mode_located h r T P Tr l x _ L) in E by lia. injection E as E. unfold homogeneous in E.
  destruct (getattr h r (strs "ids_properties")) as (h1, [p|e]) eqn:E1; [|discriminate].
  pose proof (tidy_getattr h r (strs "ids_properties") T) as T1. pose proof (grow_getattr h r (strs "ids_properties") T) as G1. rewrite E1 in T1, G1. cbn [fst] in T1, G1.
  pose proof (tidy_getattr h1 p (strs "homogeneous_time") T1) as T2. pose proof (grow_getattr h1 p (strs "homogeneous_time") T1) as G2. rewrite E in T2, G2. cbn [fst] in T2, G2.
  assert (Lt : located h' r mode_loc t).
  { unfold mode_loc. econstructor; [apply (g_slot _ _ G2); eapply slot_of_getattr; exact E1|]. apply located_one. eapply slot_of_getattr; exact E. }
  assert (Tr' : toplevel h' r).
  { destruct Tr as (ob & fs & G & Pa & O & B). destruct (g_obj _ _ G1 _ _ G) as (o1 & X1 & A1 & B1 & _ & K1).
    destruct (g_obj _ _ G2 _ _ X1) as (o2 & X2 & A2 & B2 & _ & K2). rewrite B in K1. destruct (o_body o1) as [f1| |] eqn:Bo1; simpl in K1; try tauto.
    destruct (o_body o2) as [f2| |] eqn:Bo2; simpl in K2; try tauto. exists o2, f2. repeat split; auto; congruence. }
  split; [exact Lt|]. split; [intros l0 y L0; eapply grow_located; [exact G2|]; eapply grow_located; eauto|].
  assert (P' : plain_all h').
  { destruct (history_inv cast h H) as (I0 & _). pose proof (plain_getattr h r (strs "ids_properties") I0 P) as P1.
    destruct (step_getattr h r (strs "ids_properties") I0) as (I1 & _). rewrite E1 in P1, I1. cbn [fst] in P1, I1.
    pose proof (plain_getattr h1 p (strs "homogeneous_time") I1 P1) as P2. rewrite E in P2. exact P2. }
  intros y Ry. destruct (reach_located h' _ _ Ry) as (ly & Ly). exists (S (length ly)). intros g Lg. rewrite (mode_located h' r T2 P' Tr' ly y g Ly) by lia.
  f_equal. apply located_two in Lt as (y0 & S1 & L1). unfold homogeneous.
  rewrite (slot_getattr h' T2 _ _ _ S1). now apply slot_getattr.
Qed.

(** The parent in the data dictionary: of an element that of its array, of any other node its container. *)
Theorem C67_dd_parent : forall h c s x, history cast h -> slot h c s x -> typed_at h s x ->
  dd_parent h x = match s with Child _ => Some c | Elem _ => parent h c end.
Proof.
  intros h c s x H S Ty. pose proof (hist_tidy h H) as T. pose proof (t_parent _ T _ _ _ S) as E. unfold parent in E. unfold dd_parent.
  destruct (get h x) as [ob|] eqn:G; [|discriminate]. specialize (Ty ob G). destruct s as [k|i].
  - destruct (o_body ob); auto. destruct (mkind (o_meta ob)); auto. congruence.
  - destruct (t_elem _ T _ _ _ S) as (ob' & fs & G' & B). rewrite G in G'. inversion G'; subst ob'. rewrite B, Ty, E. reflexivity.
Qed.

(** [get_full_path] is the path of C05: so it leads to the node, and names its place. *)
Lemma full_path_located : forall h r, tidy h -> plain_all h -> toplevel h r -> forall l x f, located h r l x -> full_path f h x = path_str f h x.
Proof.
  intros h r T P Tr. induction l as [|s l IH] using rev_ind; intros x f L.
  - inversion L; subst. destruct f; auto. destruct Tr as (ob & fs & G & Pa & O & _). cbn [full_path path_str]. unfold is_top. now rewrite G, O, Pa.
  - apply located_app in L as (z & L1 & L2). apply located_one in L2. destruct f; auto.
    destruct (slot_top h z s x T P L2) as (_ & ob & G & Nt & Pa). cbn [full_path path_str]. rewrite G, Nt, Pa. now rewrite (IH z f L1).
Qed.
Theorem C05_full_path : forall h r x, history cast h -> plain h -> names_ok h -> toplevel h r -> reach h r x ->
  exists st fuel, located h r (steps_loc st) x /\ (forall g, fuel <= g -> full_path g h x = Some (PathSpec.print_steps false st)) /\
    goto_str (PathSpec.print_steps false st) h r true = (h, Ok x).
Proof.
  intros h r x H P0 Nm Tr R. pose proof (hist_plain h H P0) as P. destruct (history_inv cast h H) as ((T & _) & Sh). destruct (goto_path h T Sh Nm r x Tr R) as (st & f & L & Pa & G).
  exists st, f. split; auto. split; auto. intros g Lg. destruct (reach_located h _ _ R) as (l & Ll). rewrite (full_path_located h r T P Tr l x g Ll). auto.
Qed.
End WithCast.
Print Assumptions C67_fields.
Print Assumptions C67_ancestors.
Print Assumptions C67_toplevel.
Print Assumptions C67_disjoint.
Print Assumptions C67_time_mode.
Print Assumptions C67_time_mode_new.
Print Assumptions C67_dd_parent.
Print Assumptions C05_full_path.

(** ** Example: the IDS of HeapProps with a second IDS beside it *)
Lemma ex_plain : plain ex_h.
Proof.
  intros c s x ob S G. assert (B : x < 6) by (apply (get_lt ex_h x ob) in G; vm_compute in G; lia).
  assert (N : x <> 0).
  { intros ->. pose proof (t_parent _ (hist_tidy ex_cast ex_h ex_history) _ _ _ S) as E. vm_compute in E. discriminate. }
  do 6 (destruct x as [|x]; [first [congruence|vm_compute in G; injection G as <-; vm_compute; discriminate]|]). lia.
Qed.
Example C67_dd_parent_ex : slot ex_h 1 (Elem 0) 2 /\ typed_at ex_h (Elem 0) 2 /\ parent ex_h 1 = Some 0.
Proof. split; [exact ex_slot_e|]. split; [|reflexivity]. intros ob G. vm_compute in G. injection G as <-. reflexivity. Qed.
Example C67_ex : history ex_cast ex_h /\ plain ex_h /\ toplevel ex_h 0 /\ reach ex_h 0 4 /\
  get_parent ex_h 4 = Some 2 /\ get_parent ex_h 2 = Some 1 /\ get_parent ex_h 1 = Some 0 /\ get_parent ex_h 0 = None /\
  get_toplevel 4 ex_h 4 = Some 0 /\ dd_parent ex_h 2 = Some 0 /\ full_path 5 ex_h 4 = Some (strs "a[0]/x").
Proof. split; [exact ex_history|]. split; [exact ex_plain|]. split; [exact ex_top|]. split; [exact ex_reach|]. vm_compute. tauto. Qed.

(** The time mode: made at the first request, the same node for all nodes afterwards. *)
Definition mode_meta : meta :=
  Meta (strs "ids") KStruct [Meta (strs "ids_properties") KStruct [ex_leaf "homogeneous_time" INT 0]; Meta (strs "a") KAoS [ex_leaf "x" STR 0]].
Definition mode_ops : list (op hnd) := [ONewTop mode_meta; OGetAttr (HO 0) (strs "a"); OResize (HO 1) 1 false].
Definition mode_h : heap := fold_left (fun h o => fst (exec ex_cast h o)) mode_ops empty_heap.
Lemma mode_history : history ex_cast mode_h.
Proof.
  apply ok_history; [constructor|]. cbn [ok_ops mode_ops op_ok op_all arg_all exists_in]. assert (W : wf_meta mode_meta) by by_check.
  repeat (split; [first [exact I|exact W]|]; split; [first [exact I|vm_compute; lia]|]). exact I.
Qed.
Example C67_time_mode_ex : history ex_cast mode_h /\ toplevel mode_h 0 /\ exists h', get_time_mode 3 mode_h 2 = Some (h', Ok 4) /\ get_time_mode 3 h' 1 = Some (h', Ok 4) /\
  get_time_mode 1 h' 0 = Some (h', Ok 4) /\ length (h_objs mode_h) = 3 /\ length (h_objs h') = 5.
Proof. split; [exact mode_history|]. split; [eexists _, _; vm_compute; auto|]. eexists. vm_compute. repeat split; reflexivity. Qed.

(** ** Finding: a whole IDS can be appended to an array of structures ("just blindly append").  It then is element 2 of a, but its
    parent, toplevel and path are those of an IDS of its own, and so are those of all its nodes; its parent in the dictionary is
    the array instead of the parent of the array. *)
Definition nest_ops : list (op hnd) := ex_ops ++ [ONewTop ex_meta; OAppend (HO 1) [HO 6]; OGetAttr (HO 6) (strs "o")].
Definition nest_h : heap := fold_left (fun h o => fst (exec ex_cast h o)) nest_ops empty_heap.
Theorem C67_nested_refuted : exists h r e x, history ex_cast h /\ toplevel h r /\
  located h r [Child (strs "a"); Elem 2] e /\ located h r [Child (strs "a"); Elem 2; Child (strs "o")] x /\ r <> e /\
  (forall f, get_toplevel (S f) h e = Some e) /\ (forall f, get_toplevel (S (S f)) h x = Some e) /\ get_parent h e = None /\
  (forall f, full_path (S f) h e = Some []) /\ (forall f, full_path (S (S f)) h x = Some (strs "o")) /\
  exists a, located h r [Child (strs "a")] a /\ dd_parent h e = Some a.
Proof.
  exists nest_h, 0, 6, 7. split.
  { change nest_h with (fold_left (fun h o => fst (exec ex_cast h o)) [ONewTop ex_meta; OAppend (HO 1) [HO 6]; OGetAttr (HO 6) (strs "o")] ex_h).
    apply ok_history; [exact ex_history|]. cbn [ok_ops op_ok op_all exists_in].
    set (h1 := fst (exec ex_cast ex_h (ONewTop ex_meta))).
    assert (H1 : history ex_cast h1) by (constructor; [exact ex_history|exact ex_meta_wf|exact I]).
    assert (D : detached h1 6).
    { split; [vm_compute; lia|]. intros c (s & S). pose proof (t_parent _ (hist_tidy ex_cast h1 H1) _ _ _ S) as E. vm_compute in E. discriminate. }
    split; [exact ex_meta_wf|]. split; [exact I|]. split.
    { split; [repeat constructor; intros []|]. intros v [X|[]]. injection X as <-. split; [exact D|]. split.
      - intros R. inversion R as [|? y ? (s & S) _]; subst. inversion S as [? ? ? ? G B I0|? ? ? ? G B I0]; subst; vm_compute in G; injection G as <-; cbv [new_top o_body] in B;
        [injection B as <-; destruct I0|discriminate].
      - eexists _, _. vm_compute. auto. }
    split; [split; [vm_compute; lia|repeat constructor; vm_compute; lia]|]. split; [exact I|]. split; [vm_compute; lia|exact I]. }
  assert (S1 : slot nest_h 0 (Child (strs "a")) 1) by (eapply slot_field; [vm_compute; reflexivity|reflexivity|now left]).
  assert (S2 : slot nest_h 1 (Elem 2) 6) by (eapply slot_elem; [vm_compute; reflexivity|reflexivity|reflexivity]).
  assert (S3 : slot nest_h 6 (Child (strs "o")) 7) by (eapply slot_field; [vm_compute; reflexivity|reflexivity|now left]).
  split; [eexists _, _; vm_compute; auto|].
  split; [econstructor; [exact S1|apply located_one; exact S2]|]. split; [econstructor; [exact S1|econstructor; [exact S2|apply located_one; exact S3]]|].
  split; [discriminate|]. split; [intros; reflexivity|]. split; [intros; reflexivity|]. split; [reflexivity|]. split; [intros; reflexivity|].
  split; [intros; reflexivity|]. exists 1. split; [apply located_one; exact S1|reflexivity].
Qed.
Print Assumptions C67_nested_refuted.
