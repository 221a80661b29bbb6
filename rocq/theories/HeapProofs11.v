(** The path of a node leads back to it. *)
From Verif Require Import Base TreeModel TreeSpec TreeProofs TreeProofs4 PathModel HeapModel HeapSpec HeapProofs HeapProofs2 HeapProofs3 HeapProofs4
  HeapProofs6 HeapProofs7 HeapProofs10.
From Verif Require PathSpec PathProofs3.
Import PathSpec(is_name, print_steps, print_step, step_index).

Lemma located_app : forall h l l' r x, located h r (l ++ l') x <-> exists y, located h r l y /\ located h y l' x.
Proof.
  intros h. induction l as [|s l IH]; intros l' r x; simpl.
  - split; [intros H; exists r; split; auto; constructor|]. intros (y & H & H'). inversion H; subst; auto.
  - split.
    + intros H. inversion H; subst. apply IH in H5 as (z & A & B). exists z. split; auto. econstructor; eauto.
    + intros (y & H & H'). inversion H; subst. econstructor; eauto. apply IH. eauto.
Qed.
Lemma located_one : forall h r s x, located h r [s] x <-> slot h r s x.
Proof.
  split; intros H; [inversion H; subst|econstructor; eauto; constructor]. inversion H5; subst; auto.
Qed.
Lemma steps_loc_app : forall a b, steps_loc (a ++ b) = steps_loc a ++ steps_loc b.
Proof. intros. unfold steps_loc. apply flat_map_app. Qed.

Lemma print_snoc : forall f st s, print_steps f (st ++ [s]) =
  match st with [] => print_step f s | _ => print_steps f st ++ "/"%char :: print_step f s end.
Proof.
  intros f. induction st as [|a st IH]; intros s; auto. simpl app. destruct st as [|b st]; auto.
  change (print_steps f (a :: (b :: st) ++ [s])) with (print_step f a ++ "/"%char :: print_steps f ((b :: st) ++ [s])). rewrite IH.
  change (print_steps f (a :: b :: st)) with (print_step f a ++ "/"%char :: print_steps f (b :: st)). now rewrite <- app_assoc.
Qed.
Lemma print_nonempty : forall f st, st <> [] -> Forall (fun s => is_name (fst s)) st -> print_steps f st <> [].
Proof.
  intros f [|s st] N F; [congruence|]. inversion F as [|? ? (x & t & E & _) _]; subst.
  assert (X : exists u, print_step f s = x :: u) by (unfold print_step; rewrite E; destruct (snd s); simpl; eauto).
  destruct X as (u & X). destruct st; simpl; rewrite X; simpl; discriminate.
Qed.

Lemma index_of_oid_nth : forall els i x, nth_error els i = Some x -> (forall j, nth_error els j = Some x -> j = i) -> index_of_oid x els = Some i.
Proof.
  induction els as [|y els IH]; intros i x N U; [destruct i; discriminate|]. simpl. destruct (Nat.eqb_spec x y) as [->|Ne].
  - specialize (U 0 eq_refl). now subst.
  - destruct i as [|i]; [simpl in N; congruence|]. rewrite (IH i); auto. intros j Hj. specialize (U (S j) Hj). lia.
Qed.

Section Tidy.
Variable h : heap.
Hypothesis T : tidy h.

Lemma slot_field_iff : forall c k x, slot h c (Child k) x <-> exists ob fs, get h c = Some ob /\ o_body ob = BStruct fs /\ alookup k fs = Some x.
Proof.
  intros c k x. split.
  - intros S. inversion S; subst. exists ob, fs. split; auto. split; auto. apply alookup_iff; auto. exact (t_keys _ T _ _ _ H0 H1).
  - intros (ob & fs & G & B & A). econstructor; eauto. now apply alookup_In.
Qed.
Lemma slot_elem_iff : forall c i x, slot h c (Elem i) x <-> exists els, elems h c els /\ nth_error els i = Some x.
Proof.
  intros c i x. split.
  - intros S. inversion S; subst. exists els. split; auto. exists ob. auto.
  - intros (els & (ob & G & B) & N). econstructor; eauto.
Qed.
Lemma slot_getattr : forall c k x, slot h c (Child k) x -> getattr h c k = (h, Ok x).
Proof. intros c k x S. apply slot_field_iff in S as (ob & fs & G & B & A). unfold getattr. now rewrite G, B, A. Qed.
Lemma py_index_nat : forall n i, i < n -> py_index n (Z.of_nat i) = Some i.
Proof. intros n i L. apply py_index_mod. split; [lia|]. rewrite Z.mod_small by lia. now rewrite Nat2Z.id. Qed.
Lemma slot_getitem : forall c i x, slot h c (Elem i) x -> aos_getitem h c (Z.of_nat i) = (h, Ok x).
Proof.
  intros c i x S. apply slot_elem_iff in S as (els & (ob & G & B) & N). unfold aos_getitem. rewrite G, B.
  assert (L : i < length els) by (apply nth_error_Some; congruence). rewrite (py_index_nat _ _ L). now rewrite N.
Qed.
Lemma slot_fun : forall c s x y, slot h c s x -> slot h c s y -> x = y.
Proof.
  intros c [k|i] x y A B.
  - apply slot_getattr in A. apply slot_getattr in B. congruence.
  - apply slot_getitem in A. apply slot_getitem in B. congruence.
Qed.
Lemma located_fun : forall l r x y, located h r l x -> located h r l y -> x = y.
Proof.
  induction l as [|s l IH]; intros r x y A B; inversion A as [|? ? a ? ? S1 L1]; inversion B as [|? ? b ? ? S2 L2]; subst; auto.
  rewrite (slot_fun _ _ _ _ S1 S2) in L1. eauto.
Qed.

Lemma path_child : forall f p k x s, slot h p (Child k) x -> path_str f h p = Some s ->
  path_str (S f) h x = Some (match s with [] => k | _ => s ++ "/"%char :: k end).
Proof.
  intros f p k x s S E. pose proof (t_parent _ T _ _ _ S) as P. pose proof (t_exists _ T _ _ _ S) as L.
  destruct (get_some h x L) as (ob & G). pose proof (t_name _ T _ _ _ _ S G) as N. unfold parent in P. rewrite G in P.
  apply slot_field_iff in S as (po & fs & Gp & Bp & _). cbn [path_str]. rewrite G, P, E, Gp, Bp, N. destruct s; auto.
Qed.
Lemma path_elem : forall f a i x s, slot h a (Elem i) x -> path_str f h a = Some s ->
  path_str (S f) h x = Some (s ++ "["%char :: show_N (N.of_nat i) ++ ["]"%char]).
Proof.
  intros f a i x s S E. pose proof (t_parent _ T _ _ _ S) as P. pose proof (t_exists _ T _ _ _ S) as L.
  destruct (get_some h x L) as (ob & G). unfold parent in P. rewrite G in P.
  assert (U : forall j, slot h a (Elem j) x -> j = i) by (intros j Sj; pose proof (t_once _ T _ _ _ _ S Sj); congruence).
  apply slot_elem_iff in S as (els & (ao & Ga & Ba) & N). cbn [path_str]. rewrite G, P, E, Ga, Ba.
  rewrite (index_of_oid_nth els i x N); auto. intros j Hj. apply U. apply slot_elem_iff. exists els. split; auto. exists ao. auto.
Qed.
Lemma path_more : forall f g x s, path_str f h x = Some s -> f <= g -> path_str g h x = Some s.
Proof.
  induction f as [|f IH]; [discriminate|]. intros [|g] x s E L; [lia|]. cbn [path_str] in *. destruct (get h x) as [ob|]; auto.
  destruct (o_parent ob) as [p|]; auto. destruct (path_str f h p) as [pp|] eqn:Ep; [|discriminate]. rewrite (IH g p pp Ep) by lia. auto.
Qed.

Lemma path_located : forall st r x, toplevel h r -> Forall (fun s => is_name (fst s)) st -> located h r (steps_loc st) x ->
  exists f, path_str f h x = Some (print_steps false st).
Proof.
  intros st. induction st as [|s st IH] using rev_ind; intros r x Tr F L.
  - inversion L; subst. destruct Tr as (ob & fs & G & P & _). exists 1. cbn [path_str]. now rewrite G, P.
  - rewrite steps_loc_app in L. apply located_app in L as (y & L1 & L2). apply Forall_app in F as (F1 & F2). inversion F2; subst.
    destruct (IH r y Tr F1 L1) as (f & E). rewrite print_snoc. destruct s as (k, oi). simpl in L2.
    assert (Step : forall z, slot h y (Child k) z ->
                    path_str (S f) h z = Some (match st with [] => k | _ => print_steps false st ++ "/"%char :: k end)).
    { intros z Sz. rewrite (path_child f y k z _ Sz E). destruct st as [|s st]; auto.
      pose proof (print_nonempty false (s :: st) ltac:(discriminate) F1). destruct (print_steps false (s :: st)); congruence. }
    destruct oi as [i|].
    + inversion L2 as [|? ? a ? ? S1 L3]; subst. apply (proj1 (located_one _ _ _ _)) in L3. pose proof (path_elem (S f) _ _ _ _ L3 (Step _ S1)) as X.
      exists (S (S f)). rewrite X. rewrite N2Nat.id. destruct st; auto. rewrite <- app_assoc. auto.
    + simpl in L2. apply (proj1 (located_one _ _ _ _)) in L2. exists (S f). rewrite (Step _ L2). destruct st; auto.
Qed.

Lemma loop_located : forall nested from fp st i c x, located h c (steps_loc st) x ->
  goto_loop nested from fp (map step_index st) (map fst st) i (Some c) h = (h, Ok x).
Proof.
  intros nested from fp. induction st as [|(k, oi) st IH]; intros i c x L.
  - inversion L; subst. auto.
  - destruct oi as [j|].
    + inversion L as [|? ? y ? ? S1 L1]; subst. inversion L1 as [|? ? z ? ? S2 L2]; subst. simpl. rewrite (slot_getattr _ _ _ S1). rewrite <- (N_nat_Z j).
      rewrite (slot_getitem _ _ _ S2). apply IH; auto.
    + inversion L as [|? ? y ? ? S1 L1]; subst. simpl. rewrite (slot_getattr _ _ _ S1). apply IH; auto.
Qed.
Lemma goto_located : forall st r x, toplevel h r -> located h r (steps_loc st) x -> goto (IPath (map fst st) (map step_index st)) h r true = (h, Ok x).
Proof.
  intros st r x (ob & fs & G & P & Pa & B) L. cbn [goto]. rewrite G, Pa. destruct st as [|(k, oi) st].
  - inversion L; subst. reflexivity.
  - assert (X := loop_located (fun q h1 => goto q h1 r true) r [] ((k, oi) :: st) 0 r x L). destruct oi; exact X.
Qed.

Lemma located_struct_n : forall n l r x, length l <= n -> is_struct h r -> located h r l x -> exists st, l = steps_loc st.
Proof.
  induction n as [|n IH]; intros [|s l] r x Ln Sr L; try (exists []; reflexivity); [simpl in Ln; lia|].
  inversion L as [|? ? y ? ? S1 L1]; subst. destruct s as [k|i].
  2:{ destruct Sr as (ob & fs & G & B). inversion S1; subst. congruence. }
  destruct l as [|s l]; [exists [(k, None)]; auto|]. inversion L1 as [|? ? z ? ? S2 L2]; subst. simpl in Ln. destruct s as [k'|i].
  - assert (Sy : is_struct h y) by (inversion S2; subst; eexists _, _; eauto). destruct (IH (Child k' :: l) y x) as (st & E); [simpl; lia|auto|auto|].
    exists ((k, None) :: st). simpl. now rewrite <- E.
  - pose proof (t_elem _ T _ _ _ S2) as Sy. destruct (IH l z x) as (st & ->); [lia|auto|auto|]. exists ((k, Some (N.of_nat i)) :: st). simpl. now rewrite Nat2N.id.
Qed.
Lemma located_struct : forall l r x, is_struct h r -> located h r l x -> exists st, l = steps_loc st.
Proof. intros l r x. exact (located_struct_n (length l) l r x (le_n _)). Qed.

Lemma reach_located : forall r x, reach h r x -> exists l, located h r l x.
Proof.
  intros r x R. induction R as [x|x y z (s & S) R (l & L)]; [exists []; constructor|]. exists (s :: l). econstructor; eauto.
Qed.
Lemma located_reach : forall l r x, located h r l x -> reach h r x.
Proof. intros l r x L. induction L; [constructor|]. econstructor; eauto. now exists s. Qed.

Lemma located_names : shaped h -> names_ok h -> forall st r x, located h r (steps_loc st) x -> Forall (fun s => is_name (fst s)) st.
Proof.
  intros Sh Nm. induction st as [|(k, oi) st IH]; intros r x L; [constructor|].
  change (steps_loc ((k, oi) :: st)) with (Child k :: match oi with Some i => [Elem (N.to_nat i)] | None => [] end ++ steps_loc st) in L.
  inversion L as [|? ? y ? ? S1 L1]; subst.
  apply located_app in L1 as (z & _ & L2). constructor; [|eauto].
  inversion S1; subst. destruct (Sh _ _ H0) as (_ & K). rewrite H1 in K. destruct K as (_ & K). destruct (K k) as (c & Hc).
  - change k with (fst (k, y)). now apply in_map.
  - simpl. apply child_meta_Some in Hc as (Hc & <-). eapply Nm; eauto.
Qed.

Lemma goto_path : shaped h -> names_ok h -> forall r x, toplevel h r -> reach h r x ->
  exists st f, located h r (steps_loc st) x /\ (forall g, f <= g -> path_str g h x = Some (print_steps false st)) /\ goto_str (print_steps false st) h r true = (h, Ok x).
Proof.
  intros Sh Nm r x Tr R. destruct (reach_located _ _ R) as (l & L).
  assert (Sr : is_struct h r) by (destruct Tr as (ob & fs & G & _ & _ & B); exists ob, fs; auto).
  destruct (located_struct _ _ _ Sr L) as (st & ->). pose proof (located_names Sh Nm _ _ _ L) as F.
  destruct (path_located _ _ _ Tr F L) as (f & E). exists st, f. split; auto. split; [intros g Lg; eapply path_more; eauto|].
  unfold goto_str. destruct st as [|s st].
  - change (parse (print_steps false [])) with (@Ok path_exn path ([], [])). exact (goto_located [] r x Tr L).
  - rewrite (PathProofs3.print_parse false (s :: st)) by (auto; discriminate). exact (goto_located (s :: st) r x Tr L).
Qed.

(** indices of a path in Fortran style *)
Lemma goto_index : forall r k a z, toplevel h r -> slot h r (Child k) a ->
  goto (IPath [k] [INum z]) h r true = (h, snd (aos_getitem h a z)).
Proof.
  intros r k a z (ob & fs & G & P & Pa & B) Sl. cbn [goto]. rewrite G, Pa. unfold goto_loop. cbn [nth_error length Nat.sub ancestor_or_error dd_ancestor].
  unfold ancestor_or_error. cbn [dd_ancestor].
  rewrite (slot_getattr _ _ _ Sl). destruct (aos_getitem h a z) as (h1, r1) eqn:E. pose proof (getitem_same _ _ _ _ _ E). subst h1. destruct r1; auto.
Qed.
End Tidy.
