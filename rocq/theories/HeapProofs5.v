(** The invariants under assignments, and under one operation of the interface except deep copy. *)
From Verif Require Import Base TreeModel TreeProofs4 PathModel HeapModel HeapSpec HeapProofs HeapProofs2 HeapProofs3 HeapProofs4.

Lemma strs_eqb_eq : forall a b, strs_eqb a b = true -> a = b.
Proof.
  induction a as [|x a IH]; destruct b as [|y b]; simpl; intros E; try discriminate; auto.
  apply andb_true_iff in E as (E1 & E2). apply str_eqb_eq in E1. f_equal; auto.
Qed.
Lemma named_leafless : forall h o b, named h -> (forall k x, ~ in_body b (Child k) x) -> named (set_body h o b).
Proof. intros h o b N H. apply named_set_body; auto. intros k x ob I. elim (H k x I). Qed.

Lemma named_append : forall vs h a, named h -> named (fst (append h a vs)).
Proof.
  induction vs as [|v vs IH]; intros h a N; auto. cbn [append]. destruct (get h a) as [ob|]; auto. destruct (o_body ob); auto.
  apply IH. apply named_leafless; [now apply named_set_parent|]. simpl. auto.
Qed.
Lemma named_alloc_elems : forall k h a p m, named h -> tidy h -> (p <> [] -> last p [] = mname m) -> named (fst (alloc_elems h a p m k)).
Proof.
  induction k as [|k IH]; intros h a p m N T Hp; auto. cbn [alloc_elems].
  destruct (alloc h (new_elem a p m)) as (h1, x) eqn:A. assert (h1 = fst (alloc h (new_elem a p m))) as -> by now rewrite A.
  assert (Em : forall s y, ~ in_body (o_body (new_elem a p m)) s y) by (intros [|] y; simpl; auto).
  specialize (IH (fst (alloc h (new_elem a p m))) a p m). destruct (alloc_elems _ a p m k) as (h2, l). simpl in *. apply IH; auto.
  - apply (named_alloc h (new_elem a p m)); auto.
  - apply (tidy_alloc h (new_elem a p m)); auto.
Qed.
Lemma named_resize : forall h a n keep, named h -> tidy h -> named (fst (resize h a n keep)).
Proof.
  intros h a n keep N T. unfold resize. destruct (n <? 0)%Z; auto. destruct (get h a) as [ob|] eqn:G; auto.
  destruct (o_body ob); auto. set (els0 := if keep then els else []). destruct (length els0 <? Z.to_nat n).
  - pose proof (named_alloc_elems (Z.to_nat n - length els0) h a (o_path ob) (o_meta ob) N T (n_last _ N _ _ G)) as X.
    destruct (alloc_elems _ _ _ _ _) as (h1, new). simpl in *. apply named_leafless; simpl; auto.
  - destruct (_ <? _); simpl; apply named_leafless; simpl; auto.
Qed.
Lemma named_setitem : forall h a i v, named h -> named (fst (aos_setitem h a i v)).
Proof.
  intros h a i v N. unfold aos_setitem. destruct (get h a); auto. destruct (o_body o); auto. destruct (py_index _ _); auto.
  simpl. apply named_leafless; simpl; auto.
Qed.

Section WithCast.
Variable cast : dtype -> nat -> value -> result exn value.
Lemma named_prim_set : forall h p a, named h -> named (fst (prim_set cast h p a)).
Proof.
  intros h p a N. unfold prim_set. destruct (get h p) as [ob|]; auto. destruct (o_body ob); auto. destruct (mkind _); auto.
  destruct (setter_value cast h dt ndim a) as (h1, r) eqn:E. assert (N1 : named h1).
  { eapply named_bodies; [|exact N]. intros y. eapply setter_objs; eauto. }
  destruct r; auto. simpl. apply named_leafless; auto.
Qed.
Lemma inv_prim_set : forall h p a, inv h -> inv (fst (prim_set cast h p a)).
Proof. intros h p a (T & N). split; [apply tidy_prim_set|apply named_prim_set]; auto. Qed.

Definition insertable (h : heap) (o : oid) (a : arg) : Prop :=
  match a with ANode v => is_data h v \/ (detached h v /\ ~ reach h v o) | _ => True end.
Lemma inv_replace : forall h o key v vo at_ x, inv h -> body_of h x = Some (o_body at_) -> get h x = Some at_ -> get h v = Some vo ->
  slot h o (Child key) x -> detached h v -> ~ reach h v o ->
  inv (fst (if strs_eqb (o_path vo) (o_path at_) then
          match get h o with
          | Some ob => match o_body ob with
                       | BStruct fs => (set_parent (set_body h o (BStruct (aset key v fs))) v o, Ok tt)
                       | _ => (h, Err EAttribute)
                       end
          | None => (h, Err EAttribute)
          end
        else (h, Err EValue))).
Proof.
  intros h o key v vo at_ x (T & N) _ Gx Gv Hs D R. destruct (strs_eqb _ _) eqn:E; [|split; auto]. apply strs_eqb_eq in E.
  destruct (get h o) as [ob|] eqn:Go; [|split; auto]. destruct (o_body ob) as [fs| |] eqn:Bo; try (split; auto; fail). simpl.
  pose proof (n_field _ N _ _ _ _ Hs Gx) as Hne. pose proof (n_last _ N _ _ Gx Hne) as Hl. rewrite <- E in Hne, Hl.
  pose proof (n_last _ N _ _ Gv Hne) as Hl'. pose proof (t_name _ T _ _ _ _ Hs Gx) as Hk.
  assert (Bf : body_of h o = Some (BStruct fs)) by (rewrite (body_of_get _ _ _ Go), Bo; auto). split.
  - eapply tidy_replace; eauto. congruence.
  - apply named_set_parent. apply named_set_body; auto. intros k y yo I Gy. simpl in I.
    apply in_aset in I as [(-> & ->)|(_ & I)]; [congruence| |exact (t_keys _ T _ _ _ Go Bo)].
    apply (n_field _ N o k y yo); auto. econstructor; eauto.
Qed.
Lemma inv_setattr : forall h o key a, inv h -> insertable h o a -> inv (fst (setattr cast h o key a)).
Proof.
  intros h o key a Iv Hi. unfold setattr. pose proof (step_getattr h o key) as St. destruct (getattr h o key) as (h1, r) eqn:E. simpl in St.
  destruct (St Iv) as (I1 & G1). destruct r as [x|e]; auto. destruct (get h1 x) as [at_|] eqn:Gx; auto.
  destruct (getattr_slot _ _ _ _ _ E) as (fs & Bo & Hin).
  assert (Hs : slot h1 o (Child key) x) by (apply slot_iff; exists (BStruct fs); auto).
  assert (Lo : o < length (h_objs h)).
  { unfold getattr in E. destruct (get h o) eqn:Go; [eapply get_lt; eauto|inversion E]. }
  assert (Hins : forall v vo, a = ANode v -> get h1 v = Some vo -> (forall b, o_body vo <> BPrim b) -> detached h1 v /\ ~ reach h1 v o).
  { intros v vo -> Gv Nb. destruct Hi as [(ob & b & G & B)|(D & Rn)].
    - apply (g_obj _ _ G1) in G as (ob' & G & _ & _ & _ & K). rewrite B in K. rewrite Gv in G. inversion G; subst ob'.
      destruct (o_body vo) eqn:Bv; simpl in K; try tauto. elim (Nb v0); auto.
    - split; [eapply grow_detached; eauto|]. intros R. apply Rn. eapply grow_reach_back; eauto. }
  destruct (o_body at_) eqn:Ba.
  - destruct a as [|b|v]; auto. destruct (get h1 v) as [vo|] eqn:Gv; auto. destruct (o_body vo) eqn:Bv; auto.
    destruct (Hins v vo) as (D & Rn); auto; [rewrite Bv; discriminate|].
    eapply (inv_replace h1 o key v vo at_ x); eauto. rewrite (body_of_get _ _ _ Gx). auto.
  - destruct a as [|b|v]; auto. destruct (get h1 v) as [vo|] eqn:Gv; auto. destruct (o_body vo) eqn:Bv; auto.
    destruct (Hins v vo) as (D & Rn); auto; [rewrite Bv; discriminate|].
    eapply (inv_replace h1 o key v vo at_ x); eauto. rewrite (body_of_get _ _ _ Gx). auto.
  - now apply inv_prim_set.
Qed.

(** Two nodes above a third one are on one line. *)
Lemma reach_linear : forall h z x, tidy h -> reach h x z -> forall v, reach h v z -> reach h x v \/ reach h v x.
Proof.
  intros h z x T R. apply reach_rtc in R.
  induction R as [x|x y z (s & C) R IH]; intros v Rv; auto.
  destruct (IH v Rv) as [Ry|Ry]; [left; econstructor; eauto; exists s; auto|].
  apply reach_snoc_ind in Ry as [->|(w & Rw & (s' & Cw))].
  - left. econstructor; [exists s; eauto|constructor].
  - right. pose proof (t_parent _ T _ _ _ C) as P1. pose proof (t_parent _ T _ _ _ Cw) as P2. congruence.
Qed.
Lemma reach_detached : forall h x v, detached h v -> reach h x v -> x = v.
Proof. intros h x v (_ & D) R. apply reach_snoc_ind in R as [|(w & _ & C)]; auto. elim (D w C). Qed.

(** The result of a non-empty path is strictly below the starting node. *)
Lemma goto_below : forall n ps i ix h from h' x, inv h -> goto (IPath (n :: ps) (i :: ix)) h from false = (h', Ok x) ->
  exists w, reach h' from w /\ contained h' w x.
Proof.
  intros n ps i ix h from h' x Iv E.
  assert (R : reach h' from x) by (eapply goto_reach; eauto).
  pose proof (step_goto (IPath (n :: ps) (i :: ix)) h from false) as St. rewrite E in St. destruct (St Iv) as (I' & G'). clear St.
  apply reach_snoc_ind in R as [<-|]; auto. exfalso.
  (* the node found cannot be the starting node *)
  cbn [goto] in E. destruct (get h from) as [fo|] eqn:Gf; [|discriminate].
  assert (Lf : from < length (h_objs h)) by (eapply get_lt; eauto).
  assert (C : closed_under step_ok (fun h x => inv h /\ exists w, contained h from w /\ reach h w x)).
  { constructor.
    - intros h0 h1 y S (I0 & w & (s & Hs) & Hr). destruct (S I0) as (I1 & G). split; auto. exists w.
      split; [exists s; apply (g_slot _ _ G); auto|eapply grow_reach; eauto].
    - intros h0 e k h1 r (I0 & w & (s & Hs) & Hr) E1. pose proof (step_getattr h0 e k) as X. rewrite E1 in X. simpl in X. split; auto.
      intros c ->. destruct (X I0) as (I1 & G). split; auto. exists w. split; [exists s; apply (g_slot _ _ G); auto|].
      eapply reach_trans; [eapply grow_reach; eauto|].
      apply getattr_slot in E1 as (fs & B & I). econstructor; [|constructor]. exists (Child k). apply slot_iff. exists (BStruct fs). auto.
    - intros h0 c z h1 r (I0 & w & Hs & Hr) E1 e ->. pose proof (getitem_same _ _ _ _ _ E1); subst h1. split; auto.
      exists w. split; auto. eapply reach_trans; [exact Hr|]. apply getitem_slot in E1 as (k & els & B & I). econstructor; [|constructor].
      exists (Elem k). apply slot_iff. exists (BAoS els). auto.
    - intros h0 q h1 r _ E1. pose proof (step_value h0 q) as X. rewrite E1 in X. auto. }
  set (nested := fun q h1 => goto q h1 from true) in E.
  assert (HN : forall q h1 h2 r, nested q h1 = (h2, r) -> step_ok h1 h2 /\ forall y, r = Ok y -> forall h3 v, node_int h2 y = (h3, v) -> step_ok h2 h3).
  { intros q h1 h2 r Eq. split.
    - unfold nested in Eq. pose proof (step_goto q h1 from true) as X. rewrite Eq in X. auto.
    - intros y _ h3 v Ei. eapply (node_int_R step_ok step_refl (fun _ _ => True) all_closed); [|exact Ei]; exact I. }
  assert (Fin : forall h1 c ix0 ps0 k, inv h1 -> (exists w, contained h1 from w /\ reach h1 w c) -> 
            goto_loop nested from (o_path fo) ix0 ps0 k (Some c) h1 = (h', Ok from) -> False).
  { intros h1 c ix0 ps0 k I1 Hc E1.
    destruct (loop_gen step_ok step_refl step_trans _ (fun _ => True) nested from (o_path fo) ix0 C (fun _ _ _ _ => I)) with
      (ps := ps0) (i := k) (elt := Some c) (h := h1) (h' := h') (r := @Ok exn oid from) as (_ & X); auto.
    - right. intros q h2 h3 r _ _ Eq. eauto.
    - intros e Ee. inversion Ee; subst. auto.
    - discriminate.
    - destruct (X from eq_refl) as (I2 & w & Cw & Rw). exact (t_acyclic _ (proj1 I2) _ _ Cw Rw). }
  cbn [goto_loop] in E.
  assert (K : forall h1 c, getattr h from n = (h1, Ok c) -> inv h1 /\ contained h1 from c).
  { intros h1 c Eg. pose proof (step_getattr h from n) as X. rewrite Eg in X. split; [apply X; auto|].
    apply getattr_slot in Eg as (fs & B & Hin). exists (Child n). apply slot_iff. exists (BStruct fs). auto. }
  destruct i as [|s|z|a b|ps' ix']; try discriminate;
    (destruct (nth_error (o_path fo) 0); cbn beta iota in E);
    (destruct (getattr h from n) as (h1, [c|e]) eqn:Eg; [|discriminate]); destruct (K _ _ eq_refl) as (I1 & C1); try discriminate.
  1,2: eapply (Fin h1 c); [exact I1|exists c; split; [exact C1|constructor]|exact E].
  1,2: destruct (aos_getitem h1 c z) as (h2, [c2|e]) eqn:E2; [|discriminate]; pose proof (getitem_same _ _ _ _ _ E2); subst h2;
       apply getitem_slot in E2 as (k & els & B & Hk); eapply (Fin h1 c2); [exact I1| |exact E];
       exists c; split; [exact C1|]; econstructor; [|constructor]; exists (Elem k); apply slot_iff; exists (BAoS els); auto.
  all: destruct (nested (IPath ps' ix') h1) as (h2, [q|e]) eqn:Eq; [|discriminate]; destruct (HN _ _ _ _ Eq) as (S2 & S3);
       destruct (node_int h2 q) as (h3, [z|e]) eqn:Ei; [|discriminate]; specialize (S3 q eq_refl _ _ Ei);
       destruct (S2 I1) as (I2 & G2); destruct (S3 I2) as (I3 & G3);
       destruct (aos_getitem h3 c (z - 1)) as (h4, [c2|e]) eqn:E2; [|discriminate]; pose proof (getitem_same _ _ _ _ _ E2); subst h4;
       apply getitem_slot in E2 as (k & els & B & Hk); eapply (Fin h3 c2); [exact I3| |exact E];
       exists c; destruct C1 as (s1 & C1); (split; [exists s1; apply (g_slot _ _ G3), (g_slot _ _ G2); auto|]);
       econstructor; [|constructor]; exists (Elem k); apply slot_iff; exists (BAoS els); auto.
Qed.

Lemma inv_goto_set : forall h o a n ps i ix, inv h -> insertable h o a -> 
  inv (fst (let (h1, r) := goto (IPath (n :: ps) (i :: ix)) h o false in
                match r with
                | Err e => (h1, Err e)
                | Ok x =>
                  match get h1 x with
                  | None => (h1, Err EAttribute)
                  | Some xo =>
                    match o_body xo with
                    | BPrim _ => prim_set cast h1 x a
                    | _ => match o_parent xo with
                           | None => (h1, Err EType)
                           | Some p => match get h1 p with
                                       | Some po => match o_body po with
                                                    | BAoS _ => (h1, Err EValue)
                                                    | BStruct _ => setattr cast h1 p (last (n :: ps) []) a
                                                    | BPrim _ => (h1, Err EType)
                                                    end
                                       | None => (h1, Err EType)
                                       end
                           end
                    end
                  end
                end)).
Proof.
  intros h o a n ps i ix Iv Hi. pose proof (step_goto (IPath (n :: ps) (i :: ix)) h o false) as St.
  destruct (goto (IPath (n :: ps) (i :: ix)) h o false) as (h1, r) eqn:E. simpl in St. destruct (St Iv) as (I1 & G1).
  destruct r as [x|e]; auto. destruct (goto_below _ _ _ _ _ _ _ _ Iv E) as (w & Rw & s & C).
  destruct (get h1 x) as [xo|] eqn:Gx; auto.
  assert (Hset : forall p, o_parent xo = Some p -> inv (fst (setattr cast h1 p (last (n :: ps) []) a))).
  { intros p Hp. apply inv_setattr; auto. destruct a as [|b|v]; simpl in *; auto. destruct Hi as [(ob & b & G & B)|(D & Rn)].
    - left. apply (g_obj _ _ G1) in G as (ob' & G & _ & _ & _ & K). rewrite B in K. destruct (o_body ob') eqn:B'; simpl in K; try tauto.
      exists ob', v0. auto.
    - right. assert (D1 : detached h1 v) by (eapply grow_detached; eauto). split; auto. intros Rp.
      assert (Lo : o < length (h_objs h)).
      { cbn [goto] in E. destruct (get h o) eqn:Go; [eapply get_lt; eauto|discriminate]. }
      apply Rn. eapply grow_reach_back; [exact G1| |exact Lo]. clear Rn.
      assert (w = p). { pose proof (t_parent _ (proj1 I1) _ _ _ C) as X. unfold parent in X. rewrite Gx in X. congruence. } subst w.
      destruct (reach_linear h1 p o (proj1 I1) Rw v Rp) as [X|X]; auto. apply reach_detached in X; auto. subst. constructor. }
  destruct (o_body xo); auto; try (destruct (o_parent xo) as [p|] eqn:Ep; auto; destruct (get h1 p) as [po|]; auto; destruct (o_body po); auto).
  now apply inv_prim_set.
Qed.
End WithCast.
