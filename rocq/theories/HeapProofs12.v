(** Non-interference: operations that start outside a protected set of nodes and arrays never touch it. *)
From Coq Require Import Permutation.
From Verif Require Import Base TreeModel TreeSpec TreeProofs TreeProofs4 PathModel HeapModel HeapSpec HeapProofs HeapProofs2 HeapProofs3 HeapProofs4
  HeapProofs5 HeapProofs6 HeapProofs7 HeapProofs9.

Section Frame.
(** [par]: parent pointers do not cross the border either; P, Q: protected nodes and arrays *)
Variable par : bool.
Variable P : oid -> Prop.
Variable Q : nat -> Prop.

Record good (h : heap) : Prop := {
  gd_slot : forall c s z, slot h c s z -> z < nobj h /\ (P c <-> P z);
  gd_buf : forall x b, body_of h x = Some (BPrim (Some (SBuf b))) -> b < nbuf h /\ (P x <-> Q b);
  gd_par : par = true -> forall x p, parent h x = Some p -> p < nobj h /\ (P x <-> P p);
  gd_P : forall z, P z -> z < nobj h;
  gd_Q : forall b, Q b -> b < nbuf h }.
Definition acc (h : heap) (x : oid) : Prop := x < nobj h /\ ~ P x.
Definition accb (h : heap) (b : nat) : Prop := b < nbuf h /\ ~ Q b.
Record frame (h h' : heap) : Prop := {
  fr_good : good h';
  fr_len : nobj h <= nobj h';
  fr_lenb : nbuf h <= nbuf h';
  fr_P : forall z, P z -> get h' z = get h z;
  fr_Q : forall b, Q b -> nth_error (h_bufs h') b = nth_error (h_bufs h) b }.

Lemma frame_refl : forall h, good h -> frame h h.
Proof. intros h G. constructor; auto. Qed.
Lemma frame_trans : forall a b c, frame a b -> frame b c -> frame a c.
Proof.
  intros a b c [G1 L1 B1 P1 Q1] [G2 L2 B2 P2 Q2]. constructor; auto; try lia.
  - intros z Hz. rewrite P2; auto.
  - intros z Hz. rewrite Q2; auto.
Qed.
Lemma frame_acc : forall h h' x, frame h h' -> acc h x -> acc h' x.
Proof. intros h h' x F (L & N). split; auto. pose proof (fr_len _ _ F). lia. Qed.
Lemma frame_accb : forall h h' x, frame h h' -> accb h x -> accb h' x.
Proof. intros h h' x F (L & N). split; auto. pose proof (fr_lenb _ _ F). lia. Qed.
Hint Resolve frame_refl frame_acc frame_accb : core.
Lemma new_acc : forall h h' x, good h -> nobj h <= x < nobj h' -> acc h' x.
Proof. intros h h' x G L. split; [lia|]. intros H. pose proof (gd_P _ G _ H). lia. Qed.
Lemma new_accb : forall h h' x, good h -> nbuf h <= x < nbuf h' -> accb h' x.
Proof. intros h h' x G L. split; [lia|]. intros H. pose proof (gd_Q _ G _ H). lia. Qed.
Lemma slot_acc : forall h c s x, good h -> acc h c -> slot h c s x -> acc h x.
Proof. intros h c s x G (L & N) S. destruct (gd_slot _ G _ _ _ S). split; tauto. Qed.
Lemma body_acc : forall h c b s x, good h -> acc h c -> body_of h c = Some b -> in_body b s x -> acc h x.
Proof. intros h c b s x G A B I. eapply slot_acc; eauto. apply slot_iff. eauto. Qed.
Lemma buf_acc : forall h x b, good h -> acc h x -> body_of h x = Some (BPrim (Some (SBuf b))) -> accb h b.
Proof. intros h x b G (L & N) B. destruct (gd_buf _ G _ _ B). split; tauto. Qed.

(** ** Heap updates *)
Lemma fr_alloc : forall h ob, good h -> (forall s z, ~ in_body (o_body ob) s z) -> (forall b, o_body ob = BPrim (Some (SBuf b)) -> accb h b) ->
  (par = true -> forall p, o_parent ob = Some p -> acc h p) -> frame h (fst (alloc h ob)).
Proof.
  intros h ob G E Eb Hp. assert (NP : ~ P (nobj h)) by (intros X; pose proof (gd_P _ G _ X); lia).
  constructor; [constructor| | | |]; try rewrite len_alloc; auto.
  - intros c s z Sl. apply slot_alloc in Sl; auto. destruct (gd_slot _ G _ _ _ Sl). split; [lia|auto].
  - intros x b B. rewrite body_of_alloc in B. destruct (Nat.eqb_spec x (nobj h)) as [->|].
    + inversion B as [E0]. destruct (Eb b E0). split; auto. tauto.
    + exact (gd_buf _ G _ _ B).
  - intros Hpar x p. rewrite parent_alloc. destruct (Nat.eqb_spec x (nobj h)) as [->|].
    + intros X. destruct (Hp Hpar p X). split; [lia|tauto].
    + intros X. destruct (gd_par _ G Hpar _ _ X). split; [lia|auto].
  - intros z Hz. pose proof (gd_P _ G _ Hz). lia.
  - intros b Hb. exact (gd_Q _ G _ Hb).
  - intros z Hz. rewrite get_alloc. pose proof (gd_P _ G _ Hz). destruct (Nat.eqb_spec z (nobj h)); [lia|auto].
Qed.
Lemma fr_alloc_buf : forall h v, good h -> frame h (fst (alloc_buf h v)).
Proof.
  intros h v G. assert (L : nbuf (fst (alloc_buf h v)) = S (nbuf h)) by (simpl; rewrite app_length; simpl; lia).
  constructor; [constructor| | | |]; try rewrite L; auto.
  - intros c s z Sl. apply (gd_slot _ G c s z). apply slot_iff. apply slot_iff in Sl. exact Sl.
  - intros x b B. destruct (gd_buf _ G x b B). split; [lia|auto].
  - exact (gd_par _ G).
  - exact (gd_P _ G).
  - intros b Hb. pose proof (gd_Q _ G _ Hb). lia.
  - intros b Hb. simpl. pose proof (gd_Q _ G _ Hb). now rewrite nth_error_app1.
Qed.
Lemma fr_set_buf : forall h b v, good h -> ~ Q b -> frame h (set_buf h b v).
Proof.
  intros h b v G N. assert (L : nbuf (set_buf h b v) = nbuf h) by (simpl; apply list_set_length).
  constructor; [constructor| | | |]; try rewrite L; auto.
  - intros c s z Sl. apply (gd_slot _ G c s z). apply slot_iff. apply slot_iff in Sl. exact Sl.
  - exact (gd_buf _ G).
  - exact (gd_par _ G).
  - exact (gd_P _ G).
  - exact (gd_Q _ G).
  - intros b' Hb. simpl. rewrite nth_error_list_set. destruct (Nat.eqb_spec b b') as [->|]; [contradiction|auto].
Qed.
Lemma fr_set_parent : forall h v p, good h -> acc h v -> acc h p -> frame h (set_parent h v p).
Proof.
  intros h v p G (Lv & Nv) (Lp & Np). constructor; [constructor| | | |]; try rewrite len_set_parent; try rewrite bufs_set_parent; auto.
  - intros c s z Sl. apply slot_set_parent in Sl. exact (gd_slot _ G _ _ _ Sl).
  - intros x b B. rewrite body_of_set_parent in B. exact (gd_buf _ G _ _ B).
  - intros Hp x q. rewrite parent_set_parent. destruct (Nat.eqb_spec v x) as [->|].
    + destruct (get h x); [|discriminate]. intros X. inversion X; subst. split; [auto|tauto].
    + apply (gd_par _ G Hp).
  - exact (gd_P _ G).
  - exact (gd_Q _ G).
  - intros z Hz. rewrite get_set_parent. destruct (Nat.eqb_spec v z) as [->|]; [contradiction|auto].
Qed.
Lemma fr_set_body : forall h x b, good h -> acc h x -> (forall s z, in_body b s z -> acc h z) ->
  (forall bf, b = BPrim (Some (SBuf bf)) -> accb h bf) -> frame h (set_body h x b).
Proof.
  intros h x b G (Lx & Nx) Hs Hb. constructor; [constructor| | | |]; try rewrite len_set_body; try rewrite bufs_set_body; auto.
  - intros c s z Sl. apply slot_iff in Sl as (b0 & B & I). rewrite body_of_set_body in B. destruct (Nat.eqb_spec x c) as [->|].
    + destruct (get_some h c Lx) as (ob & Gx). rewrite Gx in B. inversion B; subst. destruct (Hs _ _ I). split; [auto|tauto].
    + apply (gd_slot _ G c s z). apply slot_iff. eauto.
  - intros c bf B. rewrite body_of_set_body in B. destruct (Nat.eqb_spec x c) as [->|].
    + destruct (get_some h c Lx) as (ob & Gx). rewrite Gx in B. inversion B; subst. destruct (Hb _ eq_refl). split; [auto|tauto].
    + exact (gd_buf _ G _ _ B).
  - intros Hp c p. rewrite parent_set_body. apply (gd_par _ G Hp).
  - exact (gd_P _ G).
  - exact (gd_Q _ G).
  - intros z Hz. rewrite get_set_body. destruct (Nat.eqb_spec x z) as [->|]; [contradiction|auto].
Qed.

(** ** Operations *)
Lemma in_aset_cases : forall {V} k (v : V) l k' z, In (k', z) (aset k v l) -> z = v \/ In (k', z) l.
Proof.
  intros V k v l k' z. induction l as [|(a, w) l IH]; simpl; [intros [X|[]]; inversion X; auto|].
  destruct (str_eqb k a); simpl; intros [X|X]; auto; [inversion X; auto|destruct (IH X); auto].
Qed.
Lemma fr_getattr : forall h o k h1 r, good h -> acc h o -> getattr h o k = (h1, r) -> frame h h1 /\ forall c, r = Ok c -> acc h1 c.
Proof.
  intros h o k h1 r G A E.
  apply getattr_cases in E as [(-> & H)|(ob & fs & cm & Go & B & Al & C & -> & ->)].
  - split; auto. intros c ->. destruct H as [(e & X)|(fs & c' & X & B & Al)]; [discriminate|]. inversion X; subst.
    eapply (body_acc h o (BStruct fs) (Child k)); auto. simpl. now apply alookup_In.
  - set (nc := new_child o (o_path ob) cm).
    assert (F1 : frame h (fst (alloc h nc))).
    { apply fr_alloc; auto.
      - apply new_body_empty.
      - intros b. simpl. unfold new_body. destruct (mkind cm); discriminate.
      - intros _ p X. inversion X; subst; auto. }
    assert (An : acc (fst (alloc h nc)) (nobj h)) by (apply (new_acc h); auto; rewrite len_alloc; lia).
    assert (F2 : frame (fst (alloc h nc)) (set_body (fst (alloc h nc)) o (BStruct (aset k (nobj h) fs)))).
    { apply fr_set_body; [apply (fr_good _ _ F1)|eauto| |discriminate]. intros s z I. destruct s as [k'|i]; [|destruct I]. simpl in I.
      apply in_aset_cases in I as [->|I]; auto. eapply frame_acc; eauto. eapply (body_acc h o (BStruct fs) (Child k')); auto.
      rewrite <- B. now apply body_of_get. }
    split; [eapply frame_trans; eauto|]. intros c X. inversion X; subst. eapply frame_acc; eauto.
Qed.
Lemma fr_getitem : forall h a i h1 r, good h -> acc h a -> aos_getitem h a i = (h1, r) -> frame h h1 /\ forall c, r = Ok c -> acc h1 c.
Proof.
  intros h a i h1 r G A E. pose proof (getitem_same _ _ _ _ _ E). subst h1. split; auto. intros c ->.
  apply getitem_slot in E as (k & els & B & N). eapply (body_acc h a (BAoS els) (Elem k)); auto.
Qed.
Lemma fr_setitem : forall h a i v, good h -> acc h a -> acc h v -> frame h (fst (aos_setitem h a i v)).
Proof.
  intros h a i v G A V. unfold aos_setitem. destruct (get h a) as [ob|] eqn:Ga; auto. destruct (o_body ob) as [|els|] eqn:B; auto.
  destruct (py_index (length els) i) as [k|]; auto. simpl. apply fr_set_body; auto; [|discriminate].
  intros [s|j] z I; [destruct I|]. simpl in I. rewrite nth_error_list_set in I. destruct (k =? j).
  - destruct (nth_error els k); inversion I; subst; auto.
  - eapply (body_acc h a (BAoS els) (Elem j)); auto. rewrite <- B. now apply body_of_get.
Qed.
Lemma fr_append : forall vs h a, good h -> acc h a -> Forall (acc h) vs -> frame h (fst (append h a vs)).
Proof.
  induction vs as [|v vs IH]; intros h a G A F; [auto|]. cbn [append]. destruct (get h a) as [ob|] eqn:Ga; auto.
  destruct (o_body ob) as [|els|] eqn:B; auto. inversion F as [|? ? Fv Fvs]; subst.
  assert (F1 : frame h (set_parent h v a)) by (apply fr_set_parent; auto). pose proof (fr_good _ _ F1) as G1.
  assert (F2 : frame (set_parent h v a) (set_body (set_parent h v a) a (BAoS (els ++ [v])))).
  { apply fr_set_body; eauto; [|discriminate]. intros [s|j] z I; [destruct I|]. simpl in I. eapply frame_acc; eauto.
    apply nth_error_In in I. apply in_app_or in I as [I|[<-|[]]]; auto. apply In_nth_error in I as (m & I).
    eapply (body_acc h a (BAoS els) (Elem m)); auto. rewrite <- B. now apply body_of_get. }
  pose proof (frame_trans _ _ _ F1 F2) as F3. eapply frame_trans; [exact F3|]. apply IH; eauto using fr_good.
  eapply Forall_impl; [|exact Fvs]. intros x. apply frame_acc. auto.
Qed.
Lemma fr_alloc_elems : forall k h a p m h' l, good h -> acc h a -> alloc_elems h a p m k = (h', l) -> frame h h' /\ forall e, In e l -> acc h' e.
Proof.
  induction k as [|k IH]; cbn [alloc_elems]; intros h a p m h' l G A E; [inversion E; subst; split; auto; intros e []|].
  destruct (alloc h (new_elem a p m)) as (h1, x) eqn:Ea. destruct (alloc_elems h1 a p m k) as (h2, l') eqn:E2. inversion E; subst h' l.
  assert (h1 = fst (alloc h (new_elem a p m))) by now rewrite Ea.
  assert (x = nobj h) by (unfold alloc in Ea; inversion Ea; auto). subst h1 x.
  assert (F1 : frame h (fst (alloc h (new_elem a p m)))).
  { apply fr_alloc; auto; simpl; try discriminate.
    - intros [s|i] z; simpl; auto.
    - intros _ q X. inversion X; subst; auto. }
  destruct (IH _ _ _ _ _ _ (fr_good _ _ F1) (frame_acc _ _ _ F1 A) E2) as (F2 & H2). split; [eapply frame_trans; eauto|].
  intros e [<-|I]; auto. eapply frame_acc; eauto. apply (new_acc h); auto. rewrite len_alloc. lia.
Qed.
Lemma fr_resize : forall h a n keep, good h -> acc h a -> frame h (fst (resize h a n keep)).
Proof.
  intros h a n keep G A. unfold resize. destruct (n <? 0)%Z; auto. destruct (get h a) as [ob|] eqn:Ga; auto.
  destruct (o_body ob) as [|els0|] eqn:B; auto. set (els := if keep then els0 else []).
  assert (He : forall e, In e els -> acc h e).
  { intros e I. assert (I' : In e els0) by (unfold els in I; destruct keep; [auto|destruct I]). apply In_nth_error in I' as (m & I').
    eapply (body_acc h a (BAoS els0) (Elem m)); auto. rewrite <- B. now apply body_of_get. }
  assert (Sub : forall l, (forall e, In e l -> In e els) -> frame h (set_body h a (BAoS l))).
  { intros l Hl. apply fr_set_body; auto; [|discriminate]. intros [s|j] z I; [destruct I|]. simpl in I. apply nth_error_In in I. auto. }
  destruct (length els <? Z.to_nat n).
  - destruct (alloc_elems h a (o_path ob) (o_meta ob) (Z.to_nat n - length els)) as (h1, new) eqn:E.
    destruct (fr_alloc_elems _ _ _ _ _ _ _ G A E) as (F1 & H1). simpl. eapply frame_trans; [exact F1|].
    apply fr_set_body; eauto using fr_good; [|discriminate]. intros [s|j] z I; [destruct I|]. simpl in I. apply nth_error_In in I.
    apply in_app_or in I as [I|I]; eauto.
  - destruct (Z.to_nat n <? length els); simpl; apply Sub; auto. intros e Ie. rewrite <- (firstn_skipn (Z.to_nat n) els). apply in_or_app. auto.
Qed.
Definition acc_stored (h : heap) (s : stored) : Prop := match s with SBuf b => accb h b | SImm _ => True end.
Lemma frame_stored : forall h h' s, frame h h' -> acc_stored h s -> acc_stored h' s.
Proof. intros h h' [v|b] F; simpl; eauto. Qed.
Lemma fr_set_prim : forall h p o, good h -> acc h p -> (forall s, o = Some s -> acc_stored h s) -> frame h (set_body h p (BPrim o)).
Proof.
  intros h p o G A H. apply fr_set_body; auto; [intros [s|i] z []|]. intros bf X. inversion X; subst. exact (H _ eq_refl).
Qed.
Lemma fr_value : forall h p h1 r, good h -> acc h p -> prim_value h p = (h1, r) -> frame h h1 /\ forall s, r = Ok s -> acc_stored h1 s.
Proof.
  intros h p h1 r G A. unfold prim_value. destruct (get h p) as [ob|] eqn:Gp; [|intros E; inversion E; subst; split; auto; discriminate].
  destruct (o_body ob) as [| |[s|]] eqn:B; try (intros E; inversion E; subst; split; auto; discriminate).
  - intros E. inversion E; subst. split; auto. intros s' X. inversion X; subst. destruct s' as [v|b]; simpl; auto. eapply buf_acc; eauto.
    rewrite <- B. now apply body_of_get.
  - destruct (mkind (o_meta ob)) as [| |dt [|nd]]; try (intros E; inversion E; subst; split; auto; discriminate).
    + intros E. inversion E; subst. split; auto. intros s X. inversion X; subst. exact I.
    + destruct (alloc_buf h (default_value dt (S nd))) as (h2, b) eqn:Eb. intros E. inversion E; subst h1 r.
      assert (E2 : h2 = fst (alloc_buf h (default_value dt (S nd)))) by now rewrite Eb.
      assert (b = nbuf h) by (unfold alloc_buf in Eb; inversion Eb; auto). subst b.
      assert (F1 : frame h h2) by (rewrite E2; now apply fr_alloc_buf).
      assert (Ab : accb h2 (nbuf h)) by (apply (new_accb h); auto; rewrite E2; simpl; rewrite app_length; simpl; lia).
      assert (F2 : frame h2 (set_body h2 p (BPrim (Some (SBuf (nbuf h)))))).
      { apply fr_set_prim; eauto using fr_good. intros s X. inversion X; subst. exact Ab. }
      split; [eapply frame_trans; eauto|]. intros s X. inversion X; subst. eapply frame_stored; eauto.
Qed.

(** ** Navigation *)
Definition steps (h h' : heap) : Prop := good h -> frame h h'.
Definition visit (h : heap) (x : oid) : Prop := good h /\ acc h x.
Lemma steps_refl : forall h, steps h h. Proof. intros h G. auto. Qed.
Lemma steps_trans : forall a b c, steps a b -> steps b c -> steps a c.
Proof. intros a b c H1 H2 G. eapply frame_trans; eauto. apply H2. eapply fr_good; eauto. Qed.
Lemma visit_closed : closed_under steps visit.
Proof.
  constructor.
  - intros h h' x S (G & A). specialize (S G). split; eauto using fr_good.
  - intros h e k h1 r (G & A) E. destruct (fr_getattr _ _ _ _ _ G A E) as (F & H). split; [intros _; auto|]. intros c Hc. split; eauto using fr_good.
  - intros h c z h1 r (G & A) E e He. destruct (fr_getitem _ _ _ _ _ G A E) as (F & H). split; eauto using fr_good.
  - intros h q h1 r (G & A) E _. exact (proj1 (fr_value _ _ _ _ G A E)).
Qed.
Lemma parent_acc : forall h x p, par = true -> good h -> acc h x -> parent h x = Some p -> acc h p.
Proof. intros h x p Hp G (L & N) X. destruct (gd_par _ G Hp _ _ X). split; tauto. Qed.
Lemma visit_up : par = true -> up_closed visit.
Proof.
  intros Hp h x y (G & A) D. split; auto. unfold dd_parent in D. destruct (get h x) as [ob|] eqn:Gx; [|discriminate].
  assert (Px : parent h x = o_parent ob) by (unfold parent; now rewrite Gx).
  assert (One : o_parent ob = Some y -> acc h y) by (intros X; eapply parent_acc; eauto; congruence).
  destruct (o_body ob), (mkind (o_meta ob)); auto. destruct (o_parent ob) as [a|]; [|discriminate].
  assert (Aa : acc h a) by (eapply parent_acc; eauto). destruct (get h a) as [ao|] eqn:Ga; [|discriminate].
  eapply (parent_acc h a); eauto. unfold parent. now rewrite Ga.
Qed.
(** paths that do not use parents *)
Definition nav_ok (key : str) : Prop := par = true \/ forall ps ix, parse key = Ok (ps, ix) -> flat ix.
Lemma fr_goto : forall key ps ix h from h' r, nav_ok key -> parse key = Ok (ps, ix) -> good h -> acc h from ->
  goto (IPath ps ix) h from false = (h', r) -> frame h h' /\ forall x, r = Ok x -> acc h' x.
Proof.
  intros key ps ix h from h' r N Ep G A E.
  assert (X : steps h h' /\ forall x, r = Ok x -> visit h' x).
  { destruct N as [Hp|N].
    - exact (goto_up steps steps_refl steps_trans visit visit_closed (visit_up Hp) _ _ _ _ _ _ (conj G A) E).
    - exact (goto_flat steps steps_refl steps_trans visit visit_closed ps ix h from h' r (N _ _ Ep) (conj G A) E). }
  destruct X as (X1 & X2). split; auto. intros x Hx. apply X2; auto.
Qed.
Lemma fr_struct_getitem : forall h o key h1 r, nav_ok key -> good h -> acc h o -> struct_getitem h o key = (h1, r) ->
  frame h h1 /\ forall c, r = Ok c -> acc h1 c.
Proof.
  intros h o key h1 r N G A. unfold struct_getitem. destruct (get h o) as [ob|]; [|intros E; inversion E; subst; split; auto; discriminate].
  destruct (child_meta key _); [intros E; eapply fr_getattr; eauto|]. destruct (parse key) as [(ps, ix)|] eqn:Ep; [|intros E; inversion E; subst; split; auto; discriminate].
  assert (X : forall q, (if q : bool then (h, Err EAttribute) else goto (IPath ps ix) h o false) = (h1, r) -> frame h h1 /\ forall c, r = Ok c -> acc h1 c).
  { intros [|] E; [inversion E; subst; split; auto; discriminate|]. eapply fr_goto; eauto. }
  intros E. destruct ps as [|n [|n' ps]]; [apply (X false E)| |apply (X false E)].
  destruct ix as [|[| | | |] [|]]; try apply (X false E). apply (X true E).
Qed.

Section WithCast.
Variable cast : dtype -> nat -> value -> result exn value.
Definition acc_arg (h : heap) (a : arg) : Prop := match a with AVal _ => True | ABuf b => accb h b | ANode q => acc h q end.
Lemma fr_store : forall h nd v h1 s, good h -> store h nd v = (h1, s) -> frame h h1 /\ acc_stored h1 s.
Proof.
  intros h [|nd] v h1 s G E; unfold store in E; [inversion E; subst; split; auto; exact I|].
  destruct (alloc_buf h v) as (h2, b) eqn:Eb. inversion E; subst h1 s.
  assert (E2 : h2 = fst (alloc_buf h v)) by now rewrite Eb.
  assert (b = nbuf h) by (unfold alloc_buf in Eb; inversion Eb; auto). subst b.
  split; [rewrite E2; now apply fr_alloc_buf|]. apply (new_accb h); auto. rewrite E2. simpl. rewrite app_length. simpl. lia.
Qed.
Lemma fr_cast_store : forall h dt nd v h1 r, good h ->
  match cast dt nd v with Ok w => let (h1, s1) := store h nd w in (h1, Ok s1) | Err e => (h, Err e) end = (h1, r) ->
  frame h h1 /\ forall s, r = Ok s -> acc_stored h1 s.
Proof.
  intros h dt nd v h1 r G. destruct (cast dt nd v) as [w|e]; [|intros E; inversion E; subst; split; auto; discriminate].
  destruct (store h nd w) as (h2, s1) eqn:Es. intros E. inversion E; subst. destruct (fr_store _ _ _ _ _ G Es) as (F & H). split; auto.
  intros s X. inversion X; subst; auto.
Qed.
Lemma fr_cast_stored : forall h dt nd s0 h1 r, good h -> acc_stored h s0 -> cast_stored cast h dt nd s0 = (h1, r) ->
  frame h h1 /\ forall s, r = Ok s -> acc_stored h1 s.
Proof.
  intros h dt nd s0 h1 r G A. unfold cast_stored. destruct (deref h s0) as [v|]; [|intros E; inversion E; subst; split; auto; discriminate].
  destruct nd as [|nd]; [now apply fr_cast_store|]. destruct s0 as [v0|b]; [now apply fr_cast_store|].
  destruct (is_array dt v); [|now apply fr_cast_store].
  destruct (_ =? _); intros E; inversion E; subst; split; auto; intros s X; inversion X; subst; auto.
Qed.
Lemma fr_setter : forall h dt nd a h1 r, good h -> acc_arg h a -> setter_value cast h dt nd a = (h1, r) ->
  frame h h1 /\ forall s, r = Ok s -> acc_stored h1 s.
Proof.
  intros h dt nd a h1 r G A. unfold setter_value. destruct a as [v|b|q].
  - now apply fr_cast_store.
  - now apply fr_cast_stored.
  - assert (Bad : forall e, (h, Err e) = (h1, r) -> frame h h1 /\ forall s, r = Ok s -> acc_stored h1 s) by (intros e E; inversion E; subst; split; auto; discriminate).
    destruct (get h q) as [qo|]; [|apply Bad]. destruct (o_body qo), (mkind (o_meta qo)); try apply Bad.
    destruct (prim_value h q) as (h2, r2) eqn:Ev. destruct (fr_value _ _ _ _ G A Ev) as (F & H).
    destruct r2 as [s|e]; [|intros E; inversion E; subst; split; auto; discriminate]. specialize (H s eq_refl).
    destruct (same_class _ _ _ _ && dtype_eqb _ _ && _); [intros E; inversion E; subst; split; auto; intros s' X; inversion X; subst; auto|].
    intros E. destruct (fr_cast_stored _ _ _ _ _ _ (fr_good _ _ F) H E) as (F2 & H2). split; auto. eapply frame_trans; eauto.
Qed.
Lemma fr_prim_set : forall h p a, good h -> acc h p -> acc_arg h a -> frame h (fst (prim_set cast h p a)).
Proof.
  intros h p a G A Aa. unfold prim_set. destruct (get h p) as [ob|]; auto. destruct (o_body ob), (mkind (o_meta ob)); auto.
  destruct (setter_value cast h dt ndim a) as (h1, r) eqn:E. destruct (fr_setter _ _ _ _ _ _ G Aa E) as (F & H). destruct r as [s|e]; auto. simpl.
  eapply frame_trans; [exact F|]. apply fr_set_prim; eauto using fr_good. intros s' X. destruct (match ndim with 0 => _ | _ => _ end); inversion X; subst; auto.
Qed.
Lemma frame_arg : forall h h' a, frame h h' -> acc_arg h a -> acc_arg h' a.
Proof. intros h h' [v|b|q] F; simpl; eauto. Qed.
Lemma fr_setattr : forall h o k a, good h -> acc h o -> acc_arg h a -> frame h (fst (setattr cast h o k a)).
Proof.
  intros h o k a G A Aa. unfold setattr. destruct (getattr h o k) as (h1, r) eqn:E. destruct (fr_getattr _ _ _ _ _ G A E) as (F & H).
  destruct r as [c|e]; auto. specialize (H c eq_refl). pose proof (frame_arg _ _ _ F Aa) as A1. pose proof (frame_acc _ _ _ F A) as A0.
  pose proof (fr_good _ _ F) as G1.
  destruct (get h1 c) as [at_|] eqn:Gc; auto.
  assert (Rep : forall v, acc h1 v -> frame h (fst (match get h1 o with
                          | Some ob => match o_body ob with
                                       | BStruct fs => (set_parent (set_body h1 o (BStruct (aset k v fs))) v o, @Ok exn _ tt)
                                       | _ => (h1, Err EAttribute)
                                       end
                          | None => (h1, Err EAttribute)
                          end))).
  { intros v Av. destruct (get h1 o) as [ob|] eqn:Go; auto. destruct (o_body ob) as [fs| |] eqn:Bo; auto. simpl. eapply frame_trans; [exact F|].
    assert (F2 : frame h1 (set_body h1 o (BStruct (aset k v fs)))).
    { apply fr_set_body; auto; [|discriminate]. intros [k'|i] z I; [|destruct I]. simpl in I. apply in_aset_cases in I as [->|I]; auto.
      eapply (body_acc h1 o (BStruct fs) (Child k')); auto. rewrite <- Bo. now apply body_of_get. }
    eapply frame_trans; [exact F2|]. apply fr_set_parent; eauto using fr_good. }
  destruct (o_body at_).
  - destruct a as [|b|q]; auto. destruct (get h1 q) as [vo|]; auto. destruct (o_body vo); auto. destruct (strs_eqb _ _); auto.
  - destruct a as [|b|q]; auto. destruct (get h1 q) as [vo|]; auto. destruct (o_body vo); auto. destruct (strs_eqb _ _); auto.
  - eapply frame_trans; [exact F|]. now apply fr_prim_set.
Qed.
Lemma fr_struct_setitem : forall h o key a, par = true -> good h -> acc h o -> acc_arg h a -> frame h (fst (struct_setitem cast h o key a)).
Proof.
  intros h o key a Hp G A Aa. unfold struct_setitem. destruct (get h o) as [ob|]; auto.
  destruct (child_meta key _); [now apply fr_setattr|]. destruct (parse key) as [(ps, ix)|] eqn:Ep; auto.
  destruct (goto (IPath ps ix) h o false) as (h1, r) eqn:E. destruct (fr_goto _ _ _ _ _ _ _ (or_introl Hp) Ep G A E) as (F & H).
  pose proof (frame_arg _ _ _ F Aa) as A1. pose proof (fr_good _ _ F) as G1.
  assert (X : frame h (fst (match r with
                | Err e => (h1, Err e)
                | Ok z =>
                  match get h1 z with
                  | None => (h1, Err EAttribute)
                  | Some xo =>
                    match o_body xo with
                    | BPrim _ => prim_set cast h1 z a
                    | _ => match o_parent xo with
                           | None => (h1, Err EType)
                           | Some p => match get h1 p with
                                       | Some po => match o_body po with
                                                    | BAoS _ => (h1, Err EValue)
                                                    | BStruct _ => match ps with
                                                                   | [] => (h1, Err EIndex)
                                                                   | _ => setattr cast h1 p (last ps []) a
                                                                   end
                                                    | BPrim _ => (h1, Err EType)
                                                    end
                                       | None => (h1, Err EType)
                                       end
                           end
                    end
                  end
                end))).
  { destruct r as [z|e]; auto. specialize (H z eq_refl). destruct (get h1 z) as [xo|] eqn:Gz; auto.
    assert (Hpa : forall p, o_parent xo = Some p -> acc h1 p) by (intros p X; eapply (parent_acc h1 z); eauto; unfold parent; now rewrite Gz).
    destruct (o_body xo).
    1,2: destruct (o_parent xo) as [p|]; auto; destruct (get h1 p) as [po|]; auto; destruct (o_body po); auto; destruct ps; auto;
         eapply frame_trans; [exact F|]; apply fr_setattr; auto.
    eapply frame_trans; [exact F|]. now apply fr_prim_set. }
  destruct ps as [|n [|n' ps]]; try exact X. destruct ix as [|i [|i' ix]]; try exact X; destruct i; try exact X. auto.
Qed.

(** ** Deep copies *)
Lemma fr_copy : forall f h x h' me y, good h -> acc h x -> deepcopy f h empty_memo x = Some (h', me, y) -> frame h h' /\ acc h' y.
Proof.
  intros f h x h' me y G A E. assert (M : memo_in (nobj h) (nbuf h) h empty_memo) by (split; intros v (k & [])).
  pose proof (deepcopy_ext _ _ _ _ _ _ _ _ _ (le_n _) (le_n _) M E) as (X & Hy & Hy2 & Hp & Hpy).
  pose proof (e_len _ _ _ _ _ _ X) as L. pose proof (ext_lenb _ _ _ _ _ _ X) as Lb.
  assert (Old : forall z, z < nobj h -> get h' z = get h z) by (exact (e_old _ _ _ _ _ _ X)).
  assert (NP : forall z, nobj h <= z -> ~ P z) by (intros z Lz Hz; pose proof (gd_P _ G _ Hz); lia).
  assert (NQ : forall z, nbuf h <= z -> ~ Q z) by (intros z Lz Hz; pose proof (gd_Q _ G _ Hz); lia).
  destruct (e_bufs _ _ _ _ _ _ X) as (lb & Eb).
  assert (Gh' : good h').
  { constructor.
    - intros c s z Sl. apply slot_iff in Sl as (b & B & I). destruct (Nat.lt_ge_cases c (nobj h)) as [Lc|Lc].
      + unfold body_of in B. rewrite Old in B by auto. assert (Sl : slot h c s z) by (apply slot_iff; exists b; auto).
        destruct (gd_slot _ G _ _ _ Sl). split; [lia|auto].
      + apply get_body_of in B as (ob & Gc & <-). destruct (e_new _ _ _ _ _ _ X _ _ Lc Gc) as (_ & H & _). destruct (H _ _ I) as (Lz & [Lz'|(k & [])]).
        split; auto. split; intros Hz; [elim (NP c Lc Hz)|elim (NP z Lz' Hz)].
    - intros z b B. destruct (Nat.lt_ge_cases z (nobj h)) as [Lc|Lc].
      + unfold body_of in B. rewrite Old in B by auto. destruct (gd_buf _ G z b B). split; [lia|auto].
      + apply get_body_of in B as (ob & Gc & Bb). destruct (e_new _ _ _ _ _ _ X _ _ Lc Gc) as (_ & _ & H & _). specialize (H b Bb).
        split; [lia|]. split; intros Hz; [elim (NP z Lc Hz)|elim (NQ b ltac:(lia) Hz)].
    - intros Hpar z p Pz. destruct (Nat.lt_ge_cases z (nobj h)) as [Lc|Lc].
      + unfold parent in Pz. rewrite Old in Pz by auto. destruct (gd_par _ G Hpar z p Pz). split; [lia|auto].
      + assert (Lz : z < nobj h') by (unfold parent in Pz; destruct (get h' z) eqn:Gz; [eapply get_lt; eauto|discriminate]).
        destruct (Nat.eq_dec z y) as [->|Nz].
        * specialize (Hpy Lc). rewrite Hpy in Pz. destruct (parent_acc _ _ _ Hpar G A Pz) as (Lp & Np). split; [lia|]. split; intros Hz; [elim (NP y Lc Hz)|contradiction].
        * destruct (Hp z (conj Lc Lz) (not_eq_sym Nz)) as (q & Pq & Lq). rewrite Pq in Pz. inversion Pz; subst q. split; [lia|]. split; intros Hz; [elim (NP z Lc Hz)|elim (NP p ltac:(lia) Hz)].
    - intros z Hz. pose proof (gd_P _ G _ Hz). lia.
    - intros z Hz. pose proof (gd_Q _ G _ Hz). lia. }
  split; [constructor; auto|].
  - intros z Hz. apply Old. exact (gd_P _ G _ Hz).
  - intros b Hb. rewrite Eb. rewrite nth_error_app1; auto. exact (gd_Q _ G _ Hb).
  - apply (new_acc h); auto. destruct Hy2 as [Hy2|(k & [])]. lia.
Qed.

(** ** Programs *)
Definition acc_hnd (h : heap) (x : hnd) : Prop := match x with HO z => acc h z | HB b => accb h b end.
Definition nav_op {R} (o : op R) : Prop :=
  match o with OGetPath _ key => nav_ok key | OSetPath _ _ _ => par = true | _ => True end.
Lemma frame_hnd : forall h h' x, frame h h' -> acc_hnd h x -> acc_hnd h' x.
Proof. intros h h' [z|b] F; simpl; eauto. Qed.
Lemma oids_all : forall (A : hnd -> Prop) vs l, oids vs = Some l -> Forall A vs -> Forall (fun x => A (HO x)) l.
Proof.
  intros A. induction vs as [|[v|b] vs IH]; simpl; intros l E F; inversion E; subst; auto. destruct (oids vs) as [l'|]; simpl in *; inversion E; subst.
  inversion F; subst. constructor; auto.
Qed.
Lemma fr_arg : forall h a, arg_all (acc_hnd h) a -> acc_arg h (arg_of a).
Proof. intros h [v|[x|b]]; simpl; auto. Qed.
Lemma exec_frame : forall h o h1 r, good h -> nav_op o -> op_all (acc_hnd h) o -> exec cast h o = (h1, r) ->
  frame h h1 /\ forall x, r = Ok (Some x) -> acc_hnd h1 x.
Proof.
  intros h o h1 r G N A.
  assert (Bad : forall e, (h, Err e) = (h1, r) -> frame h h1 /\ forall x, r = Ok (Some x) -> acc_hnd h1 x) by (intros e E; inversion E; subst; split; auto; discriminate).
  assert (Uret : forall p, frame h (fst p) -> uret p = (h1, r) -> frame h h1 /\ forall x, r = Ok (Some x) -> acc_hnd h1 x).
  { intros (hp, rp) F E. unfold uret in E. simpl in *. inversion E; subst. split; auto. intros x X. destruct rp; discriminate. }
  assert (Hret : forall hp rp, (frame h hp /\ forall c, rp = Ok c -> acc hp c) -> hret (hp, rp) = (h1, r) -> frame h h1 /\ forall x, r = Ok (Some x) -> acc_hnd h1 x).
  { intros hp rp (F & H) E. unfold hret in E. simpl in *. inversion E; subst. split; auto. intros x X. destruct rp; inversion X; subst. simpl. auto. }
  destruct o as [x name|x key a|x i|x i v|x vs|x n keep|p|p a|b v|v|m|x key|x key a|f x]; cbn [exec]; simpl in A;
    try (destruct x as [x|bx]; [|exact (Bad EType)]); try (destruct p as [p|bp]; [|exact (Bad EType)]); try (destruct b as [xb|b]; [exact (Bad EType)|]).
  - destruct (getattr h x name) as (hp, rp) eqn:E. apply Hret. eapply fr_getattr; eauto.
  - destruct A. apply Uret. apply fr_setattr; auto. now apply fr_arg.
  - destruct (aos_getitem h x i) as (hp, rp) eqn:E. apply Hret. eapply fr_getitem; eauto.
  - destruct v as [v|b]; [|exact (Bad EType)]. destruct A. apply Uret. now apply fr_setitem.
  - destruct A as (A1 & A2). destruct (oids vs) as [l|] eqn:El; [|exact (Bad EType)]. apply Uret. apply fr_append; auto. exact (oids_all _ _ _ El A2).
  - apply Uret. now apply fr_resize.
  - destruct (prim_value h p) as (hp, rp) eqn:E. destruct (fr_value _ _ _ _ G A E) as (F & H). intros X. inversion X; subst. split; auto.
    intros y Y. destruct rp as [[w|b]|e]; inversion Y; subst. exact (H _ eq_refl).
  - destruct A. apply Uret. apply fr_prim_set; auto. now apply fr_arg.
  - intros X. inversion X; subst. split; [|discriminate]. apply fr_set_buf; auto. apply A.
  - destruct (alloc_buf h v) as (h2, b) eqn:Eb. intros X. inversion X; subst.
    assert (E2 : h1 = fst (alloc_buf h v)) by now rewrite Eb.
    assert (b = nbuf h) by (unfold alloc_buf in Eb; inversion Eb; auto). subst b. split; [rewrite E2; now apply fr_alloc_buf|].
    intros y Y. inversion Y; subst y. apply (new_accb h); auto. rewrite E2. simpl. rewrite app_length. simpl. lia.
  - destruct (alloc h (new_top m)) as (h2, b) eqn:Eb. intros X. inversion X; subst.
    assert (E2 : h1 = fst (alloc h (new_top m))) by now rewrite Eb.
    assert (b = nobj h) by (unfold alloc in Eb; inversion Eb; auto). subst b. split.
    + rewrite E2. apply fr_alloc; auto; simpl; try discriminate. intros [k|i] z; simpl; auto.
    + intros y Y. inversion Y; subst y. apply (new_acc h); auto. rewrite E2, len_alloc. lia.
  - destruct (struct_getitem h x key) as (hp, rp) eqn:E. apply Hret. eapply fr_struct_getitem; eauto.
  - destruct A. apply Uret. apply fr_struct_setitem; auto. now apply fr_arg.
  - destruct (deepcopy f h empty_memo x) as [((h2, me), y)|] eqn:E; [|apply Bad]. destruct (fr_copy _ _ _ _ _ _ G A E) as (F & H).
    intros X. inversion X; subst. split; auto. intros z Z. inversion Z; subst. exact H.
Qed.
Lemma resolve_all : forall (A : hnd -> Prop) regs o o', Forall A regs -> resolve regs o = Some o' -> op_all A o'.
Proof.
  intros A regs o o' F. rewrite Forall_forall in F.
  assert (One : forall r x, nth_error regs r = Some x -> A x) by (intros r x N; apply F; eapply nth_error_In; eauto).
  assert (Arg : forall a a', resolve_arg regs a = Some a' -> arg_all A a').
  { intros [v|r] a' E; simpl in E; [inversion E; exact I|]. destruct (nth_error regs r) eqn:N; inversion E; subst. simpl. eauto. }
  assert (Lst : forall l l', resolve_list regs l = Some l' -> Forall A l').
  { induction l as [|r l IH]; simpl; intros l' E; [inversion E; constructor|]. destruct (nth_error regs r) eqn:N; [|discriminate].
    unfold resolve_list in *. destruct (fold_right _ _ l); inversion E; subst. constructor; eauto. }
  destruct o; simpl; intros E; repeat match goal with
    | H : option_map _ (nth_error regs ?r) = Some _ |- _ => destruct (nth_error regs r) eqn:?; simpl in H; inversion H; subst; clear H
    | H : match nth_error regs ?r with Some _ => _ | None => _ end = Some _ |- _ => destruct (nth_error regs r) eqn:?; [|discriminate]
    | H : match resolve_arg regs ?r with Some _ => _ | None => _ end = Some _ |- _ => destruct (resolve_arg regs r) eqn:?; [|discriminate]
    | H : match resolve_list regs ?r with Some _ => _ | None => _ end = Some _ |- _ => destruct (resolve_list regs r) eqn:?; [|discriminate]
    | H : Some _ = Some _ |- _ => inversion H; subst; clear H
    end; simpl; eauto.
Qed.
Lemma resolve_nav : forall regs o o', resolve regs o = Some o' -> nav_op o -> nav_op o'.
Proof.
  intros regs o o' E. destruct o; simpl in E; repeat match goal with
    | H : option_map _ (nth_error regs ?r) = Some _ |- _ => destruct (nth_error regs r) eqn:?; simpl in H; inversion H; subst; clear H
    | H : match nth_error regs ?r with Some _ => _ | None => _ end = Some _ |- _ => destruct (nth_error regs r) eqn:?; [|discriminate]
    | H : match resolve_arg regs ?r with Some _ => _ | None => _ end = Some _ |- _ => destruct (resolve_arg regs r) eqn:?; [|discriminate]
    | H : match resolve_list regs ?r with Some _ => _ | None => _ end = Some _ |- _ => destruct (resolve_list regs r) eqn:?; [|discriminate]
    | H : Some _ = Some _ |- _ => inversion H; subst; clear H
    end; simpl; auto.
Qed.
Lemma run_frame : forall prog h regs h' regs', good h -> Forall (acc_hnd h) regs -> Forall nav_op prog -> run cast h regs prog = (h', regs') -> frame h h'.
Proof.
  induction prog as [|o prog IH]; intros h regs h' regs' G A N E; simpl in E; [inversion E; subst; auto|]. inversion N; subst.
  destruct (resolve regs o) as [o'|] eqn:R; [|eauto]. destruct (exec cast h o') as (h1, r) eqn:Ex.
  destruct (exec_frame _ _ _ _ G (resolve_nav _ _ _ R H1) (resolve_all _ _ _ _ A R) Ex) as (F & H).
  assert (A1 : Forall (acc_hnd h1) regs) by (eapply Forall_impl; [|exact A]; intros x; now apply frame_hnd).
  eapply frame_trans; [exact F|]. eapply IH; [exact (fr_good _ _ F)| |exact H2|exact E]. destruct r as [[x|]|e]; auto. apply Forall_app. split; auto.
Qed.
End WithCast.

(** ** Contents of protected nodes *)
Lemma abs_protected_gen : forall h h', good h -> (forall z, P z -> get h' z = get h z) -> (forall b, Q b -> nth_error (h_bufs h') b = nth_error (h_bufs h) b) ->
  (forall x n, abs h x n -> P x -> abs h' x n) /\
  (forall fs ns, abs_fs h fs ns -> (forall k x, In (k, x) fs -> P x) -> abs_fs h' fs ns) /\
  (forall els ns, abs_els h els ns -> (forall x, In x els -> P x) -> abs_els h' els ns).
Proof.
  intros h h' G HP HQ. apply abs_mutind.
  - intros x ob fs fs' nfs Gx B Pm _ IH Px. apply abs_struct with (ob := ob) (fs := fs) (fs' := fs'); auto; [now rewrite HP|].
    apply IH. intros k z I. apply Permutation_in with (l' := fs) in I; [|now apply Permutation_sym].
    assert (Sl : slot h x (Child k) z) by (econstructor; eauto). apply (gd_slot _ G _ _ _ Sl). auto.
  - intros x ob els ns Gx B _ IH Px. apply abs_aos with (ob := ob) (els := els); auto; [now rewrite HP|].
    apply IH. intros z I. apply In_nth_error in I as (i & I). assert (Sl : slot h x (Elem i) z) by (econstructor; eauto). apply (gd_slot _ G _ _ _ Sl). auto.
  - intros x ob Gx B Px. apply abs_unset with (ob := ob); auto. now rewrite HP.
  - intros x ob v Gx B Px. apply abs_imm with (ob := ob); auto. now rewrite HP.
  - intros x ob b v Gx B Nb Px. apply abs_buf with (ob := ob) (b := b); auto; [now rewrite HP|]. rewrite HQ; auto.
    apply (gd_buf _ G x b); auto. rewrite (body_of_get _ _ _ Gx). now rewrite B.
  - intros _. constructor.
  - intros k x n t nt _ IH1 _ IH2 H. constructor; [apply IH1; apply (H k); now left|apply IH2; intros k' z I; apply (H k'); now right].
  - intros _. constructor.
  - intros x n t nt _ IH1 _ IH2 H. constructor; [apply IH1; apply H; now left|apply IH2; intros z I; apply H; now right].
Qed.
Lemma abs_protected : forall h h' x n, good h -> frame h h' -> P x -> (abs h x n <-> abs h' x n).
Proof.
  intros h h' x n G F Px. split; intros A.
  - exact (proj1 (abs_protected_gen h h' G (fr_P _ _ F) (fr_Q _ _ F)) x n A Px).
  - refine (proj1 (abs_protected_gen h' h (fr_good _ _ F) _ _) x n A Px); [intros z Hz; symmetry; now apply (fr_P _ _ F)|intros z Hz; symmetry; now apply (fr_Q _ _ F)].
Qed.
End Frame.
