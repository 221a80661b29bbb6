(** Deep copies: contents, and the invariants. *)
From Coq Require Import Permutation.
From Verif Require Import Base TreeModel TreeSpec TreeProofs TreeProofs4 PathModel HeapModel HeapSpec HeapProofs HeapProofs2 HeapProofs3 HeapProofs4
  HeapProofs5 HeapProofs6.

(** ** Contents *)
Lemma abs_mono : forall h h', (forall z b, body_of h z = Some b -> body_of h' z = Some b) -> (exists l, h_bufs h' = h_bufs h ++ l) ->
  (forall x n, abs h x n -> abs h' x n) /\ (forall fs ns, abs_fs h fs ns -> abs_fs h' fs ns) /\ (forall es ns, abs_els h es ns -> abs_els h' es ns).
Proof.
  intros h h' Hb (l & Hl).
  assert (X : forall x ob b, get h x = Some ob -> o_body ob = b -> exists ob', get h' x = Some ob' /\ o_body ob' = b).
  { intros x ob b G B. apply get_body_of. apply Hb. rewrite (body_of_get _ _ _ G). now rewrite B. }
  apply (abs_mutind h (fun x n => abs h' x n) (fun fs ns => abs_fs h' fs ns) (fun es ns => abs_els h' es ns)).
  - intros x ob fs fs' nfs G B P _ IH. destruct (X _ _ _ G B) as (ob' & G' & B'). eapply abs_struct; eauto.
  - intros x ob els ns G B _ IH. destruct (X _ _ _ G B) as (ob' & G' & B'). eapply abs_aos; eauto.
  - intros x ob G B. destruct (X _ _ _ G B) as (ob' & G' & B'). eapply abs_unset; eauto.
  - intros x ob v G B. destruct (X _ _ _ G B) as (ob' & G' & B'). eapply abs_imm; eauto.
  - intros x ob b v G B N. destruct (X _ _ _ G B) as (ob' & G' & B'). eapply abs_buf; eauto. rewrite Hl. rewrite nth_error_app1; auto.
    apply nth_error_Some. congruence.
  - constructor.
  - intros. constructor; auto.
  - constructor.
  - intros. constructor; auto.
Qed.
Lemma abs_unref : forall h y b, (forall c, ~ contained h c y) -> forall x n, abs h x n -> x <> y -> abs (set_body h y b) x n.
Proof.
  intros h y b U x n A.
  assert (Ct : forall c ob fs k z, get h c = Some ob -> o_body ob = BStruct fs -> In (k, z) fs -> z <> y).
  { intros c ob fs k z G B I ->. apply (U c). exists (Child k). econstructor; eauto. }
  assert (Ct' : forall c ob els z, get h c = Some ob -> o_body ob = BAoS els -> In z els -> z <> y).
  { intros c ob els z G B I ->. apply In_nth_error in I as (i & I). apply (U c). exists (Elem i). eapply slot_elem; eauto. }
  assert (Gs : forall z ob, get h z = Some ob -> z <> y -> get (set_body h y b) z = Some ob).
  { intros z ob G N. rewrite get_set_body. destruct (Nat.eqb_spec y z); [congruence|auto]. }
  revert x n A.
  apply (abs_ind3 h (fun x n => x <> y -> abs (set_body h y b) x n)
           (fun fs ns => (forall k z, In (k, z) fs -> z <> y) -> abs_fs (set_body h y b) fs ns)
           (fun es ns => (forall z, In z es -> z <> y) -> abs_els (set_body h y b) es ns)).
  - intros x ob fs fs' nfs G B P _ IH N. eapply abs_struct; eauto. apply IH. intros k z I. apply (Ct x ob fs k z G B).
    eapply Permutation_in; [apply Permutation_sym; exact P|exact I].
  - intros x ob els ns G B _ IH N. eapply abs_aos; eauto.
  - intros x ob G B N. eapply abs_unset; eauto.
  - intros x ob v G B N. eapply abs_imm; eauto.
  - intros x ob bf v G B Nb N. eapply abs_buf; eauto. now rewrite bufs_set_body.
  - constructor.
  - intros k x n t nt A IH _ IHt H. constructor; [apply IH|apply IHt]; intros; eapply H; simpl; eauto.
  - constructor.
  - intros x n t nt A IH _ IHt H. constructor; [apply IH|apply IHt]; intros; apply H; simpl; auto.
Qed.

Lemma alookup_iff : forall {V} k (v : V) l, NoDup (akeys l) -> (alookup k l = Some v <-> In (k, v) l).
Proof.
  intros V k v l Hn. split; [apply alookup_In|]. induction l as [|[k' v'] l IH]; simpl; [tauto|]. inversion Hn as [|? ? N1 N2]; subst.
  intros [E|I].
  - inversion E; subst. now rewrite str_eqb_refl.
  - destruct (str_eqb k k') eqn:E; [|auto]. apply str_eqb_eq in E; subst. elim N1. apply in_map_iff. exists (k', v). auto.
Qed.
Lemma nodup_pairs : forall {V} (l : list (str * V)), NoDup (akeys l) -> NoDup l.
Proof. intros V l H. unfold akeys in H. now apply NoDup_map_inv in H. Qed.
Lemma ordered_perm : forall m fs, wf_meta m -> NoDup (akeys fs) -> (forall k, In k (akeys fs) -> exists c, child_meta k (mchildren m) = Some c) ->
  Permutation (ordered_fields m fs) fs.
Proof.
  intros m fs W Hn Hk. apply NoDup_Permutation.
  - apply nodup_pairs. now apply ordered_keys_nodup.
  - now apply nodup_pairs.
  - intros (k, x). rewrite ordered_in, alookup_iff by auto. split; [tauto|]. intros I. split; auto.
    destruct (Hk k) as (c & Hc); [apply in_map_iff; exists (k, x); auto|]. apply child_meta_Some in Hc as (Hc & <-). eauto.
Qed.
Lemma Forall2_perm : forall {A B} (R : A -> B -> Prop) l l', Permutation l l' -> forall r, Forall2 R l r -> exists r', Permutation r r' /\ Forall2 R l' r'.
Proof.
  intros A B R l l' P. induction P; intros r F.
  - inversion F; subst. exists []. auto.
  - inversion F; subst. destruct (IHP _ H3) as (r' & Pr & Fr). exists (y :: r'). auto.
  - inversion F; subst. inversion H3; subst. eexists. split; [apply perm_swap|]. auto.
  - destruct (IHP1 _ F) as (r1 & P3 & F1). destruct (IHP2 _ F1) as (r2 & P4 & F2). exists r2. split; auto. eapply perm_trans; eauto.
Qed.

Section Contents.
Variable h0 : heap.
Let n0 := nobj h0.
Let m0 := nbuf h0.
Definition closed (h : heap) : Prop := forall c s z, slot h c s z -> z < nobj h.
Definition shaped (h : heap) : Prop := forall x ob, get h x = Some ob -> wf_meta (o_meta ob) /\ keys_good (o_meta ob) (o_body ob).
Hypothesis C0 : closed h0.
Hypothesis S0 : shaped h0.

Definition over (h : heap) : Prop := n0 <= nobj h /\ m0 <= nbuf h /\ (forall z, z < n0 -> get h z = get h0 z) /\ exists l, h_bufs h = h_bufs h0 ++ l.
Definition same (h : heap) (x y : oid) : Prop := forall n, abs h0 x n -> abs h y n.
Definition complete (h : heap) (me : memo) : Prop :=
  (forall k v, nlookup k (mo me) = Some v -> same h k v) /\
  (forall b b' v, nlookup b (mb me) = Some b' -> nth_error (h_bufs h0) b = Some v -> nth_error (h_bufs h) b' = Some v).

Lemma ext_bodies : forall h me h' me', ext n0 m0 h me h' me' -> forall z b, body_of h z = Some b -> body_of h' z = Some b.
Proof.
  intros h me h' me' E z b B. apply get_body_of in B as (ob & G & <-). destruct (e_mid _ _ _ _ _ _ E _ _ G) as (ob' & G' & _ & _ & <- & _).
  now apply body_of_get.
Qed.
Lemma ext_abs : forall h me h' me', ext n0 m0 h me h' me' -> forall x n, abs h x n -> abs h' x n.
Proof. intros h me h' me' E. apply abs_mono; [eapply ext_bodies; eauto|eapply e_bufs; eauto]. Qed.
Lemma ext_complete : forall h me h' me', ext n0 m0 h me h' me' -> complete h me -> complete h' me.
Proof.
  intros h me h' me' E (H1 & H2). split.
  - intros k v L n A. eapply ext_abs; eauto. apply (H1 k v L n A).
  - intros b b' v L N. destruct (e_bufs _ _ _ _ _ _ E) as (l & ->). rewrite nth_error_app1; eauto. apply nth_error_Some. now rewrite (H2 _ _ _ L N).
Qed.
Lemma ext_over : forall h me h' me', ext n0 m0 h me h' me' -> over h -> over h'.
Proof.
  intros h me h' me' E (L & Lb & O & l & B). pose proof (e_len _ _ _ _ _ _ E). pose proof (ext_lenb _ _ _ _ _ _ E).
  split; [lia|]. split; [lia|]. split; [intros z Hz; rewrite (e_old _ _ _ _ _ _ E); auto|].
  destruct (e_bufs _ _ _ _ _ _ E) as (l' & ->). exists (l ++ l'). now rewrite B, app_assoc.
Qed.
Lemma ext_closed : forall h me h' me', ext n0 m0 h me h' me' -> closed h -> closed h'.
Proof.
  intros h me h' me' E C c s z Hs. apply slot_iff in Hs as (b & B & I). pose proof (e_len _ _ _ _ _ _ E).
  destruct (Nat.lt_ge_cases c (nobj h)) as [L|L].
  - destruct (get_some h c L) as (ob & G). destruct (e_mid _ _ _ _ _ _ E _ _ G) as (ob' & G' & _ & _ & Eb & _).
    rewrite (body_of_get _ _ _ G') in B. inversion B; subst b. rewrite Eb in I.
    assert (z < nobj h); [|lia]. apply (C c s z). apply slot_iff. exists (o_body ob). split; auto. now apply body_of_get.
  - apply get_body_of in B as (ob & G & <-). apply (e_new _ _ _ _ _ _ E _ _ L G) in I. tauto.
Qed.
Lemma same_ext : forall h me h' me' x y, ext n0 m0 h me h' me' -> same h x y -> same h' x y.
Proof. intros h me h' me' x y E H n A. eapply ext_abs; eauto. Qed.
Lemma closed_set_parent : forall h y p, closed h -> closed (set_parent h y p).
Proof. intros h y p C c s z Hs. apply slot_set_parent in Hs. rewrite len_set_parent. eauto. Qed.
Lemma abs_set_parent : forall h y p x n, abs h x n -> abs (set_parent h y p) x n.
Proof.
  intros h y p. apply abs_mono; [intros z b; now rewrite body_of_set_parent|]. exists []. now rewrite bufs_set_parent, app_nil_r.
Qed.
Lemma complete_set_parent : forall h me y p, complete h me -> complete (set_parent h y p) me.
Proof.
  intros h me y p (H1 & H2). split; [|now rewrite bufs_set_parent]. intros k v L n A. apply abs_set_parent. apply (H1 k v L n A).
Qed.

Definition contents_ok (h : heap) (me : memo) (x : oid) (h' : heap) (me' : memo) (y : oid) : Prop := complete h' me' /\ same h' x y.

Lemma copy_list_contents : forall rec,
  (forall h me x h' me' y, n0 <= nobj h -> m0 <= nbuf h -> memo_in n0 m0 h me -> rec h me x = Some (h', me', y) ->
     copy_ok n0 m0 h me x h' me' y) ->
  (forall h me x h' me' y, over h -> closed h -> memo_in n0 m0 h me -> complete h me -> x < n0 -> rec h me x = Some (h', me', y) ->
     complete h' me' /\ same h' x y) ->
  forall xs p h me h' me' ys, over h -> closed h -> memo_in n0 m0 h me -> complete h me -> n0 <= p < nobj h -> (forall x, In x xs -> x < n0) ->
  copy_list rec p h me xs = Some (h', me', ys) -> complete h' me' /\ Forall2 (same h') xs ys.
Proof.
  intros rec Hrec Hc. induction xs as [|x xs IH]; intros p h me h' me' ys O C M K Hp Hx E; cbn [copy_list] in E.
  - injection E as <- <- <-. auto.
  - destruct (rec h me x) as [((h1, me1), y)|] eqn:E1; [|discriminate]. pose proof O as (On & Om & _ & _).
    destruct (Hrec _ _ _ _ _ _ On Om M E1) as (X1 & Ly & My & _). pose proof (e_len _ _ _ _ _ _ X1) as L1.
    destruct (Hc _ _ _ _ _ _ O C M K (Hx x (or_introl eq_refl)) E1) as (K1 & S1).
    assert (Hy : n0 <= y). { destruct My as [My|My]; [lia|]. apply M in My. lia. }
    assert (X1' : ext n0 m0 h me (set_parent h1 y p) me1) by (apply ext_set_parent; auto; lia).
    destruct (copy_list rec p (set_parent h1 y p) me1 xs) as [((h2, me2), ys')|] eqn:E2; [|discriminate]. injection E as <- <- <-.
    assert (M1 : memo_in n0 m0 (set_parent h1 y p) me1) by (eapply ext_memo_in; eauto).
    assert (O1 : over (set_parent h1 y p)) by (eapply ext_over; eauto).
    assert (C1 : closed (set_parent h1 y p)) by (eapply ext_closed; eauto).
    assert (Hp1 : n0 <= p < nobj (set_parent h1 y p)) by (rewrite len_set_parent; lia).
    assert (Hx1 : forall z, In z xs -> z < n0) by (intros; apply Hx; simpl; auto).
    pose proof (copy_list_ext rec n0 m0 Hrec xs p _ _ _ _ _ (proj1 O1) (proj1 (proj2 O1)) M1 Hp1 E2) as (X2 & _).
    apply IH in E2 as (K2 & F2); auto; [|now apply complete_set_parent].
    split; auto. constructor; auto. intros n A. eapply ext_abs; [exact X2|]. apply abs_set_parent. auto.
Qed.

Lemma complete_memo : forall h me x y, complete h me -> same h x y -> complete h (memo_obj me x y).
Proof.
  intros h me x y (H1 & H2) S. split; auto. intros k v. simpl. destruct (Nat.eqb_spec k x) as [->|]; [intros L; inversion L; subst; auto|auto].
Qed.

Lemma deepcopy_contents : forall f h me x h' me' y, over h -> closed h -> memo_in n0 m0 h me -> complete h me -> x < n0 ->
  deepcopy f h me x = Some (h', me', y) -> complete h' me' /\ same h' x y.
Proof.
  induction f as [|f IH]; intros h me x h' me' y O C M K Hx E; [discriminate|]. pose proof E as E0. cbn [deepcopy] in E.
  pose proof O as (On & Om & Oo & lb & Ob).
  destruct (nlookup x (mo me)) as [y0|] eqn:Lk.
  { injection E as <- <- <-. split; auto. apply (proj1 K). auto. }
  pose proof (deepcopy_ext _ _ _ _ _ _ _ _ _ On Om M E0) as (X0 & _).
  destruct (get h x) as [ob|] eqn:G; [|discriminate]. pose proof G as G0. rewrite Oo in G0 by auto.
  assert (Inv0 : forall n, abs h0 x n -> match o_body ob with
            | BStruct fs => exists fs' nfs, n = NStruct nfs /\ Permutation fs fs' /\ abs_fs h0 fs' nfs
            | BAoS els => exists ns, n = NAoS ns /\ abs_els h0 els ns
            | BPrim None => n = NLeaf None
            | BPrim (Some (SImm v)) => n = NLeaf (Some v)
            | BPrim (Some (SBuf b)) => exists v, n = NLeaf (Some v) /\ nth_error (h_bufs h0) b = Some v
            end).
  { intros n A. inversion A; subst; match goal with H : get h0 x = Some _ |- _ => rewrite G0 in H; inversion H; subst end;
      match goal with H : o_body _ = _ |- _ => rewrite H end; eauto. }
  destruct (S0 x ob G0) as (W & Kg).
  assert (Node : forall (xs : list oid) b0 h2 me2 ys, (forall s z, ~ in_body b0 s z) -> same_kind b0 (o_body ob) -> keys_good (o_meta ob) b0 ->
     (forall bf, b0 <> BPrim (Some (SBuf bf))) -> (forall z, In z xs -> z < n0) ->
     copy_list (deepcopy f) (nobj h) (fst (alloc h (copy_of ob b0))) me xs = Some (h2, me2, ys) ->
     forall b, complete (set_body h2 (nobj h) b) me2 /\ Forall2 (same (set_body h2 (nobj h) b)) xs ys).
  { intros xs b0 h2 me2 ys He0 K0 Kg0 Hb0 Hxs E2 b. set (h1 := fst (alloc h (copy_of ob b0))) in *.
    assert (X1 : ext n0 m0 h me h1 me).
    { assert (X : ext n0 m0 h me h1 (memo_obj me x (nobj h))).
      { eapply ext_alloc; eauto using ext_refl. intros bf X. elim (Hb0 bf X). }
      destruct X as [a1 a2 a3 a4 a5 a6 a7]. constructor; auto. }
    assert (O1 : over h1) by (eapply ext_over; eauto).
    assert (C1 : closed h1) by (eapply ext_closed; eauto).
    assert (M1 : memo_in n0 m0 h1 me) by (eapply ext_memo_in; eauto).
    assert (K1 : complete h1 me) by (eapply ext_complete; eauto).
    assert (L1 : nobj h1 = S (nobj h)) by apply len_alloc.
    assert (Hp : n0 <= nobj h < nobj h1) by lia.
    pose proof (copy_list_ext (deepcopy f) n0 m0 (fun h me x h' me' y => deepcopy_ext f n0 m0 h me x h' me' y) xs _ _ _ _ _ _
                  (proj1 O1) (proj1 (proj2 O1)) M1 Hp E2) as (X2 & Len & Hys & _).
    apply copy_list_contents in E2 as (K2 & F2); auto.
    2:{ intros. eapply deepcopy_ext; eauto. }
    assert (U : forall c, ~ contained h2 c (nobj h)).
    { intros c (s & Hs). apply slot_iff in Hs as (bc & Bc & I). apply get_body_of in Bc as (oc & Gc & <-).
      destruct (Nat.lt_ge_cases c (nobj h1)) as [L|L].
      - destruct (get_some h1 c L) as (o1 & G1). destruct (e_mid _ _ _ _ _ _ X2 _ _ G1) as (o2 & G2 & _ & _ & Eb & _).
        rewrite G2 in Gc. inversion Gc; subst o2. rewrite Eb in I.
        assert (Sl : slot h1 c s (nobj h)) by (apply slot_iff; exists (o_body o1); split; auto; now apply body_of_get).
        apply slot_alloc in Sl; [|exact He0]. apply C in Sl. lia.
      - apply (e_new _ _ _ _ _ _ X2 _ _ L Gc) in I as (_ & [I|I]); [lia|]. apply (proj1 M) in I. lia. }
    assert (Ny : forall z, nobj h1 <= z \/ memoval me z -> z <> nobj h).
    { intros z [Hz|Hz]; [lia|]. apply (proj1 M) in Hz. lia. }
    split.
    - destruct K2 as (K2 & K2'). split; [|now rewrite bufs_set_body]. intros k v L n A. apply abs_unref; auto; [apply (K2 k v L n A)|].
      apply Ny. apply nlookup_In in L. destruct (e_memo _ _ _ _ _ _ X2 _ _ L) as [L'|L']; [right; exists k; auto|left; lia].
    - clear - F2 U Hys Ny. revert Hys. induction F2 as [|a z xs ys Hz F IHF]; intros Hys; constructor.
      + intros n A. apply abs_unref; auto. apply Ny. apply Hys. simpl. auto.
      + apply IHF. intros w Hw. apply Hys. simpl. auto. }
  destruct (o_body ob) as [fs|els|[[v|b]|]] eqn:B.
  - change (alloc h {| o_parent := o_parent ob; o_path := o_path ob; o_meta := o_meta ob; o_body := BStruct [] |})
      with (fst (alloc h (copy_of ob (BStruct []))), nobj h) in E. cbv beta iota zeta in E.
    set (ofs := ordered_fields (o_meta ob) fs) in *.
    destruct (copy_list (deepcopy f) (nobj h) (fst (alloc h (copy_of ob (BStruct [])))) me (map snd ofs)) as [((h2, me2), ys)|] eqn:E2; [|discriminate].
    injection E as <- <- <-. destruct Kg as (Kn & Kk).
    assert (Po : Permutation ofs fs) by (apply ordered_perm; auto).
    assert (Hxs : forall z, In z (map snd ofs) -> z < n0).
    { intros z I. apply in_map_iff in I as ((k, z') & Ez & I). simpl in Ez. subst z'. apply (C0 x (Child k) z). econstructor; eauto.
      eapply Permutation_in; eauto. }
    assert (He : forall s z, ~ in_body (BStruct []) s z) by (intros [k|i] z; simpl; auto).
    assert (Kg0 : keys_good (o_meta ob) (BStruct [])) by (split; [constructor|intros k []]).
    assert (Hb0 : forall bf, BStruct [] <> BPrim (Some (SBuf bf))) by discriminate.
    destruct (Node _ (BStruct []) h2 me2 ys He I Kg0 Hb0 Hxs E2 (BStruct (combine (map fst ofs) ys))) as (K2 & F2).
    set (h3 := set_body h2 (nobj h) (BStruct (combine (map fst ofs) ys))) in *.
    assert (Gy : exists oy, get h3 (nobj h) = Some oy /\ o_body oy = BStruct (combine (map fst ofs) ys)).
    { assert (L3 : nobj h < nobj h3) by (destruct (deepcopy_ext _ _ _ _ _ _ _ _ _ On Om M E0) as (_ & L3 & _); exact L3).
      unfold h3 in *. rewrite len_set_body in L3. destruct (get_some h2 _ L3) as (o2 & G2). rewrite get_set_body, Nat.eqb_refl, G2. simpl. eauto. }
    destruct Gy as (oy & Gy & By). clearbody h3.
    assert (S3 : same h3 x (nobj h)).
    { intros n A. destruct (Inv0 n A) as (fs' & nfs & -> & Pf & Af).
      assert (Fo : Forall2 (fun p q => fst p = fst q /\ same h3 (snd p) (snd q)) ofs (combine (map fst ofs) ys)).
      { clear - F2. revert ys F2. induction ofs as [|[k z] l IHl]; intros ys F2; inversion F2; subst; simpl; constructor; auto. }
      destruct (Forall2_perm _ _ _ (Permutation_trans Po Pf) _ Fo) as (r & Pr & Fr). eapply abs_struct; eauto.
      clear - Fr Af. revert r Fr. induction Af as [|k z n t nt Az At IHt]; intros r Fr; inversion Fr as [|p q l l' Hq Ht]; subst; [constructor|].
      destruct q as (k', z'). simpl in Hq. destruct Hq as (<- & Hz). constructor; auto. }
    split; auto. now apply complete_memo.
  - change (alloc h {| o_parent := o_parent ob; o_path := o_path ob; o_meta := o_meta ob; o_body := BAoS [] |})
      with (fst (alloc h (copy_of ob (BAoS []))), nobj h) in E. cbv beta iota zeta in E.
    destruct (copy_list (deepcopy f) (nobj h) (fst (alloc h (copy_of ob (BAoS [])))) me els) as [((h2, me2), ys)|] eqn:E2; [|discriminate].
    injection E as <- <- <-.
    assert (Hxs : forall z, In z els -> z < n0).
    { intros z I. apply In_nth_error in I as (i & I). apply (C0 x (Elem i) z). eapply slot_elem; eauto. }
    assert (He : forall s z, ~ in_body (BAoS []) s z) by (intros [k|i] z; simpl; auto; destruct i; discriminate).
    assert (Hb0 : forall bf, BAoS [] <> BPrim (Some (SBuf bf))) by discriminate.
    destruct (Node _ (BAoS []) h2 me2 ys He I I Hb0 Hxs E2 (BAoS ys)) as (K2 & F2).
    set (h3 := set_body h2 (nobj h) (BAoS ys)) in *.
    assert (Gy : exists oy, get h3 (nobj h) = Some oy /\ o_body oy = BAoS ys).
    { assert (L3 : nobj h < nobj h3) by (destruct (deepcopy_ext _ _ _ _ _ _ _ _ _ On Om M E0) as (_ & L3 & _); exact L3).
      unfold h3 in *. rewrite len_set_body in L3. destruct (get_some h2 _ L3) as (o2 & G2). rewrite get_set_body, Nat.eqb_refl, G2. simpl. eauto. }
    destruct Gy as (oy & Gy & By). clearbody h3.
    assert (S3 : same h3 x (nobj h)).
    { intros n A. destruct (Inv0 n A) as (ns & -> & Ae). eapply abs_aos; eauto.
      clear - F2 Ae. revert ys F2. induction Ae as [|z n t nt Az At IHt]; intros ys F2; inversion F2; subst; constructor; auto. }
    split; auto. now apply complete_memo.
  - injection E as <- <- <-. assert (same (fst (alloc h (copy_of ob (BPrim (Some (SImm v)))))) x (nobj h)).
    { intros n A. rewrite (Inv0 n A). eapply abs_imm; [rewrite get_alloc, Nat.eqb_refl; reflexivity|reflexivity]. }
    split; auto. apply complete_memo; auto. eapply ext_complete; eauto.
  - destruct (nlookup b (mb me)) as [b'|] eqn:Lb.
    + injection E as <- <- <-. assert (same (fst (alloc h (copy_of ob (BPrim (Some (SBuf b')))))) x (nobj h)).
      { intros n A. destruct (Inv0 n A) as (v & -> & Nv). eapply abs_buf; [rewrite get_alloc, Nat.eqb_refl; reflexivity|reflexivity|].
        simpl. eapply (proj2 K); eauto. }
      split; auto. apply complete_memo; auto. eapply ext_complete; eauto.
    + destruct (nth_error (h_bufs h) b) as [v|] eqn:Nb; [|discriminate].
      change (alloc_buf h v) with (fst (alloc_buf h v), nbuf h) in E. cbv beta iota zeta in E. injection E as <- <- <-.
      assert (Nv : forall w, nth_error (h_bufs h0) b = Some w -> w = v).
      { intros w Hw. rewrite Ob in Nb. rewrite nth_error_app1 in Nb; [congruence|]. apply nth_error_Some. congruence. }
      assert (S1 : same (fst (alloc (fst (alloc_buf h v)) (copy_of ob (BPrim (Some (SBuf (nbuf h))))))) x (nobj h)).
      { intros n A. destruct (Inv0 n A) as (w & -> & Hw). eapply abs_buf.
        - change (nobj h) with (nobj (fst (alloc_buf h v))). rewrite get_alloc, Nat.eqb_refl. reflexivity.
        - reflexivity.
        - simpl. rewrite nth_error_app2, Nat.sub_diag by lia. simpl. now rewrite (Nv _ Hw). }
      pose proof (ext_complete _ _ _ _ X0 K) as K1.
      split; [|exact S1]. apply complete_memo; [|exact S1]. split; [exact (proj1 K1)|].
      intros b1 b2 w L1 L2. simpl in L1. destruct (Nat.eqb_spec b1 b) as [->|].
      * injection L1 as <-. simpl. rewrite nth_error_app2, Nat.sub_diag by lia. simpl. now rewrite (Nv _ L2).
      * apply (proj2 K1 b1 b2 w); auto.
  - injection E as <- <- <-. assert (same (fst (alloc h (copy_of ob (BPrim None)))) x (nobj h)).
    { intros n A. rewrite (Inv0 n A). eapply abs_unset; [rewrite get_alloc, Nat.eqb_refl; reflexivity|reflexivity]. }
    split; auto. apply complete_memo; auto. eapply ext_complete; eauto.
Qed.
End Contents.
