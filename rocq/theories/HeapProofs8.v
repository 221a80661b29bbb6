(** Deep copies in tidy heaps: the copy is a fresh tree, detached, and the heap stays tidy. *)
From Coq Require Import Permutation.
From Verif Require Import Base TreeModel TreeSpec TreeProofs TreeProofs4 PathModel HeapModel HeapSpec HeapProofs HeapProofs2 HeapProofs3 HeapProofs4
  HeapProofs5 HeapProofs6 HeapProofs7.

Lemma nodup_map_snd : forall {A B} (l : list (A * B)), NoDup l -> (forall k k' x, In (k, x) l -> In (k', x) l -> k = k') -> NoDup (map snd l).
Proof.
  intros A B l. induction l as [|[k x] l IH]; simpl; intros Hn H; constructor; inversion Hn as [|? ? N1 N2]; subst.
  - intros I. apply in_map_iff in I as ((k', x') & E & I). simpl in E. subst x'.
    assert (k = k') by (eapply H; simpl; eauto). subst. auto.
  - apply IH; auto. intros; eapply H; simpl; eauto.
Qed.
Lemma nodup_els : forall h c ob els, tidy h -> get h c = Some ob -> o_body ob = BAoS els -> NoDup els.
Proof.
  intros h c ob els T G B. apply NoDup_nth_error. intros i j Li E. destruct (nth_error els i) as [x|] eqn:Ei.
  - assert (S1 : slot h c (Elem i) x) by (eapply slot_elem; eauto). assert (S2 : slot h c (Elem j) x) by (eapply slot_elem; eauto).
    pose proof (t_once _ T _ _ _ _ S1 S2) as X. now inversion X.
  - apply nth_error_None in Ei. lia.
Qed.
(** subtrees of different children have nothing in common *)
Lemma disjoint_children : forall h c x1 x2 z, tidy h -> contained h c x1 -> contained h c x2 -> x1 <> x2 -> reach h x1 z -> reach h x2 z -> False.
Proof.
  intros h c x1 x2 z T C1 C2 N R1 R2.
  assert (forall a b, contained h c a -> contained h c b -> a <> b -> reach h a b -> False) as X.
  { intros a b Ca (s & Cb) Nab Rab. apply reach_snoc_ind in Rab as [|(w & Rw & s' & Cw)]; [auto|].
    pose proof (t_parent _ T _ _ _ Cb). pose proof (t_parent _ T _ _ _ Cw). assert (w = c) by congruence. subst w.
    exact (t_acyclic _ T _ _ Ca Rw). }
  destruct (reach_linear h z x1 T R1 x2 R2); eauto.
Qed.

Section Tidy.
Variable h0 : heap.
Let n0 := nobj h0.
Hypothesis T0 : tidy h0.
Hypothesis N0 : named h0.
Hypothesis S0 : shaped h0.

Definition kin (h : heap) (x y : oid) : Prop :=
  exists xo yo, get h0 x = Some xo /\ get h y = Some yo /\ o_path yo = o_path xo /\ o_meta yo = o_meta xo /\ same_kind (o_body xo) (o_body yo).
Record fresh_copy (h : heap) (me : memo) (xs : list oid) (h' : heap) (me' : memo) : Prop := {
  f_tidy : tidy h';
  f_named : named h';
  f_len : nobj h <= nobj h';
  f_old : forall z, z < nobj h -> get h' z = get h z;
  f_slot : forall c s z, slot h' c s z -> slot h c s z \/ (nobj h <= c /\ nobj h <= z);
  f_keys : forall k v, In (k, v) (mo me') -> In (k, v) (mo me) \/ exists x, In x xs /\ reach h0 x k }.
Definition unmet (me : memo) (x : oid) : Prop := forall k v, In (k, v) (mo me) -> ~ reach h0 x k.

Lemma kin_later : forall h me xs h' me' x y, fresh_copy h me xs h' me' -> kin h x y -> kin h' x y.
Proof.
  intros h me xs h' me' x y F (xo & yo & Gx & Gy & K). exists xo, yo. split; auto. split; auto.
  rewrite (f_old _ _ _ _ _ F); auto. eapply get_lt; eauto.
Qed.
Lemma detached_later : forall h me xs h' me' y, fresh_copy h me xs h' me' -> detached h y -> detached h' y.
Proof.
  intros h me xs h' me' y F (L & D). split; [pose proof (f_len _ _ _ _ _ F); lia|]. intros c (s & Hs).
  destruct (f_slot _ _ _ _ _ F _ _ _ Hs) as [X|X]; [apply (D c); exists s; auto|lia].
Qed.

Lemma copy_list_tidy : forall rec,
  (forall h me x h' me' y, tidy h -> named h -> n0 <= nobj h -> (forall z, z < n0 -> get h z = get h0 z) -> x < n0 -> unmet me x ->
     rec h me x = Some (h', me', y) -> fresh_copy h me [x] h' me' /\ nobj h <= y /\ detached h' y /\ kin h' x y) ->
  forall xs p h me h' me' ys, tidy h -> named h -> n0 <= nobj h -> (forall z, z < n0 -> get h z = get h0 z) ->
  (forall x, In x xs -> x < n0 /\ unmet me x) -> ForallOrdPairs (fun a b => forall z, reach h0 a z -> reach h0 b z -> False) xs ->
  copy_list rec p h me xs = Some (h', me', ys) ->
  fresh_copy h me xs h' me' /\ NoDup ys /\
  Forall2 (fun x y => nobj h <= y /\ detached h' y /\ parent h' y = Some p /\ kin h' x y) xs ys.
Proof.
  intros rec Hrec. induction xs as [|x xs IH]; intros p h me h' me' ys T N L O Hx Dj E; cbn [copy_list] in E.
  - injection E as <- <- <-. split; [|split; constructor]. constructor; auto.
  - destruct (rec h me x) as [((h1, me1), y)|] eqn:E1; [|discriminate].
    destruct (Hx x (or_introl eq_refl)) as (Lx & Ux).
    destruct (Hrec _ _ _ _ _ _ T N L O Lx Ux E1) as (F1 & Hy & Dy & Ky). pose proof (f_len _ _ _ _ _ F1) as L1.
    set (h1' := set_parent h1 y p) in *.
    assert (T1 : tidy h1'). { apply tidy_parent; [apply (f_tidy _ _ _ _ _ F1)|]. intros c C. elim (proj2 Dy c C). }
    assert (N1 : named h1') by (apply named_set_parent; apply (f_named _ _ _ _ _ F1)).
    assert (O1 : forall z, z < nobj h -> get h1' z = get h z).
    { intros z Hz. unfold h1'. rewrite get_set_parent. destruct (Nat.eqb_spec y z); [lia|]. apply (f_old _ _ _ _ _ F1). auto. }
    assert (F1' : fresh_copy h me [x] h1' me1).
    { constructor; auto.
      - unfold h1'. rewrite len_set_parent. auto.
      - intros c s z Hs. apply slot_set_parent in Hs. apply (f_slot _ _ _ _ _ F1); auto.
      - apply (f_keys _ _ _ _ _ F1). }
    assert (Len1 : nobj h1' = nobj h1) by apply len_set_parent.
    inversion Dj as [|? ? Dx Dj']; subst. rewrite Forall_forall in Dx.
    destruct (copy_list rec p h1' me1 xs) as [((h2, me2), ys')|] eqn:E2; [|discriminate]. injection E as <- <- <-.
    apply IH in E2 as (F2 & Nd & F2'); auto; try lia.
    2:{ intros z Hz. rewrite O1 by lia. auto. }
    2:{ intros z Hz. destruct (Hx z (or_intror Hz)) as (Lz & Uz). split; auto. intros k v I R.
        destruct (f_keys _ _ _ _ _ F1 _ _ I) as [I'|(w & [<-|[]] & Rw)]; [eapply Uz; eauto|]. eapply Dx; eauto. }
    assert (Hyd : y < nobj h1) by apply Dy.
    split; [|split].
    + constructor.
      * apply (f_tidy _ _ _ _ _ F2).
      * apply (f_named _ _ _ _ _ F2).
      * pose proof (f_len _ _ _ _ _ F2). lia.
      * intros z Hz. rewrite (f_old _ _ _ _ _ F2) by lia. auto.
      * intros c s z Hs. destruct (f_slot _ _ _ _ _ F2 _ _ _ Hs) as [Hs'|(A & B)]; [|right; lia]. apply (f_slot _ _ _ _ _ F1'); auto.
      * intros k v I. destruct (f_keys _ _ _ _ _ F2 _ _ I) as [I'|(w & Iw & Rw)]; [|right; exists w; simpl; auto].
        destruct (f_keys _ _ _ _ _ F1 _ _ I') as [I''|(w & [<-|[]] & Rw)]; auto. right. exists x. simpl. auto.
    + constructor; auto. intros Hin. clear - Hin F2' Hyd Len1. induction F2' as [|a b l l' (Hb & _) F IHF]; simpl in Hin; [auto|].
      destruct Hin as [->|Hin]; [lia|auto].
    + assert (Dy1 : detached h1' y).
      { split; [lia|]. intros c (s & Hs). apply slot_set_parent in Hs. apply (proj2 Dy c). exists s; auto. }
      constructor.
      * split; auto. split; [eapply detached_later; eauto|]. split.
        -- unfold parent. rewrite (f_old _ _ _ _ _ F2) by lia. unfold h1'. rewrite get_set_parent, Nat.eqb_refl.
           destruct (get_some h1 y Hyd) as (yo & ->). reflexivity.
        -- eapply kin_later; eauto. destruct Ky as (xo & yo & Gx & Gy & K1 & K2 & K3). exists xo, (with_parent p yo).
           split; auto. split; [|split; [exact K1|split; [exact K2|exact K3]]].
           unfold h1'. rewrite get_set_parent, Nat.eqb_refl, Gy. reflexivity.
      * clear - F2' L1 Len1. induction F2' as [|a b l l' (Hb & Hb') F IHF]; constructor; auto. split; auto. lia.
Qed.

Lemma deepcopy_tidy : forall f h me x h' me' y, tidy h -> named h -> n0 <= nobj h -> (forall z, z < n0 -> get h z = get h0 z) ->
  x < n0 -> unmet me x -> deepcopy f h me x = Some (h', me', y) ->
  fresh_copy h me [x] h' me' /\ nobj h <= y /\ detached h' y /\ kin h' x y.
Proof.
  induction f as [|f IH]; intros h me x h' me' y T N L O Hx U E; [discriminate|]. cbn [deepcopy] in E.
  destruct (nlookup x (mo me)) as [y0|] eqn:Lk.
  { apply nlookup_In in Lk. elim (U _ _ Lk). constructor. }
  destruct (get h x) as [ob|] eqn:G; [|discriminate]. pose proof G as G0. rewrite O in G0 by auto.
  destruct (S0 x ob G0) as (W & Kg).
  assert (New : forall hh b, tidy hh -> named hh -> h_objs hh = h_objs h -> (forall s z, ~ in_body b s z) -> same_kind (o_body ob) b ->
     let h1 := fst (alloc hh (copy_of ob b)) in
     tidy h1 /\ named h1 /\ nobj h1 = S (nobj h) /\ (forall z, z < nobj h -> get h1 z = get h z) /\ (forall c s z, slot h1 c s z -> slot h c s z) /\
     get h1 (nobj h) = Some (copy_of ob b) /\ detached h1 (nobj h)).
  { intros hh b Th Nh Eo He K h1.
    assert (Hs : forall c s z, slot h1 c s z -> slot hh c s z) by (intros c s z Hs; apply slot_alloc in Hs; auto).
    assert (Gh : forall z, get hh z = get h z) by (intros z; unfold get; now rewrite Eo).
    assert (Hs' : forall c s z, slot hh c s z -> slot h c s z).
    { intros c s z Hs'. apply slot_iff in Hs' as (bb & B & I). apply slot_iff. exists bb. split; auto. unfold body_of in *. now rewrite <- Gh. }
    split; [apply tidy_alloc; auto|]. split; [|split; [|split; [|split; [|split]]]].
    - apply named_alloc; auto. intros Hne. apply (n_last _ N _ _ G Hne).
    - unfold h1. rewrite len_alloc. now rewrite Eo.
    - intros z Hz. unfold h1. rewrite get_alloc, Eo. destruct (Nat.eqb_spec z (nobj h)); [lia|apply Gh].
    - intros; auto.
    - unfold h1. rewrite get_alloc, Eo, Nat.eqb_refl. reflexivity.
    - split; [unfold h1; rewrite len_alloc, Eo; lia|]. intros c (s & Hs1). apply Hs, Hs' in Hs1. apply (t_exists _ T) in Hs1. lia. }
  assert (Leaf : forall hh b me2, tidy hh -> named hh -> h_objs hh = h_objs h -> (forall s z, ~ in_body b s z) -> same_kind (o_body ob) b ->
     mo me2 = (x, nobj h) :: mo me -> let h1 := fst (alloc hh (copy_of ob b)) in
     fresh_copy h me [x] h1 me2 /\ nobj h <= nobj h /\ detached h1 (nobj h) /\ kin h1 x (nobj h)).
  { intros hh b me2 Th Nh Eo He K Em h1. destruct (New hh b Th Nh Eo He K) as (T1 & N1 & L1 & O1 & S1 & G1 & D1).
    split; [|split; [lia|split; auto]].
    - constructor; auto.
      + unfold h1. rewrite L1. lia.
      + intros k v. rewrite Em. intros [I|I]; auto. inversion I; subst. right. exists k. split; [simpl; auto|constructor].
    - exists ob, (copy_of ob b). auto. }
  assert (Node : forall (xs : list oid) b0 h2 me2 ys, (forall s z, ~ in_body b0 s z) -> same_kind (o_body ob) b0 ->
     NoDup xs -> (forall z, In z xs -> contained h0 x z) ->
     copy_list (deepcopy f) (nobj h) (fst (alloc h (copy_of ob b0))) me xs = Some (h2, me2, ys) ->
     forall b, same_kind b0 b ->
     (forall s z, in_body b s z -> In z ys) -> (NoDup ys -> forall s s' z, in_body b s z -> in_body b s' z -> s = s') ->
     (length ys = length xs -> forall fs, b = BStruct fs -> NoDup (akeys fs)) ->
     (Forall2 (kin h2) xs ys -> forall k z zo, in_body b (Child k) z -> get h2 z = Some zo -> mname (o_meta zo) = k /\ o_path zo <> []) ->
     (Forall2 (kin h2) xs ys -> forall i z, in_body b (Elem i) z -> is_struct h2 z) ->
     let h3 := set_body h2 (nobj h) b in
     fresh_copy h me [x] h3 (memo_obj me2 x (nobj h)) /\ nobj h <= nobj h /\ detached h3 (nobj h) /\ kin h3 x (nobj h)).
  { intros xs b0 h2 me2 ys He0 K0 Nd Hc E2 b Kb Hin Honce Hkeys Hname Helem h3.
    destruct (New h b0 T N eq_refl He0 K0) as (T1 & N1 & L1 & O1 & S1 & G1 & D1).
    set (h1 := fst (alloc h (copy_of ob b0))) in *.
    assert (Hx1 : forall z, In z xs -> z < n0 /\ unmet me z).
    { intros z Hz. destruct (Hc z Hz) as (s & Hs). split; [apply (t_exists _ T0 _ _ _ Hs)|]. intros k v I R. apply (U k v I).
      econstructor; [exists s; exact Hs|exact R]. }
    assert (Dj : ForallOrdPairs (fun a b => forall z, reach h0 a z -> reach h0 b z -> False) xs).
    { clear - Nd Hc T0. induction xs as [|a xs IHx]; constructor; inversion Nd as [|? ? Na Nd']; subst.
      - rewrite Forall_forall. intros b Hb z Ra Rb. apply (disjoint_children h0 x a b z); auto; try (apply Hc; simpl; auto). intros ->. auto.
      - apply IHx; auto. intros; apply Hc; simpl; auto. }
    assert (L1' : n0 <= nobj h1) by lia.
    assert (O1' : forall z, z < n0 -> get h1 z = get h0 z) by (intros z Hz; rewrite O1 by lia; auto).
    destruct (copy_list_tidy (deepcopy f) IH xs _ _ _ _ _ _ T1 N1 L1' O1' Hx1 Dj E2) as (F2 & Ndy & F2').
    assert (Kys : Forall2 (kin h2) xs ys) by (clear - F2'; induction F2'; constructor; tauto).
    assert (Hys : forall z, In z ys -> nobj h < z /\ z < nobj h2 /\ parent h2 z = Some (nobj h)).
    { clear - F2' L1. intros z Hz. induction F2' as [|a c l l' (H1 & H2 & H3 & _) F IHF]; simpl in Hz; [tauto|].
      destruct Hz as [<-|Hz]; [|auto]. split; [lia|]. split; [apply H2|auto]. }
    assert (Len : length ys = length xs) by (clear - F2'; induction F2'; simpl; auto).
    pose proof (detached_later _ _ _ _ _ _ F2 D1) as D2. pose proof (f_len _ _ _ _ _ F2) as L2.
    assert (G2 : get h2 (nobj h) = Some (copy_of ob b0)) by (rewrite (f_old _ _ _ _ _ F2) by lia; auto).
    assert (B2 : body_of h2 (nobj h) = Some b0) by (rewrite (body_of_get _ _ _ G2); auto).
    assert (S3 : forall c s z, slot h3 c s z -> (c = nobj h /\ in_body b s z) \/ slot h2 c s z).
    { intros c s z Hs. apply slot_set_body in Hs; [tauto|]. lia. }
    assert (T3 : tidy h3).
    { eapply tidy_body; [apply (f_tidy _ _ _ _ _ F2)|exact B2|exact Kb|..].
      - intros s z I. apply Hin in I. apply Hys in I. tauto.
      - exact (Honce Ndy).
      - exact (Hkeys Len).
      - intros k z zo I Gz. apply (Hname Kys k z zo I Gz).
      - exact (Helem Kys).
      - intros s z I. right. intros R. apply reach_detached in R; auto. apply Hin in I. apply Hys in I. lia. }
    split; [constructor; auto|split; [lia|split]].
    - apply named_set_body; [apply (f_named _ _ _ _ _ F2)|]. intros k z zo I Gz. apply (Hname Kys k z zo I Gz).
    - unfold h3. rewrite len_set_body. lia.
    - intros z Hz. unfold h3. rewrite get_set_body. destruct (Nat.eqb_spec (nobj h) z); [lia|]. rewrite (f_old _ _ _ _ _ F2) by lia. auto.
    - intros c s z Hs. apply S3 in Hs as [(-> & I)|Hs]; [right; apply Hin in I; apply Hys in I; lia|].
      destruct (f_slot _ _ _ _ _ F2 _ _ _ Hs) as [Hs1|]; [auto|right; lia].
    - intros k v [I|I]; [inversion I; subst; right; exists k; split; [simpl; auto|constructor]|].
      destruct (f_keys _ _ _ _ _ F2 _ _ I) as [I'|(w & Iw & Rw)]; auto. right. exists x. split; [simpl; auto|].
      econstructor; [apply Hc; exact Iw|exact Rw].
    - split; [unfold h3; rewrite len_set_body; lia|]. intros c (s & Hs). apply S3 in Hs as [(-> & I)|Hs].
      + apply Hin in I. apply Hys in I. lia.
      + apply (proj2 D2 c). exists s; auto.
    - exists ob, (with_body b (copy_of ob b0)). split; auto. split; [unfold h3; rewrite get_set_body, Nat.eqb_refl, G2; reflexivity|].
      split; [reflexivity|]. split; [reflexivity|]. simpl. clear - K0 Kb. destruct (o_body ob), b0, b; simpl in *; tauto. }
  destruct (o_body ob) as [fs|els|[[v|b]|]] eqn:B.
  - change (alloc h {| o_parent := o_parent ob; o_path := o_path ob; o_meta := o_meta ob; o_body := BStruct [] |})
      with (fst (alloc h (copy_of ob (BStruct []))), nobj h) in E. cbv beta iota zeta in E.
    set (ofs := ordered_fields (o_meta ob) fs) in *.
    destruct (copy_list (deepcopy f) (nobj h) (fst (alloc h (copy_of ob (BStruct [])))) me (map snd ofs)) as [((h2, me2), ys)|] eqn:E2; [|discriminate].
    injection E as <- <- <-. destruct Kg as (Kn & Kk).
    assert (Po : Permutation ofs fs) by (apply ordered_perm; auto).
    assert (Hsl : forall k z, In (k, z) ofs -> slot h0 x (Child k) z).
    { intros k z I. econstructor; eauto. eapply Permutation_in; eauto. }
    assert (Nk : NoDup (akeys ofs)) by (apply ordered_keys_nodup; auto).
    eapply (Node (map snd ofs) (BStruct [])); eauto; simpl; auto.
    + intros [k|i] z; simpl; auto.
    + apply nodup_map_snd; [apply nodup_pairs; auto|]. intros k k' z I I'. apply Hsl in I. apply Hsl in I'.
      pose proof (t_once _ T0 _ _ _ _ I I') as X. now inversion X.
    + intros z I. apply in_map_iff in I as ((k, z') & Ez & I). simpl in Ez. subst z'. exists (Child k). auto.
    + intros [k|i] z; simpl; [|tauto]. intros I. now apply in_combine_r in I.
    + intros Ny [k|i] [k'|i'] z; simpl; try tauto. intros I I'. f_equal. clear - Ny I I'. revert ys Ny I I'.
      induction (map fst ofs) as [|a l IHl]; intros [|y ys] Ny I I'; simpl in *; try tauto. inversion Ny; subst.
      destruct I as [I|I]; destruct I' as [I'|I'].
      * congruence.
      * inversion I; subst. apply in_combine_r in I'. tauto.
      * inversion I'; subst. apply in_combine_r in I. tauto.
      * eauto.
    + intros Len fs0 Ef. inversion Ef. rewrite map_length in Len. rewrite akeys_combine; auto. rewrite map_length. auto.
    + intros Kys k z zo I Gz.
      assert (exists w, In (k, w) ofs /\ kin h2 w z) as (w & Iw & xo & yo & Gw & Gy & K1 & K2 & _).
      { clear - Kys I. revert ys Kys I. induction ofs as [|[k1 w1] l IHl]; intros ys Kys I; inversion Kys; subst; simpl in *; [tauto|].
        destruct I as [I|I]; [inversion I; subst; eauto|]. destruct (IHl _ H3 I) as (w & Iw & Kw). eauto. }
      rewrite Gy in Gz. inversion Gz; subst yo. rewrite K1, K2. apply Hsl in Iw. split.
      * apply (t_name _ T0 _ _ _ _ Iw Gw).
      * apply (n_field _ N0 _ _ _ _ Iw Gw).
    + intros Kys i z [].
  - change (alloc h {| o_parent := o_parent ob; o_path := o_path ob; o_meta := o_meta ob; o_body := BAoS [] |})
      with (fst (alloc h (copy_of ob (BAoS []))), nobj h) in E. cbv beta iota zeta in E.
    destruct (copy_list (deepcopy f) (nobj h) (fst (alloc h (copy_of ob (BAoS [])))) me els) as [((h2, me2), ys)|] eqn:E2; [|discriminate].
    injection E as <- <- <-.
    assert (Hsl : forall i z, nth_error els i = Some z -> slot h0 x (Elem i) z) by (intros; eapply slot_elem; eauto).
    eapply (Node els (BAoS [])); eauto; simpl; auto.
    + intros [k|i] z; simpl; auto. destruct i; discriminate.
    + eapply nodup_els; eauto.
    + intros z I. apply In_nth_error in I as (i & I). exists (Elem i). auto.
    + intros [k|i] z; simpl; [tauto|]. intros I. eapply nth_error_In; eauto.
    + intros Ny [k|i] [k'|i'] z; simpl; try tauto. intros I I'. f_equal. rewrite NoDup_nth_error in Ny. apply Ny; [|congruence].
      apply nth_error_Some. congruence.
    + discriminate.
    + intros _ k z zo [].
    + intros Kys i z I.
      assert (exists w, nth_error els i = Some w /\ kin h2 w z) as (w & Iw & xo & yo & Gw & Gy & _ & _ & K).
      { clear - Kys I. revert i I. induction Kys as [|a b l l' Kab F IHF]; intros [|i] I; simpl in *; try discriminate; [inversion I; subst; eauto|auto]. }
      apply Hsl in Iw. destruct (t_elem _ T0 _ _ _ Iw) as (xo' & fs & Gx' & Bx'). rewrite Gw in Gx'. inversion Gx'; subst xo'. rewrite Bx' in K.
      destruct (o_body yo) as [gs| |] eqn:Bz; simpl in K; try tauto. exists yo, gs. auto.
  - injection E as <- <- <-. apply (Leaf h (BPrim (Some (SImm v)))); simpl; auto; intros [k|i] z; simpl; auto.
  - destruct (nlookup b (mb me)) as [b'|] eqn:Lb.
    + injection E as <- <- <-. apply (Leaf h (BPrim (Some (SBuf b')))); simpl; auto; intros [k|i] z; simpl; auto.
    + destruct (nth_error (h_bufs h) b) as [v|] eqn:Nb; [|discriminate].
      change (alloc_buf h v) with (fst (alloc_buf h v), nbuf h) in E. cbv beta iota zeta in E. injection E as <- <- <-.
      apply (Leaf (fst (alloc_buf h v)) (BPrim (Some (SBuf (nbuf h))))); simpl; auto.
      * eapply tidy_objs; [|exact T]. reflexivity.
      * eapply named_objs; [|exact N]. reflexivity.
  - injection E as <- <- <-. apply (Leaf h (BPrim None)); simpl; auto; intros [k|i] z; simpl; auto.
Qed.
End Tidy.
