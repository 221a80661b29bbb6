(** Arrays of structures as lists. *)
From Verif Require Import Base TreeModel TreeSpec TreeProofs TreeProofs4 PathModel HeapModel HeapSpec HeapProofs HeapProofs2 HeapProofs3 HeapProofs4
  HeapProofs5 HeapProofs6 HeapProofs7.

Lemma elems_body : forall h a l, elems h a l <-> body_of h a = Some (BAoS l).
Proof.
  intros h a l. split.
  - intros (ob & G & B). rewrite (body_of_get _ _ _ G). now rewrite B.
  - intros B. apply get_body_of in B as (ob & G & B). exists ob. auto.
Qed.
Lemma elems_lt : forall h a l, elems h a l -> a < nobj h.
Proof. intros h a l (ob & G & _). eapply get_lt; eauto. Qed.
Lemma elems_set_body : forall h a l b, a < nobj h -> elems (set_body h a b) a l <-> b = BAoS l.
Proof.
  intros h a l b L. rewrite elems_body, body_of_set_body, Nat.eqb_refl. destruct (get_some h a L) as (ob & ->). simpl. split; [intros E; now inversion E|now intros ->].
Qed.

Lemma alloc_elems_get : forall k h a p m h' l, alloc_elems h a p m k = (h', l) ->
  l = seq (nobj h) k /\ nobj h' = nobj h + k /\ (forall y, y < nobj h -> get h' y = get h y) /\
  (forall y, In y l -> get h' y = Some (new_elem a p m)) /\ h_bufs h' = h_bufs h.
Proof.
  induction k as [|k IH]; cbn [alloc_elems]; intros h a p m h' l E.
  - inversion E; subst. split; [reflexivity|]. split; [lia|]. split; auto. split; auto. intros y [].
  - destruct (alloc h (new_elem a p m)) as (h1, x) eqn:A. destruct (alloc_elems h1 a p m k) as (h2, l') eqn:E2. inversion E; subst h' l.
    assert (h1 = fst (alloc h (new_elem a p m))) by now rewrite A.
    assert (x = length (h_objs h)) by (unfold alloc in A; inversion A; auto).
    apply IH in E2 as (-> & L & G1 & G2 & Eb). subst h1 x. rewrite len_alloc in *. split; [reflexivity|]. split; [lia|]. split; [|split; [|rewrite Eb; auto]].
    + intros y Hy. rewrite G1 by lia. rewrite get_alloc. destruct (Nat.eqb_spec y (length (h_objs h))); auto. lia.
    + intros y [<-|Hy]; auto. rewrite G1 by lia. rewrite get_alloc, Nat.eqb_refl. auto.
Qed.

(** Everything [resize] does *)
Lemma resize_spec : forall h a ob l n keep h' r, get h a = Some ob -> o_body ob = BAoS l -> resize h a n keep = (h', r) ->
  ((n < 0)%Z /\ h' = h /\ r = Err EValue) \/
  ((0 <= n)%Z /\ r = Ok tt /\ exists kept new, kept = (if keep then firstn (Z.to_nat n) l else []) /\ elems h' a (kept ++ new) /\
     new = seq (nobj h) (length new) /\ Z.of_nat (length (kept ++ new)) = n /\ h_bufs h' = h_bufs h /\
     (forall z, z < nobj h -> z <> a -> get h' z = get h z) /\ (exists ob', get h' a = Some ob' /\ o_parent ob' = o_parent ob /\ o_path ob' = o_path ob /\ o_meta ob' = o_meta ob) /\
     (forall e, In e new -> get h' e = Some (new_elem a (o_path ob) (o_meta ob)))).
Proof.
  intros h a ob l n keep h' r G B. unfold resize. destruct (Z.ltb_spec n 0) as [Ln|Ln]; [intros E; inversion E; auto|].
  rewrite G, B. pose proof (get_lt _ _ _ G) as La.
  match goal with |- _ -> ?goal => set (Goal_ := goal) end.
  set (els := if keep then l else []).
  assert (Shrink : forall els', els' = (if keep then firstn (Z.to_nat n) l else []) -> Z.of_nat (length els') = n ->
     h' = set_body h a (BAoS els') -> r = Ok tt -> Goal_).
  2:{ destruct (length els <? Z.to_nat n) eqn:C1.
      - subst Goal_. apply Nat.ltb_lt in C1. destruct (alloc_elems h a (o_path ob) (o_meta ob) (Z.to_nat n - length els)) as (h1, new) eqn:E.
        intros X. inversion X; subst h' r. clear X. apply alloc_elems_get in E as (-> & L & G1 & G2 & Eb). right. split; auto. split; auto.
        exists els, (seq (nobj h) (Z.to_nat n - length els)).
        assert (Hk : els = (if keep then firstn (Z.to_nat n) l else [])).
        { unfold els in *. destruct keep; auto. rewrite firstn_all2; auto. lia. }
        split; auto. rewrite app_length, seq_length. split; [apply elems_set_body; auto; lia|]. split; auto. split; [lia|].
        rewrite bufs_set_body. split; auto. split; [|split].
        + intros z Lz Nz. rewrite get_set_body. destruct (Nat.eqb_spec a z); [congruence|]. auto.
        + exists (with_body (BAoS (els ++ seq (nobj h) (Z.to_nat n - length els))) ob). rewrite get_set_body, Nat.eqb_refl, G1, G by auto. auto.
        + intros e He. rewrite get_set_body. destruct (Nat.eqb_spec a e); [|auto]. apply in_seq in He. lia.
      - apply Nat.ltb_ge in C1. destruct (Z.to_nat n <? length els) eqn:C2; intros X; inversion X; subst h' r.
        + apply Nat.ltb_lt in C2. apply (Shrink (firstn (Z.to_nat n) els)); auto.
          * unfold els. destruct keep; auto. apply firstn_nil.
          * rewrite firstn_length. lia.
        + apply Nat.ltb_ge in C2. apply (Shrink els); auto.
          * unfold els in *. destruct keep; auto. rewrite firstn_all2; auto.
          * lia. }
  subst Goal_. intros els' E1 E2 -> ->. right. split; auto. split; auto. exists els', []. rewrite app_nil_r. split; auto.
  split; [apply elems_set_body; auto|]. split; auto. split; auto. split; [apply bufs_set_body|]. split; [|split].
  - intros z Lz Nz. rewrite get_set_body. destruct (Nat.eqb_spec a z); [congruence|auto].
  - exists (with_body (BAoS els') ob). rewrite get_set_body, Nat.eqb_refl, G. auto.
  - intros e [].
Qed.

(** Python's index rule *)
Lemma py_index_mod : forall n i k, py_index n i = Some k <-> (- Z.of_nat n <= i < Z.of_nat n)%Z /\ k = Z.to_nat (i mod Z.of_nat n).
Proof.
  intros n i k. unfold py_index.
  destruct (Z.leb_spec 0 i), (Z.ltb_spec i (Z.of_nat n)), (Z.leb_spec (- Z.of_nat n) i), (Z.ltb_spec i 0); simpl;
    (split; [intros E; inversion E|intros (E & ->)]); try lia.
  - split; [lia|]. now rewrite Z.mod_small by lia.
  - now rewrite Z.mod_small by lia.
  - split; [lia|]. f_equal. rewrite <- (Z_mod_plus_full i 1), Z.mod_small; lia.
  - do 2 f_equal. rewrite <- (Z_mod_plus_full i 1), Z.mod_small; lia.
Qed.
Lemma py_index_none : forall n i, py_index n i = None <-> ~ (- Z.of_nat n <= i < Z.of_nat n)%Z.
Proof.
  intros n i. destruct (py_index n i) as [k|] eqn:E.
  - apply py_index_mod in E. split; [discriminate|tauto].
  - split; auto. intros _ H. assert (X : py_index n i = Some (Z.to_nat (i mod Z.of_nat n))) by (apply py_index_mod; auto). congruence.
Qed.
Lemma list_set_split : forall {A} k (v : A) l1 w l2, length l1 = k -> list_set k v (l1 ++ w :: l2) = l1 ++ v :: l2.
Proof. intros A k v l1 w l2 <-. induction l1; simpl; auto. now rewrite IHl1. Qed.

Lemma append_elems : forall vs h a l, elems h a l -> exists h', append h a vs = (h', Ok tt) /\ elems h' a (l ++ vs).
Proof.
  induction vs as [|v vs IH]; intros h a l E; cbn [append]; [rewrite app_nil_r; eauto|].
  pose proof E as (ob & G & B). rewrite G, B. destruct (IH (set_body (set_parent h v a) a (BAoS (l ++ [v]))) a (l ++ [v])) as (h' & E1 & E2).
  - apply elems_set_body; auto. rewrite len_set_parent. eapply elems_lt; eauto.
  - rewrite <- app_assoc in E2. eauto.
Qed.

(** ** Operations on other nodes leave the list alone *)
Definition keep_elems (a : oid) (l : list oid) (h h' : heap) : Prop := elems h a l -> elems h' a l.
Section Keep.
Variable a : oid.
Variable l : list oid.
Notation keeps := (keep_elems a l).
Lemma ke_get : forall h h', (forall ob, get h a = Some ob -> o_body ob = BAoS l -> exists ob', get h' a = Some ob' /\ o_body ob' = BAoS l) -> keeps h h'.
Proof. intros h h' H (ob & G & B). destruct (H ob G B) as (ob' & X). exists ob'. auto. Qed.
Lemma ke_refl : forall h, keeps h h. Proof. unfold keep_elems. auto. Qed.
Lemma ke_trans : forall h1 h2 h3, keeps h1 h2 -> keeps h2 h3 -> keeps h1 h3. Proof. unfold keep_elems. auto. Qed.
Lemma ke_set_parent : forall h v p, keeps h (set_parent h v p).
Proof. intros h v p E. apply elems_body. apply elems_body in E. now rewrite body_of_set_parent. Qed.
Lemma ke_set_body : forall h x b, x <> a -> keeps h (set_body h x b).
Proof. intros h x b N E. apply elems_body. apply elems_body in E. rewrite body_of_set_body. destruct (Nat.eqb_spec x a); [congruence|auto]. Qed.
Lemma ke_set_other : forall h x b b', body_of h x = Some b -> (forall l, b <> BAoS l) -> keeps h (set_body h x b').
Proof.
  intros h x b b' B N E. apply ke_set_body; auto. intros ->. apply elems_body in E. rewrite E in B. inversion B. eapply N; eauto.
Qed.
Lemma ke_alloc : forall h ob, keeps h (fst (alloc h ob)).
Proof.
  intros h ob E. pose proof (elems_lt _ _ _ E). apply elems_body. apply elems_body in E. rewrite body_of_alloc. destruct (Nat.eqb_spec a (nobj h)); [lia|auto].
Qed.
Lemma ke_objs : forall h h', h_objs h' = h_objs h -> keeps h h'.
Proof. intros h h' E (ob & G & B). exists ob. unfold get in *. rewrite E. auto. Qed.
Lemma ke_getattr : forall h o k, keeps h (fst (getattr h o k)).
Proof.
  intros h o k. destruct (getattr h o k) as (h', r) eqn:E. simpl. apply getattr_cases in E as [(-> & _)|(ob & fs & cm & G & B & A & C & -> & ->)]; [apply ke_refl|].
  eapply ke_trans; [apply ke_alloc|]. apply ke_set_other with (b := BStruct fs); [|discriminate]. rewrite body_of_alloc. pose proof (get_lt _ _ _ G).
  destruct (Nat.eqb_spec o (nobj h)); [lia|]. rewrite (body_of_get _ _ _ G), B. reflexivity.
Qed.
Lemma ke_bodies : forall h h', (forall y, get h' y = get h y \/
     exists ob b, get h y = Some ob /\ o_body ob = BPrim None /\ get h' y = Some (with_body (BPrim (Some (SBuf b))) ob)) -> keeps h h'.
Proof. intros h h' H (ob & G & B). destruct (H a) as [X|(ob' & b & G' & B' & _)]; [exists ob; rewrite X; auto|congruence]. Qed.
Lemma ke_value : forall h p, keeps h (fst (prim_value h p)).
Proof.
  intros h p. apply ke_bodies. intros y. destruct (prim_value h p) as (h1, r) eqn:E. simpl.
  destruct (objs_value _ _ _ _ E y) as [->|(-> & ob & b & X)]; eauto.
Qed.
Lemma ke_goto : forall p h from fr, keeps h (fst (goto p h from fr)).
Proof.
  intros p h from fr. destruct (goto p h from fr) as (h', r) eqn:E. simpl.
  assert (C : closed_under keeps (fun _ _ => True)).
  { constructor; auto.
    - intros h1 e k h2 r1 _ E1. split; auto. pose proof (ke_getattr h1 e k) as X. rewrite E1 in X. exact X.
    - intros h1 q h2 r1 _ E1. pose proof (ke_value h1 q) as X. rewrite E1 in X. exact X. }
  assert (U : up_closed (fun (_ : heap) (_ : oid) => True)) by (intros h1 x y _ _; exact I).
  exact (proj1 (goto_up keeps ke_refl ke_trans _ C U p h from fr h' r I E)).
Qed.
Lemma ke_append : forall vs h x, x <> a -> keeps h (fst (append h x vs)).
Proof.
  induction vs as [|v vs IH]; intros h x N; [apply ke_refl|]. cbn [append]. destruct (get h x) as [ob|]; [|apply ke_refl].
  destruct (o_body ob); try apply ke_refl. eapply ke_trans; [|apply IH; auto]. eapply ke_trans; [apply ke_set_parent|apply ke_set_body; auto].
Qed.
Lemma ke_resize : forall h x n keep, x <> a -> keeps h (fst (resize h x n keep)).
Proof.
  intros h x n keep N E. destruct (resize h x n keep) as (h', r) eqn:R. simpl. destruct (get h x) as [ob|] eqn:G.
  2:{ unfold resize in R. rewrite G in R. destruct (n <? 0)%Z; inversion R; subst; auto. }
  destruct (o_body ob) as [|els|] eqn:B; try (unfold resize in R; rewrite G, B in R; destruct (n <? 0)%Z; inversion R; subst; auto; fail).
  destruct (resize_spec _ _ _ _ _ _ _ _ G B R) as [(_ & -> & _)|(_ & _ & k & nw & _ & _ & _ & _ & _ & H & _)]; auto.
  pose proof (elems_lt _ _ _ E). destruct E as (oa & Ga & Ba). exists oa. split; auto. rewrite H; auto.
Qed.
Lemma ke_setitem : forall h x i v, x <> a -> keeps h (fst (aos_setitem h x i v)).
Proof.
  intros h x i v N. unfold aos_setitem. destruct (get h x) as [ob|]; [|apply ke_refl]. destruct (o_body ob); try apply ke_refl.
  destruct (py_index _ _); [|apply ke_refl]. apply ke_set_body. auto.
Qed.
Lemma ke_copy : forall f h x h' me y, deepcopy f h empty_memo x = Some (h', me, y) -> keeps h h'.
Proof.
  intros f h x h' me y E El. assert (M : memo_in (nobj h) (nbuf h) h empty_memo) by (split; intros v (k & [])).
  destruct (deepcopy_ext _ _ _ _ _ _ _ _ _ (le_n _) (le_n _) M E) as (X & _). pose proof (elems_lt _ _ _ El). destruct El as (ob & G & B).
  exists ob. rewrite (e_old _ _ _ _ _ _ X) by auto. auto.
Qed.
Section WithCast.
Variable cast : dtype -> nat -> value -> result exn value.
Lemma ke_prim_set : forall h p x, keeps h (fst (prim_set cast h p x)).
Proof.
  intros h p x. unfold prim_set. destruct (get h p) as [ob|] eqn:G; [|apply ke_refl]. destruct (o_body ob) as [| |v] eqn:B; try apply ke_refl.
  destruct (mkind _); try apply ke_refl. destruct (setter_value cast h dt ndim x) as (h1, r) eqn:E.
  assert (K : keeps h h1) by (apply ke_bodies; intros y; eapply setter_objs; eauto). destruct r; auto. simpl.
  eapply ke_trans; [exact K|]. destruct (body_setter cast _ _ _ _ _ _ p v E) as (v' & B'); [rewrite (body_of_get _ _ _ G), B; auto|].
  eapply ke_set_other; [exact B'|discriminate].
Qed.
Lemma ke_setattr : forall h o k x, keeps h (fst (setattr cast h o k x)).
Proof.
  intros h o k x. unfold setattr. pose proof (ke_getattr h o k) as K. destruct (getattr h o k) as (h1, r). simpl in K.
  destruct r as [c|e]; auto. destruct (get h1 c) as [at_|]; auto.
  assert (Rep : forall v, keeps h (fst (match get h1 o with
                          | Some ob => match o_body ob with
                                       | BStruct fs => (set_parent (set_body h1 o (BStruct (aset k v fs))) v o, @Ok exn _ tt)
                                       | _ => (h1, Err EAttribute)
                                       end
                          | None => (h1, Err EAttribute)
                          end))).
  { intros v. destruct (get h1 o) as [ob|] eqn:Go; auto. destruct (o_body ob) eqn:Bo; auto. eapply ke_trans; [exact K|]. simpl.
    eapply ke_trans; [|apply ke_set_parent]. eapply ke_set_other; [rewrite (body_of_get _ _ _ Go), Bo; reflexivity|discriminate]. }
  destruct (o_body at_).
  - destruct x; auto. destruct (get h1 q) as [vo|]; auto. destruct (o_body vo); auto. destruct (strs_eqb _ _); auto.
  - destruct x; auto. destruct (get h1 q) as [vo|]; auto. destruct (o_body vo); auto. destruct (strs_eqb _ _); auto.
  - eapply ke_trans; [exact K|apply ke_prim_set].
Qed.
Lemma ke_getitem : forall h o key, keeps h (fst (struct_getitem h o key)).
Proof.
  intros h o key. unfold struct_getitem. destruct (get h o) as [ob|]; [|apply ke_refl].
  destruct (child_meta key _); [apply ke_getattr|]. destruct (parse key) as [(ps, ix)|]; [|apply ke_refl].
  destruct ps as [|a' [|b ps]]; try apply ke_goto. destruct ix as [|[| | | |] [|]]; try apply ke_goto. apply ke_refl.
Qed.
Lemma ke_struct_setitem : forall h o key x, keeps h (fst (struct_setitem cast h o key x)).
Proof.
  intros h o key x. unfold struct_setitem. destruct (get h o) as [ob|]; [|apply ke_refl].
  destruct (child_meta key _); [apply ke_setattr|]. destruct (parse key) as [(ps, ix)|]; [|apply ke_refl].
  pose proof (ke_goto (IPath ps ix) h o false) as K. destruct (goto (IPath ps ix) h o false) as (h1, r). simpl in K.
  assert (X : keeps h (fst (match r with
                | Err e => (h1, Err e)
                | Ok z =>
                  match get h1 z with
                  | None => (h1, Err EAttribute)
                  | Some xo =>
                    match o_body xo with
                    | BPrim _ => prim_set cast h1 z x
                    | _ => match o_parent xo with
                           | None => (h1, Err EType)
                           | Some p => match get h1 p with
                                       | Some po => match o_body po with
                                                    | BAoS _ => (h1, Err EValue)
                                                    | BStruct _ => match ps with
                                                                   | [] => (h1, Err EIndex)
                                                                   | _ => setattr cast h1 p (last ps []) x
                                                                   end
                                                    | BPrim _ => (h1, Err EType)
                                                    end
                                       | None => (h1, Err EType)
                                       end
                           end
                    end
                  end
                end))).
  { destruct r as [z|e]; auto. destruct (get h1 z) as [xo|]; auto. destruct (o_body xo).
    1,2: destruct (o_parent xo) as [p|]; auto; destruct (get h1 p) as [po|]; auto; destruct (o_body po); auto; destruct ps; auto;
         eapply ke_trans; [exact K|apply ke_setattr].
    eapply ke_trans; [exact K|apply ke_prim_set]. }
  destruct ps as [|n [|n' ps]]; try exact X. destruct ix as [|i [|i' ix]]; try exact X; destruct i; try exact X. apply ke_refl.
Qed.
End WithCast.
End Keep.

Section WithCast.
Variable cast : dtype -> nat -> value -> result exn value.
Lemma exec_elems : forall a l h o, elems h a l -> exists l', elems (fst (exec cast h o)) a l' /\
  match on_array a o with
  | Some lo => list_step (fun e => nobj h <= e) l lo l' (snd (exec cast h o))
  | None => l' = l
  end.
Proof.
  intros a l h o E.
  assert (Keep : forall h', keep_elems a l h h' -> on_array a o = None -> exists l', elems h' a l' /\
     match on_array a o with Some lo => list_step (fun e => nobj h <= e) l lo l' (snd (exec cast h o)) | None => l' = l end).
  { intros h' K ->. exists l. split; auto. }
  destruct o as [x name|x key b|x i|x i v|x vs|x n keep|p|p b|b v|v|m|x key|x key b|f x];
    try (destruct x as [x|bx]; [|apply Keep; [apply ke_refl|reflexivity]]); try (destruct p as [p|bp]; [|apply Keep; [apply ke_refl|reflexivity]]);
    try (destruct b as [xb|b]; [apply Keep; [apply ke_refl|reflexivity]|]);
    try (apply Keep; [|reflexivity]; cbn [exec hret uret fst]; solve [apply ke_getattr|apply ke_setattr|apply ke_prim_set|apply ke_getitem|apply ke_struct_setitem]).
  - (* aos[i] *)
    cbn [exec hret fst snd on_array]. rewrite fst_getitem. exists l. split; auto. destruct (Nat.eqb_spec x a) as [->|]; auto.
    destruct E as (ob & G & B). unfold aos_getitem. rewrite G, B. destruct (py_index (length l) i) as [k|] eqn:P.
    + pose proof P as P'. apply py_index_mod in P' as (R & ->). destruct (nth_error l (Z.to_nat (i mod Z.of_nat (length l)))) as [e|] eqn:Ne.
      * simpl. constructor; auto.
      * apply nth_error_None in Ne. apply py_index_lt in P. lia.
    + simpl. constructor. now apply py_index_none.
  - (* aos[i] = v *)
    destruct v as [v|b]; [|apply Keep; [apply ke_refl|reflexivity]].
    cbn [on_array]. destruct (Nat.eqb_spec x a) as [->|N]; [|cbn [exec uret fst]; exists l; split; auto; now apply ke_setitem].
    pose proof E as (ob & G & B). pose proof (elems_lt _ _ _ E). cbn [exec uret fst snd]. unfold aos_setitem. rewrite G, B.
    destruct (py_index (length l) i) as [k|] eqn:P.
    + pose proof (py_index_lt _ _ _ P) as L. apply py_index_mod in P as (R & ->).
      destruct (nth_error l (Z.to_nat (i mod Z.of_nat (length l)))) as [w|] eqn:Ne; [|apply nth_error_None in Ne; lia].
      apply nth_error_split in Ne as (l1 & l2 & El & L1). exists (l1 ++ v :: l2). simpl. split.
      * apply elems_set_body; auto. f_equal. rewrite El at 2. now apply list_set_split.
      * econstructor; eauto.
    + exists l. simpl. split; auto. constructor. now apply py_index_none.
  - (* append *)
    cbn [exec on_array]. destruct (oids vs) as [vl|] eqn:Ev.
    2:{ exists l. simpl. split; auto. destruct (x =? a); auto. }
    destruct (Nat.eqb_spec x a) as [->|N]; [|exists l; split; auto; now apply ke_append].
    destruct (append_elems vl h a l E) as (h' & -> & E'). exists (l ++ vl). simpl. split; auto. constructor.
  - (* resize *)
    cbn [exec on_array uret fst snd]. destruct (Nat.eqb_spec x a) as [->|N]; [|exists l; split; auto; now apply ke_resize].
    pose proof E as (ob & G & B). destruct (resize h a n keep) as (h', r) eqn:Er.
    destruct (resize_spec _ _ _ _ _ _ _ _ G B Er) as [(Hn & -> & ->)|(Hn & -> & kept & new & Hk & El & Hs & Len & _)].
    + exists l. split; auto. constructor. auto.
    + exists (kept ++ new). split; auto. simpl. econstructor; eauto.
      * rewrite Hs. apply Forall_forall. intros e I. apply in_seq in I. lia.
      * rewrite Hs. apply seq_NoDup.
  - (* p.value *)
    apply Keep; [|reflexivity]. cbn [exec]. pose proof (ke_value a l h p) as K. destruct (prim_value h p). exact K.
  - apply Keep; [|reflexivity]. cbn [exec fst]. apply ke_objs. reflexivity.
  - apply Keep; [|reflexivity]. cbn [exec fst]. apply ke_objs. reflexivity.
  - apply Keep; [|reflexivity]. apply (ke_alloc a l h (new_top m)).
  - (* deepcopy *)
    apply Keep; [|reflexivity]. cbn [exec]. destruct (deepcopy f h empty_memo x) as [((h1, me), y)|] eqn:Ed; [|apply ke_refl]. simpl. eapply ke_copy; eauto.
Qed.

Lemma run_elems : forall a ops h l, elems h a l ->
  exists h' l', h' = fold_left (fun h o => fst (exec cast h o)) ops h /\ elems h' a l' /\ list_run cast a h l ops h' l'.
Proof.
  induction ops as [|o ops IH]; intros h l E.
  - exists h, l. split; [reflexivity|]. split; auto. constructor.
  - destruct (exec_elems a l h o E) as (l1 & E1 & St). destruct (IH _ _ E1) as (h' & l' & Eh & E' & R). exists h', l'. split; auto. split; auto.
    econstructor; eauto.
Qed.
End WithCast.
