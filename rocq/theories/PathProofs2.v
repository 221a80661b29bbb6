(** Parser: freedom from history (cache), equivalence with the grammar, printing round trip. *)
From Coq Require Import ZifyBool ZifyNat ZifyN.
From Verif Require Import Base PathModel PathSpec PathProofs.

(** ** Pure version of the parser *)
Fixpoint pure_loop (mk : str -> result path_exn path) (fortran : bool) (pieces : list str) : result path_exn path :=
  match pieces with
  | [] => Ok ([], [])
  | [last] =>
    match last with
    | [] => Ok ([], [])
    | _ => Ok (part_names last, repeat INone (length (part_names last)))
    end
  | part :: idx :: rest =>
    match part with
    | [] => Err EmptyNodeName
    | _ =>
      let ri :=
        if re_generic idx then Ok (IGen idx)
        else if re_number idx then Ok (INum (int_of idx - (if fortran then 1 else 0))%Z)
        else if re_slice idx then Ok (parse_slice fortran idx)
        else match mk idx with Ok (ps, ix) => Ok (IPath ps ix) | Err e => Err e end in
      match ri with
      | Err e => Err e
      | Ok i =>
        match pure_loop mk fortran rest with
        | Err e => Err e
        | Ok (ps, ix) => Ok (part_names part ++ ps, repeat INone (length (part_names part) - 1) ++ [i] ++ ix)
        end
      end
    end
  end.

Definition pure_body (mk : str -> result path_exn path) (s : str) : result path_exn path :=
  let fortran := contains "(" s in
  if fortran && contains "[" s then Err MixedStyle
  else
    match split_on_matching_parens s (if fortran then "(" else "[")%char (if fortran then ")" else "]")%char with
    | Err e => Err e
    | Ok pieces =>
      match pure_loop mk fortran pieces with
      | Err e => Err e
      | Ok (ps, ix) => if forallb valid_field ps then Ok (ps, ix) else Err InvalidNodeName
      end
    end.

Fixpoint pure (fuel : nat) (s : str) : result path_exn path :=
  match fuel with O => Err OutOfFuel | S f => pure_body (pure f) s end.

Definition pparse (s : str) := pure (S (length s)) s.

Lemma splits_pieces_shorter : forall o c s r, splits o c s r -> length r > 1 ->
  forall i, In i r -> length i < length s.
Proof.
  intros o c s r H. induction H as [p Hp|p i rest r Hp1 Hp2 Hb Hs IH]; simpl; intros Hl j Hj; [lia|].
  rewrite app_length. simpl. rewrite app_length. simpl.
  destruct Hj as [<-|[<-|Hj]]; try lia.
  inversion Hs; subst.
  - destruct Hj as [<-|[]]. lia.
  - assert (length j < length (p0 ++ o :: i0 ++ c :: rest0)); [|lia].
    apply IH; auto. simpl. lia.
Qed.

Lemma pure_loop_ext : forall mk1 mk2 f pieces,
  (forall i, In i pieces -> length pieces > 1 -> mk1 i = mk2 i) -> pure_loop mk1 f pieces = pure_loop mk2 f pieces.
Proof.
  intros mk1 mk2 f pieces. remember (length pieces) as n eqn:Hn.
  assert (length pieces <= n) as Hle by lia. clear Hn. revert pieces Hle.
  assert (forall pieces, length pieces <= n -> (forall i, In i pieces -> length pieces > 1 -> mk1 i = mk2 i) ->
            pure_loop mk1 f pieces = pure_loop mk2 f pieces) as G.
  { induction n as [|n IH]; intros pieces Hle H; [destruct pieces; auto; simpl in Hle; lia|].
    destruct pieces as [|part [|idx rest]]; auto. cbn [pure_loop].
    destruct part; auto. rewrite (H idx) by (simpl; auto; lia).
    assert (pure_loop mk1 f rest = pure_loop mk2 f rest) as ->; auto.
    apply IH; [simpl in Hle; lia|]. intros. apply H; simpl in *; auto; lia. }
  intros. apply G; auto. intros. apply H; auto. lia.
Qed.

Lemma br_neq : forall b : bool, (if b then "(" else "[")%char <> (if b then ")" else "]")%char.
Proof. destruct b; discriminate. Qed.

Lemma pure_body_ext : forall mk1 mk2 s, (forall i, length i < length s -> mk1 i = mk2 i) ->
  pure_body mk1 s = pure_body mk2 s.
Proof.
  intros mk1 mk2 s H. unfold pure_body. destruct (contains "(" s && contains "[" s); auto.
  destruct (split_on_matching_parens s _ _) as [pieces|e] eqn:E; auto.
  apply split_correct in E; [|apply br_neq].
  rewrite (pure_loop_ext mk1 mk2); auto. intros i Hi Hl. apply H.
  eapply splits_pieces_shorter; eauto.
Qed.

Lemma pure_enough : forall f s, length s < f -> pure f s = pparse s.
Proof.
  assert (G : forall n f g s, length s <= n -> length s < f -> length s < g -> pure f s = pure g s).
  { induction n as [|n IH]; intros [|f] [|g] s Hn Hf Hg; try lia; cbn [pure]; apply pure_body_ext; intros i Hi.
    - lia.
    - apply IH; lia. }
  intros. unfold pparse. eapply G; eauto; lia.
Qed.

Lemma pparse_unfold : forall s, pparse s = pure_body pparse s.
Proof.
  intros. unfold pparse at 1. cbn [pure]. apply pure_body_ext. intros. apply pure_enough. lia.
Qed.

Lemma pure_loop_fuel : forall mk f pieces,
  (forall i, In i pieces -> length pieces > 1 -> mk i <> Err OutOfFuel) -> pure_loop mk f pieces <> Err OutOfFuel.
Proof.
  intros mk f. assert (G : forall n pieces, length pieces <= n ->
    (forall i, In i pieces -> length pieces > 1 -> mk i <> Err OutOfFuel) -> pure_loop mk f pieces <> Err OutOfFuel).
  { induction n as [|n IH]; intros pieces Hle H; [destruct pieces; simpl in *; [discriminate|lia]|].
    destruct pieces as [|part [|idx rest]]; cbn [pure_loop]; try discriminate.
    - destruct part; discriminate.
    - destruct part; try discriminate.
      assert (Hr : pure_loop mk f rest <> Err OutOfFuel).
      { apply IH; [simpl in Hle; lia|]. intros. apply H; simpl in *; auto; lia. }
      specialize (H idx ltac:(simpl; auto) ltac:(simpl; lia)).
      cbn zeta. destruct (re_generic idx); [|destruct (re_number idx); [|destruct (re_slice idx);
        [|destruct (mk idx) as [[ps0 ix0]|e]; [|congruence]]]];
      destruct (pure_loop mk f rest) as [[ps ix]|]; congruence. }
  intros. eapply G; eauto.
Qed.

Lemma pparse_no_fuel : forall s, pparse s <> Err OutOfFuel.
Proof.
  intros s. remember (length s) as n eqn:Hn. assert (length s <= n) as Hle by lia. clear Hn. revert s Hle.
  induction n as [n IH] using lt_wf_ind; intros s Hle. rewrite pparse_unfold. unfold pure_body.
  destruct (contains "(" s && contains "[" s); [discriminate|].
  destruct (split_on_matching_parens s _ _) as [pieces|e] eqn:E.
  - apply split_correct in E; [|apply br_neq].
    assert (pure_loop pparse (contains "(" s) pieces <> Err OutOfFuel).
    { apply pure_loop_fuel. intros i Hi Hl. pose proof (splits_pieces_shorter _ _ _ _ E Hl i Hi).
      apply (IH (length i)); lia. }
    destruct (pure_loop pparse (contains "(" s) pieces) as [[ps ix]|e]; [|congruence].
    destruct (forallb valid_field ps); congruence.
  - apply split_error in E as [-> _]; [discriminate|apply br_neq].
Qed.

(** ** The cache *)
Record cinv (ca : cache) : Prop := {
  ci_range : forall s id, alookup s (c_map ca) = Some id -> id < length (c_obj ca);
  ci_inj : forall s1 s2 id, alookup s1 (c_map ca) = Some id -> alookup s2 (c_map ca) = Some id -> s1 = s2;
  ci_val : forall s id p, alookup s (c_map ca) = Some id -> obj_content ca id = Some p -> pparse s = Ok p }.

Record cext (ca ca' : cache) : Prop := {
  ce_map : forall s id, alookup s (c_map ca) = Some id -> alookup s (c_map ca') = Some id;
  ce_len : length (c_obj ca) <= length (c_obj ca') }.

Lemma cext_refl : forall ca, cext ca ca.
Proof. constructor; auto. Qed.
Lemma cext_trans : forall a b c, cext a b -> cext b c -> cext a c.
Proof. intros a b c [H1 H2] [H3 H4]. constructor; auto. lia. Qed.

Lemma cinv_empty : cinv empty_cache.
Proof. constructor; simpl; intros; discriminate. Qed.

Lemma obj_content_app : forall m l x i, i < length l ->
  obj_content {| c_map := m; c_obj := l ++ [x] |} i = obj_content {| c_map := m; c_obj := l |} i.
Proof. intros. unfold obj_content. simpl. now rewrite nth_error_app1. Qed.

Lemma obj_content_map : forall m m' l i,
  obj_content {| c_map := m; c_obj := l |} i = obj_content {| c_map := m'; c_obj := l |} i.
Proof. reflexivity. Qed.

Lemma path_new_spec : forall ca s, cinv ca -> let '(ca1, id) := path_new ca s in
  cinv ca1 /\ cext ca ca1 /\ alookup s (c_map ca1) = Some id.
Proof.
  intros ca s Hi. unfold path_new. destruct (alookup s (c_map ca)) as [id|] eqn:E.
  - repeat split; auto; apply Hi || lia.
  - destruct ca as [m l]. simpl in *. split; [|split].
    + constructor; simpl.
      * intros s' id H. rewrite alookup_aset in H. rewrite app_length. simpl.
        destruct (str_eqb s' s). { inversion H; lia. } apply (ci_range _ Hi) in H. simpl in H. lia.
      * intros s1 s2 id H1 H2. rewrite alookup_aset in H1, H2.
        destruct (str_eqb s1 s) eqn:E1; destruct (str_eqb s2 s) eqn:E2.
        -- apply str_eqb_eq in E1, E2. congruence.
        -- inversion H1; subst. apply (ci_range _ Hi) in H2. simpl in H2. lia.
        -- inversion H2; subst. apply (ci_range _ Hi) in H1. simpl in H1. lia.
        -- eapply (ci_inj _ Hi); eauto.
      * intros s' id p H1 H2. rewrite alookup_aset in H1. destruct (str_eqb s' s) eqn:E1.
        -- inversion H1; subst. unfold obj_content in H2. simpl in H2.
           rewrite nth_error_app2, Nat.sub_diag in H2 by lia. simpl in H2. discriminate.
        -- pose proof (ci_range _ Hi _ _ H1) as Hr. simpl in Hr.
           rewrite obj_content_app in H2 by auto. eapply (ci_val _ Hi); eauto.
    + constructor; simpl.
      * intros s' id H. rewrite alookup_aset. destruct (str_eqb s' s) eqn:E1; auto.
        apply str_eqb_eq in E1; subst. congruence.
      * rewrite app_length. lia.
    + simpl. apply alookup_aset_same.
Qed.

Lemma set_nth_length : forall {A} (l : list A) n x, length (set_nth n x l) = length l.
Proof. induction l; destruct n; simpl; intros; auto. Qed.
Lemma nth_error_set_nth : forall {A} (l : list A) n m x, n < length l ->
  nth_error (set_nth n x l) m = if m =? n then Some x else nth_error l m.
Proof.
  induction l as [|a l IH]; intros [|n] [|m] x H; simpl in *; auto; try lia.
  apply IH. lia.
Qed.

Lemma path_store_spec : forall ca s id p, cinv ca -> alookup s (c_map ca) = Some id -> pparse s = Ok p ->
  cinv (path_store ca id p) /\ cext ca (path_store ca id p) /\ obj_content (path_store ca id p) id = Some p.
Proof.
  intros ca s id p Hi Hs Hp. pose proof (ci_range _ Hi _ _ Hs) as Hr. unfold path_store. split; [|split].
  - constructor; simpl.
    + intros. rewrite set_nth_length. eapply (ci_range _ Hi); eauto.
    + apply (ci_inj _ Hi).
    + intros s' id' p' H1 H2. unfold obj_content in H2. simpl in H2.
      rewrite nth_error_set_nth in H2 by auto. destruct (Nat.eqb_spec id' id).
      * subst. inversion H2; subst. pose proof (ci_inj _ Hi _ _ _ H1 Hs). congruence.
      * eapply (ci_val _ Hi); eauto.
  - constructor; simpl; auto. rewrite set_nth_length. auto.
  - unfold obj_content. simpl. rewrite nth_error_set_nth, Nat.eqb_refl; auto.
Qed.

Lemma parse_loop_pure : forall mk mkp f,
  forall n pieces, length pieces <= n ->
  (forall i ca, In i pieces -> length pieces > 1 -> cinv ca ->
     cinv (fst (mk ca i)) /\ cext ca (fst (mk ca i)) /\ snd (mk ca i) = mkp i) ->
  forall ca, cinv ca ->
  cinv (fst (parse_loop mk f ca pieces)) /\ cext ca (fst (parse_loop mk f ca pieces))
  /\ snd (parse_loop mk f ca pieces) = pure_loop mkp f pieces.
Proof.
  intros mk mkp f. induction n as [|n IH]; intros pieces Hle H ca Hca.
  - destruct pieces; simpl in *; [|lia]. repeat split; auto; try apply Hca. 
  - destruct pieces as [|part [|idx rest]]; cbn [parse_loop pure_loop].
    + repeat split; auto; apply Hca.
    + destruct part; simpl; repeat split; auto; apply Hca.
    + destruct part as [|x part]; [simpl; repeat split; auto; apply Hca|].
      assert (Hrest : forall ca0, cinv ca0 -> cinv (fst (parse_loop mk f ca0 rest)) /\
                cext ca0 (fst (parse_loop mk f ca0 rest)) /\
                snd (parse_loop mk f ca0 rest) = pure_loop mkp f rest).
      { apply IH; [simpl in Hle; lia|]. intros i ca0 Hi Hl Hc. apply H; auto; simpl in *; auto; lia. }
      cbn zeta.
      assert (Hstep : forall ri ca1 (P : path -> path), cinv ca1 -> cext ca ca1 ->
        let r := match ri : result path_exn index with
                 | Err e => (ca1, Err e)
                 | Ok i => match parse_loop mk f ca1 rest with
                           | (ca2, Err e) => (ca2, Err e)
                           | (ca2, Ok (ps, ix)) =>
                             (ca2, Ok (part_names (x :: part) ++ ps,
                                repeat INone (length (part_names (x :: part)) - 1) ++ [i] ++ ix))
                           end
                 end in
        cinv (fst r) /\ cext ca (fst r) /\ snd r = match ri with Err e => Err e | Ok i =>
           match pure_loop mkp f rest with
           | Err e => Err e
           | Ok (ps, ix) => Ok (part_names (x :: part) ++ ps, repeat INone (length (part_names (x :: part)) - 1) ++ [i] ++ ix)
           end end).
      { intros ri ca1 _ Hc1 He1. destruct ri as [i|e]; simpl; auto.
        destruct (Hrest ca1 Hc1) as (H1 & H2 & H3).
        destruct (parse_loop mk f ca1 rest) as [ca2 [[ps ix]|e]]; simpl in *; rewrite <- H3; simpl;
          repeat split; auto; try apply H1; eapply cext_trans; eauto. }
      destruct (re_generic idx); [apply (Hstep (Ok (IGen idx)) ca (fun p => p)); auto; apply cext_refl|].
      destruct (re_number idx); [apply (Hstep (Ok _) ca (fun p => p)); auto; apply cext_refl|].
      destruct (re_slice idx); [apply (Hstep (Ok _) ca (fun p => p)); auto; apply cext_refl|].
      destruct (H idx ca) as (H1 & H2 & H3); simpl; auto; try lia.
      destruct (mk ca idx) as [ca' [[ps0 ix0]|e]]; simpl in H1, H2, H3; rewrite <- H3.
      * apply (Hstep (Ok (IPath ps0 ix0)) ca' (fun p => p)); auto.
      * simpl. auto.
Qed.

Lemma mk_obj_pure : forall f s ca, length s < f -> cinv ca ->
  let r := mk_obj f ca s in
  cinv (fst r) /\ cext ca (fst r) /\ outcome (snd r) = pparse s
  /\ forall id p, snd r = Ok (id, p) ->
       alookup s (c_map (fst r)) = Some id /\ obj_content (fst r) id = Some p.
Proof.
  induction f as [|f IH]; intros s ca Hl Hc; [lia|]. cbn [mk_obj].
  pose proof (path_new_spec ca s Hc) as Hn. destruct (path_new ca s) as [ca1 id].
  destruct Hn as (Hc1 & He1 & Hs1).
  destruct (obj_content ca1 id) as [p|] eqn:Eo.
  { simpl. split; [auto|split; [auto|split]].
    - symmetry. eapply (ci_val _ Hc1); eauto.
    - intros id0 p0 Heq. inversion Heq; subst. auto. }
  set (mk := fun ca' s' => match mk_obj f ca' s' with
                           | (ca'', Ok (_, p)) => (ca'', Ok p)
                           | (ca'', Err e) => (ca'', Err e)
                           end).
  assert (Hb : cinv (fst (parse_path_body mk ca1 s)) /\ cext ca1 (fst (parse_path_body mk ca1 s))
               /\ snd (parse_path_body mk ca1 s) = pparse s).
  { rewrite pparse_unfold. unfold parse_path_body, pure_body.
    destruct (contains "(" s && contains "[" s); [simpl; repeat split; auto; apply Hc1|].
    destruct (split_on_matching_parens s _ _) as [pieces|e] eqn:E; [|simpl; repeat split; auto; apply Hc1].
    apply split_correct in E; [|apply br_neq].
    destruct (parse_loop_pure mk pparse (contains "(" s) (length pieces) pieces (le_n _)) with (ca := ca1)
      as (H1 & H2 & H3); auto.
    { intros i ca0 Hi Hlen Hc0.
      pose proof (splits_pieces_shorter _ _ _ _ E Hlen i Hi).
      destruct (IH i ca0 ltac:(lia) Hc0) as (H1 & H2 & H3 & _).
      unfold mk. destruct (mk_obj f ca0 i) as [ca' [[id' p']|e]]; simpl in *; auto. }
    destruct (parse_loop mk (contains "(" s) ca1 pieces) as [ca' [[ps ix]|e]]; simpl in H1, H2, H3.
    - rewrite <- H3. destruct (forallb valid_field ps); simpl; auto.
    - rewrite <- H3. simpl. auto. }
  destruct Hb as (Hc2 & He2 & Hr).
  destruct (parse_path_body mk ca1 s) as [ca2 [p|e]]; cbn [fst snd] in Hc2, He2, Hr |- *.
  - pose proof (ce_map _ _ He2 _ _ Hs1) as Hs2.
    destruct (path_store_spec ca2 s id p Hc2 Hs2 (eq_sym Hr)) as (H1 & H2 & H3).
    split; [auto|split; [|split]].
    + eapply cext_trans; [|eauto]. eapply cext_trans; eauto.
    + simpl. auto.
    + intros id0 p0 Heq. inversion Heq; subst. auto.
  - split; [auto|split; [|split]].
    + eapply cext_trans; eauto.
    + simpl. auto.
    + intros. discriminate.
Qed.

Lemma ids_path_pure : forall s ca, cinv ca ->
  let r := ids_path ca s in
  cinv (fst r) /\ cext ca (fst r) /\ outcome (snd r) = pparse s
  /\ forall id p, snd r = Ok (id, p) ->
       alookup s (c_map (fst r)) = Some id /\ obj_content (fst r) id = Some p.
Proof. intros. apply mk_obj_pure; auto. Qed.

Lemma parse_pparse : forall s, parse s = pparse s.
Proof.
  intros. unfold parse. destruct (ids_path_pure s empty_cache cinv_empty) as (_ & _ & H & _).
  rewrite <- H. destruct (ids_path empty_cache s) as [ca [[id p]|e]]; reflexivity.
Qed.

Lemma history_inv : forall h ca, cinv ca -> cinv (history ca h) /\ cext ca (history ca h).
Proof.
  induction h as [|s h IH]; simpl; intros ca H; [split; auto; apply cext_refl|].
  destruct (ids_path_pure s ca H) as (H1 & H2 & _). destruct (IH _ H1) as (H3 & H4).
  split; auto. eapply cext_trans; eauto.
Qed.

Lemma history_independent : forall h s,
  outcome (snd (ids_path (history empty_cache h) s)) = parse s.
Proof.
  intros. rewrite parse_pparse. apply ids_path_pure. apply history_inv. apply cinv_empty.
Qed.

Lemma history_app : forall h1 h2 ca, history ca (h1 ++ h2) = history (history ca h1) h2.
Proof. induction h1; simpl; auto. Qed.

Lemma history_same_object : forall h1 h2 s1 s2 id1 p1 id2 p2,
  let ca1 := history empty_cache h1 in
  snd (ids_path ca1 s1) = Ok (id1, p1) ->
  snd (ids_path (history (fst (ids_path ca1 s1)) h2) s2) = Ok (id2, p2) ->
  (id1 = id2 <-> s1 = s2).
Proof.
  intros h1 h2 s1 s2 id1 p1 id2 p2 ca1 H1 H2.
  destruct (history_inv h1 empty_cache cinv_empty) as (Hc1 & _). fold ca1 in Hc1.
  destruct (ids_path_pure s1 ca1 Hc1) as (Hc2 & He2 & _ & Hk1).
  destruct (Hk1 _ _ H1) as (Hl1 & _).
  destruct (history_inv h2 _ Hc2) as (Hc3 & He3).
  destruct (ids_path_pure s2 _ Hc3) as (Hc4 & He4 & _ & Hk2).
  destruct (Hk2 _ _ H2) as (Hl2 & _).
  pose proof (ce_map _ _ He4 _ _ (ce_map _ _ He3 _ _ Hl1)) as Hl1'.
  split; intros Heq; subst.
  - eapply (ci_inj _ Hc4); eauto.
  - congruence.
Qed.
