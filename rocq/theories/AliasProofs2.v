(** Deep copies, single steps and sequences of steps (C61). *)
From Verif Require Import Base AliasModel AliasSpec AliasProofs.
From Coq Require Import Lia.

Section Proofs.
Variable elt : Type.
Variable tyof : nat -> ty.
Variable lazy : nat -> bool.
Variable str_of : Z -> str.
Variable cast : num -> num -> elt -> elt.
Variable items_of : num -> list nat -> list elt -> list item.
Variable array_of : list item -> num -> option (list nat * list elt).
Notation obj := (obj elt). Notation state := (state elt). Notation sstate := (sstate elt).
Notation show := (show elt tyof). Notation value := (value elt tyof). Notation default := (default elt tyof).
Notation env := (env elt). Notation heap := (heap elt). Notation hold := (hold elt). Notation alloc := (alloc elt). Notation content := (content elt). Notation write := (write elt).
Notation val := (val elt). Notation share := (share elt). Notation own := (own elt). Notation join := (join elt). Notation change := (change elt). Notation copied := (copied elt).
Notation step := (step elt tyof lazy str_of cast items_of array_of). Notation sstep := (sstep elt tyof lazy str_of cast items_of array_of).
Notation rel := (rel elt tyof).

Definition look (memo : list (nat * nat)) (r : nat) : option nat := option_map snd (List.find (fun p => fst p =? r) memo).
Definition memo_ok (B : nat) (st : state) (memo : list (nat * nat)) : Prop :=
  (forall r r', look memo r = Some r' -> r < B /\ B <= r' < length (heap st) /\ content st r' = content st r) /\
  forall r1 r2 r', look memo r1 = Some r' -> look memo r2 = Some r' -> r1 = r2.
Lemma original_cons : forall n n' ns x, original ((n, n') :: ns) x = if is x (HNode n') then Some (HNode n) else original ns x.
Proof.
  intros n n' ns [m|a]; cbn; auto. unfold original. cbn [List.find snd]. rewrite (Nat.eqb_sym n' m). change (is (HNode m) (HNode n')) with (m =? n'). destruct (m =? n'); reflexivity.
Qed.
Lemma original_none : forall ns n, ~ In n (map snd ns) -> original ns (HNode n) = None.
Proof.
  induction ns as [|[m m'] ns IH]; intros n N; auto. rewrite original_cons. cbn [map snd] in N. destruct (is_spec (HNode n) (HNode m')) as [(-> & E)|(-> & E)]; [injection E as ->; exfalso; apply N; left; auto|]. apply IH. intros I. apply N. right. auto.
Qed.
Lemma original_In : forall ns x y, original ns x = Some y -> exists n n', In (n, n') ns /\ x = HNode n' /\ y = HNode n.
Proof.
  induction ns as [|[m m'] ns IH]; intros x y E; [destruct x; discriminate E|]. rewrite original_cons in E. destruct (is_spec x (HNode m')) as [(Q & ->)|(Q & N)]; rewrite Q in E.
  - injection E as <-. exists m, m'. split; [left; auto|auto].
  - destruct (IH _ _ E) as (n & n' & I & H). exists n, n'. split; [right; auto|auto].
Qed.
Lemma copy_inv : forall ns B st memo, NoDup (map snd ns) -> (forall n, In n (map fst ns) -> ~ In n (map snd ns)) ->
  (forall n r, In n (map fst ns) -> env st (HNode n) = Some r -> r < B) -> B <= length (heap st) -> memo_ok B st memo ->
  let st' := copy_nodes elt st memo ns in exists memo', memo_ok B st' memo' /\ (forall r r', look memo r = Some r' -> look memo' r = Some r') /\
    length (heap st) <= length (heap st') /\ (forall r, r < length (heap st) -> content st' r = content st r) /\
    (forall x, env st' x = match original ns x with Some y => match env st y with Some r => look memo' r | None => None end | None => env st x end) /\
    forall n r, In n (map fst ns) -> env st (HNode n) = Some r -> exists r', look memo' r = Some r'.
Proof.
  induction ns as [|[n n'] ns IH]; intros B st memo ND DJ RB LB MO st'.
  - exists memo. cbn in st'. subst st'. split; auto. split; auto. split; auto. split; auto. split; [intros [m|a]; reflexivity|intros ? ? []].
  - cbn [map fst snd] in *. inversion ND as [|? ? N1 N2]; subst.
    assert (DJ' : forall m, In m (map fst ns) -> ~ In m (map snd ns)) by (intros m I J; apply (DJ m (or_intror I)); right; auto).
    assert (NN : forall m, In m (n :: map fst ns) -> is (HNode m) (HNode n') = false). { intros m I. destruct (is_spec (HNode m) (HNode n')) as [(_ & E)|(E & _)]; auto. injection E as ->. exfalso. apply (DJ n' I). left. auto. }
    (* after the first pair the state is [hold st0 n' v], with a heap that extends the one of st *)
    assert (G : forall st0 memo0 v, memo_ok B st0 memo0 -> (forall r r', look memo r = Some r' -> look memo0 r = Some r') -> length (heap st) <= length (heap st0) -> (forall r, r < length (heap st) -> content st0 r = content st r) ->
       (forall x, env st0 x = env st x) -> (v = match env st (HNode n) with Some r => look memo0 r | None => None end) -> (forall r, env st (HNode n) = Some r -> exists r', look memo0 r = Some r') ->
       st' = copy_nodes elt (hold st0 (HNode n') v) memo0 ns -> exists memo', memo_ok B st' memo' /\ (forall r r', look memo r = Some r' -> look memo' r = Some r') /\
         length (heap st) <= length (heap st') /\ (forall r, r < length (heap st) -> content st' r = content st r) /\
         (forall x, env st' x = match original ((n, n') :: ns) x with Some y => match env st y with Some r => look memo' r | None => None end | None => env st x end) /\
         forall m r, In m (n :: map fst ns) -> env st (HNode m) = Some r -> exists r', look memo' r = Some r').
    { intros st0 memo0 v MO0 EX0 L0 C0 E0 EV HV Q.
      assert (EH : forall m, In m (n :: map fst ns) -> env (hold st0 (HNode n') v) (HNode m) = env st (HNode m)) by (intros m I; rewrite env_hold, NN by auto; apply E0).
      destruct (IH B (hold st0 (HNode n') v) memo0 N2 DJ') as (memo' & M1 & M2 & M3 & M4 & M5 & M6).
      - intros m r I E. rewrite EH in E by (right; auto). apply (RB m r (or_intror I) E).
      - cbn. lia.
      - exact MO0.
      - rewrite <- Q in *. exists memo'. split; auto. split; [intros r r' E; apply M2; apply EX0; auto|]. cbn [AliasModel.hold AliasModel.heap] in M3, M4. split; [lia|]. split; [intros r L; rewrite M4 by lia; rewrite content_hold; auto|]. split.
        + intros x. rewrite M5, original_cons. destruct (is_spec x (HNode n')) as [(QX & ->)|(QX & NX)]; rewrite ?QX.
          * rewrite original_none by auto. rewrite env_hold, is_refl. subst v. destruct (env st (HNode n)) as [r|] eqn:EN; auto. destruct (HV r eq_refl) as (r' & HL). rewrite HL. symmetry. now apply M2.
          * destruct (original ns x) as [y|] eqn:OX; [|rewrite env_hold, QX; apply E0]. destruct (original_In _ _ _ OX) as (m & m' & I & -> & ->). rewrite EH by (right; apply (List.in_map fst) in I; exact I). reflexivity.
        + intros m r [<-|I] E; [destruct (HV r E) as (r' & HL); exists r'; now apply M2|]. apply (M6 m r I). rewrite EH by (right; auto). exact E. }
    unfold st' in *. destruct (AliasModel.env elt st (HNode n)) as [r|] eqn:EN.
    + destruct (List.find (fun p => fst p =? r) memo) as [p|] eqn:F.
      * assert (HL : look memo r = Some (snd p)) by (unfold look; now rewrite F). refine (G st memo (Some (snd p)) MO _ _ _ _ _ _ _); auto; [intros q [= <-]; eauto|cbn [copy_nodes]; rewrite EN, F; reflexivity].
      * set (x := AliasModel.alloc elt st (AliasModel.content elt st r)). pose proof (RB n r (or_introl eq_refl) EN) as LR. destruct MO as [MA MB].
        assert (LK : forall q, look ((r, snd x) :: memo) q = if r =? q then Some (snd x) else look memo q) by (intros q; unfold look; cbn [List.find fst]; destruct (r =? q); reflexivity).
        assert (NR : look memo r = None) by (unfold look; now rewrite F).
        refine (G (fst x) ((r, snd x) :: memo) (Some (snd x)) _ _ _ _ _ _ _ _).
        -- split.
           ++ intros q q' H. rewrite LK in H. destruct (r =? q) eqn:Q.
              ** apply Nat.eqb_eq in Q. subst q. injection H as <-. split; auto. split; [cbn; rewrite app_length; cbn; lia|]. unfold x. rewrite content_new. symmetry. apply content_alloc. lia.
              ** destruct (MA q q' H) as (H1 & H2 & H3). split; auto. split; [cbn; rewrite app_length; lia|]. unfold x. rewrite !content_alloc by lia. exact H3.
           ++ intros r1 r2 r' H1 H2. rewrite LK in H1, H2. destruct (r =? r1) eqn:Q1; destruct (r =? r2) eqn:Q2; try (apply Nat.eqb_eq in Q1); try (apply Nat.eqb_eq in Q2); try congruence.
              ** injection H1 as <-. apply MA in H2. cbn in H2. lia.
              ** injection H2 as <-. apply MA in H1. cbn in H1. lia.
              ** eapply MB; eauto.
        -- intros q q' H. rewrite LK. destruct (r =? q) eqn:Q; auto. apply Nat.eqb_eq in Q. subst q. congruence.
        -- cbn. rewrite app_length. lia.
        -- intros q L. unfold x. now apply content_alloc.
        -- reflexivity.
        -- rewrite LK, Nat.eqb_refl. reflexivity.
        -- intros q [= <-]. exists (snd x). rewrite LK, Nat.eqb_refl. reflexivity.
        -- cbn [copy_nodes]. rewrite EN, F. reflexivity.
    + refine (G st memo None MO _ _ _ _ _ _ _); auto; [intros q Q; discriminate Q|cbn [copy_nodes]; rewrite EN; reflexivity].
Qed.
Lemma rel_copy : forall st s ns, rel st s -> NoDup (map fst ns) -> NoDup (map snd ns) -> (forall n, In n (map fst ns) -> ~ In n (map snd ns)) -> (forall p, In p ns -> tyof (snd p) = tyof (fst p)) ->
  rel (copy_nodes elt st [] ns) (copied s ns).
Proof.
  intros st s ns R NF ND DJ TY. destruct (copy_inv ns (length (heap st)) st [] ND DJ) as (memo & (MA & MB) & _ & L & C & E & K); [intros; eapply (r_wf _ _ _ _ R); eauto|auto|split; intros; discriminate|].
  cbv zeta in *. set (st' := copy_nodes elt st [] ns) in *.
  assert (UQ : forall n n1 n2, In (n, n1) ns -> In (n, n2) ns -> n1 = n2). { clear - NF. induction ns as [|[m m'] ns IH]; intros n n1 n2 I1 I2; [destruct I1|]. cbn in NF. inversion NF as [|? ? Q1 Q2]; subst.
    destruct I1 as [I1|I1], I2 as [I2|I2]; try congruence; [injection I1 as -> ->|injection I2 as -> ->|eauto]; exfalso; apply Q1; [apply (List.in_map fst) in I2|apply (List.in_map fst) in I1]; auto. }
  assert (OE : forall x y, original ns x = Some y -> forall r, env st y = Some r -> exists r', env st' x = Some r' /\ look memo r = Some r').
  { intros x y O r Q. destruct (original_In _ _ _ O) as (n & n' & I & -> & ->). apply (List.in_map fst) in I. destruct (K n r I Q) as (r' & LK). exists r'. rewrite E, O, Q. auto. }
  assert (ON : forall x y, original ns x = Some y -> env st y = None -> env st' x = None) by (intros x y O Q; rewrite E, O, Q; reflexivity).
  assert (OO : forall x, original ns x = None -> env st' x = env st x) by (intros x O; rewrite E, O; reflexivity).
  split.
  - intros x. cbn [AliasSpec.copied AliasSpec.val]. destruct (original ns x) as [y|] eqn:O.
    + rewrite <- (r_val _ _ _ _ R). unfold AliasModel.show. destruct (AliasModel.env elt st y) as [r|] eqn:EY.
      * destruct (OE _ _ O r EY) as (r' & -> & LK). f_equal. apply MA in LK. destruct LK as (L1 & _ & ->). apply C. exact L1.
      * rewrite (ON _ _ O EY). destruct (original_In _ _ _ O) as (n & n' & I & -> & ->). unfold AliasModel.default. f_equal. pose proof (TY _ I) as T. cbn in T. now rewrite T.
    + rewrite <- (r_val _ _ _ _ R). unfold AliasModel.show. rewrite OO by auto. destruct (AliasModel.env elt st x) as [r|] eqn:EX; auto. f_equal. apply C. eapply (r_wf _ _ _ _ R); eauto.
  - intros x y. cbn [AliasSpec.copied AliasSpec.share]. destruct (original ns x) as [x0|] eqn:OX; destruct (original ns y) as [y0|] eqn:OY.
    + rewrite (r_share _ _ _ _ R). unfold together. split.
      * intros [EQ|(r & Q1 & Q2)].
        -- left. destruct (original_In _ _ _ OX) as (n & n' & I & -> & ->). destruct (original_In _ _ _ OY) as (m & m' & J & -> & ->). injection EQ as <-. f_equal. eapply UQ; eauto.
        -- right. destruct (OE _ _ OX r Q1) as (r1 & E1 & L1). destruct (OE _ _ OY r Q2) as (r2 & E2 & L2). exists r1. split; congruence.
      * intros [->|(r' & Q1 & Q2)]; [left; congruence|right]. destruct (AliasModel.env elt st x0) as [r1|] eqn:E1; [|rewrite (ON _ _ OX E1) in Q1; discriminate]. destruct (AliasModel.env elt st y0) as [r2|] eqn:E2; [|rewrite (ON _ _ OY E2) in Q2; discriminate].
        destruct (OE _ _ OX _ E1) as (q1 & X1 & L1). destruct (OE _ _ OY _ E2) as (q2 & X2 & L2). exists r1. split; auto. f_equal. eapply MB; eauto. congruence.
    + split; [discriminate|]. intros [->|(r & Q1 & Q2)]; [congruence|]. exfalso. rewrite OO in Q2 by auto. apply (r_wf _ _ _ _ R) in Q2. destruct (AliasModel.env elt st x0) as [r1|] eqn:E1; [|rewrite (ON _ _ OX E1) in Q1; discriminate].
      destruct (OE _ _ OX _ E1) as (q1 & X1 & L1). apply MA in L1. assert (q1 = r) by congruence. lia.
    + split; [discriminate|]. intros [->|(r & Q1 & Q2)]; [congruence|]. exfalso. rewrite OO in Q1 by auto. apply (r_wf _ _ _ _ R) in Q1. destruct (AliasModel.env elt st y0) as [r1|] eqn:E1; [|rewrite (ON _ _ OY E1) in Q2; discriminate].
      destruct (OE _ _ OY _ E1) as (q1 & X1 & L1). apply MA in L1. assert (q1 = r) by congruence. lia.
    + rewrite (r_share _ _ _ _ R). unfold together. rewrite !OO by auto. reflexivity.
  - intros x r Q. destruct (original ns x) as [y|] eqn:O; [|rewrite OO in Q by auto; apply (r_wf _ _ _ _ R) in Q; lia].
    destruct (AliasModel.env elt st y) as [r1|] eqn:E1; [|rewrite (ON _ _ O E1) in Q; discriminate]. destruct (OE _ _ O _ E1) as (q1 & X1 & L1). apply MA in L1. assert (q1 = r) by congruence. lia.
Qed.

Lemma cast_text : forall i, cast_str str_of i = text str_of i.
Proof. intros [s|z]; reflexivity. Qed.
Lemma map_cast_text : forall l, map (cast_str str_of) l = map (text str_of) l.
Proof. intros l. apply map_ext. apply cast_text. Qed.
(** one step *)
Lemma rel_step : forall st s o, rel st s -> copy_ok elt tyof o -> exists s' e, sstep s o s' e /\ snd (step st o) = e /\ rel (fst (step st o)) s'.
Proof.
  intros st s o R OK. destruct o as [a o|a b|a n|n o|n src|n l|n i x|h o|ns]; cbn [AliasModel.step].
  - eexists. eexists. split; [constructor|]. split; [reflexivity|]. now apply rel_new.
  - destruct (AliasModel.env elt st (HVar b)) as [r|] eqn:E.
    + eexists. eexists. split; [eapply s_same; rewrite <- (r_val _ _ _ _ R); unfold AliasModel.show; rewrite E; reflexivity|]. split; [reflexivity|]. now apply rel_join.
    + eexists. eexists. split; [eapply s_same_none; rewrite <- (r_val _ _ _ _ R); unfold AliasModel.show; rewrite E; reflexivity|]. split; auto.
  - destruct (rel_value _ _ st s n R) as (R' & E & _). eexists. eexists. split; [constructor|]. split; [reflexivity|]. now apply rel_join.
  - eexists. eexists. split; [constructor|]. split; [reflexivity|]. now apply rel_new.
  - unfold set. destruct (lazy n) eqn:LZ; [eexists; eexists; split; [now apply s_lazy|split; auto]|]. destruct src as [m|a|o].
    + destruct (rel_value _ _ st s m R) as (R' & E & _). destruct (ty_eqb (tyof n) (tyof m)) eqn:T.
      * apply ty_eqb_eq in T. eexists. eexists. split; [now apply s_set_same|]. split; [reflexivity|]. now apply rel_join.
      * destruct (rel_assign elt tyof str_of cast items_of array_of _ s n (HNode m) _ st R' E) as (s' & e & SA & EE & RR). exists s', e. split; auto. apply s_set_node; auto. intros Q. rewrite (proj2 (ty_eqb_eq _ _) Q) in T. discriminate.
    + destruct (AliasModel.env elt st (HVar a)) as [r|] eqn:E.
      * destruct (rel_assign elt tyof str_of cast items_of array_of _ s n (HVar a) _ st R E) as (s' & e & SA & EE & RR). exists s', e. split; auto. now apply s_set_var.
      * eexists. eexists. split; [apply s_set_novar; auto; rewrite <- (r_val _ _ _ _ R); unfold AliasModel.show; rewrite E; reflexivity|]. split; auto.
    + pose proof (rel_alloc _ tyof st s o R) as R'. destruct (cast_takes elt tyof str_of cast items_of array_of (fst (alloc st o)) n (snd (alloc st o))) as (k & T & X). rewrite content_new in T. unfold assign.
      destruct (cast_value elt tyof str_of cast items_of array_of (fst (alloc st o)) n (snd (alloc st o))) as [st' [r'|e]]; destruct k as [|o'|e']; try (now destruct X); cbn [fst snd].
      * destruct X as [-> ->]. eexists. eexists. split; [now apply s_set_as_is|]. split; auto. now apply rel_new.
      * eexists. eexists. split; [eapply s_set_new; eauto|]. split; auto. assert (E1 : st' = fst (alloc (fst (alloc st o)) o')) by (rewrite <- X; reflexivity). assert (E2 : r' = snd (alloc (fst (alloc st o)) o')) by (rewrite <- X; reflexivity). subst. now apply rel_new.
      * destruct X as [-> X]. eexists. eexists. split; [eapply s_set_refused; eauto|]. split; auto. destruct X as [->|(o' & ->)]; auto. now apply rel_alloc.
  - destruct (rel_value _ _ st s n R) as (R' & E & V & L). unfold list_change. destruct (AliasModel.content elt (fst (value st n)) (snd (value st n))) as [l0|t sh d] eqn:C.
    + unfold append. eexists. eexists. split; [eapply s_extend; eauto|]. split; [reflexivity|]. rewrite map_cast_text. now apply rel_change.
    + eexists. eexists. split; [eapply s_extend_arr; eauto|]. split; auto.
  - destruct (rel_value _ _ st s n R) as (R' & E & V & L). unfold list_change. destruct (AliasModel.content elt (fst (value st n)) (snd (value st n))) as [l0|t sh d] eqn:C.
    + unfold set_item. destruct (i <? length l0) eqn:LI.
      * apply Nat.ltb_lt in LI. destruct (nth_error l0 i) as [y|] eqn:N; [|apply nth_error_None in N; lia]. apply nth_error_split in N. destruct N as (l1 & l2 & -> & LL). rewrite <- LL. rewrite replace_split, cast_text.
        eexists. eexists. split; [eapply s_item; eauto|]. split; [reflexivity|]. now apply rel_change.
      * apply Nat.ltb_ge in LI. eexists. eexists. split; [eapply s_item_range; eauto|]. split; auto.
    + eexists. eexists. split; [eapply s_item_arr; eauto|]. split; auto.
  - unfold mutate, object. destruct h as [n|a].
    + destruct (rel_value _ _ st s n R) as (R' & E & V & L). destruct (same_kind elt (AliasModel.content elt (fst (value st n)) (snd (value st n))) o) eqn:SK.
      * eexists. eexists. split; [eapply s_mutate; eauto|]. split; [reflexivity|]. now apply rel_change.
      * eexists. eexists. split; [eapply s_mutate_kind; eauto|]. split; auto.
    + destruct (AliasModel.env elt st (HVar a)) as [r|] eqn:E.
      * assert (V : val s (HVar a) = Some (content st r)) by (rewrite <- (r_val _ _ _ _ R); unfold AliasModel.show; rewrite E; reflexivity). destruct (same_kind elt (AliasModel.content elt st r) o) eqn:SK.
        -- eexists. eexists. split; [eapply s_mutate; eauto|]. split; [reflexivity|]. now apply rel_change.
        -- eexists. eexists. split; [eapply s_mutate_kind; eauto|]. split; auto.
      * eexists. eexists. split; [apply s_mutate_none; rewrite <- (r_val _ _ _ _ R); unfold AliasModel.show; rewrite E; reflexivity|]. split; auto.
  - destruct (existsb (fun p => lazy (fst p)) ns) eqn:LZ.
    + apply existsb_exists in LZ. destruct LZ as (p & I & LZ). eexists. eexists. split; [eapply s_copy_lazy; eauto|]. split; auto.
    + destruct OK as (NF & ND & DJ & TY). eexists. eexists. split; [apply s_copy|split; [reflexivity|now apply rel_copy]]. intros p I. destruct (lazy (fst p)) eqn:Q; auto. assert (existsb (fun p => lazy (fst p)) ns = true) by (apply existsb_exists; eauto). congruence.
Qed.
Lemma rel_start : rel (start elt) (sstart elt tyof).
Proof.
  split.
  - intros [n|a]; reflexivity.
  - intros x y. cbn [sstart AliasSpec.share]. unfold together. cbn. split; [intros H; left; now apply holder_eqb_eq|intros [->|(r & Q & _)]; [apply is_refl|discriminate]].
  - intros h r Q. discriminate Q.
Qed.
Lemma rel_run : forall l st s, rel st s -> Forall (copy_ok elt tyof) l -> exists s' es, sruns elt tyof lazy str_of cast items_of array_of s l s' es /\
  snd (run elt tyof lazy str_of cast items_of array_of st l) = es /\ rel (fst (run elt tyof lazy str_of cast items_of array_of st l)) s'.
Proof.
  induction l as [|o l IH]; intros st s R F; cbn [run fst snd].
  - exists s, []. split; [constructor|]. auto.
  - inversion F as [|? ? F1 F2]; subst. destruct (rel_step st s o R F1) as (s1 & e & S & E & R1). destruct (IH _ _ R1 F2) as (s2 & es & S2 & E2 & R2). exists s2, (e :: es). split; [econstructor; eauto|]. split; [congruence|exact R2].
Qed.
End Proofs.
