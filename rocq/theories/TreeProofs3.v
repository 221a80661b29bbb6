(** Lemmas about IDS trees: differences and equality. *)
From Verif Require Import Base TreeModel TreeSpec TreeProofs TreeProofs2.

(** ** Leaf values *)
Lemma strip_nul_spec : forall s, exists i, s = strip_nul s ++ repeat zero i.
Proof.
  induction s as [|x t (i & IH)]; [exists 0; reflexivity|]. cbn [strip_nul].
  destruct (strip_nul t) as [|y r] eqn:E.
  - destruct (Ascii.eqb x zero) eqn:Ex.
    + apply Ascii.eqb_eq in Ex. subst x. exists (S i). simpl in *. congruence.
    + exists i. simpl in *. congruence.
  - exists i. simpl in *. congruence.
Qed.

Lemma strip_nul_nuls : forall i, strip_nul (repeat zero i) = [].
Proof. induction i; auto. cbn [repeat strip_nul]. rewrite IHi. reflexivity. Qed.

Lemma strip_nul_app : forall s i, strip_nul (s ++ repeat zero i) = strip_nul s.
Proof.
  induction s as [|x t IH]; intros i; simpl app.
  - apply strip_nul_nuls.
  - cbn [strip_nul]. rewrite IH. reflexivity.
Qed.

Lemma np_str_eq_spec : forall a b, np_str_eq a b = true <-> same_str a b.
Proof.
  intros a b. unfold np_str_eq. rewrite str_eqb_eq. split.
  - intros H. destruct (strip_nul_spec a) as (i & Ha), (strip_nul_spec b) as (j & Hb).
    exists (strip_nul a), i, j. split; congruence.
  - intros (s & i & j & -> & ->). now rewrite !strip_nul_app.
Qed.

Lemma feq_nan_spec : forall a b, scalar_eq_nan (SFlt a) (SFlt b) = true <-> same_flt a b.
Proof.
  intros a b. unfold scalar_eq_nan, same_flt. cbn. unfold feq.
  destruct (is_nan a) eqn:Ea, (is_nan b) eqn:Eb; simpl.
  - split; auto.
  - split; [discriminate|]. intros [(H & H')|(H & H' & _)]; discriminate.
  - split; [discriminate|]. intros [(H & H')|(H & H' & _)]; discriminate.
  - rewrite Z.eqb_eq. split; auto. intros [(H & H')|(H & H' & K)]; [discriminate|auto].
Qed.

Lemma ceq_nan_spec : forall a b, scalar_eq_nan (SCpx (fst a) (snd a)) (SCpx (fst b) (snd b)) = true <-> same_cpx a b.
Proof.
  intros [a a'] [b b']. unfold scalar_eq_nan, same_cpx, cpx_nan. cbn. unfold feq.
  destruct (is_nan a), (is_nan a'), (is_nan b), (is_nan b'); simpl;
    try (split; [discriminate|]; intros [([H|H] & [H'|H'])|(H & H' & _)]; try discriminate; exfalso; auto; fail);
    try (split; auto; fail).
  rewrite andb_true_iff, !Z.eqb_eq. split.
  - intros (H & H'). right. repeat split; auto; intros [C|C]; discriminate.
  - intros [([H|H] & _)|(_ & _ & H & H')]; try discriminate. auto.
Qed.

Lemma list_eqb_map : forall {A B} (f : A -> B) eqb (R : A -> A -> Prop), (forall a b, eqb (f a) (f b) = true <-> R a b) ->
  forall l l', list_eqb eqb (map f l) (map f l') = true <-> Forall2 R l l'.
Proof.
  intros A B f eqb R H. induction l as [|a l IH]; destruct l' as [|b l']; simpl; split; intros K; try discriminate; auto.
  - inversion K.
  - inversion K.
  - apply andb_true_iff in K as (K1 & K2). constructor; [apply H; auto|apply IH; auto].
  - inversion K; subst. apply andb_true_iff. split; [apply H; auto|apply IH; auto].
Qed.

Lemma list_eqb_nat : forall l l', list_eqb Nat.eqb l l' = true <-> l = l'.
Proof.
  induction l as [|a l IH]; destruct l' as [|b l']; simpl; split; intros K; try discriminate; auto.
  - apply andb_true_iff in K as (K1 & K2). apply Nat.eqb_eq in K1. apply IH in K2. congruence.
  - inversion K; subst. rewrite Nat.eqb_refl. apply IH. auto.
Qed.

Lemma Forall2_eq : forall {A} (l l' : list A), Forall2 eq l l' <-> l = l'.
Proof.
  intros A l l'. split.
  - intros H. induction H; congruence.
  - intros ->. induction l'; auto.
Qed.

Lemma feq_weaker : forall a b, scalar_eq (SFlt a) (SFlt b) = true -> scalar_eq_nan (SFlt a) (SFlt b) = true.
Proof.
  intros a b H. apply feq_nan_spec. unfold scalar_eq, feq in H.
  apply andb_true_iff in H as (H & K). apply andb_true_iff in H as (H1 & H2).
  apply negb_true_iff in H1, H2. apply Z.eqb_eq in K. right. auto.
Qed.

Lemma ceq_weaker : forall a b, scalar_eq (SCpx (fst a) (snd a)) (SCpx (fst b) (snd b)) = true ->
  scalar_eq_nan (SCpx (fst a) (snd a)) (SCpx (fst b) (snd b)) = true.
Proof.
  intros a b H. apply ceq_nan_spec. unfold scalar_eq in H. apply andb_true_iff in H as (H & H').
  assert (E : forall x y, feq x y = true -> is_nan x = false /\ is_nan y = false /\ f_key x = f_key y).
  { intros x y Hxy. unfold feq in Hxy. apply andb_true_iff in Hxy as (Hxy & K). apply andb_true_iff in Hxy as (H1 & H2).
    apply negb_true_iff in H1, H2. apply Z.eqb_eq in K. auto. }
  apply E in H as (H1 & H2 & H3). apply E in H' as (H1' & H2' & H3').
  right. unfold cpx_nan. repeat split; auto; intros [C|C]; congruence.
Qed.

Lemma list_eqb_weaker : forall {A} (e1 e2 : scalar -> scalar -> bool) (f : A -> scalar),
  (forall a b, e1 (f a) (f b) = true -> e2 (f a) (f b) = true) ->
  forall l l', list_eqb e1 (map f l) (map f l') = true -> list_eqb e2 (map f l) (map f l') = true.
Proof.
  intros A e1 e2 f H. induction l as [|a l IH]; destruct l' as [|b l']; simpl; auto.
  intros K. apply andb_true_iff in K as (K1 & K2). apply andb_true_iff. auto.
Qed.

Lemma leaf_eq_spec : forall dt nd v w, val_ok dt nd v -> val_ok dt nd w -> (leaf_eq v w = true <-> same_value v w).
Proof.
  intros dt nd v w Hv Hw. unfold leaf_eq, array_equal.
  assert (Habs : forall a b : bool, (a = true -> b = true) -> a || b = b).
  { intros [] []; auto. intros K. now rewrite K. }
  destruct Hv; inversion Hw; subst;
    try match goal with
        | K : length ?a = 0 |- _ => destruct a; [congruence|discriminate]
        | K : 0 = length ?a |- _ => destruct a; [congruence|discriminate]
        end;
    cbn [value_shape value_data]; cbn [list_eqb andb].
  - unfold scalar_eq_nan. cbn [scalar_nan orb scalar_eq]. rewrite !andb_true_r, orb_diag.
    rewrite np_str_eq_spec. split; intros K; [constructor; auto|inversion K; auto].
  - unfold scalar_eq_nan. cbn [scalar_nan orb scalar_eq]. rewrite !andb_true_r, orb_diag, Z.eqb_eq.
    split; intros K; [subst; constructor|inversion K; auto].
  - rewrite !andb_true_r, Habs by apply feq_weaker. rewrite feq_nan_spec. split; intros K; [constructor; auto|inversion K; auto].
  - rewrite !andb_true_r, Habs by apply (ceq_weaker (r, i) (_, _)).
    match goal with |- scalar_eq_nan _ (SCpx ?c ?d) = true <-> _ => pose proof (ceq_nan_spec (r, i) (c, d)) as Hq end.
    cbn [fst snd] in Hq. rewrite Hq.
    split; intros K; [constructor; auto|inversion K; auto].
  - rewrite andb_true_r. rewrite Habs.
    + rewrite andb_true_iff, Nat.eqb_eq.
      rewrite (list_eqb_map SStr scalar_eq_nan same_str) by (intros; apply np_str_eq_spec).
      split; [intros (_ & K); constructor; auto|intros K; inversion K; subst; split; auto; eapply Forall2_len; eauto].
    + intros K. apply andb_true_iff in K as (K1 & K2). rewrite K1. cbn [andb].
      apply (list_eqb_weaker scalar_eq scalar_eq_nan SStr (fun _ _ H => H)); auto.
  - rewrite Habs by (intros K; apply andb_true_iff in K as (K1 & K2); rewrite K1; cbn [andb];
      apply (list_eqb_weaker scalar_eq scalar_eq_nan SInt (fun _ _ H => H)); auto).
    rewrite andb_true_iff, list_eqb_nat. rewrite (list_eqb_map SInt scalar_eq_nan eq) by (intros; apply Z.eqb_eq).
    rewrite Forall2_eq. split; [intros (-> & ->); constructor|intros K; inversion K; auto].
  - rewrite Habs.
    + rewrite andb_true_iff, list_eqb_nat. rewrite (list_eqb_map SFlt scalar_eq_nan same_flt) by (intros; apply feq_nan_spec).
      split; [intros (-> & K); constructor; auto|intros K; inversion K; auto].
    + intros K; apply andb_true_iff in K as (K1 & K2); rewrite K1; cbn [andb]; eapply list_eqb_weaker; [exact feq_weaker|]; auto.
  - rewrite Habs.
    + rewrite andb_true_iff, list_eqb_nat.
      rewrite (list_eqb_map (fun x => SCpx (fst x) (snd x)) scalar_eq_nan same_cpx) by (intros; apply ceq_nan_spec).
      split; [intros (-> & K); constructor; auto|intros K; inversion K; auto].
    + intros K; apply andb_true_iff in K as (K1 & K2); rewrite K1; cbn [andb]; eapply list_eqb_weaker with (e1 := scalar_eq); [exact ceq_weaker|]; auto.
Qed.

Lemma same_str_strip : forall a b, same_str a b <-> strip_nul a = strip_nul b.
Proof. intros. rewrite <- np_str_eq_spec. apply str_eqb_eq. Qed.

Lemma same_flt_refl : forall a, same_flt a a.
Proof. intros a. unfold same_flt. destruct (is_nan a); auto. Qed.
Lemma same_flt_sym : forall a b, same_flt a b -> same_flt b a.
Proof. intros a b [H|(H1 & H2 & H3)]; [left; tauto|right; auto]. Qed.
Lemma same_flt_trans : forall a b c, same_flt a b -> same_flt b c -> same_flt a c.
Proof. intros a b c [(H & H')|(H1 & H2 & H3)] [(K & K')|(K1 & K2 & K3)]; try congruence; [left; auto|right]; repeat split; congruence. Qed.
Lemma same_cpx_refl : forall a, same_cpx a a.
Proof.
  intros [a b]. unfold same_cpx, cpx_nan. simpl. destruct (is_nan a) eqn:E, (is_nan b) eqn:E'; auto.
  right. repeat split; auto; intros [H|H]; discriminate.
Qed.
Lemma same_cpx_sym : forall a b, same_cpx a b -> same_cpx b a.
Proof. intros a b [H|(H1 & H2 & H3 & H4)]; [left; tauto|right; auto]. Qed.
Lemma same_cpx_trans : forall a b c, same_cpx a b -> same_cpx b c -> same_cpx a c.
Proof.
  intros a b c [(H & H')|(H1 & H2 & H3 & H4)] [(K & K')|(K1 & K2 & K3 & K4)]; try contradiction; [left; auto|right].
  repeat split; auto; congruence.
Qed.
Lemma F2_refl : forall {A} (R : A -> A -> Prop), (forall a, R a a) -> forall l, Forall2 R l l.
Proof. intros A R H. induction l; constructor; auto. Qed.
Lemma F2_sym : forall {A} (R : A -> A -> Prop), (forall a b, R a b -> R b a) -> forall l l', Forall2 R l l' -> Forall2 R l' l.
Proof. intros A R H l l' K. induction K; constructor; auto. Qed.
Lemma F2_trans : forall {A} (R : A -> A -> Prop), (forall a b c, R a b -> R b c -> R a c) ->
  forall l l', Forall2 R l l' -> forall l'', Forall2 R l' l'' -> Forall2 R l l''.
Proof. intros A R H l l' K. induction K; intros l'' K2; inversion K2; subst; constructor; eauto. Qed.

Lemma same_value_refl : forall v, same_value v v.
Proof.
  destruct v; constructor; auto using same_flt_refl, same_cpx_refl; try (apply same_str_strip; auto; fail);
    apply F2_refl; auto using same_flt_refl, same_cpx_refl. intros; now apply same_str_strip.
Qed.
Lemma same_value_sym : forall v w, same_value v w -> same_value w v.
Proof.
  intros v w H. destruct H; constructor; auto using same_flt_sym, same_cpx_sym.
  - apply same_str_strip. apply same_str_strip in H. auto.
  - eapply F2_sym; eauto. intros x y K. apply same_str_strip. apply same_str_strip in K. auto.
  - eapply F2_sym; eauto. apply same_flt_sym.
  - eapply F2_sym; eauto. apply same_cpx_sym.
Qed.
Lemma same_value_trans : forall v w x, same_value v w -> same_value w x -> same_value v x.
Proof.
  intros v w x H K. destruct H; inversion K; subst; constructor; eauto using same_flt_trans, same_cpx_trans.
  - apply same_str_strip. apply same_str_strip in H, H1. congruence.
  - eapply F2_trans; eauto. intros p q r P Q. apply same_str_strip. apply same_str_strip in P, Q. congruence.
  - eapply F2_trans; eauto. apply same_flt_trans.
  - eapply F2_trans; eauto. apply same_cpx_trans.
Qed.

(** ** Differences *)
Definition sdiff (pre' : list str) (cs1 : list meta) (f1 : fields) (cs2 : list meta) (f2 : fields) : list diff :=
  let children1 := iter_nonempty cs1 f1 in
  let children2 := iter_nonempty cs2 f2 in
  flat_map (fun c =>
    match alookup (mname c) f1 with
    | None => []
    | Some ch =>
      if has_value c ch then
        match find_child (mname c) children2 with
        | None => only_on_one_side left_side pre' c ch
        | Some (c2', ch2) => diff_child pre' c ch c2' ch2
        end
      else []
    end) cs1
  ++ flat_map (fun cn => match find_child (mname (fst cn)) children1 with
                         | Some _ => []
                         | None => only_on_one_side right_side pre' (fst cn) (snd cn)
                         end) children2.

Lemma diff_child_struct : forall pre nm cs1 f1 c2 f2, mkind c2 = KStruct ->
  diff_child pre (Meta nm KStruct cs1) (NStruct f1) c2 (NStruct f2) = sdiff (pre ++ [nm]) cs1 f1 (mchildren c2) f2.
Proof. intros pre nm cs1 f1 [n2 k2 cs2] f2 H. simpl in H. subst. reflexivity. Qed.
Lemma diff_child_aos : forall pre nm cs1 e1 c2 e2, mkind c2 = KAoS ->
  diff_child pre (Meta nm KAoS cs1) (NAoS e1) c2 (NAoS e2) =
  (if length e1 =? length e2 then [] else [DNode (pre ++ [nm]) (Some (NAoS e1)) (Some (NAoS e2))])
  ++ flat_map (fun p => sdiff (pre ++ [nm]) cs1 (node_fields (fst p)) (mchildren c2) (node_fields (snd p))) (combine e1 e2).
Proof. intros pre nm cs1 f1 [n2 k2 cs2] f2 H. simpl in H. subst. reflexivity. Qed.

(** non-empty child *)
Definition ne (c : meta) (f : fields) : option node :=
  match alookup (mname c) f with Some ch => if has_value c ch then Some ch else None | None => None end.

Lemma find_child_ne : forall cs f c, NoDup (map mname cs) -> In c cs ->
  find_child (mname c) (iter_nonempty cs f) = match ne c f with Some ch => Some (c, ch) | None => None end.
Proof.
  intros cs f c Hnd Hin. unfold iter_nonempty.
  assert (Hout : forall ds nm, ~ In nm (map mname ds) ->
     find_child nm (flat_map (fun c => match alookup (mname c) f with
                     | Some ch => if has_value c ch then [(c, ch)] else [] | None => [] end) ds) = None).
  { induction ds as [|d ds IHd]; intros nm Hni; simpl; auto. simpl in Hni.
    assert (Hd : str_eqb nm (mname d) = false) by (apply str_eqb_neq; intuition).
    destruct (alookup (mname d) f) as [ch|]; simpl; [|apply IHd; intuition].
    destruct (has_value d ch); simpl; [rewrite Hd|]; apply IHd; intuition. }
  induction cs as [|a cs IH]; simpl in *; [tauto|]. inversion Hnd as [|x l Hni Hnd']; subst.
  destruct Hin as [->|Hin].
  - unfold ne. destruct (alookup (mname c) f) as [ch|] eqn:E; [destruct (has_value c ch) eqn:Ev|]; simpl.
    + rewrite str_eqb_refl. auto.
    + apply Hout; auto.
    + apply Hout; auto.
  - assert (Hd : str_eqb (mname c) (mname a) = false).
    { apply str_eqb_neq. intros K. apply Hni. rewrite <- K. now apply in_map. }
    destruct (alookup (mname a) f) as [ch|]; [destruct (has_value a ch)|]; simpl; try rewrite Hd; auto.
Qed.

Lemma in_iter_nonempty : forall cs f c ch, In (c, ch) (iter_nonempty cs f) <-> In c cs /\ ne c f = Some ch.
Proof.
  intros cs f c ch. unfold iter_nonempty, ne. rewrite in_flat_map. split.
  - intros (c' & Hin & H). destruct (alookup (mname c') f) as [x|] eqn:E; [|destruct H].
    destruct (has_value c' x) eqn:Ev; [|destruct H]. destruct H as [H|[]]. inversion H; subst. split; auto.
    rewrite E, Ev. auto.
  - intros (Hin & H). exists c. split; auto. destruct (alookup (mname c) f) as [x|]; [|discriminate].
    destruct (has_value c x); [|discriminate]. inversion H; subst. simpl; auto.
Qed.

Lemma in_sdiff : forall pre cs f1 f2 d, NoDup (map mname cs) -> (In d (sdiff pre cs f1 cs f2) <->
  exists c, In c cs /\
    match ne c f1, ne c f2 with
    | Some a, Some b => In d (diff_child pre c a c b)
    | Some a, None => In d (only_on_one_side left_side pre c a)
    | None, Some b => In d (only_on_one_side right_side pre c b)
    | None, None => False
    end).
Proof.
  intros pre cs f1 f2 d Hnd. unfold sdiff. cbn zeta. rewrite in_app_iff, !in_flat_map. split.
  - intros [(c & Hin & H)|((c & ch) & Hin & H)].
    + exists c. split; auto. rewrite find_child_ne in H by auto. unfold ne at 1.
      destruct (alookup (mname c) f1) as [a|]; [|destruct H]. destruct (has_value c a); [|destruct H].
      destruct (ne c f2); auto.
    + apply in_iter_nonempty in Hin as (Hin & Hne). exists c. split; auto. cbn [fst snd] in H.
      rewrite find_child_ne in H by auto. rewrite Hne. destruct (ne c f1); [destruct H|auto].
  - intros (c & Hin & H). destruct (ne c f1) as [a|] eqn:E1.
    + left. exists c. split; auto. rewrite find_child_ne by auto. unfold ne in E1.
      destruct (alookup (mname c) f1) as [a'|]; [|discriminate]. destruct (has_value c a'); [|discriminate].
      inversion E1; subst. destruct (ne c f2); auto.
    + destruct (ne c f2) as [b|] eqn:E2; [|destruct H]. right. exists (c, b). rewrite in_iter_nonempty. split; auto.
      cbn [fst snd]. rewrite find_child_ne by auto. rewrite E1. auto.
Qed.

Lemma ne_Some : forall c f ch, (forall x, alookup (mname c) f = Some x -> conf c x) ->
  (ne c f = Some ch <-> alookup (mname c) f = Some ch /\ nonempty c ch).
Proof.
  intros c f ch Hc. unfold ne. destruct (alookup (mname c) f) as [x|] eqn:E.
  - destruct (has_value c x) eqn:Ev.
    + apply has_value_nonempty in Ev; auto. split; [intros H; inversion H; subst; auto|intros (H & _); auto].
    + apply has_value_empty in Ev; auto. split; [discriminate|]. intros (H & H'). inversion H; subst. contradiction.
  - split; [discriminate|]. intros (H & _). discriminate.
Qed.

Lemma ne_None : forall c f, (forall x, alookup (mname c) f = Some x -> conf c x) ->
  (ne c f = None <-> forall ch, alookup (mname c) f = Some ch -> ~ nonempty c ch).
Proof.
  intros c f Hc. split.
  - intros H ch E Hn. assert (ne c f = Some ch) by (apply ne_Some; auto). congruence.
  - intros H. destruct (ne c f) as [ch|] eqn:E; auto. apply ne_Some in E as (E & Hn); auto. exfalso. eapply H; eauto.
Qed.

Lemma in_leaf_iter : forall m n l x, conf m n ->
  (In (l, x) (tree_iter_below true false m n) <-> l <> [] /\ exists v, x = NLeaf (Some v) /\ leaf_at m n l v).
Proof.
  intros m n l x Hc. rewrite tree_iter_below_spec by auto. split.
  - intros (Hne & m' & Hat & [(Hl & Hn)|(H & _)]); [|discriminate]. split; auto.
    pose proof (node_at_conf _ _ _ _ _ Hat Hc) as Hc'. destruct m' as [nm k cs]. destruct Hl as (dt & nd & Hk). simpl in Hk. subst k.
    destruct (conf_leaf_inv _ _ _ _ _ Hc') as [->|(v & -> & Hv)]; apply nonempty_leaf in Hn as (w & Hw & Hf); [discriminate|].
    inversion Hw; subst. exists w. split; auto. exists (Meta nm (KLeaf dt nd) cs). repeat split; auto. exists dt, nd. auto.
  - intros (Hne & v & -> & m' & Hl & Hat & Hf). split; auto. exists m'. split; auto. left. split; auto.
    destruct m' as [nm k cs]. destruct Hl as (dt & nd & Hk). simpl in Hk. subst k. apply nonempty_leaf. eauto.
Qed.

Lemma in_only : forall side pre c n d, conf c n ->
  (In d (only_on_one_side side pre c n) <->
   (mkind c = KStruct /\ exists l v, d = side (Some (NLeaf (Some v))) None (pre ++ mname c :: loc_names l) /\ leaf_at c n l v)
   \/ (mkind c <> KStruct /\ d = side (Some n) None (pre ++ [mname c]))).
Proof.
  intros side pre c n d Hc. unfold only_on_one_side. destruct (mkind c) as [| |dt nd] eqn:Ek.
  - unfold tree_iter. rewrite Ek. cbn [andb negb app]. rewrite in_map_iff. split.
    + intros ((l & x) & <- & H). left. split; auto. cbn [fst snd].
      apply in_leaf_iter in H as (_ & v & -> & H); auto. exists l, v. auto.
    + intros [(_ & l & v & -> & H)|(H & _)]; [|congruence]. exists (l, NLeaf (Some v)). split; auto.
      apply in_leaf_iter; auto. split; eauto. intros ->. destruct H as (m' & (dt & nd & Hk) & H & _).
      apply node_at_nil_inv in H as (-> & _). congruence.
  - simpl. split; [intros [<-|[]]; right; split; auto; discriminate|intros [(H & _)|(_ & ->)]; [discriminate|auto]].
  - simpl. split; [intros [<-|[]]; right; split; auto; discriminate|intros [(H & _)|(_ & ->)]; [discriminate|auto]].
Qed.

Lemma present_child : forall nm cs f c ch l, In c cs -> alookup (mname c) f = Some ch ->
  present c ch l -> present (Meta nm KStruct cs) (NStruct f) (Child (mname c) :: l).
Proof. intros nm cs f c ch l Hin E (m' & n' & H & Hn). exists m', n'. split; auto. econstructor; eauto. Qed.

Lemma present_child_inv : forall nm cs f c l, wf_meta (Meta nm KStruct cs) -> In c cs ->
  present (Meta nm KStruct cs) (NStruct f) (Child (mname c) :: l) -> exists ch, alookup (mname c) f = Some ch /\ present c ch l.
Proof.
  intros nm cs f c l Hw Hin (m' & n' & H & Hn).
  apply node_at_struct_inv in H as [(Hx & _)|(c' & ch' & l' & Hx & Hin' & E & H)]; [discriminate|].
  inversion Hx; subst. assert (c' = c) by (eapply nodup_name; eauto using wf_names). subst. exists ch'. split; auto. exists m', n'. auto.
Qed.

Lemma present_nonempty : forall m n l, present m n l -> nonempty m n.
Proof. intros m n l (m' & n' & H & Hn). eapply nonempty_up; eauto. Qed.

Lemma present_prefix : forall m n l l', present m n (l ++ l') -> present m n l.
Proof.
  intros m n l l' (m' & n' & H & Hn). apply node_at_split in H as (m1 & n1 & Ha & Hb). exists m1, n1. split; auto.
  eapply nonempty_up; eauto.
Qed.

Lemma hidden_child_inv : forall nm cs f1 f2 c a b l, wf_meta (Meta nm KStruct cs) -> In c cs ->
  alookup (mname c) f1 = Some a -> alookup (mname c) f2 = Some b -> nonempty c b ->
  hidden (Meta nm KStruct cs) (NStruct f1) (NStruct f2) (Child (mname c) :: l) -> hidden c a b l.
Proof.
  intros nm cs f1 f2 c a b l Hw Hin E1 E2 Hb (p & nm' & q & mp & np & Hl & Hq & Hat & Hk & Hno).
  destruct p as [|s p]; simpl in Hl; inversion Hl; subst.
  - exfalso. apply Hno. exists c, b. split; auto. simpl. econstructor; eauto. constructor.
  - exists p, nm', q, mp, np. repeat split; auto.
    + simpl in Hat. apply node_at_struct_inv in Hat as [(Hx & _)|(c' & ch' & l' & Hx & Hin' & E & Hat)]; [discriminate|].
      inversion Hx; subst. assert (c' = c) by (eapply nodup_name; eauto using wf_names). subst. congruence.
    + intros (mp' & np' & H & Hn). apply Hno. exists mp', np'. split; auto. simpl. econstructor; eauto.
Qed.

Lemma hidden_child : forall nm cs f1 f2 c a b l, wf_meta (Meta nm KStruct cs) -> In c cs ->
  alookup (mname c) f1 = Some a -> alookup (mname c) f2 = Some b ->
  hidden c a b l -> hidden (Meta nm KStruct cs) (NStruct f1) (NStruct f2) (Child (mname c) :: l).
Proof.
  intros nm cs f1 f2 c a b l Hw Hin E1 E2 (p & nm' & q & mp & np & -> & Hq & Hat & Hk & Hno).
  exists (Child (mname c) :: p), nm', q, mp, np. repeat split; auto.
  - simpl. econstructor; eauto.
  - intros (mp' & np' & H & Hn). apply Hno. simpl in H.
    apply node_at_struct_inv in H as [(Hx & _)|(c' & ch' & l' & Hx & Hin' & E & H)]; [discriminate|].
    inversion Hx; subst. assert (c' = c) by (eapply nodup_name; eauto using wf_names). subst.
    exists mp', np'. split; auto. congruence.
Qed.

Lemma hidden_elem : forall nm cs e1 e2 i a b l, nth_error e1 i = Some a -> nth_error e2 i = Some b ->
  (hidden (Meta nm KStruct cs) a b l <-> hidden (Meta nm KAoS cs) (NAoS e1) (NAoS e2) (Elem i :: l)).
Proof.
  intros nm cs e1 e2 i a b l E1 E2. split.
  - intros (p & nm' & q & mp & np & -> & Hq & Hat & Hk & Hno).
    exists (Elem i :: p), nm', q, mp, np. repeat split; auto.
    + simpl. econstructor; eauto.
    + intros (mp' & np' & H & Hn). apply Hno. simpl in H.
      apply node_at_aos_inv in H as [(Hx & _)|(i' & e' & l' & Hx & Hi & H)]; [discriminate|].
      inversion Hx; subst. exists mp', np'. split; auto. congruence.
  - intros (p & nm' & q & mp & np & Hl & Hq & Hat & Hk & Hno).
    destruct p as [|s p]; simpl in Hl; inversion Hl; subst. exists p, nm', q, mp, np. repeat split; auto.
    + simpl in Hat. apply node_at_aos_inv in Hat as [(Hx & _)|(i' & e' & l' & Hx & Hi & H)]; [discriminate|].
      inversion Hx; subst. congruence.
    + intros (mp' & np' & H & Hn). apply Hno. exists mp', np'. split; auto. simpl. econstructor; eauto.
Qed.

Lemma not_hidden_nil : forall m n1 n2, ~ hidden m n1 n2 [].
Proof. intros m n1 n2 (p & nm & q & mp & np & H & _). destruct p; discriminate. Qed.
Lemma not_hidden_single : forall m n1 n2 s, ~ hidden m n1 n2 [s].
Proof.
  intros m n1 n2 s (p & nm & q & mp & np & H & Hq & _). destruct p as [|x p]; simpl in H; inversion H; subst.
  - congruence.
  - destruct p; discriminate.
Qed.

(** [real] through a child and through an element *)
Lemma real_child : forall nm cs f1 f2 c a b pre d, wf_meta (Meta nm KStruct cs) -> In c cs ->
  alookup (mname c) f1 = Some a -> alookup (mname c) f2 = Some b -> nonempty c a -> nonempty c b ->
  real c a b (pre ++ [mname c]) d -> real (Meta nm KStruct cs) (NStruct f1) (NStruct f2) pre d.
Proof.
  intros nm cs f1 f2 c a b pre d Hw Hin E1 E2 Ha Hb (l & H). exists (Child (mname c) :: l).
  assert (Hp : pre ++ loc_names (Child (mname c) :: l) = (pre ++ [mname c]) ++ loc_names l) by (rewrite <- app_assoc; reflexivity).
  rewrite Hp. destruct H as [(m' & x & y & -> & H1 & H2 & H3)|[(m' & x & -> & H1 & H2 & H3 & H4 & H5)|(m' & x & -> & H1 & H2 & H3 & H4 & H5)]].
  - left. exists m', x, y. split; auto. split; [econstructor; eauto|]. split; [econstructor; eauto|auto].
  - right; left. exists m', x. split; auto. split; [econstructor; eauto|]. repeat split; auto.
    + intros Hpr. apply present_child_inv in Hpr as (ch & E & Hpr); auto. apply H4. congruence.
    + intros Hk Hh. apply (H5 Hk). eapply hidden_child_inv; eauto.
  - right; right. exists m', x. split; auto. split; [econstructor; eauto|]. repeat split; auto.
    + intros Hpr. apply present_child_inv in Hpr as (ch & E & Hpr); auto. apply H4. congruence.
    + intros Hk Hh. apply (H5 Hk). eapply hidden_child_inv; eauto.
Qed.

Lemma present_elem_inv : forall nm cs e i l, present (Meta nm KAoS cs) (NAoS e) (Elem i :: l) ->
  exists a, nth_error e i = Some a /\ present (Meta nm KStruct cs) a l.
Proof.
  intros nm cs e i l (m' & n' & H & Hn). apply node_at_aos_inv in H as [(Hx & _)|(i' & e' & l' & Hx & Hi & H)]; [discriminate|].
  inversion Hx; subst. exists e'. split; auto. exists m', n'. auto.
Qed.

Lemma real_elem : forall nm cs e1 e2 i a b pre d, nth_error e1 i = Some a -> nth_error e2 i = Some b ->
  real (Meta nm KStruct cs) a b pre d -> real (Meta nm KAoS cs) (NAoS e1) (NAoS e2) pre d.
Proof.
  intros nm cs e1 e2 i a b pre d E1 E2 (l & H). exists (Elem i :: l). cbn [loc_names flat_map app].
  fold (loc_names l).
  destruct H as [(m' & x & y & -> & H1 & H2 & H3)|[(m' & x & -> & H1 & H2 & H3 & H4 & H5)|(m' & x & -> & H1 & H2 & H3 & H4 & H5)]].
  - left. exists m', x, y. split; auto. split; [econstructor; eauto|]. split; [econstructor; eauto|auto].
  - right; left. exists m', x. split; auto. split; [econstructor; eauto|]. repeat split; auto.
    + intros Hpr. apply present_elem_inv in Hpr as (ch & E & Hpr). apply H4. congruence.
    + intros Hk Hh. apply (H5 Hk). eapply hidden_elem; eauto.
  - right; right. exists m', x. split; auto. split; [econstructor; eauto|]. repeat split; auto.
    + intros Hpr. apply present_elem_inv in Hpr as (ch & E & Hpr). apply H4. congruence.
    + intros Hk Hh. apply (H5 Hk). eapply hidden_elem; eauto.
Qed.

Lemma leaf_at_present : forall m n l v, leaf_at m n l v -> present m n l.
Proof.
  intros m n l v (m' & (dt & nd & Hk) & H & Hf). exists m', (NLeaf (Some v)). split; auto.
  destruct m' as [nm k cs]. simpl in Hk. subst. apply nonempty_leaf. eauto.
Qed.

Lemma node_at_child_det : forall nm cs f c ch l m' n', wf_meta (Meta nm KStruct cs) -> In c cs -> alookup (mname c) f = Some ch ->
  node_at (Meta nm KStruct cs) (NStruct f) (Child (mname c) :: l) m' n' -> node_at c ch l m' n'.
Proof.
  intros nm cs f c ch l m' n' Hw Hin E H.
  apply node_at_struct_inv in H as [(Hx & _)|(c' & ch' & l' & Hx & Hin' & E' & H)]; [discriminate|].
  inversion Hx; subst. assert (c' = c) by (eapply nodup_name; eauto using wf_names). subst. congruence.
Qed.

(** every report is real *)
Lemma diff_real : forall m, wf_meta m -> forall n1 n2 pre d, conf m n1 -> conf m n2 ->
  (is_leaf m -> nonempty m n1 /\ nonempty m n2) -> (mkind m = KAoS -> nonempty m n1 /\ nonempty m n2) ->
  In d (diff_child pre m n1 m n2) -> real m n1 n2 (pre ++ [mname m]) d.
Proof.
  intros m. meta_induction m. intros Hw.
  assert (Hs : forall nm f1 f2 pre d, conf (Meta nm KStruct cs) (NStruct f1) -> conf (Meta nm KStruct cs) (NStruct f2) ->
     In d (sdiff pre cs f1 cs f2) -> real (Meta nm KStruct cs) (NStruct f1) (NStruct f2) pre d).
  { intros nm f1 f2 pre d Hc1 Hc2 H. apply in_sdiff in H; [|eapply wf_names; eauto]. destruct H as (c & Hin & H).
    assert (Hw' : wf_meta (Meta nm KStruct cs)) by (eapply wf_struct; eauto).
    assert (Hx1 : forall x, alookup (mname c) f1 = Some x -> conf c x) by (intros x E; exact (conf_child _ _ _ _ _ Hc1 Hin E)).
    assert (Hx2 : forall x, alookup (mname c) f2 = Some x -> conf c x) by (intros x E; exact (conf_child _ _ _ _ _ Hc2 Hin E)).
    destruct (ne c f1) as [a|] eqn:N1; destruct (ne c f2) as [b|] eqn:N2; try (destruct H; fail).
    - apply ne_Some in N1 as (E1 & A); auto. apply ne_Some in N2 as (E2 & B); auto.
      eapply real_child; eauto. eapply IH; eauto. eapply wf_child; eauto.
    - apply ne_Some in N1 as (E1 & A); auto.
      assert (Hno : forall l, ~ present (Meta nm KStruct cs) (NStruct f2) (Child (mname c) :: l)).
      { intros l Hp. apply present_child_inv in Hp as (ch & E & Hp); auto. apply (proj1 (ne_None _ _ Hx2) N2 _ E).
        eapply present_nonempty; eauto. }
      apply in_only in H; auto. destruct H as [(Hk & l & v & -> & Hl)|(Hk & ->)].
      + exists (Child (mname c) :: l). right; left. destruct Hl as (m' & Hlf & Hat & Hf).
        exists m', (NLeaf (Some v)). split; [reflexivity|]. split; [econstructor; eauto|].
        destruct Hlf as (dt & nd & Hk'). destruct m' as [mn mk mc]. simpl in Hk'. subst mk.
        repeat split; auto; try discriminate. apply nonempty_leaf. eauto.
      + exists [Child (mname c)]. right; left. exists c, a. split; [reflexivity|]. split; [econstructor; eauto; constructor|].
        repeat split; auto. intros _. apply not_hidden_single.
    - apply ne_Some in N2 as (E2 & B); auto.
      assert (Hno : forall l, ~ present (Meta nm KStruct cs) (NStruct f1) (Child (mname c) :: l)).
      { intros l Hp. apply present_child_inv in Hp as (ch & E & Hp); auto. apply (proj1 (ne_None _ _ Hx1) N1 _ E).
        eapply present_nonempty; eauto. }
      apply in_only in H; auto. destruct H as [(Hk & l & v & -> & Hl)|(Hk & ->)].
      + exists (Child (mname c) :: l). right; right. destruct Hl as (m' & Hlf & Hat & Hf).
        exists m', (NLeaf (Some v)). split; [reflexivity|]. split; [econstructor; eauto|].
        destruct Hlf as (dt & nd & Hk'). destruct m' as [mn mk mc]. simpl in Hk'. subst mk.
        repeat split; auto; try discriminate. apply nonempty_leaf. eauto.
      + exists [Child (mname c)]. right; right. exists c, b. split; [reflexivity|]. split; [econstructor; eauto; constructor|].
        repeat split; auto. intros _. apply not_hidden_single. }
  intros x1 x2 pre d Hc1 Hc2 Hl Ha H. destruct k as [| |dt nd].
  - destruct (conf_struct_inv _ _ _ Hc1) as (f1 & ->). destruct (conf_struct_inv _ _ _ Hc2) as (f2 & ->).
    rewrite diff_child_struct in H by auto. apply Hs; auto.
  - destruct (conf_aos_inv _ _ _ Hc1) as (e1 & ->). destruct (conf_aos_inv _ _ _ Hc2) as (e2 & ->).
    rewrite diff_child_aos in H by auto. apply in_app_iff in H as [H|H].
    + destruct (Nat.eqb_spec (length e1) (length e2)) as [He|He]; [destruct H|]. destruct H as [<-|[]].
      destruct (Ha eq_refl) as (Hn1 & Hn2).
      exists []. left. exists (Meta n KAoS cs), (NAoS e1), (NAoS e2). cbn [loc_names flat_map mname]. rewrite app_nil_r.
      split; auto. split; [constructor|]. split; [constructor|]. right. exists e1, e2. repeat split; auto.
    + apply in_flat_map in H as ((a & b) & Hin & H). cbn [fst snd mchildren] in H.
      assert (exists i, nth_error e1 i = Some a /\ nth_error e2 i = Some b) as (i & I1 & I2).
      { clear - Hin. revert e2 Hin. induction e1 as [|x e1 IHe]; intros [|y e2] Hin; simpl in Hin; try tauto.
        destruct Hin as [Hin|Hin]; [inversion Hin; subst; exists 0; auto|].
        apply IHe in Hin as (i & H1 & H2). exists (S i). auto. }
      assert (Hca : conf (Meta n KStruct cs) a) by (eapply (conf_elem _ _ e1); eauto; eapply nth_error_In; eauto).
      assert (Hcb : conf (Meta n KStruct cs) b) by (eapply (conf_elem _ _ e2); eauto; eapply nth_error_In; eauto).
      destruct (conf_struct_inv _ _ _ Hca) as (f1 & ->). destruct (conf_struct_inv _ _ _ Hcb) as (f2 & ->).
      eapply real_elem; eauto.
  - destruct (Hl (ex_intro _ dt (ex_intro _ nd eq_refl))) as (Hn1 & Hn2).
    destruct (conf_leaf_inv _ _ _ _ _ Hc1) as [->|(v & -> & Hv)].
    { apply nonempty_leaf in Hn1 as (w & Hx & _). discriminate. }
    destruct (conf_leaf_inv _ _ _ _ _ Hc2) as [->|(w & -> & Hw')].
    { apply nonempty_leaf in Hn2 as (w & Hx & _). discriminate. }
    apply nonempty_leaf in Hn1 as (v' & Hx & Hf1). inversion Hx; subst v'.
    apply nonempty_leaf in Hn2 as (w' & Hy & Hf2). inversion Hy; subst w'.
    cbn [diff_child mkind leaf_value] in H. destruct (leaf_eq v w) eqn:El; [destruct H|]. destruct H as [<-|[]].
    exists []. left. exists (Meta n (KLeaf dt nd) cs), (NLeaf (Some v)), (NLeaf (Some w)).
    cbn [loc_names flat_map mname]. rewrite app_nil_r. split; auto. split; [constructor|]. split; [constructor|].
    left. exists v, w. repeat split; auto.
    + exists dt, nd. auto.
    + rewrite <- (leaf_eq_spec dt nd) by auto. congruence.
Qed.

Lemma diff_reported : forall m, wf_meta m -> forall n1 n2 pre l, conf m n1 -> conf m n2 ->
  (is_leaf m -> nonempty m n1 /\ nonempty m n2) ->
  (differs m n1 n2 l \/ differs m n2 n1 l) -> reported m n1 n2 pre l.
Proof.
  intros m. meta_induction m. intros Hw.
  assert (Hit : forall m a b l, differs m a b l -> present m a l /\ (exists o, item m a l o)).
  { intros m a b l [(v & H & _)|(k0 & H & _)].
    - split; [eapply leaf_at_present; eauto|]. exists (inl v). auto.
    - split; [|exists (inr k0); auto]. destruct H as (m' & els & H & Hk & Hl & Hp). exists m', (NAoS els). split; auto.
      destruct m' as [mn mk mc]. simpl in Hk. subst mk. apply nonempty_aos. intros ->. simpl in Hl. lia. }
  (* a child *)
  assert (Hdc : forall nm f1 f2 l, wf_meta (Meta nm KStruct cs) ->
     differs (Meta nm KStruct cs) (NStruct f1) (NStruct f2) l ->
     conf (Meta nm KStruct cs) (NStruct f1) -> conf (Meta nm KStruct cs) (NStruct f2) ->
     exists c l' a, l = Child (mname c) :: l' /\ In c cs /\ ne c f1 = Some a /\
       match ne c f2 with
       | Some b => differs c a b l'
       | None => (mkind c = KStruct -> exists v, leaf_at c a l' v)
       end).
  { intros nm f1 f2 l Hw' Hd Hc1 Hc2. destruct (Hit _ _ _ _ Hd) as (Hp & (o & Ho)).
    apply item_struct in Ho as (c & a & l' & -> & Hin & E1 & Ho). exists c, l', a. split; auto. split; auto.
    assert (Hx1 : forall x, alookup (mname c) f1 = Some x -> conf c x) by (intros x E; exact (conf_child _ _ _ _ _ Hc1 Hin E)).
    assert (Hx2 : forall x, alookup (mname c) f2 = Some x -> conf c x) by (intros x E; exact (conf_child _ _ _ _ _ Hc2 Hin E)).
    assert (A : nonempty c a) by (apply nonempty_item; eauto).
    split; [apply ne_Some; auto|].
    assert (Hchild : forall f x v, alookup (mname c) f = Some x -> item c x l' v ->
              item (Meta nm KStruct cs) (NStruct f) (Child (mname c) :: l') v).
    { intros f x v E Hi. apply item_struct. exists c, x, l'. auto. }
    assert (Hchild' : forall f x v, alookup (mname c) f = Some x -> item (Meta nm KStruct cs) (NStruct f) (Child (mname c) :: l') v ->
              item c x l' v).
    { intros f x v E Hi. apply item_struct in Hi as (c' & x' & l2 & Hx & Hin' & E' & Hi). inversion Hx; subst.
      assert (c' = c) by (eapply nodup_name; eauto using wf_names). subst. congruence. }
    destruct (ne c f2) as [b|] eqn:N2.
    - apply ne_Some in N2 as (E2 & B); auto. destruct Hd as [(v & Hv & Hno)|(k0 & Hv & Hno & Hh)].
      + left. exists v. split; [eapply (Hchild' f1 a (inl v)); eauto|]. intros (w & Hw2 & Hs). apply Hno. exists w. split; auto.
        apply (Hchild f2 b (inl w)); auto.
      + right. exists k0. split; [eapply (Hchild' f1 a (inr k0)); eauto|]. split.
        * intros Hk. apply Hno. apply (Hchild f2 b (inr k0)); auto.
        * intros Hk. apply Hh. eapply hidden_child; eauto.
    - intros Hk. destruct Hd as [(v & Hv & Hno)|(k0 & Hv & Hno & Hh)].
      + exists v. eapply (Hchild' f1 a (inl v)); eauto.
      + exfalso. apply Hh. destruct l' as [|s l'].
        * apply (Hchild' f1 a (inr k0)) in Hv; auto. destruct Hv as (m' & els & Hat & Hk' & _).
          apply node_at_nil_inv in Hat as (-> & _). congruence.
        * exists [], (mname c), (s :: l'), c, a. simpl. repeat split; auto; [discriminate| |].
          -- econstructor; eauto. constructor.
          -- intros (mp & np & Hat & Hn). assert (Hpr : present (Meta nm KStruct cs) (NStruct f2) [Child (mname c)]) by (exists mp, np; auto).
             apply present_child_inv in Hpr as (ch & E & Hpr); auto.
             apply (proj1 (ne_None _ _ Hx2) N2 _ E). eapply present_nonempty; eauto. }
  assert (Hone : forall side pre c a l', conf c a -> nonempty c a -> (exists o, item c a l' o) ->
     (mkind c = KStruct -> exists v, leaf_at c a l' v) ->
     exists p q x, l' = p ++ q /\ In (side (Some x) None (pre ++ mname c :: loc_names p)) (only_on_one_side side pre c a)).
  { intros side pre c a l' Hca A (o & Ho) Hk. destruct (mkind c) as [| |dt nd] eqn:Ek.
    - destruct (Hk eq_refl) as (v & Hv). exists l', [], (NLeaf (Some v)). rewrite app_nil_r. split; auto.
      apply in_only; auto. left. split; auto. exists l', v. auto.
    - exists [], l', a. split; auto. apply in_only; auto. right. split; [congruence|reflexivity].
    - exists [], l', a. split; auto. apply in_only; auto. right. split; [congruence|reflexivity]. }
  assert (Hs : forall nm f1 f2 pre l, conf (Meta nm KStruct cs) (NStruct f1) -> conf (Meta nm KStruct cs) (NStruct f2) ->
     differs (Meta nm KStruct cs) (NStruct f1) (NStruct f2) l \/ differs (Meta nm KStruct cs) (NStruct f2) (NStruct f1) l ->
     exists p q a b, l = p ++ q /\ In (DNode (pre ++ loc_names p) a b) (sdiff pre cs f1 cs f2)).
  { intros nm f1 f2 pre l Hc1 Hc2 Hd.
    assert (Hw' : wf_meta (Meta nm KStruct cs)) by (eapply wf_struct; eauto).
    destruct Hd as [Hd|Hd].
    - pose proof (Hit _ _ _ _ Hd) as (_ & (o & Ho)).
      destruct (Hdc _ _ _ _ Hw' Hd Hc1 Hc2) as (c & l' & a & -> & Hin & N1 & H).
      assert (Hx1 : forall x, alookup (mname c) f1 = Some x -> conf c x) by (intros x E; exact (conf_child _ _ _ _ _ Hc1 Hin E)).
      assert (Hx2 : forall x, alookup (mname c) f2 = Some x -> conf c x) by (intros x E; exact (conf_child _ _ _ _ _ Hc2 Hin E)).
      pose proof N1 as N1'. apply ne_Some in N1' as (E1 & A); auto.
      destruct (ne c f2) as [b|] eqn:N2.
      + pose proof N2 as N2'. apply ne_Some in N2' as (E2 & B); auto.
        destruct (IH c Hin (wf_child _ _ _ _ Hw Hin) a b pre l' (Hx1 _ E1) (Hx2 _ E2) (fun _ => conj A B) (or_introl H))
          as (p & q & x & y & -> & Hr).
        exists (Child (mname c) :: p), q, x, y. split; auto. apply in_sdiff; [eapply wf_names; eauto|].
        exists c. split; auto. rewrite N1, N2. exact Hr.
      + apply item_struct in Ho as (c' & a' & l2 & Hx & Hin' & E' & Ho). inversion Hx; subst l2.
        assert (c' = c) by (eapply nodup_name; eauto using wf_names). subst c'. assert (a' = a) by congruence. subst a'.
        destruct (Hone left_side pre c a l' (Hx1 _ E1) A (ex_intro _ o Ho) H) as (p & q & x & -> & Hr).
        exists (Child (mname c) :: p), q, (Some x), None. split; auto. apply in_sdiff; [eapply wf_names; eauto|].
        exists c. split; auto. rewrite N1, N2. exact Hr.
    - pose proof (Hit _ _ _ _ Hd) as (_ & (o & Ho)).
      destruct (Hdc _ _ _ _ Hw' Hd Hc2 Hc1) as (c & l' & a & -> & Hin & N1 & H).
      assert (Hx1 : forall x, alookup (mname c) f1 = Some x -> conf c x) by (intros x E; exact (conf_child _ _ _ _ _ Hc1 Hin E)).
      assert (Hx2 : forall x, alookup (mname c) f2 = Some x -> conf c x) by (intros x E; exact (conf_child _ _ _ _ _ Hc2 Hin E)).
      pose proof N1 as N1'. apply ne_Some in N1' as (E1 & A); auto.
      destruct (ne c f1) as [b|] eqn:N2.
      + pose proof N2 as N2'. apply ne_Some in N2' as (E2 & B); auto.
        destruct (IH c Hin (wf_child _ _ _ _ Hw Hin) b a pre l' (Hx1 _ E2) (Hx2 _ E1) (fun _ => conj B A) (or_intror H))
          as (p & q & x & y & -> & Hr).
        exists (Child (mname c) :: p), q, x, y. split; auto. apply in_sdiff; [eapply wf_names; eauto|].
        exists c. split; auto. rewrite N1, N2. exact Hr.
      + apply item_struct in Ho as (c' & a' & l2 & Hx & Hin' & E' & Ho). inversion Hx; subst l2.
        assert (c' = c) by (eapply nodup_name; eauto using wf_names). subst c'. assert (a' = a) by congruence. subst a'.
        destruct (Hone right_side pre c a l' (Hx2 _ E1) A (ex_intro _ o Ho) H) as (p & q & x & -> & Hr).
        exists (Child (mname c) :: p), q, None, (Some x). split; auto. apply in_sdiff; [eapply wf_names; eauto|].
        exists c. split; auto. rewrite N1, N2. exact Hr. }
  intros x1 x2 pre l Hc1 Hc2 Hl Hd. unfold reported. destruct k as [| |dt nd].
  - destruct (conf_struct_inv _ _ _ Hc1) as (f1 & ->). destruct (conf_struct_inv _ _ _ Hc2) as (f2 & ->).
    rewrite diff_child_struct by auto. destruct (Hs n f1 f2 (pre ++ [n]) l Hc1 Hc2 Hd) as (p & q & a & b & -> & H).
    exists p, q, a, b. split; auto. rewrite <- app_assoc in H. exact H.
  - destruct (conf_aos_inv _ _ _ Hc1) as (e1 & ->). destruct (conf_aos_inv _ _ _ Hc2) as (e2 & ->).
    rewrite diff_child_aos by auto. destruct (Nat.eqb_spec (length e1) (length e2)) as [He|He].
    + assert (Hel : forall e1 e2 l, length e1 = length e2 -> differs (Meta n KAoS cs) (NAoS e1) (NAoS e2) l ->
         exists i a b l', l = Elem i :: l' /\ nth_error e1 i = Some a /\ nth_error e2 i = Some b /\
             differs (Meta n KStruct cs) a b l').
      { clear. intros e1 e2 l He Hd.
        assert (Hi : exists o, item (Meta n KAoS cs) (NAoS e1) l o).
        { destruct Hd as [(v & H & _)|(k0 & H & _)]; [exists (inl v)|exists (inr k0)]; auto. }
        destruct Hi as (o & Ho). apply item_aos in Ho as [(-> & -> & Hne)|(i & a & l' & -> & Hi & Ho)].
        - exfalso. destruct Hd as [(v & H & _)|(k0 & H & Hno & _)].
          + destruct H as (m' & (dt & nd & Hk) & Hat & _). apply node_at_nil_inv in Hat as (-> & _). discriminate.
          + apply Hno. destruct H as (m' & els & Hat & Hk & Hlen & Hp). apply node_at_nil_inv in Hat as (-> & Hx). inversion Hx; subst.
            apply (item_aos n cs e2 [] (inr (length e1))). left. repeat split; try congruence.
            intros ->. simpl in He. rewrite He in Hp. inversion Hp.
        - destruct (nth_error e2 i) as [b|] eqn:Eb.
          2:{ exfalso. apply nth_error_None in Eb. assert (i < length e1) by (apply nth_error_Some; congruence). lia. }
          exists i, a, b, l'. repeat split; auto.
          assert (Hup : forall e x v, nth_error e i = Some x -> item (Meta n KStruct cs) x l' v ->
                    item (Meta n KAoS cs) (NAoS e) (Elem i :: l') v).
          { intros e x v E Hx. apply item_aos. right. exists i, x, l'. auto. }
          assert (Hdn : forall e x v, nth_error e i = Some x -> item (Meta n KAoS cs) (NAoS e) (Elem i :: l') v ->
                    item (Meta n KStruct cs) x l' v).
          { intros e x v E Hx. apply item_aos in Hx as [(Hq & _)|(i' & e' & l2 & Hq & Hi' & Hx)]; [discriminate|].
            inversion Hq; subst. congruence. }
          destruct Hd as [(v & Hv & Hno)|(k0 & Hv & Hno & Hh)].
          + left. exists v. split; [eapply (Hdn e1 a (inl v)); eauto|]. intros (w & Hw2 & Hs). apply Hno. exists w. split; auto.
            apply (Hup e2 b (inl w)); auto.
          + right. exists k0. split; [eapply (Hdn e1 a (inr k0)); eauto|]. split.
            * intros Hk. apply Hno. apply (Hup e2 b (inr k0)); auto.
            * intros Hk. apply Hh. eapply hidden_elem; eauto. }
      assert (exists i a b l', l = Elem i :: l' /\ nth_error e1 i = Some a /\ nth_error e2 i = Some b /\
             (differs (Meta n KStruct cs) a b l' \/ differs (Meta n KStruct cs) b a l')) as (i & a & b & l' & -> & I1 & I2 & Hd').
      { destruct Hd as [Hd|Hd].
        - destruct (Hel e1 e2 l He Hd) as (i & a & b & l' & -> & I1 & I2 & Hd'). exists i, a, b, l'. auto.
        - destruct (Hel e2 e1 l (eq_sym He) Hd) as (i & a & b & l' & -> & I1 & I2 & Hd'). exists i, b, a, l'. auto 6. }
      assert (Hca : conf (Meta n KStruct cs) a) by (eapply (conf_elem _ _ e1); eauto; eapply nth_error_In; eauto).
      assert (Hcb : conf (Meta n KStruct cs) b) by (eapply (conf_elem _ _ e2); eauto; eapply nth_error_In; eauto).
      destruct (conf_struct_inv _ _ _ Hca) as (f1 & ->). destruct (conf_struct_inv _ _ _ Hcb) as (f2 & ->).
      destruct (Hs n f1 f2 (pre ++ [n]) l' Hca Hcb Hd') as (p & q & x & y & -> & H).
      exists (Elem i :: p), q, x, y. split; auto. cbn [app]. apply in_flat_map. exists (NStruct f1, NStruct f2). split.
      * clear - I1 I2. revert e2 i I1 I2. induction e1 as [|z e1 IHe]; intros [|y e2] [|i] I1 I2; simpl in *; try discriminate.
        -- left. congruence.
        -- right. eapply IHe; eauto.
      * cbn [fst snd node_fields mchildren mname]. rewrite <- app_assoc in H. exact H.
    + exists [], l, (Some (NAoS e1)), (Some (NAoS e2)). split; auto. apply in_app_iff. left. simpl. auto.
  - destruct (Hl (ex_intro _ dt (ex_intro _ nd eq_refl))) as (Hn1 & Hn2).
    destruct (conf_leaf_inv _ _ _ _ _ Hc1) as [->|(v & -> & Hv)].
    { apply nonempty_leaf in Hn1 as (w & Hx & _). discriminate. }
    destruct (conf_leaf_inv _ _ _ _ _ Hc2) as [->|(w & -> & Hw')].
    { apply nonempty_leaf in Hn2 as (w & Hx & _). discriminate. }
    apply nonempty_leaf in Hn1 as (v' & Hx & Hf1). inversion Hx; subst v'.
    apply nonempty_leaf in Hn2 as (w' & Hy & Hf2). inversion Hy; subst w'.
    assert (Hns : l = [] /\ ~ same_value v w).
    { assert (Hll : forall v w, filled_value w -> differs (Meta n (KLeaf dt nd) cs) (NLeaf (Some v)) (NLeaf (Some w)) l ->
                    l = [] /\ ~ same_value v w).
      { clear. intros v w Hfw [(x & Hx & Hno)|(k0 & Hx & _)].
        - apply (item_leaf n dt nd cs (Some v) l (inl x)) in Hx as (-> & y & Hy & Hz & Hf). inversion Hy; inversion Hz; subst.
          split; auto. intros Hsv. apply Hno. exists w. split; auto. apply (item_leaf n dt nd cs (Some w) [] (inl w)).
          split; auto. exists w. auto.
        - apply (item_leaf n dt nd cs (Some v) l (inr k0)) in Hx as (-> & y & Hy & Hz & Hf). discriminate. }
      destruct Hd as [Hd|Hd]; apply Hll in Hd as (-> & Hns); auto. split; auto. intros K. apply Hns. now apply same_value_sym. }
    destruct Hns as (-> & Hns). exists [], [], (Some (NLeaf (Some v))), (Some (NLeaf (Some w))). split; auto.
    cbn [diff_child mkind leaf_value]. destruct (leaf_eq v w) eqn:El.
    + exfalso. apply Hns. apply (leaf_eq_spec dt nd); auto.
    + simpl. auto.
Qed.
