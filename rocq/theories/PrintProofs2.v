(** Lemmas about printed metadata and differences. *)
From Verif Require Import Base TreeModel TreeSpec TreeProofs TreeProofs2 PrintModel PrintSpec.

(** ** A location has one node and one line *)
Lemma vnode_at_inj : forall m n l m1 n1, vnode_at m n l m1 n1 -> wf_meta m -> forall m2 n2, vnode_at m n l m2 n2 -> m1 = m2 /\ n1 = n2.
Proof.
  induction 1 as [m n|nm cs fs c ch l m' n' Hin Hch H IH|nm cs els i e l m' n' Hi H IH]; intros W m2 n2 H2.
  - inversion H2; subst. auto.
  - inversion H2 as [|? ? ? c2 ch2 ? ? ? Hin2 Hch2 H2'|]; subst.
    assert (c2 = c) by (eapply nodup_name; eauto; eapply wf_names; eauto). subst c2.
    assert (ch2 = ch) by (destruct Hch as [E|(E & ->)], Hch2 as [E2|(E2 & ->)]; congruence). subst ch2.
    eapply IH; eauto. eapply wf_child; eauto.
  - inversion H2 as [| |? ? ? ? e2 ? ? ? Hi2 H2']; subst. rewrite Hi in Hi2. inversion Hi2; subst. eapply IH; eauto. eapply wf_struct; eauto.
Qed.
Lemma vnode_at_conf : forall m n l m' n', vnode_at m n l m' n' -> conf m n -> conf m' n'.
Proof.
  induction 1 as [m n|nm cs fs c ch l m' n' Hin Hch H IH|nm cs els i e l m' n' Hi H IH]; intros C; auto.
  - apply IH. destruct Hch as [E|(_ & ->)]; [eapply conf_child; eauto|apply new_node_conf].
  - apply IH. eapply conf_elem; eauto. eapply nth_error_In; eauto.
Qed.
Lemma node_vnode : forall m n l m' n', node_at m n l m' n' -> vnode_at m n l m' n'.
Proof. induction 1; econstructor; eauto. Qed.

Lemma labelled_fun : forall p m x o o', conf m x -> labelled p m x o -> labelled p m x o' -> o = o'.
Proof.
  assert (L : forall m k, is_leaf m -> mkind m = k -> k = KStruct \/ k = KAoS -> False).
  { intros m k (dt & nd & E) E' [-> | ->]; congruence. }
  assert (N : forall m v, conf m (NLeaf (Some v)) -> filled_value v -> is_leaf m -> nonempty m (NLeaf (Some v))).
  { intros m v C F K. exists []. left. exists v, m. split; auto. split; auto. constructor. }
  intros p m x o o' C H H'. destruct H; inversion H'; subst; auto; try (exfalso; eauto; congruence).
Qed.
Lemma line_fun : forall p m n l r r', wf_meta m -> conf m n -> line_of p m n l r -> line_of p m n l r' -> r = r'.
Proof.
  intros p m n l r r' W C (os & F & ->) (os' & F' & ->). f_equal. revert os' F'.
  induction F as [|l' o ls os (m1 & x1 & V1 & L1) F IH]; intros os' F'; inversion F' as [|? o' ? os2 (m2 & x2 & V2 & L2) F2]; subst; auto.
  destruct (vnode_at_inj _ _ _ _ _ V1 W _ _ V2) as (<- & <-). f_equal; auto.
  exact (labelled_fun _ _ _ _ _ (vnode_at_conf _ _ _ _ _ V1 C) L1 L2).
Qed.

(** ** Metadata *)
Section pm_rect.
  Variable P : pmeta -> Prop.
  Hypothesis H : forall n d b cs, (forall c, In c cs -> P c) -> P (PMeta n d b cs).
  Fixpoint pm_ind (m : pmeta) : P m :=
    match m with PMeta n d b cs => H n d b cs ((fix go (l : list pmeta) : forall c, In c l -> P c :=
      match l with
      | [] => fun c K => match K with end
      | x :: t => fun c K => match K with or_introl E => eq_ind x P (pm_ind x) c E | or_intror K' => go t c K' end
      end) cs) end.
End pm_rect.

(** the chains of metadata of the lines; true: the line of something hidden *)
Fixpoint chains (maxdepth depth : Z) (m : pmeta) {struct m} : list (list pmeta * bool) :=
  match m with
  | PMeta _ _ _ cs => flat_map (fun c => ([c], false) ::
      (if pm_composite c then
        if (maxdepth =? 0)%Z || (depth <? maxdepth)%Z then map (fun x => (c :: fst x, snd x)) (chains maxdepth (depth + 1)%Z c)
        else [([c], true)]
      else [])) cs
  end.
Definition chain_line (x : list pmeta * bool) : list label := map meta_label (fst x) ++ if snd x then [LHidden] else [].

Lemma chains_lines : forall maxdepth m depth, lines_below (meta_rows maxdepth depth m) = map chain_line (chains maxdepth depth m).
Proof.
  intros maxdepth m. induction m as [n d b cs IH] using pm_ind. intros depth. cbn [meta_rows chains].
  induction cs as [|c cs IHc]; [reflexivity|]. cbn [map flat_map]. rewrite map_app. unfold lines_below. cbn [flat_map].
  rewrite <- IHc by (intros; apply IH; right; auto). clear IHc. unfold lines_below. f_equal. cbn [map].
  unfold chain_line at 1. cbn [fst snd map app]. unfold meta_label at 1.
  destruct (pm_composite c) eqn:Ec; [|reflexivity].
  destruct ((maxdepth =? 0)%Z || (depth <? maxdepth)%Z).
  - cbn [lines]. f_equal. fold (lines_below (meta_rows maxdepth (depth + 1) c)). rewrite IH by (left; auto).
    rewrite !map_map. apply map_ext. intros (l & h). unfold chain_line, meta_label. cbn [fst snd map app]. rewrite Ec. reflexivity.
  - unfold chain_line, meta_label. cbn. rewrite Ec. reflexivity.
Qed.

Definition shown_at (maxdepth depth : Z) (k : nat) : Prop :=
  maxdepth = 0%Z \/ k = 1 \/ (depth + Z.of_nat k - 1 <= maxdepth)%Z.

Lemma chains_nonnil : forall maxdepth m depth l h, In (l, h) (chains maxdepth depth m) -> l <> [].
Proof.
  intros maxdepth [n d b cs] depth l h H. cbn [chains] in H. apply in_flat_map in H as (c & _ & [H|H]); [inversion H; discriminate|].
  destruct (pm_composite c); [|destruct H]. destruct ((maxdepth =? 0)%Z || (depth <? maxdepth)%Z).
  - apply in_map_iff in H as ((l' & h') & E & _). inversion E. discriminate.
  - destruct H as [H|[]]. inversion H. discriminate.
Qed.

Lemma chains_shown : forall maxdepth m, pm_ok m -> forall depth l, In (l, false) (chains maxdepth depth m) <->
  l <> [] /\ meta_at m l /\ shown_at maxdepth depth (length l).
Proof.
  intros maxdepth m. induction m as [n d b cs IH] using pm_ind. intros W depth l.
  inversion W as [? ? ? ? Wl Wc]; subst. cbn [chains]. rewrite in_flat_map. split.
  - intros (c & Hc & [H|H]).
    + inversion H; subst. split; [discriminate|]. split; [constructor; auto; constructor|]. right. left. reflexivity.
    + split; [eapply (chains_nonnil maxdepth (PMeta n d b cs) depth l false); cbn [chains]; apply in_flat_map; exists c; split; auto; right; exact H|].
      destruct (pm_composite c) eqn:Ec; [|destruct H].
      destruct ((maxdepth =? 0)%Z || (depth <? maxdepth)%Z) eqn:Ed; [|destruct H as [H|[]]; discriminate].
      apply in_map_iff in H as ((l' & h') & E & H). inversion E; subst. cbn [fst] in *. cbn [snd] in H.
      apply IH in H as (N & M & S); auto. split; [constructor; auto|]. unfold shown_at in *. cbn [length].
      apply orb_true_iff in Ed as [Ed|Ed]; [apply Z.eqb_eq in Ed; auto|]. apply Z.ltb_lt in Ed.
      destruct S as [S|[S|S]]; [auto| |]; right; right; lia.
  - intros (N & M & S). inversion M as [|? c l' Hin M']; subst; [congruence|]. exists c. cbn [pm_children] in Hin. split; auto.
    destruct l' as [|c' l'].
    + left. reflexivity.
    + right. destruct (pm_composite c) eqn:Ec.
      * assert (Ed : (maxdepth =? 0)%Z || (depth <? maxdepth)%Z = true).
        { unfold shown_at in S. cbn [length] in S. apply orb_true_iff.
          destruct S as [S|[S|S]]; [left; apply Z.eqb_eq; auto|lia|right; apply Z.ltb_lt; lia]. }
        rewrite Ed. apply in_map_iff. exists (c' :: l', false). split; auto. apply IH; auto. split; [discriminate|]. split; auto.
        unfold shown_at in *. cbn [length] in *. destruct S as [S|[S|S]]; auto; right; right; lia.
      * exfalso. specialize (Wc _ Hin). destruct c as [cn cd cb cc]. cbn in Ec. subst cb. inversion Wc as [? ? ? ? Hl _]; subst.
        specialize (Hl eq_refl). subst. inversion M' as [|? ? ? K _]; subst. destruct K.
Qed.

Lemma chains_hidden : forall maxdepth m, pm_ok m -> forall depth l, In (l, true) (chains maxdepth depth m) <->
  exists l' c, l = l' ++ [c] /\ meta_at m l /\ pm_composite c = true /\ shown_at maxdepth depth (length l) /\
     maxdepth <> 0%Z /\ (maxdepth <= depth + Z.of_nat (length l) - 1)%Z.
Proof.
  intros maxdepth m. induction m as [n d b cs IH] using pm_ind. intros W depth l.
  inversion W as [? ? ? ? Wl Wc]; subst. cbn [chains]. rewrite in_flat_map. split.
  - intros (c & Hc & [H|H]); [discriminate|]. destruct (pm_composite c) eqn:Ec; [|destruct H].
    destruct ((maxdepth =? 0)%Z || (depth <? maxdepth)%Z) eqn:Ed.
    + apply in_map_iff in H as ((l' & h') & E & H). inversion E; subst. cbn [fst] in *. cbn [snd] in *.
      apply IH in H as (l0 & c0 & -> & M & C0 & S & Z0 & Z1); auto. exists (c :: l0), c0. split; [reflexivity|].
      split; [constructor; auto|]. split; auto. unfold shown_at in *. cbn [length].
      apply orb_true_iff in Ed as [Ed|Ed]; [apply Z.eqb_eq in Ed; contradiction|]. apply Z.ltb_lt in Ed.
      split; [|split; auto; lia]. destruct S as [S|[S|S]]; [auto| |]; right; right; lia.
    + destruct H as [H|[]]. inversion H; subst. exists [], c. split; [reflexivity|]. split; [constructor; auto; constructor|].
      split; auto. apply orb_false_iff in Ed as (E1 & E2). apply Z.eqb_neq in E1. apply Z.ltb_ge in E2.
      split; [right; left; reflexivity|]. split; auto. cbn [length]. lia.
  - intros (l' & c & -> & M & C0 & S & Z0 & Z1). destruct l' as [|c1 l'].
    + inversion M as [|? ? ? Hin M']; subst. exists c. split; [exact Hin|]. right. rewrite C0.
      assert (Ed : (maxdepth =? 0)%Z || (depth <? maxdepth)%Z = false).
      { apply orb_false_iff. split; [apply Z.eqb_neq; auto|]. apply Z.ltb_ge. cbn [app length] in Z1. lia. }
      rewrite Ed. left. reflexivity.
    + cbn [app] in M. inversion M as [|? ? ? Hin M']; subst. exists c1. split; [exact Hin|]. right.
      assert (Cc : pm_composite c1 = true).
      { destruct (pm_composite c1) eqn:E; auto. exfalso. specialize (Wc _ Hin). destruct c1 as [cn cd cb cc]. cbn in E. subst cb.
        inversion Wc as [? ? ? ? Hl _]; subst. specialize (Hl eq_refl). subst. inversion M'; subst; [|cbn in *; contradiction].
        destruct l'; discriminate. }
      rewrite Cc. assert (Ln : length ((c1 :: l') ++ [c]) = 2 + length l') by (rewrite app_length; cbn; lia).
      assert (Ln' : length (l' ++ [c]) = 1 + length l') by (rewrite app_length; cbn; lia).
      unfold shown_at in *. rewrite Ln in *.
      assert (Ed : (maxdepth =? 0)%Z || (depth <? maxdepth)%Z = true).
      { apply orb_true_iff. right. apply Z.ltb_lt. destruct S as [S|[S|S]]; [contradiction|lia|lia]. }
      rewrite Ed. apply in_map_iff. exists (l' ++ [c], true). split; [reflexivity|]. apply IH; auto.
      exists l', c. split; auto. split; auto. split; auto. rewrite Ln'. split; [|split; auto; lia].
      destruct S as [S|[S|S]]; [auto|lia|]. right; right; lia.
Qed.

Lemma sorted_filter : forall {A} (R : A -> A -> Prop) f l, sorted_by R l -> sorted_by R (filter f l).
Proof.
  intros A R f l H. induction H as [|x l Hx H IH]; cbn [filter]; [constructor|]. destruct (f x); auto. constructor; auto.
  intros y Hy. apply filter_In in Hy as (Hy & _). auto.
Qed.

Definition nodes_only (l : list (list pmeta * bool)) : list (list pmeta) := map fst (filter (fun x => negb (snd x)) l).
Lemma nodes_only_app : forall a b, nodes_only (a ++ b) = nodes_only a ++ nodes_only b.
Proof. intros. unfold nodes_only. rewrite filter_app, map_app. reflexivity. Qed.
Lemma nodes_only_map : forall c l, nodes_only (map (fun x => (c :: fst x, snd x)) l) = map (cons c) (nodes_only l).
Proof. intros c l. unfold nodes_only. induction l as [|(x & h) l IH]; auto. cbn. destruct h; cbn; rewrite IH; reflexivity. Qed.

Lemma chains_sorted : forall maxdepth m depth, sorted_by (pm_before m) (nodes_only (chains maxdepth depth m)).
Proof.
  intros maxdepth m. induction m as [n d b cs IH] using pm_ind. intros depth. cbn [chains].
  assert (G : forall pre cs', cs = pre ++ cs' -> sorted_by (pm_before (PMeta n d b cs)) (nodes_only (flat_map (fun c => ([c], false) ::
      (if pm_composite c then
        if (maxdepth =? 0)%Z || (depth <? maxdepth)%Z then map (fun x => (c :: fst x, snd x)) (chains maxdepth (depth + 1)%Z c)
        else [([c], true)]
      else [])) cs'))).
  { intros pre cs'. revert pre. induction cs' as [|c cs' IHc]; intros pre E; [constructor|]. cbn [flat_map]. rewrite nodes_only_app.
    assert (Hc : In c cs) by (rewrite E; apply in_or_app; right; left; auto).
    assert (Sub : forall l, In l (nodes_only (([c], false) ::
      (if pm_composite c then
        if (maxdepth =? 0)%Z || (depth <? maxdepth)%Z then map (fun x => (c :: fst x, snd x)) (chains maxdepth (depth + 1)%Z c)
        else [([c], true)]
      else []))) -> exists l', l = c :: l').
    { intros l H. unfold nodes_only in H. apply in_map_iff in H as ((x & h) & <- & H). apply filter_In in H as (H & _). cbn [fst].
      destruct H as [H|H]; [inversion H; eauto|]. destruct (pm_composite c); [|destruct H].
      destruct ((maxdepth =? 0)%Z || (depth <? maxdepth)%Z).
      - apply in_map_iff in H as (y & H & _). inversion H. eauto.
      - destruct H as [H|[]]. inversion H. eauto. }
    apply sorted_app.
    - unfold nodes_only. cbn [filter snd negb map fst]. fold (nodes_only (if pm_composite c then
        if (maxdepth =? 0)%Z || (depth <? maxdepth)%Z then map (fun x => (c :: fst x, snd x)) (chains maxdepth (depth + 1)%Z c)
        else [([c], true)] else [])).
      destruct (pm_composite c); [|repeat constructor; intros ? []].
      destruct ((maxdepth =? 0)%Z || (depth <? maxdepth)%Z).
      + rewrite nodes_only_map. constructor.
        * intros y Hy. apply in_map_iff in Hy as (l & <- & Hl). apply pb_in; auto.
          unfold nodes_only in Hl. apply in_map_iff in Hl as ((l' & h) & <- & Hl). apply filter_In in Hl as (Hl & _).
          apply chains_nonnil in Hl. cbn [fst]. destruct l'; [congruence|]. constructor.
        * apply (sorted_map (pm_before c)); auto. intros x y H. apply pb_in; auto.
      + cbn. repeat constructor; intros ? [].
    - apply (IHc (pre ++ [c])). rewrite <- app_assoc. exact E.
    - intros x y Hx Hy. apply Sub in Hx as (lx & ->).
      unfold nodes_only in Hy. apply in_map_iff in Hy as ((y' & h) & <- & Hy). apply filter_In in Hy as (Hy & _). cbn [fst].
      apply in_flat_map in Hy as (c2 & Hc2 & Hy).
      assert (Ey : exists ly, y' = c2 :: ly).
      { destruct Hy as [H|H]; [inversion H; eauto|]. destruct (pm_composite c2); [|destruct H].
        destruct ((maxdepth =? 0)%Z || (depth <? maxdepth)%Z).
        - apply in_map_iff in H as (z & H & _). inversion H. eauto.
        - destruct H as [H|[]]. inversion H. eauto. }
      destruct Ey as (ly & ->). apply in_split in Hc2 as (b1 & d1 & ->). apply (pb_child _ pre c b1 c2 d1). exact E. }
  apply (G []). reflexivity.
Qed.

(** ** Differences *)
Lemma text_app : forall a b, text (a ++ b) = text a ++ text b.
Proof. intros. apply flat_map_app. Qed.
Lemma plain_app : forall a b, plain (a ++ b) = plain a ++ plain b.
Proof. intros. unfold plain. rewrite filter_app, text_app. reflexivity. Qed.
Lemma cut_skipn : forall (s : str) i j, i <= j -> cut s i j ++ skipn j s = skipn i s.
Proof.
  intros s i j H. unfold cut. replace (skipn j s) with (skipn (j - i) (skipn i s)).
  - apply firstn_skipn.
  - clear - H. revert s j H. induction i as [|i IH]; intros s j H; [rewrite Nat.sub_0_r; reflexivity|].
    destruct j; [lia|]. destruct s as [|x s]; cbn [skipn]; [rewrite !skipn_nil; reflexivity|]. apply IH. lia.
Qed.

Lemma mark_spec : forall t1 t2 bs i j, blocks_ok t1 t2 i j bs ->
  text (fst (mark t1 t2 i j bs)) = skipn i t1 /\ text (snd (mark t1 t2 i j bs)) = skipn j t2 /\
  plain (fst (mark t1 t2 i j bs)) = plain (snd (mark t1 t2 i j bs)).
Proof.
  assert (Gap : forall (t : str) i j, i <= j -> text (if i <? j then [(true, cut t i j)] else []) = cut t i j).
  { intros t i j H. destruct (i <? j) eqn:E; cbn.
    - apply app_nil_r.
    - apply Nat.ltb_ge in E. unfold cut. replace (j - i) with 0 by lia. reflexivity. }
  assert (Step : forall t1 t2 b bs i j, i <= b_a b -> j <= b_b b ->
    cut t1 (b_a b) (b_a b + b_size b) = cut t2 (b_b b) (b_b b + b_size b) ->
    text (fst (mark t1 t2 (b_a b + b_size b) (b_b b + b_size b) bs)) = skipn (b_a b + b_size b) t1 /\
    text (snd (mark t1 t2 (b_a b + b_size b) (b_b b + b_size b) bs)) = skipn (b_b b + b_size b) t2 /\
    plain (fst (mark t1 t2 (b_a b + b_size b) (b_b b + b_size b) bs)) = plain (snd (mark t1 t2 (b_a b + b_size b) (b_b b + b_size b) bs)) ->
    text (fst (mark t1 t2 i j (b :: bs))) = skipn i t1 /\ text (snd (mark t1 t2 i j (b :: bs))) = skipn j t2 /\
    plain (fst (mark t1 t2 i j (b :: bs))) = plain (snd (mark t1 t2 i j (b :: bs)))).
  { intros t1 t2 b bs i j Hi Hj Hc (H1 & H2 & H3). cbn [mark].
    destruct (mark t1 t2 (b_a b + b_size b) (b_b b + b_size b) bs) as (o1 & o2). cbn [fst snd] in *.
    assert (Pg : forall (t : str) i j, plain (if i <? j then [(true, cut t i j)] else []) = []) by (intros; destruct (_ <? _); reflexivity).
    split; [|split].
    - rewrite text_app, Gap by auto. unfold text at 1. cbn [flat_map snd]. fold (text o1). rewrite H1.
      rewrite cut_skipn, cut_skipn by lia. reflexivity.
    - rewrite text_app, Gap by auto. unfold text at 1. cbn [flat_map snd]. fold (text o2). rewrite H2.
      rewrite cut_skipn, cut_skipn by lia. reflexivity.
    - rewrite !plain_app, !Pg. cbn [app]. unfold plain in *. cbn [filter fst negb]. unfold text in *. cbn [flat_map snd].
      rewrite Hc, H3. reflexivity. }
  intros t1 t2 bs i j H. induction H as [i j Hi Hj|i j b bs Hi Hj Ha Hb Hc H IH].
  - apply Step; auto; cbn [b_a b_b b_size]; rewrite ?Nat.add_0_r; cbn [mark fst snd].
    + unfold cut. rewrite !Nat.sub_diag. reflexivity.
    + cbn [text plain flat_map snd filter fst negb]. rewrite !app_nil_r. auto.
  - apply Step; auto.
Qed.
