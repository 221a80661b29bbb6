(** The filled nodes of a tree by path and index: inversion, uniqueness, enclosing arrays of structures. *)
From Verif Require Import Base TreeModel TreeSpec TreeProofs ValProofs ValProofs5 StoreProofs2 NcMetaModel NcMetaSpec NcMetaProofs NcMetaProofs2 NcMetaProofs3 NcMetaProofs4 NcFileModel NcFileProofs.
From Coq Require Import Lia.

Definition content_of (n : node) : content := match n with NStruct _ => FStruct | NAoS els => FAoS (length els) | NLeaf (Some v) => FLeaf v | NLeaf None => FStruct end.
Inductive ent : meta -> node -> path -> list nat -> content -> Prop :=
| en_here : forall c ch, has_value c ch = true -> ent c ch [] [] (content_of ch)
| en_struct : forall nm cs fs d ch t ix x, In d cs -> alookup (mname d) fs = Some ch -> ent d ch t ix x -> ent (Meta nm KStruct cs) (NStruct fs) (mname d :: t) ix x
| en_elem : forall nm cs els i e t ix x, nth_error els i = Some e -> ent (Meta nm KStruct cs) e t ix x -> t <> [] -> ent (Meta nm KAoS cs) (NAoS els) t (i :: ix) x.

Lemma ent_value : forall c ch t ix x, ent c ch t ix x -> has_value c ch = true.
Proof.
  intros c ch t ix x E. induction E as [c ch H|nm cs fs d ch t ix x I A E IH|nm cs els i e t ix x N E IH NE]; auto.
  - cbn [has_value]. apply existsb_exists. exists d. split; auto. rewrite A. exact IH.
  - cbn [has_value]. destruct els; [destruct i; discriminate|reflexivity].
Qed.

Lemma filled_iter_ent : forall m n names idx p ix x, conf m n ->
  (In (p, ix, x) (filled_iter m n names idx) <-> exists t ix', t <> [] /\ p = names ++ t /\ ix = idx ++ ix' /\ ent m n t ix' x).
Proof.
  induction m as [nm k cs IH] using ValProofs.meta_ind'. intros n names idx p ix x C.
  assert (OF : forall fs idx, conf (Meta nm KStruct cs) (NStruct fs) ->
    (In (p, ix, x) (flat_map (fun c => match alookup (mname c) fs with
        | None => []
        | Some ch => if has_value c ch then
            match ch with
            | NLeaf (Some v) => [(names ++ [mname c], idx, FLeaf v)]
            | NLeaf None => []
            | NStruct _ => (names ++ [mname c], idx, FStruct) :: filled_iter c ch (names ++ [mname c]) idx
            | NAoS els => (names ++ [mname c], idx, FAoS (length els)) :: filled_iter c ch (names ++ [mname c]) idx
            end else [] end) cs) <->
     exists t ix', t <> [] /\ p = names ++ t /\ ix = idx ++ ix' /\ ent (Meta nm KStruct cs) (NStruct fs) t ix' x)).
  { clear n idx C. intros fs idx C. rewrite in_flat_map. split.
    - intros (c & I & H). destruct (alookup (mname c) fs) as [ch|] eqn:A; [|destruct H]. destruct (has_value c ch) eqn:HV; [|destruct H].
      pose proof (conf_child _ _ _ _ _ C I A) as Cc.
      assert (Y : In (p, ix, x) [(names ++ [mname c], idx, content_of ch)] \/ In (p, ix, x) (filled_iter c ch (names ++ [mname c]) idx)).
      { destruct ch as [fs'|els|[v|]]; cbn [content_of In] in *; tauto. }
      destruct Y as [[Y|[]]|Y].
      + inversion Y; subst. exists [mname c], []. split; [discriminate|]. split; auto. rewrite app_nil_r. split; auto. eapply en_struct; eauto. now constructor.
      + apply IH in Y; auto. destruct Y as (t & ix' & NE & -> & -> & E). exists (mname c :: t), ix'. split; [discriminate|]. rewrite <- app_assoc. split; auto. split; auto. eapply en_struct; eauto.
    - intros (t & ix' & NE & -> & -> & E). inversion E as [|? ? ? d ch t' ? ? I A E'|]; subst; [congruence|]. exists d. split; auto. rewrite A, (ent_value _ _ _ _ _ E').
      pose proof (conf_child _ _ _ _ _ C I A) as Cc.
      assert (Y : In (names ++ mname d :: t', idx ++ ix', x) [(names ++ [mname d], idx, content_of ch)] \/ In (names ++ mname d :: t', idx ++ ix', x) (filled_iter d ch (names ++ [mname d]) idx)).
      { destruct t' as [|y t'].
        - left. left. inversion E'; subst; [now rewrite app_nil_r|congruence].
        - right. apply IH; auto. exists (y :: t'), ix'. split; [discriminate|]. rewrite <- app_assoc. auto. }
      pose proof (ent_value _ _ _ _ _ E') as HV. destruct ch as [fs'|els|[v|]]; cbn [content_of In] in *.
      + tauto.
      + tauto.
      + destruct Y as [Y|Y]; auto. exfalso. destruct d as [dn dk dc]. inversion Cc; subst. destruct Y.
      + exfalso. destruct d as [dn dk dc]. inversion Cc; subst. cbn in HV. discriminate. }
  cbn [filled_iter]. destruct k as [| |dt nd].
  - inversion C; subst. apply OF. exact C.
  - inversion C as [| | |n0 cs0 els CE]; subst. rewrite in_flat_map. split.
    + intros ([i e] & I & H). apply enum_In in I. cbn [fst snd] in H. assert (Ce : conf (Meta nm KStruct cs) e) by (apply CE; eapply nth_error_In; eauto).
      inversion Ce as [| |n1 cs1 fs1 CF1 CF2 CF3|]; subst. cbn [node_fields] in H. apply OF in H; [|exact Ce]. destruct H as (t & ix' & NE & -> & -> & H). exists t, (i :: ix'). split; auto. split; auto.
      split; [now rewrite <- app_assoc|]. eapply en_elem; eauto.
    + intros (t & ix' & NE & -> & -> & H). inversion H as [| |? ? ? i e ? ix2 ? A E _]; subst; [congruence|].
      exists (i, e). split; [now apply enum_In|]. cbn [fst snd]. assert (Ce : conf (Meta nm KStruct cs) e) by (apply CE; eapply nth_error_In; eauto).
      inversion Ce; subst. cbn [node_fields]. apply OF; auto. exists t, ix2. split; auto. split; auto. split; auto. now rewrite <- app_assoc.
  - split; [intros H; inversion C; subst; destruct H|]. intros (t & ix' & NE & _ & _ & E). inversion E; subst; congruence.
Qed.

(** kind of the contents *)
Definition fits (c : meta) (x : content) : Prop :=
  match x with
  | FStruct => mkind c = KStruct
  | FAoS k => mkind c = KAoS /\ k > 0
  | FLeaf v => exists dt nd, mkind c = KLeaf dt nd /\ val_ok dt nd v /\ filled_value v
  end.
Lemma value_filled : forall dt nd v, val_ok dt nd v -> leaf_has_value nd (Some v) = true -> filled_value v.
Proof.
  intros dt nd v V H. assert (C : conf (Meta [] (KLeaf dt nd) []) (NLeaf (Some v))) by (now constructor). assert (HV : has_value (Meta [] (KLeaf dt nd) []) (NLeaf (Some v)) = true) by exact H.
  apply has_value_nonempty in HV; auto. destruct HV as (l & [(w & m' & _ & N & F)|(k' & m' & els & N & _)]); inversion N; subst; auto.
Qed.
Lemma here_fits : forall c ch, conf c ch -> has_value c ch = true -> fits c (content_of ch).
Proof.
  intros c ch C H. inversion C; subst; cbn [content_of fits mkind] in *; auto.
  - discriminate.
  - exists dt, nd. split; auto. split; auto. eapply value_filled; eauto.
  - split; auto. cbn in H. destruct (length els); [discriminate|lia].
Qed.
(** nearest array of structures and depth of the children of c *)
Definition inner (c : meta) (p : path) (a : option path) (lv : nat) : option path * nat := match mkind c with KAoS => (Some p, S lv) | _ => (a, lv) end.
Lemma ent_nil : forall c ch ix x, ent c ch [] ix x -> ix = [] /\ x = content_of ch /\ has_value c ch = true.
Proof. intros c ch ix x E. inversion E; subst; auto. congruence. Qed.
Lemma below_kind : forall c p t a lv c' a' n', below c p a lv (p ++ t) c' a' n' -> t <> [].
Proof.
  intros c p t a lv c' a' n' B ->. rewrite app_nil_r in B.
  assert (X : forall c names a lv q c' a' n', below c names a lv q c' a' n' -> length names < length q).
  { clear. intros c names a lv q c' a' n' B. induction B; rewrite ?app_length in *; cbn in *; lia. }
  apply X in B. lia.
Qed.
Lemma ent_below : forall c ch t ix x, ent c ch t ix x -> conf c ch -> t <> [] -> forall p a lv,
  exists c' a' n', below c p (fst (inner c p a lv)) (snd (inner c p a lv)) (p ++ t) c' a' n' /\ fits c' x /\ n' = lv + length ix.
Proof.
  intros c ch t ix x E. induction E as [c ch H|nm cs fs d ch t ix x I A E IH|nm cs els i e t ix x N E IH NE]; intros C NT p a lv.
  - congruence.
  - pose proof (conf_child _ _ _ _ _ C I A) as Cd. cbn [inner mkind fst snd]. destruct t as [|y t].
    + apply ent_nil in E. destruct E as (-> & -> & HV). exists d, a, lv. split; [constructor; auto|]. split; [now apply here_fits|cbn; lia].
    + assert (NY : y :: t <> []) by discriminate. specialize (IH Cd NY (p ++ [mname d]) a lv). destruct IH as (c' & a' & n' & B & F & L). rewrite <- app_assoc in B. exists c', a', n'. split; auto.
      unfold inner in B. destruct (mkind d) as [| |dt nd] eqn:K; cbn [fst snd] in B.
      * eapply bl_struct; eauto.
      * eapply bl_aos; eauto.
      * exfalso. destruct d as [dn dk dc]. cbn in K. subst dk. inversion E.
  - inversion C as [| | |n0 cs0 els' CE]; subst. assert (Ce : conf (Meta nm KStruct cs) e) by (apply CE; eapply nth_error_In; eauto).
    destruct (IH Ce NT p (Some p) (S lv)) as (c' & a' & n' & B & F & L). exists c', a', n'. cbn [inner mkind fst snd] in *. split; [|split; auto; cbn; lia].
    clear - B. remember (Meta nm KStruct cs) as M eqn:EM. inversion B; subst; try (match goal with H : Meta _ _ _ = Meta _ _ _ |- _ => inversion H; subst end).
    + now constructor.
    + eapply bl_struct; eauto.
    + eapply bl_aos; eauto.
Qed.

Lemma below_path' : forall m names parent lv p c a n, below m names parent lv p c a n -> exists t, p = names ++ t.
Proof.
  intros m names parent lv p c a n B. induction B as [| ? ? ? ? ? ? c p c' a n I K B IH| ? ? ? ? ? ? c p c' a n I K B IH]; [eauto| |]; destruct IH as (t & ->); rewrite <- app_assoc; eauto.
Qed.
(** at most one node with this path and index *)
Lemma name_inj : forall cs (d d' : meta), NoDup (map mname cs) -> In d cs -> In d' cs -> mname d = mname d' -> d = d'.
Proof. intros cs d d' ND I I' E. eapply nodup_map_inj; eauto. Qed.
Lemma ent_fun : forall c ch t ix x, ent c ch t ix x -> wf_meta c -> forall x', ent c ch t ix x' -> x = x'.
Proof.
  intros c ch t ix x E. induction E as [c ch H|nm cs fs d ch t ix x I A E IH|nm cs els i e t ix x N E IH NE]; intros W x' E'.
  - apply ent_nil in E'. symmetry. apply E'.
  - inversion W as [? ? ? ND WC LF]; subst. inversion E' as [|? ? ? d' ch' t' ? ? I' A' E2|]; subst.
    assert (d' = d) by (eapply name_inj; eauto). subst d'. rewrite A' in A. inversion A; subst. auto.
  - inversion E' as [| |? ? ? i' e' ? ix2 ? A' E2 NE2]; subst. rewrite A' in N. inversion N; subst. apply IH; auto. inversion W; subst. constructor; auto. intros; discriminate.
Qed.

(** the enclosing array of structures is filled and has enough elements *)
Lemma ent_parent : forall c ch t ix x, ent c ch t ix x -> conf c ch -> wf_meta c -> forall p a lv c' q n',
  below c p (fst (inner c p a lv)) (snd (inner c p a lv)) (p ++ t) c' (Some q) n' ->
  a = Some q /\ ix = [] \/ exists u ix' i k, q = p ++ u /\ ix = ix' ++ [i] /\ ent c ch u ix' (FAoS k) /\ i < k.
Proof.
  intros c ch t ix x E. induction E as [c ch H|nm cs fs d ch t ix x I A E IH|nm cs els i e t ix x N E IH NE]; intros C W p a lv c' q n' B.
  - apply below_kind in B. congruence.
  - pose proof (conf_child _ _ _ _ _ C I A) as Cd. cbn [inner mkind fst snd] in B. inversion W as [? ? ? ND WC LF]; subst.
    assert (X : forall y z d', p ++ y = p ++ z -> In d' cs -> y = mname d' :: t -> exists z', z = mname d' :: z') by (intros y z d' E1 _ ->; apply app_inv_head in E1; subst; eauto).
    assert (P1 : forall d' q', p ++ mname d :: t = (p ++ [mname d']) ++ q' -> mname d = mname d' /\ t = q') by (intros d' q' E1; rewrite <- app_assoc in E1; apply app_inv_head in E1; inversion E1; auto).
    inversion B as [? ? ? ? ? ? d' I' E1|? ? ? ? ? ? d' p' ? ? ? I' K' B'|? ? ? ? ? ? d' p' ? ? ? I' K' B']; subst.
    + left. match goal with H : p ++ [mname _] = _ |- _ => apply app_inv_head in H; inversion H; subst end. apply ent_nil in E. destruct E as (-> & _). auto.
    + destruct (below_path' _ _ _ _ _ _ _ _ B') as (u & E1). destruct (P1 d' u E1) as [E2 E3]. assert (d' = d) by (eapply name_inj; eauto). subst d' u.
      destruct (IH Cd (WC d I) (p ++ [mname d]) a lv c' q n') as [[-> ->]|(u & ix' & i & k & -> & -> & E4 & L)].
      * unfold inner. rewrite K'. cbn [fst snd]. rewrite <- app_assoc. exact B'.
      * now left.
      * right. exists (mname d :: u), ix', i, k. rewrite <- app_assoc. split; auto. split; auto. split; auto. eapply en_struct; eauto.
    + destruct (below_path' _ _ _ _ _ _ _ _ B') as (u & E1). destruct (P1 d' u E1) as [E2 E3]. assert (d' = d) by (eapply name_inj; eauto). subst d' u.
      destruct (IH Cd (WC d I) (p ++ [mname d]) None lv c' q n') as [[E4 ->]|(u & ix' & i & k & -> & -> & E4 & L)].
      * unfold inner. rewrite K'. cbn [fst snd]. rewrite <- app_assoc. exact B'.
      * discriminate.
      * right. exists (mname d :: u), ix', i, k. rewrite <- app_assoc. split; auto. split; auto. split; auto. eapply en_struct; eauto.
  - inversion C as [| | |n0 cs0 els' CE]; subst. assert (Ce : conf (Meta nm KStruct cs) e) by (apply CE; eapply nth_error_In; eauto).
    assert (We : wf_meta (Meta nm KStruct cs)) by (inversion W; subst; constructor; auto; intros; discriminate).
    destruct (IH Ce We p (Some p) (S lv) c' q n') as [[E4 ->]|(u & ix' & j & k & -> & -> & E4 & L)].
    + cbn [inner mkind fst snd] in *. remember (Meta nm KAoS cs) as M eqn:EM. inversion B; subst; match goal with H : Meta _ _ _ = Meta _ _ _ |- _ => inversion H; subst end.
      * now constructor.
      * eapply bl_struct; eauto.
      * eapply bl_aos; eauto.
    + inversion E4; subst. right. exists [], [], i, (length els). rewrite app_nil_r. split; auto. split; auto. split; [|apply nth_error_Some; congruence].
      change (FAoS (length els)) with (content_of (NAoS els)). constructor. cbn. destruct els; [destruct i; discriminate|reflexivity].
    + right. exists u, (i :: ix'), j, k. split; auto. split; auto. split; auto. eapply en_elem; eauto. intros ->. apply ent_nil in E4. destruct E4 as (_ & E5 & _). inversion Ce; subst; discriminate.
Qed.
