(** The calls made by put_children are the filled data nodes and the sizes of the arrays of structures, each at its position. *)
From Verif Require Import Base TreeModel TreeSpec TreeProofs ConvSpec VmapModel ValProofs ValProofs5 StoreModel StoreSpec StoreProofs.
From Verif Require PrimModel.

Inductive item := ILeaf (v : value) | ISize (k : nat).
Definition item_aos (x : item) : bool := match x with ILeaf _ => false | ISize _ => true end.
Definition holds (m : meta) (n : node) (l : loc) (x : item) : Prop :=
  match x with ILeaf v => leaf_at m n l v | ISize k => aos_at m n l k end.
Definition call_of (k : key) (x : item) : call := match x with ILeaf v => Write k v | ISize n => Begin k n end.

Lemma holds_nonempty : forall m n l x, holds m n l x -> nonempty m n.
Proof. intros m n l [v|k] H; exists l; [left|right]; eauto. Qed.

Lemma holds_struct : forall nm cs fs l x, holds (Meta nm KStruct cs) (NStruct fs) l x <->
  exists d ch l', l = Child (mname d) :: l' /\ In d cs /\ alookup (mname d) fs = Some ch /\ holds d ch l' x.
Proof.
  intros nm cs fs l x. split.
  - destruct x as [v|k]; cbn [holds].
    + intros (m' & L & N & F). inversion N; subst. do 3 eexists. split; [reflexivity|]. split; [eauto|]. split; [eauto|]. exists m'. auto.
    + intros (m' & els & N & K & E & G). inversion N; subst. do 3 eexists. split; [reflexivity|]. split; [eauto|]. split; [eauto|].
      exists m', els. auto.
  - intros (d & ch & l' & -> & I & A & H). destruct x as [v|k]; cbn [holds] in *.
    + destruct H as (m' & L & N & F). exists m'. split; auto. split; auto. econstructor; eauto.
    + destruct H as (m' & els & N & K & E & G). exists m', els. split; auto. econstructor; eauto.
Qed.

Lemma holds_aos : forall nm cs els l x, holds (Meta nm KAoS cs) (NAoS els) l x <->
  (l = [] /\ x = ISize (length els) /\ length els > 0) \/
  exists i e l', l = Elem i :: l' /\ nth_error els i = Some e /\ holds (Meta nm KStruct cs) e l' x.
Proof.
  intros nm cs els l x. split.
  - destruct x as [v|k]; cbn [holds].
    + intros (m' & L & N & F). inversion N; subst. right. do 3 eexists. split; [reflexivity|]. split; [eauto|]. exists m'. auto.
    + intros (m' & es & N & K & E & G). inversion N; subst.
      * left. auto.
      * right. do 3 eexists. split; [reflexivity|]. split; [eauto|]. exists m', es. auto.
  - intros [(-> & -> & G)|(i & e & l' & -> & A & H)].
    + exists (Meta nm KAoS cs), els. split; [constructor|auto].
    + destruct x as [v|k]; cbn [holds] in *.
      * destruct H as (m' & L & N & F). exists m'. split; auto. split; auto. econstructor; eauto.
      * destruct H as (m' & es & N & K & E & G). exists m', es. split; auto. econstructor; eauto.
Qed.

Lemma holds_leaf : forall nm dt nd cs v l x, holds (Meta nm (KLeaf dt nd) cs) (NLeaf v) l x <->
  l = [] /\ exists w, v = Some w /\ x = ILeaf w /\ filled_value w.
Proof.
  intros nm dt nd cs v l x. split.
  - destruct x as [w|k]; cbn [holds].
    + intros (m' & L & N & F). inversion N; subst. split; auto. exists w; auto.
    + intros (m' & es & N & K & E & G). inversion N.
  - intros (-> & w & -> & -> & F). exists (Meta nm (KLeaf dt nd) cs). split; [do 2 eexists; reflexivity|]. split; auto. constructor.
Qed.

(** ** sequences of calls *)
Lemma seq_out_ok : forall a b calls, seq_out a b = (calls, None) -> exists ca cb, a = (ca, None) /\ b = (cb, None) /\ calls = ca ++ cb.
Proof.
  intros [ca ea] [cb eb] calls H. unfold seq_out in H. cbn in H. destruct ea; [discriminate|]. inversion H; subst. eauto.
Qed.
Lemma seq_all_ok : forall A (f : A -> out) l calls, seq_all f l = (calls, None) ->
  (forall x, In x l -> snd (f x) = None) /\ (forall c, In c calls <-> exists x, In x l /\ In c (fst (f x))).
Proof.
  intros A f. induction l as [|x t IH]; intros calls H; cbn in H.
  - inversion H; subst. split; [intros ? []|]. intros c. split; [intros []|intros (? & [] & _)].
  - apply seq_out_ok in H. destruct H as (ca & cb & Ea & Eb & ->). destruct (IH _ Eb) as [S I]. split.
    + intros y [<-|Y]; [now rewrite Ea|auto].
    + intros c. rewrite in_app_iff, I. split.
      * intros [H|(y & Y & H)]; [exists x; split; [now left|now rewrite Ea]|exists y; split; [now right|auto]].
      * intros (y & [<-|Y] & H); [left; now rewrite Ea in H|right; eauto].
Qed.

Section Put.
Variable dynamic : list str -> bool.
Variable xml_tbp : list str -> str.
Variable maxoccur : list str -> option nat.
Variable nbc : option nmap.
Variable mode : Z.
Variable is_slice verify : bool.
Notation placed := (placed dynamic xml_tbp nbc mode).
Notation position := (position dynamic xml_tbp nbc mode).
Notation skipped := (skipped dynamic nbc mode).
Notation put_node := (put_node dynamic xml_tbp maxoccur nbc mode is_slice verify).
Notation put_fields := (put_fields dynamic xml_tbp maxoccur nbc mode is_slice verify).
Notation inv := (inv dynamic).

(** put_slice only writes dynamic data nodes *)
Definition allowed (names : list str) (x : item) : Prop :=
  match x with ILeaf _ => is_slice = true -> dynamic names = true | ISize _ => True end.

(** what must be called for the nodes below the structure (or element) with path [names] *)
Definition expected (m : meta) (n : node) (names rel : list str) (c : ctx) (y : call) : Prop :=
  exists l x c' q, y = call_of (c ++ c', q) x /\ holds m n l x /\ position (item_aos x) names rel l (c', q) /\ allowed (names ++ loc_names l) x.

Definition put_ok (m : meta) : Prop := named m -> forall n p names rel c calls, conf m n -> has_value m n = true -> inv p names rel ->
  put_node m n p c = (calls, None) ->
  forall y, In y calls <-> ~ skipped (names ++ [mname m]) /\ expected m n (names ++ [mname m]) (rel ++ [mname m]) c y.

Lemma put_fields_ok : forall nm cs fs p names rel c calls, (forall d, In d cs -> put_ok d) -> (forall d, In d cs -> named d) ->
  conf (Meta nm KStruct cs) (NStruct fs) -> inv p names rel -> put_fields cs fs p c = (calls, None) ->
  forall y, In y calls <-> expected (Meta nm KStruct cs) (NStruct fs) names rel c y.
Proof.
  intros nm cs fs p names rel c calls IH NM CF I R y. unfold StoreModel.put_fields in R. apply seq_all_ok in R. destruct R as [S E].
  rewrite E. clear E. inversion CF as [ | |? ? ? CH _ _|]; subst. split.
  - intros (d & D & Y). specialize (S d D). destruct (alookup (mname d) fs) as [ch|] eqn:A; [|destruct Y].
    destruct (has_value d ch) eqn:HV; [|destruct Y]. destruct (put_node d ch p c) as [cl e] eqn:P. cbn in S, Y. subst e.
    apply (IH d D (NM d D) ch p names rel c cl (CH d ch D A) HV I P) in Y. destruct Y as [NS (l & x & c' & q & -> & H & PO & AL)].
    exists (Child (mname d) :: l), x, c', q. split; auto. split; [apply holds_struct; exists d, ch, l; auto|].
    split; [now constructor|]. cbn [loc_names flat_map]. rewrite <- app_assoc in AL. exact AL.
  - intros (l & x & c' & q & -> & H & PO & AL). apply holds_struct in H. destruct H as (d & ch & l' & -> & D & A & H).
    exists d. split; auto. rewrite A. assert (HV : has_value d ch = true) by (apply has_value_nonempty; [now apply CH|eapply holds_nonempty; eauto]).
    specialize (S d D). rewrite A, HV in S. rewrite HV. destruct (put_node d ch p c) as [cl e] eqn:P. cbn in S. subst e. cbn [fst].
    apply (IH d D (NM d D) ch p names rel c cl (CH d ch D A) HV I P).
    inversion PO; subst. split; auto. exists l', x, c', q. split; auto. split; auto. split; auto.
    cbn [loc_names flat_map] in AL. rewrite <- app_assoc. exact AL.
Qed.

Lemma put_node_unfold : forall nm k cs n p c, put_node (Meta nm k cs) n p c =
    let m := Meta nm k cs in
    if omitted dynamic mode p m then done else
    match locate dynamic xml_tbp nbc mode p m with
    | Err e => ([], Some e)
    | Ok None => done
    | Ok (Some pl) =>
      match k, n with
      | KAoS, NAoS els =>
        if verify && match maxoccur (p_names p ++ [nm]) with Some (S x) => S x <? length els | _ => false end then ([], Some TooMany) else
        seq_out ([Begin (c, pl) (length els)], None)
          (seq_all (fun ie => put_fields cs (node_fields (snd ie)) (below dynamic p m) (c ++ [(pl, fst ie)])) (enum els))
      | KStruct, NStruct fs => put_fields cs fs (below dynamic p m) c
      | KLeaf _ _, NLeaf (Some v) =>
        if is_slice && negb (dynamic (p_names p ++ [nm])) then done else ([Write (c, pl) v], None)
      | _, _ => done
      end
    end.
Proof. reflexivity. Qed.

Lemma filled_of_has : forall dt nd v, val_ok dt nd v -> leaf_has_value nd (Some v) = true -> filled_value v.
Proof.
  intros dt nd v V H. assert (HV : has_value (Meta [] (KLeaf dt nd) []) (NLeaf (Some v)) = true) by exact H.
  apply has_value_nonempty in HV; [|now constructor]. destruct HV as [l [[w W]|[k K]]].
  - apply (holds_leaf [] dt nd [] (Some v) l (ILeaf w)) in W. destruct W as (_ & u & E & E' & F). congruence.
  - apply (holds_leaf [] dt nd [] (Some v) l (ISize k)) in K. destruct K as (_ & u & E & E' & F). discriminate.
Qed.

(** ** whole nodes *)
Lemma put_node_ok : forall m, put_ok m.
Proof.
  intros m. induction m as [nm k cs IH] using meta_ind'. intros NM n p names rel c calls CF HV I R y.
  rewrite put_node_unfold in R. cbv zeta in R.
  pose proof (omitted_spec dynamic nbc mode p names rel (Meta nm k cs) I) as OM.
  pose proof (locate_spec dynamic xml_tbp nbc mode p names rel (Meta nm k cs) I) as LO. cbv zeta in LO.
  cbn [mname] in *. set (ns := names ++ [nm]) in *. set (rl := rel ++ [nm]) in *.
  destruct (omitted dynamic mode p (Meta nm k cs)).
  { inversion R; subst. split; [intros []|intros [NS _]; contradiction]. }
  destruct (locate dynamic xml_tbp nbc mode p (Meta nm k cs)) as [[pl|]|e]; [|inversion R; subst; split; [intros []|]|discriminate].
  2: { intros [NS _]. destruct NS. now right. }
  destruct LO as [PL NG]. assert (NS : ~ skipped ns) by (intros [H|H]; auto).
  inversion NM as [? ? ? N1 N2 N3]; subst.
  assert (IB := inv_below dynamic xml_tbp p names rel (Meta nm k cs) I N1). cbn [mname] in IB. fold ns rl in IB.
  assert (PN : p_names p = names) by apply I.
  destruct k as [| |dt nd]; inversion CF; subst.
  - (* structure *)
    unfold is_aos in IB. cbn [mkind] in IB.
    rewrite (put_fields_ok nm cs fs _ _ _ c calls IH N3 CF IB R y). tauto.
  - (* array of structures *)
    unfold is_aos in *. cbn [mkind] in *.
    match type of R with (if ?b then _ else _) = _ => destruct b; [discriminate|] end.
    apply seq_out_ok in R. destruct R as (ca & cb & Ea & Eb & ->). injection Ea as <-.
    apply seq_all_ok in Eb. destruct Eb as [S E]. cbn [app]. cbn [In]. rewrite E. clear E. split.
    + intros [<-|((i, e) & Hi & Y)].
      * split; auto. exists [], (ISize (length els)), [], pl. rewrite app_nil_r. split; auto. split; [|split; [now constructor|exact Logic.I]].
        apply holds_aos. left. cbn in HV. split; auto. split; auto. destruct (length els); [discriminate|lia].
      * specialize (S _ Hi). cbn [fst snd] in *. apply enum_In in Hi. split; auto.
        assert (CE : conf (Meta nm KStruct cs) e) by (match goal with H : forall e, In e els -> _ |- _ => apply H; eapply nth_error_In; eauto end).
        inversion CE; subst. cbn [node_fields] in *.
        match type of Y with In y (fst ?t) => destruct t as [cl ee] eqn:P end. cbn in S, Y. subst ee.
        apply (put_fields_ok nm cs fs _ _ _ _ cl IH N3 CE IB P) in Y. destruct Y as (l & x & c' & q & -> & H & PO & AL).
        exists (Elem i :: l), x, ((pl, i) :: c'), q. rewrite <- app_assoc. split; auto. split; [apply holds_aos; right; exists i, (NStruct fs), l; auto|].
        split; [now constructor|exact AL].
    + intros [_ (l & x & c' & q & -> & H & PO & AL)]. apply holds_aos in H.
      destruct H as [(-> & -> & G)|(i & e & l' & -> & A & H)].
      * left. inversion PO; subst. rewrite app_nil_r. assert (q = pl) as -> by (eapply placed_fun; eauto). reflexivity.
      * right. exists (i, e). assert (Hi : In (i, e) (enum els)) by (apply enum_In; auto). split; auto. specialize (S _ Hi). cbn [fst snd] in *.
        assert (CE : conf (Meta nm KStruct cs) e) by (match goal with H : forall e, In e els -> _ |- _ => apply H; eapply nth_error_In; eauto end).
        inversion CE; subst. cbn [node_fields] in *.
        match goal with |- In _ (fst ?t) => destruct t as [cl ee] eqn:P end. cbn in S. subst ee.
        apply (put_fields_ok nm cs fs _ _ _ _ cl IH N3 CE IB P). inversion PO; subst.
        match goal with HH : StoreSpec.placed _ _ _ _ true ns rl ?a |- _ => assert (a = pl) as -> by (eapply placed_fun; eauto) end.
        exists l', x. do 2 eexists. rewrite <- app_assoc. split; [reflexivity|]. split; auto.
  - (* data node, not set *) discriminate HV.
  - (* data node *)
    assert (F : filled_value v) by (eapply filled_of_has; eauto).
    change (p_names p ++ [nm]) with ns in R. unfold is_aos in PL. cbn [mkind] in PL.
    assert (EQ : expected (Meta nm (KLeaf dt nd) cs) (NLeaf (Some v)) ns rl c y <-> y = Write (c, pl) v /\ (is_slice = true -> dynamic ns = true)).
    { split.
      - intros (l & x & c' & q & -> & H & PO & AL). apply holds_leaf in H. destruct H as (-> & w & E & -> & _). inversion E; subst w.
        inversion PO; subst. cbn in AL. rewrite app_nil_r in *. assert (q = pl) as -> by (eapply placed_fun; eauto). auto.
      - intros [-> AL]. exists [], (ILeaf v), [], pl. cbn. rewrite !app_nil_r. split; auto. split; [|split; [now constructor|auto]].
        apply (holds_leaf nm dt nd cs (Some v) [] (ILeaf v)). split; auto. exists v; auto. }
    rewrite EQ. destruct is_slice; cbn in R.
    + destruct (dynamic ns) eqn:D; cbn in R; inversion R; subst; cbn; intuition (try congruence).
    + inversion R; subst; cbn; intuition (try congruence).
Qed.

Lemma put_children_ok : forall m fs calls, named m -> mkind m = KStruct -> conf m (NStruct fs) ->
  put_children dynamic xml_tbp maxoccur nbc mode is_slice verify m (NStruct fs) = (calls, None) ->
  forall y, In y calls <-> expected m (NStruct fs) [] [] [] y.
Proof.
  intros [nm k cs] fs calls NM K CF R y. cbn in K. subst k. inversion NM; subst. unfold put_children in R. cbn [mchildren node_fields] in R.
  eapply put_fields_ok; eauto using put_node_ok. apply inv_top.
Qed.
End Put.
