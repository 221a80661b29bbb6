(** Each position is written at most once during a put. *)
From Verif Require Import Base TreeModel TreeSpec TreeProofs ConvSpec ConvProofs3 ConvProofs4 VmapModel ValProofs ValProofs5
  StoreModel StoreSpec StoreProofs StoreProofs2 StoreProofs3 StoreProofs4 StoreProofs5.

(** the position that a call is about; true: an array of structures *)
Definition call_key (c : call) : bool * key := match c with Write k _ => (false, k) | Begin k _ => (true, k) end.
Lemma call_key_of : forall k x, call_key (call_of k x) = (item_aos x, k).
Proof. intros k [v|n]; reflexivity. Qed.

Lemma NoDup_app : forall A (a b : list A), NoDup a -> NoDup b -> (forall x, In x a -> In x b -> False) -> NoDup (a ++ b).
Proof.
  induction a as [|x a IH]; intros b NA NB D; auto. inversion NA; subst. cbn. constructor.
  - rewrite in_app_iff. intros [X|X]; [auto|]. apply (D x); [now left|auto].
  - apply IH; auto. intros y Y1 Y2. apply (D y); auto. now right.
Qed.

Lemma seq_all_nodup : forall A B (f : A -> out) (g : A -> B) l calls, seq_all f l = (calls, None) -> NoDup (map g l) ->
  (forall x, In x l -> NoDup (map call_key (fst (f x)))) ->
  (forall x y k, In x l -> In y l -> In k (map call_key (fst (f x))) -> In k (map call_key (fst (f y))) -> g x = g y) ->
  NoDup (map call_key calls).
Proof.
  intros A B f g. induction l as [|x l IH]; intros calls H ND N D; cbn in H.
  - inversion H; subst. constructor.
  - apply seq_out_ok in H. destruct H as (ca & cb & Ea & Eb & ->). cbn in ND. inversion ND as [|? ? NI ND']; subst. rewrite map_app.
    apply NoDup_app.
    + specialize (N x (or_introl eq_refl)). rewrite Ea in N. exact N.
    + apply (IH cb Eb ND'); [intros y Y; apply N; now right|]. intros y z k Y Z. apply D; now right.
    + intros k K1 K2. apply in_map_iff in K2. destruct K2 as (y & E & I). subst k. destruct (seq_all_ok _ _ _ _ Eb) as [_ Q]. apply Q in I.
      destruct I as (z & Z & I). apply NI. rewrite (D x z (call_key y)); [apply List.in_map; auto|now left|now right|rewrite Ea; exact K1|].
      apply List.in_map. exact I.
Qed.

Section NoDupCalls.
Variable dynamic : list str -> bool.
Variable xml_tbp : list str -> str.
Variable maxoccur : list str -> option nat.
Variable mode : Z.
Variable is_slice verify : bool.
Notation placed := (placed dynamic xml_tbp None mode).
Notation position := (position dynamic xml_tbp None mode).
Notation skipped := (skipped dynamic None mode).
Notation put_node := (put_node dynamic xml_tbp maxoccur None mode is_slice verify).
Notation put_fields := (put_fields dynamic xml_tbp maxoccur None mode is_slice verify).
Notation inv := (inv dynamic).
Notation expected := (expected dynamic xml_tbp None mode is_slice).

Variable m0 : meta.
Hypothesis NM0 : named m0.
Hypothesis K0 : mkind m0 = KStruct.

(** the position below (names, rel) in context c are the positions below l0 in the whole IDS *)
Definition lifts (l0 : loc) (names rel : list str) (c : ctx) : Prop :=
  forall aos l c' q, position aos names rel l (c', q) -> position aos [] [] (l0 ++ l) (c ++ c', q).
Definition goes (l0 : loc) (m : meta) : Prop := forall l m', loc_ok m l m' -> loc_ok m0 (l0 ++ l) m'.

Lemma lifts_child : forall l0 names rel c nm, lifts l0 names rel c -> ~ skipped (names ++ [nm]) -> lifts (l0 ++ [Child nm]) (names ++ [nm]) (rel ++ [nm]) c.
Proof. intros l0 names rel c nm H N aos l c' q P. rewrite <- app_assoc. cbn. apply H. now constructor. Qed.
Lemma lifts_elem : forall l0 names rel c p i, lifts l0 names rel c -> placed true names rel p -> lifts (l0 ++ [Elem i]) names [] (c ++ [(p, i)]).
Proof. intros l0 names rel c p i H PL aos l c' q P. rewrite <- !app_assoc. cbn. apply H. now constructor. Qed.
Lemma goes_child : forall l0 nm cs d, goes l0 (Meta nm KStruct cs) -> In d cs -> goes (l0 ++ [Child (mname d)]) d.
Proof. intros l0 nm cs d H D l m' L. rewrite <- app_assoc. cbn. apply H. now constructor. Qed.
Lemma goes_elem : forall l0 nm cs i, goes l0 (Meta nm KAoS cs) -> goes (l0 ++ [Elem i]) (Meta nm KStruct cs).
Proof. intros l0 nm cs i H l m' L. rewrite <- app_assoc. cbn. apply H. now constructor. Qed.

(** two calls with the same key are for the same location *)
Lemma expected_inj : forall m n m' n' l0 l0' names rel names' rel' c c' y y', goes l0 m -> goes l0' m' -> lifts l0 names rel c -> lifts l0' names' rel' c' ->
  expected m n names rel c y -> expected m' n' names' rel' c' y' -> call_key y = call_key y' ->
  exists l l' x x', holds m n l x /\ holds m' n' l' x' /\ l0 ++ l = l0' ++ l'.
Proof.
  intros m n m' n' l0 l0' names rel names' rel' c c' y y' G G' L L' (l & x & d & q & -> & H & P & _) (l' & x' & d' & q' & -> & H' & P' & _) E.
  rewrite !call_key_of in E. injection E as EA E1 E2. exists l, l', x, x'. split; auto. split; auto.
  destruct (holds_loc _ _ _ _ H) as (m1 & O & K1). destruct (holds_loc _ _ _ _ H') as (m1' & O' & K1').
  apply L in P. apply L' in P'. rewrite E1, E2 in P.
  eapply (position_inj dynamic xml_tbp mode (length (l0 ++ l)) (l0 ++ l) (l0' ++ l') m0 m0 m1 m1' (item_aos x) []); eauto.
  rewrite <- EA in P'. exact P'.
Qed.

Definition nodup_ok (m : meta) : Prop := named m -> wf_meta m -> forall n p names rel c calls l0, conf m n -> has_value m n = true -> inv p names rel ->
  goes (l0 ++ [Child (mname m)]) m -> lifts l0 names rel c ->
  put_node m n p c = (calls, None) -> NoDup (map call_key calls).

Lemma put_fields_nodup : forall nm cs fs p names rel c calls l0, (forall d, In d cs -> nodup_ok d) -> (forall d, In d cs -> named d) ->
  wf_meta (Meta nm KStruct cs) -> conf (Meta nm KStruct cs) (NStruct fs) -> inv p names rel -> goes l0 (Meta nm KStruct cs) -> lifts l0 names rel c ->
  put_fields cs fs p c = (calls, None) -> NoDup (map call_key calls).
Proof.
  intros nm cs fs p names rel c calls l0 IH NM W CF I G L R. inversion W as [? ? ? ND WC _]; subst. inversion CF as [ | |? ? ? CH _ _|]; subst.
  unfold StoreModel.put_fields in R. destruct (seq_all_ok _ _ _ _ R) as [S _].
  eapply (seq_all_nodup _ _ _ mname _ _ R ND).
  - intros d D. specialize (S d D). destruct (alookup (mname d) fs) as [ch|] eqn:A; [|constructor]. destruct (has_value d ch) eqn:HV; [|constructor].
    destruct (put_node d ch p c) as [cl e] eqn:P. cbn in S. subst e. cbn [fst].
    eapply (IH d D (NM d D) (WC d D) ch p names rel c cl l0); eauto using goes_child.
  - intros d d' k D D' X X'. pose proof (S d D) as S1. pose proof (S d' D') as S2. apply in_map_iff in X. destruct X as (y & <- & Y). apply in_map_iff in X'. destruct X' as (y' & E & Y').
    destruct (alookup (mname d) fs) as [ch|] eqn:A; [|destruct Y]. destruct (has_value d ch) eqn:HV; [|destruct Y].
    destruct (put_node d ch p c) as [cl e] eqn:P. cbn in S1, Y. subst e.
    destruct (alookup (mname d') fs) as [ch'|] eqn:A'; [|destruct Y']. destruct (has_value d' ch') eqn:HV'; [|destruct Y'].
    destruct (put_node d' ch' p c) as [cl' e] eqn:P'. cbn in S2, Y'. subst e.
    apply (put_node_ok dynamic xml_tbp maxoccur None mode is_slice verify d (NM d D) ch p names rel c cl (CH d ch D A) HV I P) in Y. destruct Y as [NS EX].
    apply (put_node_ok dynamic xml_tbp maxoccur None mode is_slice verify d' (NM d' D') ch' p names rel c cl' (CH d' ch' D' A') HV' I P') in Y'. destruct Y' as [NS' EX'].
    destruct (expected_inj _ _ _ _ (l0 ++ [Child (mname d)]) (l0 ++ [Child (mname d')]) _ _ _ _ _ _ _ _ (goes_child _ _ _ _ G D) (goes_child _ _ _ _ G D')
      (lifts_child _ _ _ _ _ L NS) (lifts_child _ _ _ _ _ L NS') EX EX' (eq_sym E)) as (l & l' & x & x' & _ & _ & EQ).
    rewrite <- !app_assoc in EQ. apply app_inv_head in EQ. cbn in EQ. congruence.
Qed.

Lemma put_node_nodup : forall m, nodup_ok m.
Proof.
  intros m. induction m as [nm k cs IH] using meta_ind'. intros NM W n p names rel c calls l0 CF HV I G L R.
  rewrite put_node_unfold in R. cbv zeta in R.
  pose proof (omitted_spec dynamic None mode p names rel (Meta nm k cs) I) as OM.
  pose proof (locate_spec dynamic xml_tbp None mode p names rel (Meta nm k cs) I) as LO. cbv zeta in LO.
  cbn [mname] in *. set (ns := names ++ [nm]) in *. set (rl := rel ++ [nm]) in *.
  destruct (omitted dynamic mode p (Meta nm k cs)).
  { inversion R; subst. constructor. }
  destruct (locate dynamic xml_tbp None mode p (Meta nm k cs)) as [[pl|]|e]; [|inversion R; subst; constructor|discriminate].
  destruct LO as [PL NG]. assert (NS : ~ skipped ns) by (intros [H|H]; auto).
  inversion NM as [? ? ? N1 N2 N3]; subst.
  assert (IB := inv_below dynamic xml_tbp p names rel (Meta nm k cs) I N1). cbn [mname] in IB. fold ns rl in IB.
  pose proof (lifts_child _ _ _ _ nm L NS) as LC. fold ns rl in LC.
  destruct k as [| |dt nd]; inversion CF; subst.
  - unfold is_aos in IB. cbn [mkind] in IB. eapply (put_fields_nodup nm cs fs); eauto.
  - unfold is_aos in *. cbn [mkind] in *.
    match type of R with (if ?b then _ else _) = _ => destruct b; [discriminate|] end.
    apply seq_out_ok in R. destruct R as (ca & cb & Ea & Eb & ->). injection Ea as <-. cbn [app map call_key].
    assert (WS : wf_meta (Meta nm KStruct cs)) by (inversion W; subst; constructor; auto; intros; discriminate).
    assert (CE : forall i e, nth_error els i = Some e -> exists fs, e = NStruct fs /\ conf (Meta nm KStruct cs) (NStruct fs)).
    { intros i e A. match goal with H : forall e, In e els -> _ |- _ => pose proof (H e (nth_error_In _ _ A)) as CX end.
      inversion CX; subst. eauto. }
    destruct (seq_all_ok _ _ _ _ Eb) as [S Q].
    assert (EXP : forall i e y, In (i, e) (enum els) -> In y (fst (put_fields cs (node_fields e) (below dynamic p (Meta nm KAoS cs)) (c ++ [(pl, i)]))) ->
      expected (Meta nm KStruct cs) e ns [] (c ++ [(pl, i)]) y).
    { intros i e y Hi Y. specialize (S _ Hi). cbn [fst snd] in S. pose proof Hi as Hn. apply enum_In in Hn. destruct (CE _ _ Hn) as (fs & -> & CX). cbn [node_fields] in *.
      match type of Y with In y (fst ?t) => destruct t as [cl ee] eqn:P end. cbn in S, Y. subst ee.
      apply (put_fields_ok dynamic xml_tbp maxoccur None mode is_slice verify nm cs fs _ _ _ _ cl (fun d _ => put_node_ok dynamic xml_tbp maxoccur None mode is_slice verify d) N3 CX IB P). exact Y. }
    constructor.
    + intros X. apply in_map_iff in X. destruct X as (y & E & Y). apply Q in Y. destruct Y as ((i, e) & Hi & Y). cbn [fst snd] in Y.
      pose proof (EXP i e y Hi Y) as EY.
      assert (EB : expected (Meta nm KAoS cs) (NAoS els) ns rl c (Begin (c, pl) (length els))).
      { exists [], (ISize (length els)), [], pl. rewrite app_nil_r. split; auto. split; [|split; [now constructor|exact Logic.I]].
        apply holds_aos. left. cbn in HV. split; auto. split; auto. destruct (length els); [discriminate|lia]. }
      destruct EY as (l & x & c' & q & -> & H & P & _). rewrite call_key_of in E. injection E as EA E1 E2.
      destruct (holds_loc _ _ _ _ H) as (m1 & O & KK).
      assert (EQ : (l0 ++ [Child nm]) ++ Elem i :: l = (l0 ++ [Child nm]) ++ []).
      { eapply (position_inj dynamic xml_tbp mode (length ((l0 ++ [Child nm]) ++ Elem i :: l)) _ _ m0 m0 m1 (Meta nm KAoS cs) true [] (c ++ (pl, i) :: c', q)); eauto.
        - apply G. now constructor.
        - apply G. constructor.
        - discriminate.
        - apply LC. constructor; auto. rewrite EA in P. exact P.
        - rewrite <- app_assoc in E1. cbn in E1. rewrite E1, E2. replace c with (c ++ []) by apply app_nil_r. apply LC. constructor. exact PL. }
      apply app_inv_head in EQ. discriminate.
    + eapply (seq_all_nodup _ _ _ fst _ _ Eb).
      * unfold enum. clear. assert (E : forall (l : list node) s, map fst (combine (seq s (length l)) l) = seq s (length l)) by (induction l as [|x l IH]; intros s; cbn; [auto|now rewrite IH]).
        rewrite E. apply seq_NoDup.
      * intros (i, e) Hi. specialize (S _ Hi). cbn [fst snd] in *. apply enum_In in Hi. destruct (CE _ _ Hi) as (fs & -> & CX). cbn [node_fields] in *.
        match goal with |- NoDup (map _ (fst ?t)) => destruct t as [cl ee] eqn:P end. cbn in S. subst ee. cbn [fst].
        eapply (put_fields_nodup nm cs fs _ _ _ _ cl ((l0 ++ [Child nm]) ++ [Elem i]) IH N3 WS CX IB); eauto using goes_elem, lifts_elem.
      * intros (i, e) (i', e') ky Hi Hi' X X'. cbn [fst snd] in *. apply in_map_iff in X. destruct X as (y & <- & Y). apply in_map_iff in X'. destruct X' as (y' & E & Y').
        pose proof (EXP i e y Hi Y) as EX. pose proof (EXP i' e' y' Hi' Y') as EX'.
        destruct (expected_inj _ _ _ _ ((l0 ++ [Child nm]) ++ [Elem i]) ((l0 ++ [Child nm]) ++ [Elem i']) _ _ _ _ _ _ _ _ (goes_elem _ _ _ _ G) (goes_elem _ _ _ _ G)
          (lifts_elem _ _ _ _ _ _ LC PL) (lifts_elem _ _ _ _ _ _ LC PL) EX EX' (eq_sym E)) as (l & l' & x & x' & _ & _ & EQ).
        rewrite <- !app_assoc in EQ. apply app_inv_head in EQ. cbn in EQ. congruence.
  - discriminate HV.
  - match type of R with (if ?b then _ else _) = _ => destruct b end; inversion R; subst; cbn; constructor; auto; constructor.
Qed.

Lemma put_children_nodup : forall fs calls, wf_meta m0 -> conf m0 (NStruct fs) ->
  put_children dynamic xml_tbp maxoccur None mode is_slice verify m0 (NStruct fs) = (calls, None) -> NoDup (map call_key calls).
Proof.
  intros fs calls W CF R. assert (EX : exists nm cs, m0 = Meta nm KStruct cs) by (destruct m0 as [nm k cs]; cbn in K0; subst k; eauto).
  destruct EX as (nm & cs & E). pose proof NM0 as N. rewrite E in R, CF, W, N. assert (N3 : forall c, In c cs -> named c) by (clear - N; inversion N; subst; auto). unfold put_children in R. cbn [mchildren node_fields] in R.
  eapply (put_fields_nodup nm cs fs top [] [] [] calls []); eauto using put_node_nodup.
  - apply inv_top.
  - intros l m' L. rewrite E. exact L.
  - intros aos l c' q P. exact P.
Qed.
End NoDupCalls.
