(** The state of an IDS that is lazily loaded from a netCDF file of another version agrees with given contents: cf. NcLazyProofs2.v. *)
From Verif Require Import Base TreeModel TreeSpec TreeProofs4 ValProofs NcMetaModel NcMetaProofs2 NcFileModel NcFileProofs2 NcFileProofs3 NcConvProofs LazyModel LazySpec LazyProofs LazyProofs2 NcLazyModel NcLazySpec NcLazyProofs2 NcLazyConvModel.
From Verif Require ConvProofs2 ConvProofs4.
From Coq Require Import Lia.

Section Agree.
Variable r : ncmeta.
Variable g : group.
Variable h : bool.
Variable lm : path -> option ncvar.
Variable val : path -> dtype -> nat -> list nat -> option value.
Variable size : path -> list nat -> nat.
Variable bad : path -> Prop.      (* arrays of structures whose size is not found *)
Notation gen := (gen val size).
Notation gen_fields := (gen_fields val size).
Notation cload_child := (cload_child r g h lm).
Notation caccess := (caccess r g h lm).

(** the variables give these contents *)
Inductive good : meta -> path -> list nat -> Prop :=
| gd_leaf : forall nm dt nd cs p idx, (forall v, lm p = Some v -> conv_lazy_value g v dt nd idx = Ok (val p dt nd idx)) -> (lm p = None -> val p dt nd idx = None) ->
    good (Meta nm (KLeaf dt nd) cs) p idx
| gd_struct : forall nm cs p idx, (forall d, In d cs -> good d (p ++ [mname d]) idx) -> good (Meta nm KStruct cs) p idx
| gd_aos : forall nm cs p idx, (forall v, lm p = Some v -> lazy_size r g h v p idx = Ok (size p idx) \/ (bad p /\ lazy_size r g h v p idx = Err FIndex)) -> (lm p = None -> size p idx = 0) ->
    (forall i, i < size p idx -> forall d, In d cs -> good d (p ++ [mname d]) (idx ++ [i])) -> good (Meta nm KAoS cs) p idx.

(** the reasons for which the node at l is not loaded *)
Definition cause (open : bool) (l : loc) (x : qexn) : Prop := (open = false /\ x = QLazy Unavailable) \/ (open = true /\ bad (loc_names l) /\ x = QFile FIndex).

(** ** Agreement: the node at path p and index idx, at location at_; in B an access has failed *)
Inductive cagree (B : loc -> Prop) : meta -> path -> list nat -> loc -> qnode -> Prop :=
| qa_leaf : forall nm dt nd cs p idx at_ v, v = val p dt nd idx \/ (v = None /\ B at_) -> cagree B (Meta nm (KLeaf dt nd) cs) p idx at_ (QLeaf v)
| qa_struct : forall nm cs p idx at_ fs, (forall d ch, In d cs -> alookup (mname d) fs = Some ch -> cagree B d (p ++ [mname d]) idx (at_ ++ [Child (mname d)]) ch) ->
    cagree B (Meta nm KStruct cs) p idx at_ (QStruct (Some idx) fs)
| qa_unloaded : forall nm cs p idx at_, cagree B (Meta nm KAoS cs) p idx at_ (QAoS (Some (idx, size p idx)) None)
| qa_aos : forall nm cs p idx at_ k l, length l = size p idx ->
    (forall i x, nth_error l i = Some (Some x) -> cagree B (Meta nm KStruct cs) p (idx ++ [i]) (at_ ++ [Elem i]) x) ->
    cagree B (Meta nm KAoS cs) p idx at_ (QAoS (Some (idx, k)) (Some l))
| qa_lost : forall nm cs p idx at_ v, B at_ -> v = None \/ v = Some [] -> cagree B (Meta nm KAoS cs) p idx at_ (QAoS None v).

Lemma cagree_mono : forall (B B' : loc -> Prop), (forall l, B l -> B' l) -> forall m p idx at_ n, cagree B m p idx at_ n -> cagree B' m p idx at_ n.
Proof.
  intros B B' I m p idx at_ n H. induction H.
  - constructor. destruct H as [|[]]; auto.
  - constructor; auto.
  - constructor.
  - constructor; auto.
  - constructor; auto.
Qed.

Lemma cload_child_agree : forall B open d p idx at_, wf_meta d -> good d p idx -> loc_names at_ = p ->
  match cload_child open d p (Some idx) with
  | (ch, None) => cagree B d p idx at_ ch
  | (ch, Some x) => cause open at_ x /\ forall B' : loc -> Prop, B' at_ -> cagree B' d p idx at_ ch
  end.
Proof.
  intros B open [nm k cs] p idx at_ W R NP. unfold NcLazyConvModel.cload_child. cbn [mkind]. destruct k as [| |dt nd].
  - constructor. intros d ch _ E. discriminate.
  - inversion R as [| |? ? ? ? RS RN _]; subst. pose proof (qa_unloaded B nm cs (loc_names at_) idx at_) as Q. destruct (lm (loc_names at_)) as [v|]; [|rewrite RN in Q by auto; exact Q].
    destruct open; [|split; [left; auto|]; intros B' HB; unfold qnew; cbn [mkind]; constructor; auto].
    destruct (RS v eq_refl) as [E|[BD E]]; rewrite E; [exact Q|]. split; [right; auto|]. intros B' HB. unfold qnew; cbn [mkind]; constructor; auto.
  - inversion R as [? ? ? ? ? ? RL RN| |]; subst. pose proof (fun v E => qa_leaf B nm dt nd cs (loc_names at_) idx at_ v (or_introl E)) as Q.
    destruct (lm (loc_names at_)) as [v|]; [|apply Q; symmetry; auto].
    destruct open; [|split; [left; auto|]; intros B' HB; unfold qnew; cbn [mkind]; constructor; auto].
    rewrite (RL v eq_refl). apply Q. reflexivity.
Qed.

(** the access shows what is seen; or it fails because the file is closed; or a node where an earlier access has failed appears to be empty *)
Definition coutcome (open : bool) (B : loc -> Prop) (m : meta) (e : node) (at_ : loc) (path : list acc) (look : bool) (x : result qexn obs) : Prop :=
  shows m e path look x \/ (exists l y, x = Err y /\ cause open l y /\ qfailed m e at_ path l) \/
  (exists p1 p2 l m' e' y, path = p1 ++ p2 /\ reach m e p1 l m' e' /\ B (at_ ++ l) /\ seen m' (new_node m') p2 look y /\ x = lift y).

Lemma coutcome_attr : forall open B nm cs efs d at_ path look x, In d cs -> coutcome open B d (field d efs) (at_ ++ [Child (mname d)]) path look x ->
  coutcome open B (Meta nm KStruct cs) (NStruct efs) at_ (Attr (mname d) :: path) look x.
Proof.
  intros open B nm cs efs d at_ path look x D [(y & Y & ->)|[(l0 & y0 & U1 & U2 & U3)|(p1 & p2 & l & m' & e' & y & -> & R & BL & Y & ->)]]; [left; exists y; split; auto; now apply seen_attr|right; left; exists l0, y0; split; auto; split; auto; now apply qfailed_attr|].
  right. right. exists (Attr (mname d) :: p1), p2, (Child (mname d) :: l), m', e', y. split; auto. split; [now constructor|]. rewrite <- app_assoc in BL. auto.
Qed.
Lemma coutcome_item : forall open B nm cs els i j y at_ path look x, index i (length els) = Some j -> nth_error els j = Some y ->
  coutcome open B (Meta nm KStruct cs) y (at_ ++ [Elem j]) path look x -> coutcome open B (Meta nm KAoS cs) (NAoS els) at_ (Item i :: path) look x.
Proof.
  intros open B nm cs els i j y at_ path look x I N [(z & Z & ->)|[(l0 & y0 & U1 & U2 & U3)|(p1 & p2 & l & m' & e' & z & -> & R & BL & Z & ->)]]; [left; exists z; split; auto; eapply LazyProofs.seen_item; eauto|right; left; exists l0, y0; split; auto; split; auto; eapply qfailed_item; eauto|].
  right. right. exists (Item i :: p1), p2, (Elem j :: l), m', e', z. split; auto. split; [eapply reach_item; eauto|]. rewrite <- app_assoc in BL. auto.
Qed.

Lemma set_cfield : forall B nm cs p idx at_ fs d ch, NoDup (map mname cs) -> In d cs -> cagree B (Meta nm KStruct cs) p idx at_ (QStruct (Some idx) fs) ->
  cagree B d (p ++ [mname d]) idx (at_ ++ [Child (mname d)]) ch -> cagree B (Meta nm KStruct cs) p idx at_ (QStruct (Some idx) (aset (mname d) ch fs)).
Proof.
  intros B nm cs p idx at_ fs d ch ND D H A. inversion H as [|? ? ? ? ? ? F| | |]; subst. constructor. intros x y X E. rewrite alookup_aset in E. destruct (str_eqb (mname x) (mname d)) eqn:Q; [|auto].
  apply str_eqb_eq in Q. assert (x = d) as -> by (eapply NoDup_names; eauto). inversion E; subst. exact A.
Qed.
Lemma gen_struct : forall nm cs p idx, gen (Meta nm KStruct cs) p idx = NStruct (gen_fields cs p idx). Proof. reflexivity. Qed.

Lemma caccess_agree : forall open path look B m p idx at_ n, wf_meta m -> good m p idx -> loc_names at_ = p -> cagree B m p idx at_ n ->
  let x := caccess open m p path look n in let e := gen m p idx in
  (exists B', cagree B' m p idx at_ (fst x) /\ (forall l, B l -> B' l) /\
     forall l, B' l -> B l \/ (exists y, snd x = Err y /\ cause open l y /\ qfailed m e at_ path l)) /\
  coutcome open B m e at_ path look (snd x).
Proof.
  intros open. induction path as [|[nm|i] path IH]; intros look B m p idx at_ n W RD LP0 H; assert (LP : Some (loc_names at_) = Some p) by (rewrite LP0; reflexivity); clear LP0; cbn [NcLazyConvModel.caccess]; cbv zeta.
  - assert (K : coutcome open B m (gen m p idx) at_ [] false (Ok ONode)) by (left; exists (Ok ONode); split; auto; apply (seen_ok m (gen m p idx) [] false [] m (gen m p idx)); constructor).
    destruct look; [|split; [exists B; auto|exact K]]. clear K. destruct n as [v|c fs|c v].
    + split; [exists B; auto|]. inversion H as [? ? ? ? ? ? ? ? V| | | |]; subst. cbn [snd]. destruct V as [->|[-> BB]].
      * left. exists (Ok (OValue (val p dt nd idx))). split; auto. apply (seen_ok _ _ [] true [] _ _ (re_here _ (NLeaf (val p dt nd idx)))).
      * right. right. eexists [], [], [], _, _, (Ok (OValue None)). split; auto. split; [constructor|]. rewrite app_nil_r. split; auto. split; auto.
        apply (seen_ok _ _ [] true [] _ _ (re_here _ (NLeaf None))).
    + split; [exists B; auto|]. inversion H; subst. left. exists (Ok ONode). split; auto. rewrite gen_struct. apply (seen_ok _ _ [] true [] _ _ (re_here _ (NStruct (gen_fields cs p idx)))).
    + inversion H as [| |nm cs ? ? ?|nm cs ? ? ? k l LE FE|nm cs ? ? ? ? BB EV]; subst; cbn [snd fst].
      * cbn [qload_size snd fst]. split; [exists B; split; [|auto]|].
        -- constructor; [apply repeat_length|]. intros i x N. apply nth_error_In, repeat_spec in N. discriminate.
        -- left. rewrite repeat_length. exists (Ok (OSize (size p idx))). split; auto.
           pose proof (seen_ok _ _ [] true [] _ _ (re_here (Meta nm KAoS cs) (gen (Meta nm KAoS cs) p idx))) as S. cbn [shown NcConvProofs.gen] in S. rewrite map_length, seq_length in S. exact S.
      * cbn [qload_size]. split; [exists B; auto|]. left. rewrite LE. exists (Ok (OSize (size p idx))). split; auto.
        pose proof (seen_ok _ _ [] true [] _ _ (re_here (Meta nm KAoS cs) (gen (Meta nm KAoS cs) p idx))) as S. cbn [shown NcConvProofs.gen] in S. rewrite map_length, seq_length in S. exact S.
      * assert (EL : qload_size None v = []) by (destruct EV as [->| ->]; reflexivity). rewrite EL. split; [exists B; split; auto; constructor; auto|].
        right. right. eexists [], [], [], _, _, (Ok (OSize 0)). split; auto. split; [constructor|]. rewrite app_nil_r. split; auto. split; auto.
        apply (seen_ok _ _ [] true [] _ _ (re_here _ (NAoS []))).
  - destruct n as [v|c fs|c v].
    1: { split; [exists B; auto|]. left. exists (Err NoAttribute). split; auto. eapply (seen_no_attr _ _ _ _ [] nm path); [reflexivity|constructor|]. intros fs E. inversion H; subst. discriminate. }
    2: { split; [exists B; auto|]. left. exists (Err NoAttribute). split; auto. eapply (seen_no_attr _ _ _ _ [] nm path); [reflexivity|constructor|]. intros fs E. inversion H; subst; discriminate. }
    assert (EM : exists nm0 cs, m = Meta nm0 KStruct cs /\ c = Some idx) by (inversion H; subst; eauto). destruct EM as (nm0 & cs & -> & ->). rewrite gen_struct.
    destruct (child_meta (Meta nm0 KStruct cs) nm) as [d|] eqn:CM.
    2: { split; [exists B; auto|]. left. exists (Err NoAttribute). split; auto. eapply (seen_no_attr _ _ _ _ [] nm path); [reflexivity|constructor|]. intros fs' _. now apply child_meta_none. }
    apply child_meta_spec in CM as [D <-]. cbn [mchildren] in D. pose proof (wf_child _ _ _ _ W D) as WD.
    assert (ND : NoDup (map mname cs)) by (inversion W; auto).
    assert (RDd : good d (p ++ [mname d]) idx) by (inversion RD; subst; auto).
    assert (DF : field d (gen_fields cs p idx) = gen d (p ++ [mname d]) idx) by (apply (gen_field val size cs p idx d ND D)).
    assert (LPd : loc_names (at_ ++ [Child (mname d)]) = p ++ [mname d]) by (rewrite ConvProofs4.names_child; injection LP as ->; reflexivity).
    assert (CONT : forall ch, cagree B d (p ++ [mname d]) idx (at_ ++ [Child (mname d)]) ch ->
      let x := caccess open d (p ++ [mname d]) path look ch in
      (exists B', cagree B' (Meta nm0 KStruct cs) p idx at_ (QStruct (Some idx) (aset (mname d) (fst x) fs)) /\ (forall l, B l -> B' l) /\
         forall l, B' l -> B l \/ (exists y, snd x = Err y /\ cause open l y /\ qfailed (Meta nm0 KStruct cs) (NStruct (gen_fields cs p idx)) at_ (Attr (mname d) :: path) l)) /\
      coutcome open B (Meta nm0 KStruct cs) (NStruct (gen_fields cs p idx)) at_ (Attr (mname d) :: path) look (snd x)).
    { intros ch A x. destruct (IH look B d (p ++ [mname d]) idx (at_ ++ [Child (mname d)]) ch WD RDd LPd A) as [(B' & A' & M & N) O]. fold x in A', N, O. rewrite <- DF in N, O. split.
      - exists B'. split; [|split; auto].
        + eapply set_cfield; eauto. eapply cagree_mono; eauto.
        + intros l Bl. destruct (N l Bl) as [|(y & Y1 & Y2 & F)]; auto. right. exists y. split; auto. split; auto. now apply qfailed_attr.
      - now apply coutcome_attr. }
    destruct (alookup (mname d) fs) as [ch|] eqn:AL.
    + apply CONT. inversion H; subst; auto.
    + pose proof (cload_child_agree B open d (p ++ [mname d]) idx (at_ ++ [Child (mname d)]) WD RDd LPd) as LC.
      destruct (cload_child open d (p ++ [mname d]) (Some idx)) as [ch [x|]]; [|now apply CONT].
      destruct LC as (CA & LC). cbn [fst snd].
      assert (QF : qfailed (Meta nm0 KStruct cs) (NStruct (gen_fields cs p idx)) at_ (Attr (mname d) :: path) (at_ ++ [Child (mname d)])).
      { exists [Child (mname d)]. split; auto. exists [Attr (mname d)], path, d, (field d (gen_fields cs p idx)). split; auto. constructor; auto. constructor. }
      split; [|right; left; exists (at_ ++ [Child (mname d)]), x; auto].
      exists (fun l => B l \/ l = at_ ++ [Child (mname d)]). split; [|split; auto].
      * apply set_cfield; [exact ND|exact D|eapply cagree_mono; [|exact H]; auto|apply LC; now right].
      * intros l [Bl| ->]; auto. right. exists x. auto.
  - destruct n as [v|c fs|c v].
    1: { split; [exists B; auto|]. left. exists (Err NoElement). split; auto. eapply (seen_no_elem _ _ _ _ [] i path); [reflexivity|constructor|]. intros fs E. inversion H; subst. discriminate. }
    1: { split; [exists B; auto|]. left. exists (Err NoElement). split; auto. eapply (seen_no_elem _ _ _ _ [] i path); [reflexivity|constructor|]. intros els E. inversion H; subst. discriminate. }
    assert (CASES : (c = None /\ (v = None \/ v = Some []) /\ B at_) \/ exists k, c = Some (idx, k) /\ length (qload_size c v) = size p idx /\ cagree B m p idx at_ (QAoS c (Some (qload_size c v)))).
    { inversion H as [| |nm cs ? ? ?|nm cs ? ? ? k l LE FE|nm cs ? ? ? ? BB EV]; subst; [right|right|left; auto].
      - eexists. split; [reflexivity|]. cbn [qload_size snd]. split; [apply repeat_length|]. constructor; [apply repeat_length|]. intros j x N. apply nth_error_In, repeat_spec in N. discriminate.
      - eexists. split; [reflexivity|]. cbn [qload_size]. split; auto. }
    assert (EM : exists nm cs, m = Meta nm KAoS cs) by (inversion H; subst; eauto). destruct EM as (nm & cs & ->).
    destruct CASES as [(-> & EV & BB)|(k & Ec & LE & A)].
    + assert (EL : qload_size None v = []) by (destruct EV as [->| ->]; reflexivity). rewrite EL. cbn [length]. destruct (index i 0) as [j|] eqn:IX; [apply index_spec in IX; lia|]. cbn [fst snd].
      split; [exists B; split; auto; constructor; auto|]. right. right. eexists [], (Item i :: path), [], _, _, (Err NoElement). split; auto. split; [constructor|]. rewrite app_nil_r. split; auto. split; auto.
      eapply (seen_no_elem _ _ _ _ [] i path); [reflexivity|constructor|]. intros els E. unfold new_node in E. cbn in E. inversion E; subst. now apply index_none in IX.
    + set (l := qload_size c v) in *. set (els := map (fun j => NStruct (gen_fields cs p (idx ++ [j]))) (seq 0 (size p idx))).
      assert (DE : gen (Meta nm KAoS cs) p idx = NAoS els) by reflexivity. assert (LL : length els = length l) by (unfold els; rewrite map_length, seq_length; congruence). rewrite DE, <- LL.
      destruct (index i (length els)) as [j|] eqn:IX.
      2: { split; [exists B; auto|]. left. exists (Err NoElement). split; auto. eapply (seen_no_elem _ _ _ _ [] i path); [reflexivity|constructor|]. intros els' E. inversion E; subst els'. now apply index_none. }
      pose proof (index_spec _ _ _ IX) as [Lj _]. cbn [mname mchildren].
      assert (NY : nth_error els j = Some (gen (Meta nm KStruct cs) p (idx ++ [j]))).
      { unfold els. rewrite nth_error_map, seq_nth_error by lia. reflexivity. }
      set (el := match nth_error l j with Some (Some e) => e | _ => _ end).
      assert (AE : cagree B (Meta nm KStruct cs) p (idx ++ [j]) (at_ ++ [Elem j]) el).
      { unfold el. destruct (nth_error l j) as [[x|]|] eqn:NL; [|rewrite Ec; cbn [option_map fst]; constructor; intros; discriminate|rewrite Ec; cbn [option_map fst]; constructor; intros; discriminate].
        inversion A; subst; auto. discriminate. }
      assert (RE : good (Meta nm KStruct cs) p (idx ++ [j])) by (constructor; inversion RD as [| |? ? ? ? _ _ RI]; subst; intros d D; apply RI; auto; lia).
      destruct (IH look B (Meta nm KStruct cs) p (idx ++ [j]) (at_ ++ [Elem j]) el (wf_elem _ _ W) RE ltac:(rewrite ConvProofs2.names_elem; injection LP as ->; reflexivity) AE) as [(B' & A' & M & N) O].
      set (x := caccess open (Meta nm KStruct cs) p path look el) in *. cbn [fst snd]. split.
      * exists B'. split; [|split; auto].
        -- apply (cagree_mono B B' M) in A. rewrite Ec in *. inversion A as [| | |? ? ? ? ? ? ? LE' FE|]; subst. constructor; [now rewrite list_set_length|].
           intros q z. rewrite nth_error_list_set. destruct (Nat.eqb_spec j q) as [->|NE]; [|eauto]. destruct (nth_error l q); [|discriminate]. intros E1. inversion E1; subst. exact A'.
        -- intros q Bq. destruct (N q Bq) as [|(y & Y1 & Y2 & F)]; auto. right. exists y. split; auto. split; auto. eapply qfailed_item; eauto.
      * eapply coutcome_item; eauto.
Qed.
End Agree.
