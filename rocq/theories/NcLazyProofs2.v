(** The state of an IDS that is lazily loaded from a netCDF file agrees with the contents of the file. *)
From Verif Require Import Base TreeModel TreeSpec TreeProofs4 ValProofs NcMetaModel NcMetaProofs2 NcFileModel NcFileProofs2 NcFileProofs3 LazyModel LazySpec LazyProofs LazyProofs2 NcLazyModel NcLazySpec NcLazyProofs.
From Coq Require Import Lia.

(** ** Trees that are the same show the same *)
Lemma same_reach : forall m a path l m' a', reach m a path l m' a' -> forall b, same m a b -> exists b', reach m b path l m' b' /\ same m' a' b'.
Proof.
  intros m a path l m' a' R. induction R as [m a|nm cs fs d path l m' a' I R IH|nm cs els i y path l m' a' N R IH|nm cs els i y path l m' a' N L R IH]; intros b SM.
  - exists b. split; auto. constructor.
  - inversion SM as [|? ? fa fb F|]; subst. destruct (IH _ (F d I)) as (b' & R' & S'). exists b'. split; auto. constructor; auto.
  - inversion SM as [| |? ? ea eb LE F]; subst. destruct (nth_error eb i) as [z|] eqn:Z; [|apply nth_error_None in Z; rewrite <- LE in Z; apply nth_error_None in Z; congruence].
    destruct (IH _ (F i y z N Z)) as (b' & R' & S'). exists b'. split; auto. econstructor; eauto.
  - inversion SM as [| |? ? ea eb LE F]; subst. destruct (nth_error eb (length els - S i)) as [z|] eqn:Z.
    2:{ apply nth_error_None in Z. lia. }
    destruct (IH _ (F _ y z N Z)) as (b' & R' & S'). exists b'. split; auto. rewrite LE in *. econstructor; eauto.
Qed.
Lemma same_sym : forall m a b, same m a b -> same m b a.
Proof. intros m a b H. induction H; constructor; eauto. Qed.
Lemma same_shown : forall m a b look, same m a b -> shown a look = shown b look.
Proof. intros m a b look H. unfold shown. destruct look; auto. inversion H; subst; congruence. Qed.
Lemma same_seen : forall m a b path look x, same m a b -> seen m a path look x -> seen m b path look x.
Proof.
  intros m a b path look x SM H. destruct H as [l m' e' R|p nm q l m' e' -> R N|p i q l m' e' -> R N].
  - destruct (same_reach _ _ _ _ _ _ R _ SM) as (b' & R' & S'). rewrite (same_shown _ _ _ look S'). eapply seen_ok; eauto.
  - destruct (same_reach _ _ _ _ _ _ R _ SM) as (b' & R' & S'). eapply seen_no_attr; eauto. intros fs ->. inversion S'; subst. eapply N; eauto.
  - destruct (same_reach _ _ _ _ _ _ R _ SM) as (b' & R' & S'). eapply seen_no_elem; eauto. intros fs ->. inversion S' as [| |? ? ea eb LE F]; subst. rewrite <- LE. eapply N; eauto.
Qed.

Section Agree.
Variable r : ncmeta.
Variable g : group.
Variable h : bool.
Notation vs := (g_vars g).
Notation den := (den r g h vs).
Notation size_at := (size_at r g h vs).
Notation val_at := (val_at g vs).
Notation readable := (readable r g h vs).
Notation qload_child := (qload_child r g h).
Notation qaccess := (qaccess r g h).

(** ** Reading one item, directly or lazily *)
Lemma cell_eq_ne : forall a b, cell_eqb a b = negb (cell_ne a b).
Proof. intros [] [[]|]; cbn; auto; now rewrite negb_involutive. Qed.
Lemma lazy_value_eq : forall v dt nd idx, lazy_value g v dt nd idx = leaf_value g v dt nd idx.
Proof.
  intros v dt nd idx. unfold lazy_value, leaf_value. destruct (var_sizes g v) as [sh|]; auto. cbn [rbind]. destruct (v_sparse v); auto. destruct nd as [|nd]; cbn [Nat.eqb].
  - destruct (index_ok sh idx); auto. rewrite cell_eq_ne. now destruct (cell_ne (v_data v idx) (v_fill v)).
  - destruct (shapes_at g (v_name v) idx) as [zs|]; auto. cbn [rbind].
    assert (E : existsb (fun z => Z.eqb z 0) zs = negb (forallb (fun z => negb (Z.eqb z 0)) zs)) by (clear; induction zs as [|z zs IH]; auto; cbn; rewrite IH; now destruct (Z.eqb z 0)).
    rewrite E. now destruct (forallb _ zs).
Qed.
Lemma lazy_size_eq : forall v p idx k, aos_size r g h v p idx = Ok k -> lazy_size r g h v p idx = Ok k.
Proof.
  intros v p idx k. unfold lazy_size, aos_size. destruct (v_sparse v); auto. destruct (shapes_at g (v_name v) idx) as [[|z zs]|]; auto. cbn [rbind]. destruct (Z.ltb z 0); auto. discriminate.
Qed.

(** ** Agreement: the node at path p and index idx, at location at_; in B an access has failed after the file was closed *)
Inductive qagree (B : loc -> Prop) : meta -> path -> list nat -> loc -> qnode -> Prop :=
| qa_leaf : forall nm dt nd cs p idx at_ v, v = val_at p dt nd idx \/ (v = None /\ B at_) -> qagree B (Meta nm (KLeaf dt nd) cs) p idx at_ (QLeaf v)
| qa_struct : forall nm cs p idx at_ fs, (forall d ch, In d cs -> alookup (mname d) fs = Some ch -> qagree B d (p ++ [mname d]) idx (at_ ++ [Child (mname d)]) ch) ->
    qagree B (Meta nm KStruct cs) p idx at_ (QStruct (Some idx) fs)
| qa_unloaded : forall nm cs p idx at_, qagree B (Meta nm KAoS cs) p idx at_ (QAoS (Some (idx, size_at p idx)) None)
| qa_aos : forall nm cs p idx at_ k l, length l = size_at p idx ->
    (forall i x, nth_error l i = Some (Some x) -> qagree B (Meta nm KStruct cs) p (idx ++ [i]) (at_ ++ [Elem i]) x) ->
    qagree B (Meta nm KAoS cs) p idx at_ (QAoS (Some (idx, k)) (Some l))
| qa_lost : forall nm cs p idx at_ v, B at_ -> v = None \/ v = Some [] -> qagree B (Meta nm KAoS cs) p idx at_ (QAoS None v).

Lemma qagree_mono : forall (B B' : loc -> Prop), (forall l, B l -> B' l) -> forall m p idx at_ n, qagree B m p idx at_ n -> qagree B' m p idx at_ n.
Proof.
  intros B B' I m p idx at_ n H. induction H.
  - constructor. destruct H as [|[]]; auto.
  - constructor; auto.
  - constructor.
  - constructor; auto.
  - constructor; auto.
Qed.

Lemma qload_child_agree : forall B open d p idx at_, wf_meta d -> readable d p idx ->
  match qload_child open d p (Some idx) with
  | (ch, None) => qagree B d p idx at_ ch
  | (ch, Some x) => open = false /\ x = QLazy Unavailable /\ forall B' : loc -> Prop, B' at_ -> qagree B' d p idx at_ ch
  end.
Proof.
  intros B open [nm k cs] p idx at_ W R. unfold NcLazyModel.qload_child, lazy_map, get_var. cbn [mkind].
  change (List.find (fun v => str_eqb (v_name v) (dotted p)) vs) with (in_vars vs (dotted p)). destruct k as [| |dt nd].
  - constructor. intros d ch _ E. discriminate.
  - inversion R as [| |? ? ? ? RS _]; subst. pose proof (qa_unloaded B nm cs p idx at_) as Q. unfold NcFileProofs2.size_at in Q. destruct (in_vars vs (dotted p)) as [v|]; [|exact Q].
    destruct open; [|split; auto; split; auto; intros B' HB; unfold qnew; cbn [mkind]; constructor; auto].
    destruct (RS v eq_refl) as [k Z]. rewrite Z in Q. rewrite (lazy_size_eq _ _ _ _ Z). exact Q.
  - inversion R as [? ? ? ? ? ? RL| |]; subst. pose proof (fun v E => qa_leaf B nm dt nd cs p idx at_ v (or_introl E)) as Q. unfold NcFileProofs2.val_at in Q.
    destruct (in_vars vs (dotted p)) as [v|]; [|apply Q; reflexivity].
    destruct open; [|split; auto; split; auto; intros B' HB; unfold qnew; cbn [mkind]; constructor; auto].
    destruct (RL v eq_refl) as [x Z]. rewrite lazy_value_eq, Z. apply Q. now rewrite Z.
Qed.

(** an access to path asks for the node at l *)
Definition qfailed (m : meta) (e : node) (at_ : loc) (path : list acc) (l : loc) : Prop := exists l1, asked m e path l1 /\ l = at_ ++ l1.
(** the access shows what is seen; or it fails because the file is closed; or a node where an earlier access has failed appears to be empty *)
Definition qoutcome (open : bool) (B : loc -> Prop) (m : meta) (e : node) (at_ : loc) (path : list acc) (look : bool) (x : result qexn obs) : Prop :=
  shows m e path look x \/ (open = false /\ x = Err (QLazy Unavailable)) \/
  (exists p1 p2 l m' e' y, path = p1 ++ p2 /\ reach m e p1 l m' e' /\ B (at_ ++ l) /\ seen m' (new_node m') p2 look y /\ x = lift y).

Lemma qfailed_attr : forall nm cs efs d at_ path l, In d cs -> qfailed d (field d efs) (at_ ++ [Child (mname d)]) path l ->
  qfailed (Meta nm KStruct cs) (NStruct efs) at_ (Attr (mname d) :: path) l.
Proof.
  intros nm cs efs d at_ path l D (l1 & (p1 & p2 & m' & e' & -> & R) & ->). exists (Child (mname d) :: l1). split; [|now rewrite <- app_assoc].
  exists (Attr (mname d) :: p1), p2, m', e'. split; auto. now constructor.
Qed.
Lemma qfailed_item : forall nm cs els i j y at_ path l, index i (length els) = Some j -> nth_error els j = Some y ->
  qfailed (Meta nm KStruct cs) y (at_ ++ [Elem j]) path l -> qfailed (Meta nm KAoS cs) (NAoS els) at_ (Item i :: path) l.
Proof.
  intros nm cs els i j y at_ path l I N (l1 & (p1 & p2 & m' & e' & -> & R) & ->). exists (Elem j :: l1). split; [|now rewrite <- app_assoc].
  exists (Item i :: p1), p2, m', e'. split; auto. eapply reach_item; eauto.
Qed.
Lemma qoutcome_attr : forall open B nm cs efs d at_ path look x, In d cs -> qoutcome open B d (field d efs) (at_ ++ [Child (mname d)]) path look x ->
  qoutcome open B (Meta nm KStruct cs) (NStruct efs) at_ (Attr (mname d) :: path) look x.
Proof.
  intros open B nm cs efs d at_ path look x D [(y & Y & ->)|[U|(p1 & p2 & l & m' & e' & y & -> & R & BL & Y & ->)]]; [left; exists y; split; auto; now apply seen_attr|right; now left|].
  right. right. exists (Attr (mname d) :: p1), p2, (Child (mname d) :: l), m', e', y. split; auto. split; [now constructor|]. rewrite <- app_assoc in BL. auto.
Qed.
Lemma qoutcome_item : forall open B nm cs els i j y at_ path look x, index i (length els) = Some j -> nth_error els j = Some y ->
  qoutcome open B (Meta nm KStruct cs) y (at_ ++ [Elem j]) path look x -> qoutcome open B (Meta nm KAoS cs) (NAoS els) at_ (Item i :: path) look x.
Proof.
  intros open B nm cs els i j y at_ path look x I N [(z & Z & ->)|[U|(p1 & p2 & l & m' & e' & z & -> & R & BL & Z & ->)]]; [left; exists z; split; auto; eapply LazyProofs.seen_item; eauto|right; now left|].
  right. right. exists (Item i :: p1), p2, (Elem j :: l), m', e', z. split; auto. split; [eapply reach_item; eauto|]. rewrite <- app_assoc in BL. auto.
Qed.

Lemma set_qfield : forall B nm cs p idx at_ fs d ch, NoDup (map mname cs) -> In d cs -> qagree B (Meta nm KStruct cs) p idx at_ (QStruct (Some idx) fs) ->
  qagree B d (p ++ [mname d]) idx (at_ ++ [Child (mname d)]) ch -> qagree B (Meta nm KStruct cs) p idx at_ (QStruct (Some idx) (aset (mname d) ch fs)).
Proof.
  intros B nm cs p idx at_ fs d ch ND D H A. inversion H as [|? ? ? ? ? ? F| | |]; subst. constructor. intros x y X E. rewrite alookup_aset in E. destruct (str_eqb (mname x) (mname d)) eqn:Q; [|auto].
  apply str_eqb_eq in Q. assert (x = d) as -> by (eapply NoDup_names; eauto). inversion E; subst. exact A.
Qed.
Lemma den_struct : forall nm cs p idx, den (Meta nm KStruct cs) p idx = NStruct (den_fields r g h vs cs p idx). Proof. reflexivity. Qed.

Lemma qaccess_agree : forall open path look B m p idx at_ n, wf_meta m -> readable m p idx -> qagree B m p idx at_ n ->
  let x := qaccess open m p path look n in let e := den m p idx in
  (exists B', qagree B' m p idx at_ (fst x) /\ (forall l, B l -> B' l) /\
     forall l, B' l -> B l \/ (open = false /\ snd x = Err (QLazy Unavailable) /\ qfailed m e at_ path l)) /\
  qoutcome open B m e at_ path look (snd x).
Proof.
  intros open. induction path as [|[nm|i] path IH]; intros look B m p idx at_ n W RD H; cbn [NcLazyModel.qaccess]; cbv zeta.
  - assert (K : qoutcome open B m (den m p idx) at_ [] false (Ok ONode)) by (left; exists (Ok ONode); split; auto; apply (seen_ok m (den m p idx) [] false [] m (den m p idx)); constructor).
    destruct look; [|split; [exists B; auto|exact K]]. clear K. destruct n as [v|c fs|c v].
    + split; [exists B; auto|]. inversion H as [? ? ? ? ? ? ? ? V| | | |]; subst. cbn [snd]. destruct V as [->|[-> BB]].
      * left. exists (Ok (OValue (val_at p dt nd idx))). split; auto. apply (seen_ok _ _ [] true [] _ _ (re_here _ (NLeaf (val_at p dt nd idx)))).
      * right. right. eexists [], [], [], _, _, (Ok (OValue None)). split; auto. split; [constructor|]. rewrite app_nil_r. split; auto. split; auto.
        apply (seen_ok _ _ [] true [] _ _ (re_here _ (NLeaf None))).
    + split; [exists B; auto|]. inversion H; subst. left. exists (Ok ONode). split; auto. rewrite den_struct. apply (seen_ok _ _ [] true [] _ _ (re_here _ (NStruct (den_fields r g h vs cs p idx)))).
    + inversion H as [| |nm cs ? ? ?|nm cs ? ? ? k l LE FE|nm cs ? ? ? ? BB EV]; subst; cbn [snd fst].
      * cbn [qload_size snd fst]. split; [exists B; split; [|auto]|].
        -- constructor; [apply repeat_length|]. intros i x N. apply nth_error_In, repeat_spec in N. discriminate.
        -- left. rewrite repeat_length. exists (Ok (OSize (size_at p idx))). split; auto.
           pose proof (seen_ok _ _ [] true [] _ _ (re_here (Meta nm KAoS cs) (den (Meta nm KAoS cs) p idx))) as S. cbn [shown NcFileProofs2.den] in S. rewrite map_length, seq_length in S. exact S.
      * cbn [qload_size]. split; [exists B; auto|]. left. rewrite LE. exists (Ok (OSize (size_at p idx))). split; auto.
        pose proof (seen_ok _ _ [] true [] _ _ (re_here (Meta nm KAoS cs) (den (Meta nm KAoS cs) p idx))) as S. cbn [shown NcFileProofs2.den] in S. rewrite map_length, seq_length in S. exact S.
      * assert (EL : qload_size None v = []) by (destruct EV as [->| ->]; reflexivity). rewrite EL. split; [exists B; split; auto; constructor; auto|].
        right. right. eexists [], [], [], _, _, (Ok (OSize 0)). split; auto. split; [constructor|]. rewrite app_nil_r. split; auto. split; auto.
        apply (seen_ok _ _ [] true [] _ _ (re_here _ (NAoS []))).
  - destruct n as [v|c fs|c v].
    1: { split; [exists B; auto|]. left. exists (Err NoAttribute). split; auto. eapply (seen_no_attr _ _ _ _ [] nm path); [reflexivity|constructor|]. intros fs E. inversion H; subst. discriminate. }
    2: { split; [exists B; auto|]. left. exists (Err NoAttribute). split; auto. eapply (seen_no_attr _ _ _ _ [] nm path); [reflexivity|constructor|]. intros fs E. inversion H; subst; discriminate. }
    assert (EM : exists nm0 cs, m = Meta nm0 KStruct cs /\ c = Some idx) by (inversion H; subst; eauto). destruct EM as (nm0 & cs & -> & ->). rewrite den_struct.
    destruct (child_meta (Meta nm0 KStruct cs) nm) as [d|] eqn:CM.
    2: { split; [exists B; auto|]. left. exists (Err NoAttribute). split; auto. eapply (seen_no_attr _ _ _ _ [] nm path); [reflexivity|constructor|]. intros fs' _. now apply child_meta_none. }
    apply child_meta_spec in CM as [D <-]. cbn [mchildren] in D. pose proof (wf_child _ _ _ _ W D) as WD.
    assert (ND : NoDup (map mname cs)) by (inversion W; auto).
    assert (RDd : readable d (p ++ [mname d]) idx) by (inversion RD; subst; auto).
    assert (DF : field d (den_fields r g h vs cs p idx) = den d (p ++ [mname d]) idx) by (apply (den_field r g h vs cs p idx d ND D)).
    assert (CONT : forall ch, qagree B d (p ++ [mname d]) idx (at_ ++ [Child (mname d)]) ch ->
      let x := qaccess open d (p ++ [mname d]) path look ch in
      (exists B', qagree B' (Meta nm0 KStruct cs) p idx at_ (QStruct (Some idx) (aset (mname d) (fst x) fs)) /\ (forall l, B l -> B' l) /\
         forall l, B' l -> B l \/ (open = false /\ snd x = Err (QLazy Unavailable) /\ qfailed (Meta nm0 KStruct cs) (NStruct (den_fields r g h vs cs p idx)) at_ (Attr (mname d) :: path) l)) /\
      qoutcome open B (Meta nm0 KStruct cs) (NStruct (den_fields r g h vs cs p idx)) at_ (Attr (mname d) :: path) look (snd x)).
    { intros ch A x. destruct (IH look B d (p ++ [mname d]) idx (at_ ++ [Child (mname d)]) ch WD RDd A) as [(B' & A' & M & N) O]. fold x in A', N, O. rewrite <- DF in N, O. split.
      - exists B'. split; [|split; auto].
        + eapply set_qfield; eauto. eapply qagree_mono; eauto.
        + intros l Bl. destruct (N l Bl) as [|(Op & U & F)]; auto. right. split; auto. split; auto. now apply qfailed_attr.
      - now apply qoutcome_attr. }
    destruct (alookup (mname d) fs) as [ch|] eqn:AL.
    + apply CONT. inversion H; subst; auto.
    + pose proof (qload_child_agree B open d (p ++ [mname d]) idx (at_ ++ [Child (mname d)]) WD RDd) as LC.
      destruct (qload_child open d (p ++ [mname d]) (Some idx)) as [ch [x|]]; [|now apply CONT].
      destruct LC as (-> & -> & LC). cbn [fst snd]. split; [|right; left; auto].
      exists (fun l => B l \/ l = at_ ++ [Child (mname d)]). split; [|split; auto].
      * apply set_qfield; [exact ND|exact D|eapply qagree_mono; [|exact H]; auto|apply LC; now right].
      * intros l [Bl| ->]; auto. right. split; auto. split; auto. exists [Child (mname d)]. split; auto. exists [Attr (mname d)], path, d, (field d (den_fields r g h vs cs p idx)). split; auto.
        constructor; auto. constructor.
  - destruct n as [v|c fs|c v].
    1: { split; [exists B; auto|]. left. exists (Err NoElement). split; auto. eapply (seen_no_elem _ _ _ _ [] i path); [reflexivity|constructor|]. intros fs E. inversion H; subst. discriminate. }
    1: { split; [exists B; auto|]. left. exists (Err NoElement). split; auto. eapply (seen_no_elem _ _ _ _ [] i path); [reflexivity|constructor|]. intros els E. inversion H; subst. discriminate. }
    assert (CASES : (c = None /\ (v = None \/ v = Some []) /\ B at_) \/ exists k, c = Some (idx, k) /\ length (qload_size c v) = size_at p idx /\ qagree B m p idx at_ (QAoS c (Some (qload_size c v)))).
    { inversion H as [| |nm cs ? ? ?|nm cs ? ? ? k l LE FE|nm cs ? ? ? ? BB EV]; subst; [right|right|left; auto].
      - eexists. split; [reflexivity|]. cbn [qload_size snd]. split; [apply repeat_length|]. constructor; [apply repeat_length|]. intros j x N. apply nth_error_In, repeat_spec in N. discriminate.
      - eexists. split; [reflexivity|]. cbn [qload_size]. split; auto. }
    assert (EM : exists nm cs, m = Meta nm KAoS cs) by (inversion H; subst; eauto). destruct EM as (nm & cs & ->).
    destruct CASES as [(-> & EV & BB)|(k & Ec & LE & A)].
    + assert (EL : qload_size None v = []) by (destruct EV as [->| ->]; reflexivity). rewrite EL. cbn [length]. destruct (index i 0) as [j|] eqn:IX; [apply index_spec in IX; lia|]. cbn [fst snd].
      split; [exists B; split; auto; constructor; auto|]. right. right. eexists [], (Item i :: path), [], _, _, (Err NoElement). split; auto. split; [constructor|]. rewrite app_nil_r. split; auto. split; auto.
      eapply (seen_no_elem _ _ _ _ [] i path); [reflexivity|constructor|]. intros els E. unfold new_node in E. cbn in E. inversion E; subst. now apply index_none in IX.
    + set (l := qload_size c v) in *. set (els := map (fun j => NStruct (den_fields r g h vs cs p (idx ++ [j]))) (seq 0 (size_at p idx))).
      assert (DE : den (Meta nm KAoS cs) p idx = NAoS els) by reflexivity. assert (LL : length els = length l) by (unfold els; rewrite map_length, seq_length; congruence). rewrite DE, <- LL.
      destruct (index i (length els)) as [j|] eqn:IX.
      2: { split; [exists B; auto|]. left. exists (Err NoElement). split; auto. eapply (seen_no_elem _ _ _ _ [] i path); [reflexivity|constructor|]. intros els' E. inversion E; subst els'. now apply index_none. }
      pose proof (index_spec _ _ _ IX) as [Lj _]. cbn [mname mchildren].
      assert (NY : nth_error els j = Some (den (Meta nm KStruct cs) p (idx ++ [j]))).
      { unfold els. rewrite nth_error_map, seq_nth_error by lia. reflexivity. }
      set (el := match nth_error l j with Some (Some e) => e | _ => _ end).
      assert (AE : qagree B (Meta nm KStruct cs) p (idx ++ [j]) (at_ ++ [Elem j]) el).
      { unfold el. destruct (nth_error l j) as [[x|]|] eqn:NL; [|rewrite Ec; cbn [option_map fst]; constructor; intros; discriminate|rewrite Ec; cbn [option_map fst]; constructor; intros; discriminate].
        inversion A; subst; auto. discriminate. }
      assert (RE : readable (Meta nm KStruct cs) p (idx ++ [j])) by (constructor; inversion RD as [| |? ? ? ? _ RI]; subst; intros d D; apply RI; auto; lia).
      destruct (IH look B (Meta nm KStruct cs) p (idx ++ [j]) (at_ ++ [Elem j]) el (wf_elem _ _ W) RE AE) as [(B' & A' & M & N) O].
      set (x := qaccess open (Meta nm KStruct cs) p path look el) in *. cbn [fst snd]. split.
      * exists B'. split; [|split; auto].
        -- apply (qagree_mono B B' M) in A. rewrite Ec in *. inversion A as [| | |? ? ? ? ? ? ? LE' FE|]; subst. constructor; [now rewrite list_set_length|].
           intros q z. rewrite nth_error_list_set. destruct (Nat.eqb_spec j q) as [->|NE]; [|eauto]. destruct (nth_error l q); [|discriminate]. intros E1. inversion E1; subst. exact A'.
        -- intros q Bq. destruct (N q Bq) as [|(Op & U & F)]; auto. right. split; auto. split; auto. eapply qfailed_item; eauto.
      * eapply qoutcome_item; eauto.
Qed.
End Agree.
