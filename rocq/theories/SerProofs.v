(** Reading into an IDS that exists already. *)
From Verif Require Import Base TreeModel TreeSpec TreeProofs ConvSpec ConvProofs3 VmapModel ValProofs ValProofs5 StoreModel StoreSpec StoreProofs StoreProofs2 StoreProofs3 SerModel SerSpec.
From Verif Require PrimModel.

Lemma fill_ok : forall f cs fs fs', NoDup (map mname cs) -> fill f cs fs = Ok fs' ->
  (forall d, In d cs -> exists x, f d (alookup (mname d) fs) = Ok x /\ alookup (mname d) fs' = match x with Some n => Some n | None => alookup (mname d) fs end) /\
  (forall k, ~ In k (map mname cs) -> alookup k fs' = alookup k fs).
Proof.
  induction cs as [|d cs IH]; intros fs fs' ND E; cbn [fill] in E.
  - injection E as <-. split; [intros d []|auto].
  - cbn [map] in ND. inversion ND as [|? ? NI ND']; subst. destruct (f d (alookup (mname d) fs)) as [x|] eqn:FX; [|discriminate]. cbn [rbind] in E.
    set (fs1 := match x with Some n => aset (mname d) n fs | None => fs end). destruct (IH fs1 fs' ND' E) as (H1 & H2).
    assert (SAME : forall k, k <> mname d -> alookup k fs1 = alookup k fs) by (intros k NK; unfold fs1; destruct x; [apply alookup_aset_other; auto|reflexivity]).
    split.
    + intros e [<-|I].
      * exists x. split; [assumption|]. rewrite (H2 _ NI). unfold fs1. destruct x; [apply alookup_aset_same|reflexivity].
      * assert (NE : mname e <> mname d) by (intros X; apply NI; rewrite <- X; apply List.in_map; assumption). destruct (H1 e I) as (y & FY & L). rewrite (SAME _ NE) in FY, L. eauto.
    + intros k NK. cbn [map In] in NK. rewrite H2 by tauto. apply SAME. intros ->. tauto.
Qed.

Lemma nodup_name : forall cs d e, NoDup (map mname cs) -> In d cs -> In e cs -> mname d = mname e -> d = e.
Proof.
  induction cs as [|x cs IH]; intros d e ND I J E; [destruct I|]. cbn [map] in ND. inversion ND as [|? ? NI ND']; subst. destruct I as [<-|I], J as [<-|J]; auto.
  - exfalso. apply NI. rewrite E. apply List.in_map. assumption.
  - exfalso. apply NI. rewrite <- E. apply List.in_map. assumption.
Qed.

Section Get.
Variable dynamic : list str -> bool.
Variable xml_tbp : list str -> str.
Variable nbc : option nmap.
Variable mode : Z.
Variable s : store.
Notation get_node := (get_node dynamic xml_tbp nbc mode s).
Notation into_node := (into_node dynamic xml_tbp nbc mode s).

Definition oholds (m : meta) (o : option node) (l : loc) (x : item) : Prop := exists n, o = Some n /\ holds m n l x.
Definition otaken (m : meta) (o : option node) (l : loc) : Prop := exists n, o = Some n /\ taken m n l.
Definition merged (m : meta) (old g r : option node) : Prop := forall l x, oholds m r l x <-> oholds m g l x \/ (oholds m old l x /\ ~ otaken m g l).

Lemma taken_child : forall nm cs fs l, NoDup (map mname cs) -> (taken (Meta nm KStruct cs) (NStruct fs) l <-> exists d ch l', l = Child (mname d) :: l' /\ In d cs /\ alookup (mname d) fs = Some ch /\ taken d ch l').
Proof.
  intros nm cs fs l ND. split.
  - intros (a & b & -> & H). destruct H as [(m' & v & -> & L & N)|(k & A)].
    + inversion N; subst. do 3 eexists. split; [reflexivity|]. split; [eassumption|]. split; [eassumption|]. exists l, []. split; [reflexivity|]. left. eauto.
    + destruct A as (m' & els & N & K & E & G). inversion N; subst. cbn [app]. do 3 eexists. split; [reflexivity|]. split; [eassumption|]. split; [eassumption|]. exists l, b. split; [reflexivity|]. right. exists (length els), m', els. auto.
  - intros (d & ch & l' & -> & I & L & a & b & -> & H). exists (Child (mname d) :: a), b. split; [reflexivity|]. destruct H as [(m' & v & -> & L' & N)|(k & m' & els & N & K & E & G)].
    + left. exists m', v. split; [reflexivity|]. split; [assumption|]. econstructor; eauto.
    + right. exists k, m', els. split; [econstructor; eauto|auto].
Qed.
Lemma none_none : forall m old, merged m old None old.
Proof. intros m old l x. split; [intros H; right; split; [assumption|]|intros [H|(H & _)]; auto]; [intros (n & E & _); discriminate|destruct H as (n & E & _); discriminate]. Qed.

(** children, put together *)
Lemma merged_struct : forall nm cs fs gs rs, wf_meta (Meta nm KStruct cs) ->
  (forall d, In d cs -> merged d (alookup (mname d) fs) (alookup (mname d) gs) (alookup (mname d) rs)) ->
  merged (Meta nm KStruct cs) (Some (NStruct fs)) (Some (NStruct gs)) (Some (NStruct rs)).
Proof.
  intros nm cs fs gs rs WF H l x. inversion WF as [? ? ? ND W2 W3]; subst.
  assert (S : forall o, oholds (Meta nm KStruct cs) (Some (NStruct o)) l x <-> exists d ch l', l = Child (mname d) :: l' /\ In d cs /\ alookup (mname d) o = Some ch /\ holds d ch l' x).
  { intros o. rewrite <- holds_struct with (nm := nm). split; [intros (n & E & X); injection E as <-; exact X|intros X; eexists; split; [reflexivity|exact X]]. }
  assert (T : otaken (Meta nm KStruct cs) (Some (NStruct gs)) l <-> exists d ch l', l = Child (mname d) :: l' /\ In d cs /\ alookup (mname d) gs = Some ch /\ taken d ch l').
  { rewrite <- (taken_child nm) by assumption. split; [intros (n & E & X); injection E as <-; exact X|intros X; eexists; split; [reflexivity|exact X]]. }
  rewrite !S, T. clear S T.
  assert (U : forall d e, In d cs -> In e cs -> mname d = mname e -> d = e) by (intros d e; apply nodup_name; assumption).
  split.
  - intros (d & ch & l' & -> & I & L & X). destruct (proj1 (H d I l' x)) as [(g & E & HG)|((o & E & HO) & NT)]; [exists ch; auto| |].
    + left. exists d, g, l'. auto.
    + right. split; [exists d, o, l'; auto|]. intros (e & ch' & l2 & EQ & I' & L' & TK). injection EQ as EN <-. apply U in EN; auto. subst e. apply NT. exists ch'. auto.
  - intros [(d & g & l' & -> & I & L & X)|((d & o & l' & -> & I & L & X) & NT)].
    + destruct (proj2 (H d I l' x)) as (r & E & HR); [left; exists g; auto|]. exists d, r, l'. auto.
    + destruct (proj2 (H d I l' x)) as (r & E & HR); [right; split; [exists o; auto|]|exists d, r, l'; auto]. intros (g & E & TK). apply NT. exists d, g, l'. auto.
Qed.
Lemma into_node_ok : forall m, wf_meta m -> forall p c old, (forall n, old = Some n -> conf m n) -> forall g, get_node m p c = Ok g ->
  exists r, into_node m p c old = Ok r /\ merged m old g r /\ (r = None -> old = None).
Proof.
  intros m. induction m as [nm k cs IH] using meta_ind'. intros WF p c old CF g G. rewrite get_node_unfold in G. cbv zeta in G. cbn [SerModel.into_node].
  assert (DONE : exists r, @Ok exn (option node) old = Ok r /\ merged (Meta nm k cs) old None r /\ (r = None -> old = None)) by (exists old; split; [reflexivity|split; [apply none_none|auto]]).
  destruct (omitted dynamic mode p (Meta nm k cs)); [injection G as <-; exact DONE|].
  destruct (locate dynamic xml_tbp nbc mode p (Meta nm k cs)) as [[pl|]|]; cbn [rbind] in *; [|injection G as <-; exact DONE|discriminate].
  destruct k as [| |dt nd].
  - inversion WF as [? ? ? ND W2 W3]; subst. destruct (gather cs _) as [gs|] eqn:EG; [|discriminate]. cbn [rbind] in G. injection G as <-. apply gather_ok in EG; [|assumption]. destruct EG as (EG & _).
    set (fs := fields_of_node old).
    assert (CH : forall d n, In d cs -> alookup (mname d) fs = Some n -> conf d n).
    { intros d n I L. unfold fs, fields_of_node in L. destruct old as [[fs0| |]|]; try discriminate. specialize (CF _ eq_refl). inversion CF as [| |? ? ? H1 H2 H3|]; subst. eapply H1; eauto. }
    assert (EF : exists rs, fill (fun d o => into_node d (below dynamic p (Meta nm KStruct cs)) c o) cs fs = Ok rs).
    { assert (X : forall l fs0, incl l cs -> NoDup (map mname l) -> (forall d, In d l -> alookup (mname d) fs0 = alookup (mname d) fs) -> exists rs, fill (fun d o => into_node d (below dynamic p (Meta nm KStruct cs)) c o) l fs0 = Ok rs).
      { induction l as [|d l IHl]; intros fs0 IN N2 SAME; cbn [fill]; [eauto|]. cbn [map] in N2. inversion N2 as [|? ? NI N3]; subst. assert (ID : In d cs) by (apply IN; left; reflexivity).
        destruct (EG d ID) as (o & GO & _). destruct (IH d ID (W2 d ID) (below dynamic p (Meta nm KStruct cs)) c (alookup (mname d) fs0)) with (g := o) as (r & -> & _); auto.
        { intros n E. rewrite (SAME d (or_introl eq_refl)) in E. eapply CH; eauto. }
        cbn [rbind]. apply IHl; auto; [intros e I; apply IN; right; assumption|]. intros e I. assert (NE : mname e <> mname d) by (intros E; apply NI; rewrite <- E; apply List.in_map; assumption).
        rewrite <- (SAME e (or_intror I)). destruct r; [apply alookup_aset_other; auto|reflexivity]. }
      apply (X cs fs); auto using incl_refl. }
    destruct EF as (rs & ER). exists (Some (NStruct rs)). split; [fold fs; rewrite ER; reflexivity|]. split; [|discriminate].
    apply fill_ok in ER; [|assumption]. destruct ER as (ER & _).
    assert (M : merged (Meta nm KStruct cs) (Some (NStruct fs)) (Some (NStruct gs)) (Some (NStruct rs))).
    { apply merged_struct; [assumption|]. intros d I. destruct (EG d I) as (o & GO & ->). destruct (ER d I) as (x & FX & EX).
      destruct (IH d I (W2 d I) (below dynamic p (Meta nm KStruct cs)) c (alookup (mname d) fs)) with (g := o) as (r & FR & MR & NR); [intros n E; eapply CH; eauto|exact GO|].
      assert (ERX : r = x) by congruence. subst r. rewrite EX. destruct x as [n|]; [exact MR|]. rewrite (NR eq_refl) in *. exact MR. }
    destruct old as [[fs0|els|v]|]; try (exact M); try (specialize (CF _ eq_refl); inversion CF).
    intros l x. rewrite (M l x). split; (intros [H|((n & E & H) & NT)]; [left; assumption|]); [|discriminate].
    injection E as <-. apply holds_struct in H. destruct H as (d & ch & l' & _ & _ & L & _). discriminate.
  - destruct (s_size s (c, pl)) as [[|n]|]; try (injection G as <-; exact DONE). destruct (rmap _ _) as [els|] eqn:RM; [|discriminate]. cbn [rbind] in *. injection G as <-.
    exists (Some (NAoS els)). split; [reflexivity|]. split; [|discriminate]. apply rmap_ok in RM. destruct RM as (LE & _). rewrite seq_length in LE. intros l x. split; [auto|]. intros [H|(_ & NT)]; [assumption|].
    exfalso. apply NT. exists (NAoS els). split; [reflexivity|]. exists [], l. split; [reflexivity|]. right. exists (length els). exists (Meta nm KAoS cs), els. split; [constructor|]. split; [reflexivity|]. split; [reflexivity|lia].
  - destruct (read s (c, pl) dt nd) as [v|]; [|discriminate]. cbn [rbind] in *. injection G as <-. destruct v as [v|]; [|exact DONE]. destruct ((nd =? 0) && PrimModel.is_empty dt v); [exact DONE|].
    exists (Some (NLeaf (Some v))). split; [reflexivity|]. split; [|discriminate]. intros l x. split; [auto|]. intros [H|((n & E & H) & NT)]; [assumption|]. exfalso. apply NT.
    exists (NLeaf (Some v)). split; [reflexivity|]. specialize (CF _ E). assert (EL : l = []) by (inversion CF; subst; apply holds_leaf in H; tauto). subst l.
    exists [], []. split; [reflexivity|]. left. exists (Meta nm (KLeaf dt nd) cs), v. split; [reflexivity|]. split; [do 2 eexists; reflexivity|constructor].
Qed.
Lemma into_children_ok : forall m n, wf_meta m -> mkind m = KStruct -> conf m n -> forall g, get_children dynamic xml_tbp nbc mode s m = Ok g ->
  exists r, into_children dynamic xml_tbp nbc mode s m n = Ok r /\ forall l x, holds m r l x <-> holds m g l x \/ (holds m n l x /\ ~ taken m g l).
Proof.
  intros [nm k cs] n WF K CF g G. cbn in K. subst k. unfold get_children in G. unfold into_children. cbn [mchildren] in *. inversion WF as [? ? ? ND W2 W3]; subst.
  destruct (gather cs _) as [gs|] eqn:EG; [|discriminate]. cbn [rbind] in G. injection G as <-. apply gather_ok in EG; [|assumption]. destruct EG as (EG & _).
  inversion CF as [| |? ? fs H1 H2 H3|]; subst. cbn [fields_of_node].
  assert (EF : exists rs, fill (fun d o => into_node d top [] o) cs fs = Ok rs).
  { assert (X : forall l fs0, incl l cs -> NoDup (map mname l) -> (forall d, In d l -> alookup (mname d) fs0 = alookup (mname d) fs) -> exists rs, fill (fun d o => into_node d top [] o) l fs0 = Ok rs).
    { induction l as [|d l IHl]; intros fs0 IN N2 SAME; cbn [fill]; [eauto|]. cbn [map] in N2. inversion N2 as [|? ? NI N3]; subst. assert (ID : In d cs) by (apply IN; left; reflexivity).
      destruct (EG d ID) as (o & GO & _). destruct (into_node_ok d (W2 d ID) top [] (alookup (mname d) fs0)) with (g := o) as (r & -> & _); auto.
      { intros n E. rewrite (SAME d (or_introl eq_refl)) in E. eapply H1; eauto. }
      cbn [rbind]. apply IHl; auto; [intros e I; apply IN; right; assumption|]. intros e I. assert (NE : mname e <> mname d) by (intros E; apply NI; rewrite <- E; apply List.in_map; assumption).
      rewrite <- (SAME e (or_intror I)). destruct r; [apply alookup_aset_other; auto|reflexivity]. }
    apply (X cs fs); auto using incl_refl. }
  destruct EF as (rs & ER). rewrite ER. cbn [rbind]. eexists. split; [reflexivity|]. apply fill_ok in ER; [|assumption]. destruct ER as (ER & _).
  assert (M : merged (Meta nm KStruct cs) (Some (NStruct fs)) (Some (NStruct gs)) (Some (NStruct rs))).
  { apply merged_struct; [assumption|]. intros d I. destruct (EG d I) as (o & GO & ->). destruct (ER d I) as (x & FX & EX).
    destruct (into_node_ok d (W2 d I) top [] (alookup (mname d) fs)) with (g := o) as (r & FR & MR & NR); [intros n E; eapply H1; eauto|exact GO|].
    assert (ERX : r = x) by congruence. subst r. rewrite EX. destruct x as [n|]; [exact MR|]. rewrite (NR eq_refl) in *. exact MR. }
  intros l x. specialize (M l x). unfold oholds, otaken in M. split.
  - intros H. destruct (proj1 M) as [(n & E & X)|((n & E & X) & NT)]; [eexists; split; [reflexivity|exact H]| |].
    + injection E as <-. auto.
    + injection E as <-. right. split; [assumption|]. intros T. apply NT. eexists. split; [reflexivity|exact T].
  - intros H. destruct (proj2 M) as (n & E & X); [|injection E as <-; exact X]. destruct H as [H|(H & NT)]; [left; eexists; split; [reflexivity|exact H]|right].
    split; [eexists; split; [reflexivity|exact H]|]. intros (n & E & T). injection E as <-. auto.
Qed.
End Get.
