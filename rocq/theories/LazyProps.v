(** C32: a lazily loaded IDS shows the data of a full get. *)
From Verif Require PrimModel.
From Verif Require Import Base TreeModel TreeSpec TreeProofs4 TreeCheck ConvSpec VmapModel StoreModel StoreSpec StoreProps StoreProps2 LazyModel LazySpec LazyProofs LazyProofs2.

Section Run.
Variable dynamic : list str -> bool.
Variable xml_tbp : list str -> str.
Variable nbc : option nmap.
Variable mode : Z.
Variable s : store.
Notation lrun := (lrun dynamic xml_tbp nbc mode s).
Notation lstep := (lstep dynamic xml_tbp nbc mode s).
Notation agree := (agree dynamic xml_tbp nbc mode s).
Variable m : meta.
Variable e : node.
Hypothesis W : wf_meta m.

Lemma step_agree : forall st op B, agree B m top [] (l_tree st) e ->
  (exists B', agree B' m top [] (l_tree (fst (lstep m st op))) e /\ (forall l, B l -> B' l) /\
     forall l, B' l -> B l \/ exists path look, op = Access path look /\ l_open st = false /\ snd (lstep m st op) = Some (Err Unavailable) /\ asked m e path l) /\
  forall path look r, op = Access path look -> snd (lstep m st op) = Some r -> outcome (l_open st) B m e [] path look r.
Proof.
  intros st [path look|] B A; cbn [LazyModel.lstep fst snd l_tree l_open].
  - destruct (access_agree dynamic xml_tbp nbc mode s (l_open st) path look B m top [] (l_tree st) e W A) as [(B' & A' & M & N) O]. split.
    + exists B'. split; auto. split; auto. intros l Bl. destruct (N l Bl) as [|(Op & U & F)]; auto. right. exists path, look. rewrite U.
      split; auto. split; auto. split; auto. destruct F as (p1 & p2 & l1 & m' & v & -> & R & ->). exists p1, p2, m', (NLeaf v). auto.
    + intros p' k r E1 E2. inversion E1; inversion E2; subst. exact O.
  - split; [exists B; auto|]. intros; discriminate.
Qed.

Lemma run_outcome : forall ops st B i path look r, agree B m top [] (l_tree st) e ->
  nth_error ops i = Some (Access path look) -> nth_error (snd (lrun m st ops)) i = Some (Some r) ->
  seen m e path look r \/ (r = Err Unavailable /\ (l_open st = false \/ In Close (firstn i ops))) \/
  (look = true /\ r = Ok (OValue None) /\ exists l m' v, reach m e path l m' (NLeaf v) /\
     (B l \/ exists j path' look', j < i /\ nth_error ops j = Some (Access path' look') /\
        nth_error (snd (lrun m st ops)) j = Some (Some (Err Unavailable)) /\ asked m e path' l)).
Proof.
  induction ops as [|op ops IH]; intros st B i path look r A N R; [destruct i; discriminate|].
  destruct (step_agree st op B A) as [(B' & A' & M & NB) O]. cbn [LazyModel.lrun] in *. cbv zeta in *. cbn [snd] in *.
  destruct i as [|i]; cbn [nth_error] in *.
  - inversion N; subst op. assert (R' : snd (lstep m st (Access path look)) = Some r) by congruence. destruct (O _ _ _ eq_refl R') as [S|[(Op & ->)|(L & -> & l & m' & v & RE & Bl)]]; [left; exact S|right; left; auto|].
    right. right. split; auto. split; auto. exists l, m', v. auto.
  - destruct (IH _ _ _ _ _ _ A' N R) as [S|[(-> & Op)|(L & -> & l & m' & v & RE & Bl)]]; [left; exact S| |].
    + right. left. split; auto. destruct op; cbn in *; [destruct Op|]; auto.
    + right. right. split; auto. split; auto. exists l, m', v. split; auto. destruct Bl as [Bl|(j & p' & k' & Lt & Nj & Rj & As)].
      * destruct (NB l Bl) as [|(p' & k' & -> & Op & U & As)]; auto. right. exists 0, p', k'. cbn [nth_error]. rewrite U. auto with arith.
      * right. exists (S j), p', k'. cbn [nth_error]. auto with arith.
Qed.

Lemma run_agree : forall ops st B, agree B m top [] (l_tree st) e -> exists B', agree B' m top [] (l_tree (fst (lrun m st ops))) e.
Proof.
  induction ops as [|op ops IH]; intros st B A; [exists B; exact A|]. destruct (step_agree st op B A) as [(B' & A' & _) _].
  cbn [LazyModel.lrun]. cbv zeta. cbn [fst]. eauto.
Qed.

Lemma run_closed : forall ops st l x, l_open st = false -> loaded (l_tree (fst (lrun m st ops))) l x -> loaded (l_tree st) l x.
Proof.
  induction ops as [|op ops IH]; intros st l x C H; auto. cbn [LazyModel.lrun] in H. cbv zeta in H. cbn [fst] in H. apply IH in H; [|destruct op; auto].
  destruct op as [path look|]; cbn in H; auto. rewrite C in H. now apply closed_loaded in H.
Qed.
Lemma run_asked : forall ops st B l x, agree B m top [] (l_tree st) e -> loaded (l_tree (fst (lrun m st ops))) l x ->
  loaded (l_tree st) l x \/ exists a path look b, ops = a ++ Access path look :: b /\ ~ In Close a /\ l_open st = true /\ asked m e path l.
Proof.
  induction ops as [|op ops IH]; intros st B l x A H; auto. cbn [LazyModel.lrun] in H. cbv zeta in H. cbn [fst] in H.
  destruct (step_agree st op B A) as [(B' & A' & _) _]. destruct (l_open st) eqn:O.
  2: { left. apply run_closed in H; [|destruct op; auto]. destruct op as [path look|]; cbn in H; auto. rewrite O in H. now apply closed_loaded in H. }
  destruct op as [path look|].
  - destruct (IH _ _ _ _ A' H) as [L|(a & path' & look' & b & -> & NC & Op & As)].
    + cbn in L. destruct (only_asked dynamic xml_tbp nbc mode s _ _ _ _ _ _ _ _ _ _ _ W A L) as [Q|Q]; auto. right. exists [], path, look, ops. cbn. auto.
    + right. exists (Access path look :: a), path', look', b. split; auto. split; auto. intros [E|E]; [discriminate|auto].
  - left. apply run_closed in H; auto.
Qed.
End Run.

(** C32: as long as the entry is open, every access to a lazily loaded IDS, whatever was accessed before, gives what it gives for the
    IDS returned by a full get ([seen], which is a function of the expression: C32_seen_unique). *)
Theorem C32_lazy_get : forall dynamic xml_tbp nbc mode s m e, wf_meta m -> mkind m = KStruct -> get_children dynamic xml_tbp nbc mode s m = Ok e ->
  forall ops i path look r, ~ In Close (firstn i ops) -> nth_error ops i = Some (Access path look) ->
  nth_error (snd (lrun dynamic xml_tbp nbc mode s m lget ops)) i = Some (Some r) -> seen m e path look r.
Proof.
  intros dynamic xml_tbp nbc mode s m e W K G ops i path look r NC N R.
  assert (F : seen m e path look r \/ In Close (firstn i ops) \/ exists j path' look', j < i /\
    nth_error ops j = Some (Access path' look') /\ nth_error (snd (lrun dynamic xml_tbp nbc mode s m lget ops)) j = Some (Some (Err Unavailable))).
  { destruct (run_outcome dynamic xml_tbp nbc mode s m e W ops lget (fun _ => False) i path look r (start_agree _ _ _ _ _ _ _ _ W K G) N R)
      as [S|[(-> & [Op|C])|(L & -> & l & m' & v & RE & [[]|(j & p' & k' & Lt & Nj & Rj & As)])]]; auto; [discriminate|]. right. right. eauto 8. }
  destruct F as [S|[C|(j & p' & k' & Lt & Nj & Rj)]]; auto; [contradiction|]. exfalso.
  revert p' k' Lt Nj Rj NC. clear N R. revert i. induction j as [j IH] using lt_wf_ind. intros i p' k' Lt Nj Rj NC.
  assert (NJ : ~ In Close (firstn j ops)).
  { intros C. apply NC. replace (firstn j ops) with (firstn j (firstn i ops)) in C by (rewrite firstn_firstn; f_equal; lia). rewrite <- (firstn_skipn j (firstn i ops)). apply in_or_app; auto. }
  destruct (run_outcome dynamic xml_tbp nbc mode s m e W ops lget (fun _ => False) j p' k' _ (start_agree _ _ _ _ _ _ _ _ W K G) Nj Rj)
      as [S|[(_ & [Op|C])|(L & E & _)]]; try discriminate; auto.
  inversion S.
Qed.
Print Assumptions C32_lazy_get.

Theorem C32_seen_unique : forall m e path look r1 r2, wf_meta m -> seen m e path look r1 -> seen m e path look r2 -> r1 = r2.
Proof. exact seen_fun. Qed.
Print Assumptions C32_seen_unique.

(** C32: a data node that is stored with a value v shows v. *)
Theorem C32_shows_stored : forall dynamic xml_tbp nbc mode s m e, named m -> wf_meta m -> mkind m = KStruct -> get_children dynamic xml_tbp nbc mode s m = Ok e ->
  forall l m1 dt nd k v, loc_ok m l m1 -> mkind m1 = KLeaf dt nd -> position_of dynamic xml_tbp nbc mode false l k -> s_data s k = Some v ->
  filled_value v -> (nd = 0 -> PrimModel.is_empty dt v = false) -> covered dynamic xml_tbp nbc mode s l ->
  forall ops i path r m' e', reach m e path l m' e' -> ~ In Close (firstn i ops) -> nth_error ops i = Some (Access path true) ->
  nth_error (snd (lrun dynamic xml_tbp nbc mode s m lget ops)) i = Some (Some r) -> r = Ok (OValue (Some v)).
Proof.
  intros dynamic xml_tbp nbc mode s m e NM W K G l m0 dt nd k v LO KL PO SD FV NE CV ops i path r m' e' R NC Nth Out.
  pose proof (C32_lazy_get _ _ _ _ _ _ _ W K G ops i path true r NC Nth Out) as SR.
  assert (LA : leaf_at m e l v) by (apply (C42_get_exact dynamic xml_tbp nbc mode s m e NM W K G); exists m0, dt, nd, k; auto 8).
  destruct LA as (m1 & _ & NA & _).
  assert (X : e' = NLeaf (Some v)).
  { clear -R NA W. revert m1 v W NA. induction R; intros m1 w W NA.
    - inversion NA; subst; auto.
    - inversion NA; subst. assert (c = d) as -> by (inversion W; eapply NoDup_names; eauto). apply (IHR m1); [eapply wf_child; eauto|].
      unfold field. match goal with X : alookup _ _ = Some _ |- _ => now rewrite X end.
    - inversion NA; subst. match goal with X : nth_error els i = Some ?z, Y : nth_error els i = Some ?t |- _ => rewrite X in Y; inversion Y; subst end.
      apply (IHR m1); auto. now apply wf_elem.
    - inversion NA; subst. match goal with X : nth_error els ?i = Some ?z, Y : nth_error els ?i = Some ?t |- _ => rewrite X in Y; inversion Y; subst end.
      apply (IHR m1); auto. now apply wf_elem. }
  subst e'. exact (seen_fun _ _ _ _ _ _ W SR (seen_ok m e path true l m' (NLeaf (Some v)) R)).
Qed.
Print Assumptions C32_shows_stored.

(** C32: with the entry being closed at any time: every access gives what it gives for the fully loaded IDS, or raises because the entry is
    closed, or shows a data node as unset after an earlier access to it has raised for this reason (see C32_second_access_refuted). *)
Theorem C32_any_time : forall dynamic xml_tbp nbc mode s m e, wf_meta m -> mkind m = KStruct -> get_children dynamic xml_tbp nbc mode s m = Ok e ->
  forall ops i path look r, nth_error ops i = Some (Access path look) ->
  let outs := snd (lrun dynamic xml_tbp nbc mode s m lget ops) in nth_error outs i = Some (Some r) ->
  seen m e path look r \/ (r = Err Unavailable /\ In Close (firstn i ops)) \/
  (look = true /\ r = Ok (OValue None) /\ exists l m' v j path' look', reach m e path l m' (NLeaf v) /\ j < i /\
     nth_error ops j = Some (Access path' look') /\ nth_error outs j = Some (Some (Err Unavailable)) /\ asked m e path' l).
Proof.
  intros dynamic xml_tbp nbc mode s m e W K G ops i path look r N outs R.
  destruct (run_outcome dynamic xml_tbp nbc mode s m e W ops lget (fun _ => False) i path look r (start_agree _ _ _ _ _ _ _ _ W K G) N R)
      as [S|[(-> & [Op|C])|(L & -> & l & m' & v & RE & [[]|(j & p' & k' & Lt & Nj & Rj & As)])]]; auto; [discriminate|].
  right. right. split; auto. split; auto. exists l, m', v, j, p', k'. auto.
Qed.
Print Assumptions C32_any_time.

(** C32: nothing is loaded that was not asked for, and nothing after the entry has been closed: a value or size that an access shows, or
    that is present in the IDS, has been asked for while the entry was open. *)
Theorem C32_on_request : forall dynamic xml_tbp nbc mode s m e, wf_meta m -> mkind m = KStruct -> get_children dynamic xml_tbp nbc mode s m = Ok e ->
  forall ops, let st := fst (lrun dynamic xml_tbp nbc mode s m lget ops) in
  (forall l v, loaded_value (l_tree st) l v -> exists a path look b, ops = a ++ Access path look :: b /\ ~ In Close a /\ asked m e path l) /\
  (forall l n, loaded_size (l_tree st) l n -> exists a path look b, ops = a ++ Access path look :: b /\ ~ In Close a /\ asked m e path l) /\
  (forall path look v, In Close ops -> snd (lstep dynamic xml_tbp nbc mode s m st (Access path look)) = Some (Ok (OValue (Some v))) ->
     exists l m' e' a path' look' b, reach m e path l m' e' /\ ops = a ++ Access path' look' :: b /\ ~ In Close a /\ asked m e path' l) /\
  (forall path look n, In Close ops -> snd (lstep dynamic xml_tbp nbc mode s m st (Access path look)) = Some (Ok (OSize (S n))) ->
     exists l m' e' a path' look' b, reach m e path l m' e' /\ ops = a ++ Access path' look' :: b /\ ~ In Close a /\ asked m e path' l).
Proof.
  intros dynamic xml_tbp nbc mode s m e W K G ops st.
  assert (A0 := start_agree dynamic xml_tbp nbc mode s (fun _ => False) m e W K G).
  assert (RA : forall l x, loaded (l_tree st) l x -> exists a path look b, ops = a ++ Access path look :: b /\ ~ In Close a /\ asked m e path l).
  { intros l x H. destruct (run_asked dynamic xml_tbp nbc mode s m e W ops lget _ l x A0 H) as [Q|(a & p & k & b & E & NC & _ & As)]; [now apply loaded_empty in Q|eauto 8]. }
  assert (CL : In Close ops -> l_open st = false).
  { unfold st. generalize lget. clear. induction ops as [|op ops IH]; intros st I; [destruct I|]. cbn [LazyModel.lrun]. cbv zeta. cbn [fst].
    assert (ST : forall ops s1, l_open s1 = false -> l_open (fst (lrun dynamic xml_tbp nbc mode s m s1 ops)) = false).
    { clear. induction ops as [|op ops IH]; intros s1 H; auto. cbn [LazyModel.lrun]. cbv zeta. cbn [fst]. apply IH. destruct op; auto. }
    destruct I as [->|I]; [apply ST; reflexivity|auto]. }
  assert (SE : forall path look x, In Close ops -> (forall r, snd (lstep dynamic xml_tbp nbc mode s m st (Access path look)) = Some r -> seen_item r x) ->
     exists l m' e' a path' look' b, reach m e path l m' e' /\ ops = a ++ Access path' look' :: b /\ ~ In Close a /\ asked m e path' l).
  { intros path look x I S. destruct (run_agree dynamic xml_tbp nbc mode s m e W ops lget _ A0) as (B & A). fold st in A.
    cbn [LazyModel.lstep snd] in S. specialize (S _ eq_refl). rewrite (CL I) in S.
    destruct (seen_loaded dynamic xml_tbp nbc mode s false path look B m top [] (l_tree st) e x W A S) as (l & m' & e' & R & L).
    apply closed_loaded in L. destruct (RA l x L) as (a & p & k & b & E & NC & As). exists l, m', e', a, p, k, b. auto. }
  split; [|split; [|split]].
  - intros l v H. apply (RA l (LValue v) H).
  - intros l n H. apply (RA l (LSize n) H).
  - intros path look v I S. apply (SE path look (LValue v) I). intros r E. rewrite S in E. inversion E; reflexivity.
  - intros path look n I H. apply (SE path look (LSize (S n)) I). intros r E. rewrite H in E. inversion E; subst. split; auto with arith.
Qed.
Print Assumptions C32_on_request.

(** * Examples *)
Definition ex_store : store :=
  fst (al_put ex_dynamic ex_tbp no_max None 1%Z true ex_dynamic ex_meta empty_store ex_meta (NStruct (ex_fields 1%Z))).
Definition lazy_outs (ops : list lop) := snd (lrun ex_dynamic ex_tbp None 1%Z ex_store ex_meta lget ops).
Definition A (nm : string) : acc := Attr (N nm).
Definition z_of (i j : Z) : list acc := [A "slice"; Item i; A "ion"; Item j; A "z"].

(** the hypotheses of the theorems hold, and accesses in any order give what was put *)
Example C32_example :
  wf_meta ex_meta /\ named ex_meta /\ mkind ex_meta = KStruct /\
  get_children ex_dynamic ex_tbp None 1%Z ex_store ex_meta = Ok (NStruct (ex_fields 1%Z)) /\
  lazy_outs [Access (z_of 0 (-1)) true; Access [A "slice"; Item 1; A "ion"] true; Access [A "slice"] true; Access [A "slice"; Item 2] true;
             Access [A "time"] true; Access (z_of 0 1) true; Access (z_of 0 0) true; Access [A "nothing"] true] =
    map Some [Ok (OValue (Some (VIntA [1] [5%Z]))); Ok (OSize 0); Ok (OSize 2); Err NoElement;
              Ok (OValue (Some (VFltA [2] [1; 2]%Z))); Ok (OValue (Some (VIntA [1] [5%Z]))); Ok (OValue None); Err NoAttribute].
Proof.
  split; [by_check|]. split; [apply namedb_sound; vm_compute; reflexivity|]. split; [reflexivity|]. split; vm_compute; reflexivity.
Qed.

(** C32 refuted for the second access after the close: the first access to a data node that was not loaded raises, but leaves the child
    behind (ids_structure.py:65 stores it before 67 loads it): the second access shows it as unset. *)
Theorem C32_second_access_refuted : exists dynamic xml_tbp mode s m e path v,
  wf_meta m /\ mkind m = KStruct /\ get_children dynamic xml_tbp None mode s m = Ok e /\
  seen m e path true (Ok (OValue (Some v))) /\
  snd (lrun dynamic xml_tbp None mode s m lget [Close; Access path true; Access path true]) =
    [None; Some (Err Unavailable); Some (Ok (OValue None))].
Proof.
  exists ex_dynamic, ex_tbp, 1%Z, ex_store, ex_meta, (NStruct (ex_fields 1%Z)), [A "time"], (VFltA [2] [1; 2]%Z).
  split; [by_check|]. split; [reflexivity|]. split; [vm_compute; reflexivity|]. split; [|vm_compute; reflexivity].
  eapply (seen_ok _ _ _ true [Child (N "time")] (Meta (N "time") (KLeaf FLT 1) []) (NLeaf (Some (VFltA [2] [1; 2]%Z)))).
  apply (re_attr (N "core") _ (ex_fields 1%Z) (Meta (N "time") (KLeaf FLT 1) []) []); [right; left; reflexivity|]. constructor.
Qed.
Print Assumptions C32_second_access_refuted.
