(** * C35: an IDS that is lazily loaded from a netCDF file shows the data of a full get. *)
From Verif Require Import Base TreeModel TreeSpec TreeProofs TreeCheck StoreProofs2 NcMetaModel NcMetaSpec NcMetaProofs NcFileModel NcFileSpec
  NcFileProofs NcFileProofs2 NcFileProofs3 NcFileProofs4 NcFileProofs6 NcFileProofs7 NcFileProofs8 NcFileProofs9 NcFileProps LazyModel LazySpec LazyProofs LazyProofs2 NcLazyModel NcLazySpec NcLazyProofs NcLazyProofs2.
From Coq Require Import Lia.

Section Run.
Variable m : meta.
Variable r : ncmeta.
Variable g : group.
Variable h : bool.
Notation vs := (g_vars g).
Notation qrun := (qrun r g h).
Notation qstep := (qstep r g h).
Notation qagree := (qagree r g h).
Notation e := (den r g h vs m [] []).
Hypothesis W : wf_meta m.
Hypothesis RD : readable r g h vs m [] [].

Lemma qstep_agree : forall st op B, qagree B m [] [] [] (q_tree st) ->
  (exists B', qagree B' m [] [] [] (q_tree (fst (qstep m st op))) /\ (forall l, B l -> B' l) /\
     forall l, B' l -> B l \/ exists path look, op = Access path look /\ q_open st = false /\ snd (qstep m st op) = Some (Err (QLazy Unavailable)) /\ asked m e path l) /\
  forall path look x, op = Access path look -> snd (qstep m st op) = Some x -> qoutcome (q_open st) B m e [] path look x.
Proof.
  intros st [path look|] B A; cbn [NcLazyModel.qstep fst snd q_tree q_open].
  - destruct (qaccess_agree r g h (q_open st) path look B m [] [] [] (q_tree st) W RD A) as [(B' & A' & M & N) O]. split.
    + exists B'. split; auto. split; auto. intros l Bl. destruct (N l Bl) as [|(Op & U & F)]; auto. right. exists path, look. rewrite U.
      split; auto. split; auto. split; auto. destruct F as (l1 & AS & ->). exact AS.
    + intros p' k x E1 E2. inversion E1; inversion E2; subst. exact O.
  - split; [exists B; auto|]. intros; discriminate.
Qed.

Lemma qrun_outcome : forall ops st B i path look x, qagree B m [] [] [] (q_tree st) ->
  nth_error ops i = Some (Access path look) -> nth_error (snd (qrun m st ops)) i = Some (Some x) ->
  shows m e path look x \/ (x = Err (QLazy Unavailable) /\ (q_open st = false \/ In Close (firstn i ops))) \/
  (exists p1 p2 l m' e', path = p1 ++ p2 /\ reach m e p1 l m' e' /\ shows m' (new_node m') p2 look x /\
     (B l \/ exists j path' look', j < i /\ nth_error ops j = Some (Access path' look') /\
        nth_error (snd (qrun m st ops)) j = Some (Some (Err (QLazy Unavailable))) /\ asked m e path' l)).
Proof.
  induction ops as [|op ops IH]; intros st B i path look x A N R; [destruct i; discriminate|].
  destruct (qstep_agree st op B A) as [(B' & A' & M & NB) O]. cbn [NcLazyModel.qrun] in *. cbv zeta in *. cbn [snd] in *.
  destruct i as [|i]; cbn [nth_error] in *.
  - inversion N; subst op. assert (R' : snd (qstep m st (Access path look)) = Some x) by congruence. destruct (O _ _ _ eq_refl R') as [S|[(Op & ->)|(p1 & p2 & l & m' & e' & y & -> & RE & Bl & SY & ->)]]; [left; exact S|right; left; auto|].
    right. right. exists p1, p2, l, m', e'. split; auto. split; auto. split; auto. exists y. auto.
  - destruct (IH _ _ _ _ _ _ A' N R) as [S|[(-> & Op)|(p1 & p2 & l & m' & e' & -> & RE & SY & Bl)]]; [left; exact S| |].
    + right. left. split; auto. destruct op; cbn in *; [destruct Op|]; auto.
    + right. right. exists p1, p2, l, m', e'. split; auto. split; auto. split; auto. destruct Bl as [Bl|(j & p' & k' & Lt & Nj & Rj & As)].
      * destruct (NB l Bl) as [|(p' & k' & -> & Op & U & As)]; auto. right. exists 0, p', k'. cbn [nth_error]. rewrite U. auto with arith.
      * right. exists (S j), p', k'. cbn [nth_error]. auto with arith.
Qed.
Lemma qrun_length : forall ops st, length (snd (qrun m st ops)) = length ops.
Proof. induction ops as [|op ops IH]; intros st; auto. cbn [NcLazyModel.qrun]. cbv zeta. cbn [snd length]. now rewrite IH. Qed.
End Run.

(** everything from a full get *)
Lemma get_facts : forall m r units g n', wf_meta m -> mkind m = KStruct -> names_ok m -> NoDup (map v_name (g_vars g)) -> get m r units g = Ok n' ->
  exists h, (forall ops, qget m r units g ops = Ok (snd (qrun r g h m {| q_open := true; q_tree := QStruct (Some []) [] |} ops))) /\
    readable r g h (g_vars g) m [] [] /\ same m n' (den r g h (g_vars g) m [] []) /\ forall B, qagree r g h B m [] [] [] (QStruct (Some []) []).
Proof.
  intros m r units g n' W K NO ND G. pose proof (clean_m m W NO) as CL. unfold get in G. destruct (read_homogeneous m r units g) as [h|] eqn:H; [|discriminate]. cbn [rbind] in G.
  destruct (validate_variables m r units g h) as [[]|] eqn:V; [|discriminate]. cbn [rbind] in G. destruct (read_vars m r g h (sorted_vars g) []) as [fs|] eqn:RV; [|discriminate]. apply ok_inj in G. subst n'.
  exists h. split; [intros ops; unfold qget; rewrite H; cbn [rbind]; rewrite V; reflexivity|]. split; [eapply all_readable; eauto|].
  split; [|intros B; destruct m as [nm k cs]; cbn in K; subst k; constructor; intros; discriminate].
  pose proof (read_all m r g W K CL h ND fs RV) as S. destruct m as [nm k cs]. cbn in K. subst k. exact S.
Qed.

(** C35: as long as the file is open, every access to a lazily loaded IDS, whatever was accessed before, gives what it gives for the IDS
    returned by a full get.  This holds for all files that can be read, also those from elsewhere. *)
Theorem C35_lazy_get : forall m r units g n', wf_meta m -> mkind m = KStruct -> names_ok m -> NoDup (map v_name (g_vars g)) -> get m r units g = Ok n' ->
  forall ops, exists outs, qget m r units g ops = Ok outs /\ length outs = length ops /\
  forall i path look x, ~ In Close (firstn i ops) -> nth_error ops i = Some (Access path look) -> nth_error outs i = Some (Some x) -> shows m n' path look x.
Proof.
  intros m r units g n' W K NO ND G ops. destruct (get_facts m r units g n' W K NO ND G) as (h & Q & RD & SM & A0).
  eexists. split; [apply Q|]. split; [apply qrun_length|]. intros i path look x NC N R.
  assert (X : forall p l y, shows m (den r g h (g_vars g) m [] []) p l y -> shows m n' p l y) by (intros p l y (z & Z & ->); exists z; split; auto; eapply same_seen; eauto; now apply same_sym).
  pose proof (fun j p k y => qrun_outcome m r g h W RD ops {| q_open := true; q_tree := QStruct (Some []) [] |} (fun _ => False) j p k y (A0 _)) as O.
  destruct (O i path look x N R) as [S|[(-> & [Op|C])|(p1 & p2 & l & m' & e' & _ & _ & _ & [[]|(j & p' & k' & Lt & Nj & Rj & As)])]]; auto; [discriminate|contradiction|]. exfalso.
  revert p' k' Lt Nj Rj NC As. clear N R. revert i. induction j as [j IH] using lt_wf_ind. intros i p' k' Lt Nj Rj NC As.
  assert (NJ : ~ In Close (firstn j ops)).
  { intros C. apply NC. replace (firstn j ops) with (firstn j (firstn i ops)) in C by (rewrite firstn_firstn; f_equal; lia). rewrite <- (firstn_skipn j (firstn i ops)). apply in_or_app; auto. }
  destruct (O j p' k' _ Nj Rj) as [(z & Z & E)|[(_ & [Op|C])|(q1 & q2 & l2 & m2 & e2 & _ & _ & (z & Z & E) & _)]]; try discriminate; auto; destruct Z; discriminate.
Qed.
Print Assumptions C35_lazy_get.

(** C35: with the file being closed at any time: every access gives what it gives for the fully loaded IDS, or raises because the file is
    closed; or a data node or array of structures appears to be empty after an earlier access to it has raised for this reason. *)
Theorem C35_any_time : forall m r units g n', wf_meta m -> mkind m = KStruct -> names_ok m -> NoDup (map v_name (g_vars g)) -> get m r units g = Ok n' ->
  forall ops, exists outs, qget m r units g ops = Ok outs /\
  forall i path look x, nth_error ops i = Some (Access path look) -> nth_error outs i = Some (Some x) ->
  shows m n' path look x \/ (x = Err (QLazy Unavailable) /\ In Close (firstn i ops)) \/
  (exists p1 p2 l m' e' j path' look', path = p1 ++ p2 /\ reach m n' p1 l m' e' /\ shows m' (new_node m') p2 look x /\ j < i /\
     nth_error ops j = Some (Access path' look') /\ nth_error outs j = Some (Some (Err (QLazy Unavailable))) /\ asked m n' path' l).
Proof.
  intros m r units g n' W K NO ND G ops. destruct (get_facts m r units g n' W K NO ND G) as (h & Q & RD & SM & A0).
  eexists. split; [apply Q|]. intros i path look x N R. pose proof (same_sym _ _ _ SM) as SM'.
  destruct (qrun_outcome m r g h W RD ops {| q_open := true; q_tree := QStruct (Some []) [] |} (fun _ => False) i path look x (A0 _) N R)
    as [(z & Z & ->)|[(-> & [Op|C])|(p1 & p2 & l & m' & e' & -> & RE & S & [[]|(j & p' & k' & Lt & Nj & Rj & As)])]]; auto; [|discriminate|].
  - left. exists z. split; auto. eapply same_seen; eauto.
  - right. right. destruct (same_reach _ _ _ _ _ _ RE _ SM') as (e2 & RE2 & _). destruct As as (q1 & q2 & m2 & e3 & -> & RE3). destruct (same_reach _ _ _ _ _ _ RE3 _ SM') as (e4 & RE4 & _).
    exists p1, p2, l, m', e2, j, (q1 ++ q2), k'. split; auto. split; auto. split; auto. split; auto. split; auto. split; auto. exists q1, q2, m2, e4. auto.
Qed.
Print Assumptions C35_any_time.

(** ** C35 with C34: what was put is shown *)
Lemma same_refl : forall m a b, same m a b -> same m a a.
Proof. intros m a b H. induction H; constructor; auto. intros i x y X Y. rewrite X in Y. inversion Y; subst. assert (i < length els') by (rewrite <- H; apply nth_error_Some; congruence).
  destruct (nth_error els' i) as [z|] eqn:Z; [eauto|apply nth_error_None in Z; lia]. Qed.
Lemma aos_field : forall nm cs fs d fb, In d cs -> NoDup (map mname cs) -> (forall l k, aos_at (Meta nm KStruct cs) (NStruct fs) l k -> aos_at (Meta nm KStruct cs) (NStruct fb) l k) ->
  forall l k, aos_at d (field d fs) l k -> aos_at d (field d fb) l k.
Proof.
  intros nm cs fs d fb D ND T l k A. assert (X : holds (Meta nm KStruct cs) (NStruct fs) (Child (mname d) :: l) (ISize k)) by (apply holds_field; exists d, l; auto).
  apply T in X. apply (holds_field nm cs fb (Child (mname d) :: l) (ISize k)) in X. destruct X as (d2 & l2 & E & I2 & H2). inversion E; subst. assert (d2 = d) as -> by (eapply NoDup_names; eauto). exact H2.
Qed.
Lemma aos_elems : forall nm cs els eb i y, nth_error els i = Some y -> (forall l k, aos_at (Meta nm KAoS cs) (NAoS els) l k -> aos_at (Meta nm KAoS cs) (NAoS eb) l k) ->
  length eb = length els /\ exists z, nth_error eb i = Some z /\ forall l k, aos_at (Meta nm KStruct cs) y l k -> aos_at (Meta nm KStruct cs) z l k.
Proof.
  intros nm cs els eb i y N T. assert (L : i < length els) by (apply nth_error_Some; congruence).
  assert (X : holds (Meta nm KAoS cs) (NAoS eb) [] (ISize (length els))) by (apply T; apply (holds_aos nm cs els [] (ISize (length els))); left; split; auto; split; auto; lia).
  apply holds_aos in X. destruct X as [(_ & E & _)|(j & z & l & Q & _)]; [|discriminate]. inversion E as [E']. split; auto.
  destruct (nth_error eb i) as [z|] eqn:Z; [|apply nth_error_None in Z; lia]. exists z. split; auto. intros l k A.
  assert (Y : holds (Meta nm KAoS cs) (NAoS eb) (Elem i :: l) (ISize k)) by (apply T; apply (holds_aos nm cs els (Elem i :: l) (ISize k)); right; eauto 6).
  apply holds_aos in Y. destruct Y as [(Q & _)|(j & z2 & l2 & Q & N2 & H2)]; [discriminate|]. inversion Q; subst. rewrite Z in N2. inversion N2; subst. exact H2.
Qed.
Lemma reach_elsewhere : forall m n path l m' e', reach m n path l m' e' -> forall b, wf_meta m -> same m b b -> (forall l k, aos_at m n l k -> aos_at m b l k) -> exists e2, reach m b path l m' e2.
Proof.
  intros m n path l m' e' R. induction R as [m a|nm cs fs d path l m' a' I R IH|nm cs els i y path l m' a' N R IH|nm cs els i y path l m' a' N L R IH]; intros b W SM T.
  - exists b. constructor.
  - inversion SM as [|? ? fa fb F|]; subst. destruct (IH (field d fa)) as (e2 & R2); [eapply wf_child; eauto|apply F; auto|eapply aos_field; eauto; inversion W; auto|]. exists e2. constructor; auto.
  - inversion SM as [| |? ? ea eb LE F]; subst. destruct (aos_elems _ _ _ _ _ _ N T) as (EL & z & Z & T'). destruct (IH z) as (e2 & R2); [now apply wf_elem|eauto|auto|]. exists e2. econstructor; eauto.
  - inversion SM as [| |? ? ea eb LE F]; subst. destruct (aos_elems _ _ _ _ _ _ N T) as (EL & z & Z & T'). destruct (IH z) as (e2 & R2); [now apply wf_elem|eauto|auto|]. exists e2. rewrite <- EL in *. econstructor; eauto.
Qed.
Lemma reach_at : forall m n path l m' e' m2 e2, wf_meta m -> reach m n path l m' e' -> node_at m n l m2 e2 -> e' = e2.
Proof.
  intros m n path l m' e' m2 e2 W R. revert m2 e2 W. induction R as [m a|nm cs fs d path l m' a' I R IH|nm cs els i y path l m' a' N R IH|nm cs els i y path l m' a' N L R IH]; intros m2 e2 W NA.
  - inversion NA; subst; auto.
  - inversion NA as [|? ? ? c ch ? ? ? Ic AL NA'|]; subst. assert (c = d) as -> by (inversion W; eapply NoDup_names; eauto). apply (IH m2); [eapply wf_child; eauto|]. unfold LazySpec.field. now rewrite AL.
  - inversion NA as [| |? ? ? ? z ? ? ? NZ NA']; subst. rewrite N in NZ. inversion NZ; subst. apply (IH m2); auto. now apply wf_elem.
  - inversion NA as [| |? ? ? ? z ? ? ? NZ NA']; subst. rewrite N in NZ. inversion NZ; subst. apply (IH m2); auto. now apply wf_elem.
Qed.

(** C35 with C34: after a put, the lazily loaded IDS shows the values (except those that look like missing data) and the sizes that were put. *)
Theorem C35_after_put : forall at_ fuel m r units, wf_meta m -> mkind m = KStruct -> names_ok m -> small_dims m -> no_structure_errors m -> nc_metadata at_ fuel m = Ok r ->
  forall n, conf m n -> time_mode m n -> int32 m n ->
  exists g, put m r units n = Ok g /\ forall ops, exists outs, qget m r units g ops = Ok outs /\
    forall i path x l m' e', ~ In Close (firstn i ops) -> nth_error ops i = Some (Access path true) -> nth_error outs i = Some (Some x) -> reach m n path l m' e' ->
    (forall v, leaf_at m n l v -> (inside_aos l -> ~ looks_unset v) -> x = Ok (OValue (Some v))) /\ (forall k, aos_at m n l k -> x = Ok (OSize k)).
Proof.
  intros at_ fuel m r units W K NO SD NE R n C TM I32. destruct (C34_round_trip_partial at_ fuel m r units W K NO SD NE R n C TM I32) as (g & n' & P & G & QA & QL & _).
  exists g. split; auto. intros ops.
  assert (ND : NoDup (map v_name (g_vars g))).
  { destruct (write_group_ok at_ fuel m r W R NO SD K n C (homogeneous_of n) units I32) as (g' & E' & WG). unfold put in P. change (filled_iter m n [] []) with (items m n) in P. rewrite E' in P. apply ok_inj in P. subst g'.
    eapply written_nodup; eauto. }
  destruct (C35_lazy_get m r units g n' W K NO ND G ops) as (outs & Q & _ & S). exists outs. split; auto. intros i path x l m' e' NC N Nx RE. destruct (S i path true x NC N Nx) as (y & SY & ->).
  destruct (get_facts m r units g n' W K NO ND G) as (h & _ & _ & SM & _). destruct (reach_elsewhere _ _ _ _ _ _ RE n' W (same_refl _ _ _ SM)) as (e2 & RE2); [intros; now apply QA|].
  assert (EY : y = Ok (shown e2 true)) by (eapply (seen_fun m n' path true); eauto; econstructor; eauto). subst y. cbn [lift]. split.
  - intros v LA T. destruct (QL l v LA T) as (m2 & _ & NA & _). rewrite (reach_at _ _ _ _ _ _ _ _ W RE2 NA). reflexivity.
  - intros k AA. apply QA in AA. destruct AA as (m2 & els & NA & _ & <- & _). rewrite (reach_at _ _ _ _ _ _ _ _ W RE2 NA). reflexivity.
Qed.
Print Assumptions C35_after_put.

(** ** Examples *)
Definition A (nm : string) : acc := Attr (strs nm).
Definition lazily (n : node) (ops : list lop) : result fexn (list (option (result qexn obs))) := do g <- put ex_m ex_r no_units n; qget ex_m ex_r no_units g ops.
(** accesses in any order give what was put: for the tree of NcFileProps.ex_tree *)
Definition vals (l : list Z) : option (result qexn obs) := Some (Ok (OValue (Some (VFltA [length l] (map fl l))))).
Example C35_example : lazily (ex_tree 0)
  [Access [A "profiles_1d"; Item (-1); A "ion"; Item 0; A "n"] true; Access [A "profiles_1d"] true; Access [A "profiles_1d"; Item 0; A "ion"] true;
   Access [A "profiles_1d"; Item 2] true; Access [A "profiles_1d"; Item 0; A "t_error_upper"] true; Access [A "profiles_1d"; Item 1; A "t_error_upper"] true;
   Access [A "nothing"] true; Access [A "profiles_1d"; Item 0; A "ion"; Item 1; A "label"] true] =
  Ok [vals [7; 8]%Z; Some (Ok (OSize 2)); Some (Ok (OSize 2)); Some (Err (QLazy NoElement)); Some (Ok (OValue None)); vals [1; 1]%Z;
      Some (Err (QLazy NoAttribute)); Some (Ok (OValue (Some (VStr (strs "T")))))].
Proof. vm_compute. reflexivity. Qed.

(** C35 refuted for the second access after the file was closed: the first access raises but leaves the child behind (ids_structure.py:65
    stores it before 67 loads it); the second access shows no value, or an array without elements. *)
Theorem C35_second_access_refuted : exists at_ fuel m r n g n' path1 path2 v,
  wf_meta m /\ mkind m = KStruct /\ names_ok m /\ nc_metadata at_ fuel m = Ok r /\ put m r no_units n = Ok g /\ get m r no_units g = Ok n' /\
  seen m n' path1 true (Ok (OValue (Some v))) /\ seen m n' path2 true (Ok (OSize 2)) /\
  qget m r no_units g [Close; Access path1 true; Access path1 true; Access path2 true; Access path2 true] =
    Ok [None; Some (Err (QLazy Unavailable)); Some (Ok (OValue None)); Some (Err (QLazy Unavailable)); Some (Ok (OSize 0))].
Proof.
  pose (ops := [Close; Access [A "time"] true; Access [A "time"] true; Access [A "profiles_1d"] true; Access [A "profiles_1d"] true]).
  assert (X : lazily (ex_tree 0) ops = Ok [None; Some (Err (QLazy Unavailable)); Some (Ok (OValue None)); Some (Err (QLazy Unavailable)); Some (Ok (OSize 0))]) by (vm_compute; reflexivity).
  assert (Y : exists fs els, again ex_m ex_r (ex_tree 0) = Ok (NStruct fs) /\ alookup (strs "time") fs = Some (vec [1; 2]%Z) /\ alookup (strs "profiles_1d") fs = Some (NAoS els) /\ length els = 2).
  { eexists _, _. split; [vm_compute; reflexivity|]. split; [vm_compute; reflexivity|]. split; [vm_compute; reflexivity|reflexivity]. }
  destruct Y as (fs & els & Y & T & P & LE). unfold lazily, again in X, Y. destruct (put ex_m ex_r no_units (ex_tree 0)) as [g|] eqn:PU; [|discriminate]. cbn [rbind] in X, Y.
  exists NcMetaProps.ex_at, 100, ex_m, ex_r, (ex_tree 0), g, (NStruct fs), [A "time"], [A "profiles_1d"], (VFltA [2] (map fl [1; 2]%Z)).
  destruct ex_m_ok as (W & K & NO & _ & _ & NM). split; auto. split; auto. split; auto. split; auto. split; auto. split; auto. split; [|split; [|exact X]].
  - assert (I : In (leaf "time" FLT 1) (mchildren ex_m)) by (cbn; tauto).
    assert (R : reach ex_m (NStruct fs) [A "time"] [Child (strs "time")] (leaf "time" FLT 1) (vec [1; 2]%Z)).
    { pose proof (re_attr (strs "core_profiles") (mchildren ex_m) fs (leaf "time" FLT 1) [] [] (leaf "time" FLT 1) (vec [1; 2]%Z) I) as Q. unfold LazySpec.field in Q. cbn [mname leaf] in Q. rewrite T in Q. apply Q. constructor. }
    exact (seen_ok _ _ _ true _ _ _ R).
  - pose (d := nth 2 (mchildren ex_m) ex_m). assert (I : In d (mchildren ex_m)) by (cbn; tauto).
    assert (R : reach ex_m (NStruct fs) [A "profiles_1d"] [Child (strs "profiles_1d")] d (NAoS els)).
    { pose proof (re_attr (strs "core_profiles") (mchildren ex_m) fs d [] [] d (NAoS els) I) as Q. unfold LazySpec.field in Q. change (mname d) with (strs "profiles_1d") in Q. rewrite P in Q. apply Q. constructor. }
    pose proof (seen_ok _ _ _ true _ _ _ R) as S. cbn [shown] in S. rewrite LE in S. exact S.
Qed.
Print Assumptions C35_second_access_refuted.
