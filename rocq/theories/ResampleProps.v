(** C43: resampling selects existing time slices.  C26: the common time base and the resampled quantities of pulse_schedule. *)
From Coq Require Import Sorting.Sorted.
From Verif Require Import Base TreeModel TreeSpec TreeProofs TreeProps TreeCheck StoreProofs2 ResampleModel ResampleSpec ResampleProofs ResampleProofs2.
From Verif Require Import ValProofs.
From Verif Require ConvProofs2.

Section C43.
Variable dynamic : list str -> bool.
Variable time_index : list str -> option nat.
Variables old new : list flt.
Notation resample := (resample dynamic time_index old new).

(** the data node at l depends on time and is not a time base *)
Definition over_time (l : loc) : Prop := dynamic (loc_names l) = true /\ last (loc_names l) [] <> strs "time".

Lemma over_time_changes : forall l, changes dynamic (loc_names l) = true <-> over_time l.
Proof.
  intros l. unfold changes, over_time. rewrite Bool.andb_true_iff, Bool.negb_true_iff. split; intros [A B]; split; auto.
  - intros E. rewrite E, str_eqb_refl in B. discriminate.
  - apply str_eqb_neq. auto.
Qed.

Lemma resample_value_spec : forall dt nd axis v v', val_ok dt nd v -> filled_value v -> resample_value old new axis v = Ok v' ->
  exists a, axis = Some a /\ resampled old new a v v' /\ Forall (in_range old) new /\ (new <> [] <-> filled_value v').
Proof.
  assert (NE : forall A a sh (d : list A) sh' d', prod sh = length d -> d <> [] -> slices old new a sh d sh' d' -> (new <> [] <-> d' <> [])).
  { intros A a sh d sh' d' P N (pre & post & -> & _ & -> & L & _). rewrite prod_app, prod_cons in P, L.
    assert (LD : length d <> 0) by (destruct d; cbn; congruence). rewrite <- P in LD. split; intros H E.
    - rewrite E in L. cbn in L. symmetry in L. apply Nat.mul_eq_0 in L. destruct L as [L|L]; [rewrite L in LD; lia|]. apply Nat.mul_eq_0 in L.
      destruct L as [L|L]; [destruct new; cbn in L; congruence|rewrite L in LD; lia].
    - rewrite E in L. cbn in L. rewrite Nat.mul_0_r in L. destruct d'; cbn in L; [congruence|lia]. }
  intros dt nd [a|] v v' V F H; cbn [resample_value] in H; [|discriminate]. exists a. split; auto.
  destruct V; try discriminate; cbn [filled_value] in F;
    (destruct (resample_array old new a sh d) as [[sh' d']|e] eqn:R; cbn [rbind fst snd] in H; [|discriminate]); inversion H; subst v';
    match goal with P : prod _ = length _ |- _ => destruct (resample_array_spec _ _ _ _ _ _ _ _ P R) as [S G]; split; [constructor; exact S|]; split; [exact G|]; exact (NE _ _ _ _ _ _ P F S) end.
Qed.

(** The result of a successful resampling of an IDS, in full: data that do not depend on time and the sizes of arrays of structures are
    the same; data that depend on time hold, for every new time, the slice of the latest old time not later than it; the time base is the
    new one.  Every new time lies within the old time base if there are data to resample. *)
Theorem C43_resample : forall mode nm cs tm fs n', wf_meta (Meta nm KStruct cs) -> conf (Meta nm KStruct cs) (NStruct fs) ->
  In tm cs -> mname tm = strs "time" -> is_leaf tm -> resample mode (Meta nm KStruct cs) (NStruct fs) = Ok n' ->
  let m := Meta nm KStruct cs in let n := NStruct fs in
  mode = 1%Z /\
  (forall l k, aos_at m n' l k <-> aos_at m n l k) /\
  (forall l v, l <> [Child (strs "time")] -> ~ over_time l -> (leaf_at m n' l v <-> leaf_at m n l v)) /\
  (forall l v, over_time l -> leaf_at m n l v ->
     exists axis v', time_index (loc_names l) = Some axis /\ resampled old new axis v v' /\ Forall (in_range old) new /\ (new <> [] -> leaf_at m n' l v')) /\
  (forall l v', over_time l -> leaf_at m n' l v' ->
     exists axis v, time_index (loc_names l) = Some axis /\ resampled old new axis v v' /\ leaf_at m n l v) /\
  (forall v, leaf_at m n' [Child (strs "time")] v <-> new <> [] /\ v = VFltA [length new] new).
Proof.
  intros mode nm cs tm fs n' W C TI TN TL R m n. unfold ResampleModel.resample in R. destruct (mode =? 1)%Z eqn:M; [|discriminate]. apply Z.eqb_eq in M.
  fold m n in R. destruct (resample_node dynamic time_index old new m [] n) as [n1|e] eqn:R1; cbn [rbind] in R; [|discriminate].
  assert (T : forall l x', holds m n1 l x' <-> exists x, holds m n l x /\ becomes dynamic time_index old new (loc_names l) x x').
  { intros l x'. rewrite (tree_ok dynamic time_index old new m [] n n1 W C ltac:(intros (? & ? & ?); discriminate) R1 l x'). cbn [app]. reflexivity. }
  assert (F1 : exists fs1, n1 = NStruct fs1).
  { unfold m, n in R1. rewrite rnode_struct in R1. destruct (to_struct dynamic time_index old new [] cs fs); cbn [rbind] in R1; [|discriminate]. inversion R1; eauto. }
  destruct F1 as (fs1 & ->). inversion R; subst n'. clear R.
  set (tn := NLeaf (Some (VFltA [length new] new))).
  assert (ND : NoDup (map mname cs)) by (inversion W; auto).
  assert (TU : forall d, In d cs -> mname d = strs "time" -> d = tm).
  { intros d D E. rewrite <- TN in E. clear - ND D TI E. induction cs as [|a l IH]; [destruct D|]. cbn in ND. inversion ND; subst.
    destruct D as [->|D], TI as [->|TI]; auto; exfalso; match goal with H : ~ In _ _ |- _ => apply H end; [rewrite E|rewrite <- E]; now apply List.in_map. }
  assert (HT : forall l x, holds m (NStruct (aset (strs "time") tn fs1)) (Child (strs "time") :: l) x <-> l = [] /\ new <> [] /\ x = ILeaf (VFltA [length new] new)).
  { intros l x. unfold m. rewrite holds_struct. destruct TL as (dt & nd & TL). destruct tm as [tnm tk tcs]. cbn [mkind mname] in TL, TN. subst tk tnm. split.
    - intros (d & ch & l' & E & D & A & H). inversion E as [[E1 E2]]. subst l'. symmetry in E1. pose proof (TU d D E1). subst d.
      cbn [mname] in A. rewrite alookup_aset_same in A. inversion A; subst ch. apply holds_leaf in H.
      destruct H as (-> & w & E3 & -> & F). inversion E3; subst w. cbn [filled_value] in F. auto.
    - intros (-> & N & ->). exists (Meta (strs "time") (KLeaf dt nd) tcs), tn, []. split; auto. split; auto. split; [apply alookup_aset_same|].
      apply holds_leaf. split; auto. exists (VFltA [length new] new). auto. }
  assert (HO : forall s l x, s <> Child (strs "time") -> (holds m (NStruct (aset (strs "time") tn fs1)) (s :: l) x <-> holds m (NStruct fs1) (s :: l) x)).
  { intros s l x NS. unfold m. rewrite !holds_struct. split; intros (d & ch & l' & E & D & A & H); exists d, ch, l'; split; auto; split; auto; split; auto.
    - rewrite alookup_aset_other in A; auto. inversion E; subst. congruence.
    - rewrite alookup_aset_other; auto. inversion E; subst. congruence. }
  assert (HN : forall k x, ~ holds m (NStruct k) [] x) by (intros k x H; unfold m in H; apply holds_struct in H; destruct H as (? & ? & ? & E & _); discriminate).
  assert (TH : forall l x, holds m n (Child (strs "time") :: l) x -> l = [] /\ exists v, x = ILeaf v).
  { intros l x H. unfold m, n in H. apply holds_struct in H. destruct H as (d & ch & l' & E & D & A & H). inversion E as [[E1 E2]]. subst l'. symmetry in E1.
    pose proof (TU d D E1). subst d. assert (CT : conf tm ch) by (inversion C; subst; eauto). destruct TL as (dt & nd & TL). destruct tm as [tnm tk tcs]. cbn [mkind] in TL. subst tk.
    destruct (conf_leaf_inv _ _ _ _ _ CT) as [->|(v & -> & V)]; apply holds_leaf in H; destruct H as (-> & w & E3 & -> & F); eauto. }
  split; [auto|]. split; [|split; [|split; [|split]]].
  - intros [|s l] k; [split; intros H; exfalso; [apply (HN _ (ISize k) H)|apply (HN _ (ISize k) H)]|].
    destruct (ConvProofs2.step_dec s (Child (strs "time"))) as [->|NS].
    + split; intros H; exfalso; [apply (HT l (ISize k)) in H; destruct H as (_ & _ & E); discriminate|apply (TH l (ISize k)) in H; destruct H as (_ & v & E); discriminate].
    + rewrite (HO s l (ISize k) NS : aos_at m (NStruct (aset (strs "time") tn fs1)) (s :: l) k <-> _). rewrite T. split.
      * intros ([v|j] & H & B); cbn [becomes] in B; [destruct B as (? & E & _); discriminate|]. inversion B; subst. exact H.
      * intros H. exists (ISize k). split; [exact H|reflexivity].
  - intros [|s l] v NT NO; [split; intros H; exfalso; [apply (HN _ (ILeaf v) H)|apply (HN _ (ILeaf v) H)]|].
    destruct (ConvProofs2.step_dec s (Child (strs "time"))) as [->|NS].
    + split; intros H; exfalso; [apply (HT l (ILeaf v)) in H; destruct H as (-> & _)|apply (TH l (ILeaf v)) in H; destruct H as (-> & _)]; congruence.
    + assert (NC : changes dynamic (loc_names (s :: l)) = false) by (destruct (changes dynamic (loc_names (s :: l))) eqn:E; auto; apply over_time_changes in E; tauto).
      rewrite (HO s l (ILeaf v) NS : leaf_at m (NStruct (aset (strs "time") tn fs1)) (s :: l) v <-> _). rewrite T. split.
      * intros ([w|j] & H & B); cbn [becomes] in B; [|discriminate]. rewrite NC in B. destruct B as (w' & E & _ & ->). inversion E; subst. exact H.
      * intros H. exists (ILeaf v). split; [exact H|]. cbn [becomes]. rewrite NC. exists v. split; auto. split; auto. destruct H as (? & _ & _ & F); exact F.
  - intros l v OT H. pose proof OT as CH. apply over_time_changes in CH. destruct l as [|s l]; [exfalso; exact (HN _ (ILeaf v) H)|].
    assert (NS : s <> Child (strs "time")).
    { intros ->. destruct (TH l (ILeaf v) H) as (-> & _). destruct OT as [_ O]. apply O. reflexivity. }
    assert (RV : exists v', resample_value old new (time_index (loc_names (s :: l))) v = Ok v').
    { destruct H as (m' & ML & NA & FV). clear - R1 NA ML FV W C CH.
      pose proof (resample_leaf_ok dynamic time_index old new m [] n (NStruct fs1) W C ltac:(intros (? & ? & ?); discriminate) R1 (s :: l) v (ex_intro _ m' (conj ML (conj NA FV))) CH) as X. exact X. }
    destruct RV as (v' & RV). destruct H as (m' & ML & NA & FV).
    assert (VO : exists dt nd, val_ok dt nd v).
    { pose proof (node_at_conf _ _ _ _ _ NA C) as CV. destruct ML as (dt & nd & ML). destruct m' as [n0 k0 c0]. cbn in ML. subst k0. exists dt, nd. inversion CV; auto. }
    destruct VO as (dt & nd & VO). destruct (resample_value_spec _ _ _ _ _ VO FV RV) as (a & TA & RS & IR & FN).
    exists a, v'. split; auto. split; auto. split; auto. intros NN. apply (HO s l (ILeaf v') NS). apply T. exists (ILeaf v).
    split; [exists m'; auto|]. cbn [becomes]. rewrite CH. exists v'. split; auto. split; [now apply FN|auto].
  - intros l v' OT H. pose proof OT as CH. apply over_time_changes in CH. destruct l as [|s l]; [exfalso; exact (HN _ (ILeaf v') H)|].
    assert (NS : s <> Child (strs "time")).
    { intros ->. apply (HT l (ILeaf v')) in H. destruct H as (-> & _). destruct OT as [_ O]. apply O. reflexivity. }
    apply (HO s l (ILeaf v') NS) in H. apply T in H. destruct H as ([v|j] & H & B); cbn [becomes] in B; [|discriminate]. rewrite CH in B.
    destruct B as (w & E & FW & RV). inversion E; subst w. destruct H as (m' & ML & NA & FV).
    assert (VO : exists dt nd, val_ok dt nd v).
    { pose proof (node_at_conf _ _ _ _ _ NA C) as CV. destruct ML as (dt & nd & ML). destruct m' as [n0 k0 c0]. cbn in ML. subst k0. exists dt, nd. inversion CV; auto. }
    destruct VO as (dt & nd & VO). destruct (resample_value_spec _ _ _ _ _ VO FV RV) as (a & TA & RS & IR & FN).
    exists a, v. split; auto. split; auto. exists m'. auto.
  - intros v. rewrite (HT [] (ILeaf v) : leaf_at m _ [Child (strs "time")] v <-> _). split; [intros (_ & A & B); inversion B; auto|intros (A & ->); auto].
Qed.

(** the array can be resampled: it has the length of the old time base on its time axis *)
Definition has_time_axis (l : loc) (v : value) : Prop :=
  exists axis, time_index (loc_names l) = Some axis /\
    match v with VIntA sh _ | VFltA sh _ | VCpxA sh _ => nth_error sh axis = Some (length old) | _ => False end.

(** Resampling succeeds exactly if the time mode is homogeneous and every filled node that depends on time is a numeric array with the length of
    the old time base on its time axis, and (unless there is none) all new times lie within the old ones. *)
Theorem C43_succeeds : forall mode m n, wf_meta m -> conf m n -> ~ is_leaf m ->
  ((exists n', resample mode m n = Ok n') <->
   mode = 1%Z /\ forall l v, over_time l -> leaf_at m n l v -> has_time_axis l v /\ Forall (in_range old) new).
Proof.
  intros mode m n W C NL. unfold ResampleModel.resample. split.
  - intros (n' & R). destruct (mode =? 1)%Z eqn:M; [|discriminate]. apply Z.eqb_eq in M. split; auto.
    destruct (resample_node dynamic time_index old new m [] n) as [n1|e] eqn:R1; cbn [rbind] in R; [|discriminate].
    intros l v OT H. apply over_time_changes in OT.
    destruct (resample_leaf_ok dynamic time_index old new m [] n n1 W C ltac:(intros L; contradiction) R1 l v H OT) as (v' & RV). cbn [app] in RV.
    destruct H as (m' & (dt & nd & ML) & NA & FV). pose proof (node_at_conf _ _ _ _ _ NA C) as CV. destruct m' as [n0 k0 c0]. cbn in ML. subst k0.
    assert (VO : val_ok dt nd v) by (inversion CV; auto).
    destruct (resample_value_spec _ _ _ _ _ VO FV RV) as (a & TA & RS & IR & _). split; auto. exists a. split; auto.
    assert (X : forall A sh (d : list A) sh' d', slices old new a sh d sh' d' -> nth_error sh a = Some (length old)).
    { intros A sh d sh' d' (pre & post & -> & <- & _). rewrite nth_error_app2, Nat.sub_diag by lia. reflexivity. }
    destruct RS; eapply X; eauto.
  - intros (-> & H). rewrite Z.eqb_refl.
    assert (G : exists n', resample_node dynamic time_index old new m [] n = Ok n').
    { apply tree_total; auto; [intros L; contradiction|]. cbn [app]. intros l v L CH. apply over_time_changes in CH. destruct (H l v CH L) as [(a & TA & V) IR]. rewrite TA.
      assert (RI : exists idx, rmap (previous_index old) new = Ok idx).
      { apply rmap_total. intros t I. apply previous_index_total. rewrite Forall_forall in IR. auto. }
      destruct RI as (idx & RI). unfold resample_value, resample_array. destruct v; try contradiction; rewrite V, Nat.eqb_refl, RI; cbn [rbind]; eauto. }
    destruct G as (n' & ->). cbn [rbind]. destruct n'; eauto.
Qed.
End C43.
Print Assumptions C43_resample.
Print Assumptions C43_succeeds.

(** [latest] determines the slice: it exists for every time in range, and is unique *)
Theorem C43_latest : forall x t, in_range x t -> exists k, latest x t k /\ forall k', latest x t k' -> k' = k.
Proof.
  intros x t [E _]. destruct (latest_exists x t E) as (k & L). exists k. split; auto. intros k' L'. eapply latest_fun; eauto.
Qed.
Print Assumptions C43_latest.

(** ** Example: a 2D quantity with time as second axis, one constant, a static array *)
Definition S2 (s : string) : str := strs s.
Definition rs_meta : meta := Meta (S2 "core") KStruct
  [Meta (S2 "time") (KLeaf FLT 1) []; Meta (S2 "j") (KLeaf INT 2) []; Meta (S2 "z") (KLeaf INT 1) [];
   Meta (S2 "slice") KAoS [Meta (S2 "ip") (KLeaf INT 0) []]].
Definition rs_dynamic (p : list str) : bool := existsb (str_eqb (last p [])) [S2 "time"; S2 "j"; S2 "ip"].
Definition rs_index (p : list str) : option nat := if str_eqb (last p []) (S2 "j") then Some 1 else if str_eqb (last p []) (S2 "time") then Some 0 else None.
Definition rs_fields : list (str * node) :=
  [(S2 "time", NLeaf (Some (VFltA [3] [10; 20; 30]%Z))); (S2 "j", NLeaf (Some (VIntA [2; 3] [1; 2; 3; 4; 5; 6]%Z)));
   (S2 "z", NLeaf (Some (VIntA [3] [7; 8; 9]%Z)))].
Example C43_example :
  wf_meta rs_meta /\ conf rs_meta (NStruct rs_fields) /\
  resample rs_dynamic rs_index [10; 20; 30]%Z [25; 10; 20; 30]%Z 1%Z rs_meta (NStruct rs_fields) =
    Ok (NStruct [(S2 "time", NLeaf (Some (VFltA [4] [25; 10; 20; 30]%Z)));
                 (S2 "j", NLeaf (Some (VIntA [2; 4] [2; 1; 2; 3; 5; 4; 5; 6]%Z))); (S2 "z", NLeaf (Some (VIntA [3] [7; 8; 9]%Z)))]) /\
  resample rs_dynamic rs_index [10; 20; 30]%Z [35]%Z 1%Z rs_meta (NStruct rs_fields) = Err OutOfRange.
Proof. split; [by_check|]. split; [by_check|]. split; vm_compute; reflexivity. Qed.

(** C43 refuted for data inside an array of structures that depends on time: these have no time axis of their own and the whole call raises. *)
Theorem C43_dynamic_aos_refuted : exists dynamic time_index old new m n, wf_meta m /\ conf m n /\ Forall (in_range old) new /\
  (exists k, aos_at m n [Child (S2 "slice")] k /\ k = length old) /\ resample dynamic time_index old new 1%Z m n = Err NoTimeAxis.
Proof.
  exists rs_dynamic, rs_index, [10; 20]%Z, [10]%Z, rs_meta,
    (NStruct [(S2 "time", NLeaf (Some (VFltA [2] [10; 20]%Z))); (S2 "slice", NAoS [NStruct [(S2 "ip", NLeaf (Some (VInt 1%Z)))]; NStruct [(S2 "ip", NLeaf (Some (VInt 2%Z)))]])]).
  split; [by_check|]. split; [by_check|]. split.
  { constructor; [|constructor]. split; exists 10%Z; split; cbn; auto; lia. }
  split; [|vm_compute; reflexivity]. exists 2. split; [|reflexivity]. exists (Meta (S2 "slice") KAoS [Meta (S2 "ip") (KLeaf INT 0) []]). eexists. split.
  { unfold rs_meta. eapply (na_child _ _ _ (Meta (S2 "slice") KAoS [Meta (S2 "ip") (KLeaf INT 0) []]) _ []); [cbn; auto|vm_compute; reflexivity|constructor]. }
  split; [reflexivity|]. split; [reflexivity|lia].
Qed.
Print Assumptions C43_dynamic_aos_refuted.

(** * C26 *)

(** The common time base is strictly increasing and holds exactly the points of the time bases (equal times, 0.0 and -0.0, are one point). *)
Theorem C26_time_base : forall m n tb, conf m n -> ~ is_leaf m -> common_time_base m n = Ok tb ->
  strictly_increasing tb /\
  (forall t, In t tb -> exists l sh d, leaf_at m n (l ++ [Child (strs "time")]) (VFltA sh d) /\ In t d) /\
  (forall l sh d t, leaf_at m n (l ++ [Child (strs "time")]) (VFltA sh d) -> In t d -> exists t', In t' tb /\ f_key t' = f_key t).
Proof.
  intros m n tb C NL H. unfold common_time_base in H. destruct (time_bases m n) as [bases|e] eqn:B; cbn [rbind] in H; [|discriminate]. inversion H; subst tb. clear H.
  unfold time_bases in B. apply rmap_ok in B. pose proof (forall2_nth _ _ _ _ _ B) as NB.
  assert (IT : forall l, is_time l = true <-> exists l', l = l' ++ [Child (strs "time")]).
  { intros l. unfold is_time. destruct l as [|s l] using rev_ind; [cbn; split; [discriminate|intros (l' & E); destruct l'; discriminate]|]. rewrite last_last.
    destruct s as [nm|i].
    - rewrite str_eqb_eq. split; [intros ->; eauto|]. intros (l' & E). apply app_inj_tail in E. destruct E as [_ E]. now inversion E.
    - split; [discriminate|]. intros (l' & E). apply app_inj_tail in E. destruct E as [_ E]. discriminate. }
  split; [apply unique_sorted|]. split.
  - intros t I. apply unique_from in I. apply in_concat in I. destruct I as (d & Id & It). apply In_nth_error in Id. destruct Id as (i & Ei).
    destruct (proj2 (NB i) _ Ei) as ([l x] & E & TV). apply nth_error_In in E. apply filter_In in E. destruct E as [E IS]. cbn [fst snd] in *.
    apply IT in IS. destruct IS as (l' & ->). apply (C13_leaves_exact m n C NL) in E. destruct E as (v & -> & L). cbn [time_values] in TV.
    destruct v as [| | | | | |sh d0|]; try discriminate. destruct sh as [|k [|]]; try discriminate. inversion TV; subst d0. eauto.
  - intros l sh d t L It.
    assert (I : In (l ++ [Child (strs "time")], NLeaf (Some (VFltA sh d))) (filter (fun x => is_time (fst x)) (tree_iter true false false m n))).
    { apply filter_In. split; [apply (C13_leaves_exact m n C NL); eauto|]. cbn [fst]. apply IT. eauto. }
    apply In_nth_error in I. destruct I as (i & Ei). destruct (proj1 (NB i) _ Ei) as (d' & Ed & TV). cbn [snd time_values] in TV.
    assert (d' = d) by (destruct sh as [|k [|]]; try discriminate; inversion TV; auto). subst d'.
    apply unique_has. apply in_concat. exists d. split; auto. eapply nth_error_In; eauto.
Qed.
Print Assumptions C26_time_base.

Section C26.
Variable lin : flt -> flt -> flt -> flt -> flt -> flt.

Lemma count_at : forall x t, strictly_increasing x -> forall i u, nth_error x i = Some u -> ((f_key u <= f_key t)%Z <-> i < count_le x t).
Proof.
  intros x t S i u E. unfold count_le. rewrite <- (count_prefix flt (fun a b => (f_key a < f_key b)%Z) (fun a => fle a t)) with (i := i) (a := u); auto.
  - unfold fle. now rewrite Z.leb_le.
  - intros a b L B. unfold fle in *. apply Z.leb_le in B. apply Z.leb_le. lia.
Qed.
Lemma count_le_max : forall x t, count_le x t <= length x.
Proof. intros. unfold count_le. induction x as [|a l IH]; cbn; auto. destruct (fle a t); cbn; lia. Qed.
Lemma hd_nth : forall x : list Z, x <> [] -> nth_error x 0 = Some (hd 0%Z x).
Proof. intros [|a l] H; [congruence|reflexivity]. Qed.
Lemma last_nth : forall x : list Z, x <> [] -> nth_error x (length x - 1) = Some (last x 0%Z).
Proof.
  intros x H. destruct (exists_last H) as (l & a & ->). rewrite last_last, app_length. cbn. replace (length l + 1 - 1) with (length l) by lia.
  rewrite nth_error_app2, Nat.sub_diag by lia. reflexivity.
Qed.

(** the value of a quantity at one time of the common time base *)
Inductive at_time (time : list flt) (d : list Z) (exact_between : bool) (t : flt) (y : Z) : Prop :=
| at_before : (f_key t < f_key (hd 0 time))%Z -> nth_error d 0 = Some y -> at_time time d exact_between t y
| at_after : (f_key (last time 0) < f_key t)%Z -> nth_error d (length d - 1) = Some y -> at_time time d exact_between t y
| at_point : forall i u, nth_error time i = Some u -> f_key u = f_key t -> nth_error d i = Some y -> at_time time d exact_between t y
| at_latest : forall i u w, exact_between = true -> nth_error time i = Some u -> nth_error time (S i) = Some w -> (f_key u < f_key t < f_key w)%Z ->
    nth_error d i = Some y -> at_time time d exact_between t y
| at_between : forall i u w a b, exact_between = false -> nth_error time i = Some u -> nth_error time (S i) = Some w -> (f_key u < f_key t < f_key w)%Z ->
    nth_error d i = Some a -> nth_error d (S i) = Some b -> y = lin u w a b t -> at_time time d exact_between t y.

Lemma inside : forall time t, strictly_increasing time -> time <> [] -> flt_lt t (hd 0%Z time) = false -> flt_lt (last time 0%Z) t = false ->
  let j := count_le time t - 1 in j < length time /\ clip 1 (length time) (count_le time t) - 1 = j /\
  exists u, nth_error time j = Some u /\ (f_key u <= f_key t)%Z /\
    (f_key u = f_key t \/ (S j < length time /\ exists w, nth_error time (S j) = Some w /\ (f_key u < f_key t < f_key w)%Z)).
Proof.
  intros time t S NE B1 B2 j. apply Z.ltb_ge in B1. apply Z.ltb_ge in B2. pose proof (count_le_max time t) as CM.
  assert (C1 : 0 < count_le time t) by (apply (count_at time t S 0 _ (hd_nth time NE)); lia).
  assert (JL : j < length time) by (unfold j; lia). split; auto. split; [unfold clip, j; lia|].
  destruct (nth_error time j) as [u|] eqn:Eu; [|apply nth_error_None in Eu; lia]. exists u. split; auto.
  assert (LE : (f_key u <= f_key t)%Z) by (apply (count_at time t S j u Eu); unfold j; lia). split; auto.
  destruct (Z.eq_dec (f_key u) (f_key t)) as [E|N]; auto. right.
  destruct (nth_error time (Datatypes.S j)) as [w|] eqn:Ew.
  - split; [apply nth_error_Some; congruence|]. exists w. split; auto. split; [lia|].
    destruct (Z_lt_ge_dec (f_key t) (f_key w)) as [|G]; auto. exfalso. assert (X : (f_key w <= f_key t)%Z) by lia.
    apply (count_at time t S (Datatypes.S j) w Ew) in X. unfold j in X. lia.
  - exfalso. apply nth_error_None in Ew. assert (J : j = length time - 1) by lia. assert (LN : nth_error time j = Some (last time 0%Z)) by (rewrite J; apply (last_nth time NE)). assert (u = last time 0%Z) by congruence. subst u. lia.
Qed.

(** A quantity with strictly increasing times is resampled on the common time base as follows: its own values at its own times, the first
    (last) value before (after) its times, and in between the latest value (integers) or the interpolation of the two neighbours (floats). *)
Theorem C26_resampled : forall tb time v v', strictly_increasing time -> time <> [] -> resample_callback lin tb time v = Ok v' ->
  match v, v' with
  | VIntA _ d, VIntA sh d' => sh = [length tb] /\ length d = length time /\ length d' = length tb /\
      forall q t, nth_error tb q = Some t -> exists y, nth_error d' q = Some y /\ at_time time d true t y
  | VFltA _ d, VFltA sh d' => sh = [length tb] /\ length d = length time /\ length d' = length tb /\
      forall q t, nth_error tb q = Some t -> exists y, nth_error d' q = Some y /\ at_time time d false t y
  | _, _ => False
  end.
Proof.
  intros tb time v v' S NE H.
  assert (ND : forall (d : list Z), length d = length time -> d <> []) by (intros d L E; subst; destruct time; cbn in L; congruence).
  unfold resample_callback in H. destruct v as [| | | | |sh d|sh d|]; try discriminate; destruct sh as [|k [|]]; try discriminate;
    (destruct (Nat.eqb (length d) (length time)) eqn:L; [|discriminate]); apply Nat.eqb_eq in L; inversion H; subst v'; pose proof (ND d L) as Nd; pose proof (hd_nth d Nd) as HD; pose proof (last_nth d Nd) as LD;
    (split; [auto|]; split; [auto|]; split; [apply map_length|]); intros q t E; rewrite nth_error_map, E; cbn [option_map]; eexists; (split; [reflexivity|]).
  - unfold interp_previous. destruct (flt_lt t (hd 0%Z time)) eqn:B1; [apply at_before; [now apply Z.ltb_lt|auto]|].
    destruct (flt_lt (last time 0%Z) t) eqn:B2; [apply at_after; [now apply Z.ltb_lt|auto]|].
    destruct (inside time t S NE B1 B2) as (J & CL & u & Eu & LE & CASE). rewrite CL.
    assert (NJ : nth_error d (count_le time t - 1) = Some (nth (count_le time t - 1) d 0%Z)) by (apply nth_error_nth'; lia).
    destruct CASE as [E1|(J' & w & Ew & B)]; [eapply at_point; eauto|apply (at_latest time d true t _ (count_le time t - 1) u w); auto].
  - unfold interp_linear. destruct (flt_lt t (hd 0%Z time)) eqn:B1; [apply at_before; [now apply Z.ltb_lt|auto]|].
    destruct (flt_lt (last time 0%Z) t) eqn:B2; [apply at_after; [now apply Z.ltb_lt|auto]|].
    destruct (inside time t S NE B1 B2) as (J & CL & u & Eu & LE & CASE). cbv zeta.
    set (j := count_le time t - 1) in *.
    assert (NJ : nth_error d j = Some (nth j d 0%Z)) by (apply nth_error_nth'; lia).
    assert (Nu : nth j time 0%Z = u) by (now apply nth_error_nth). rewrite Nu.
    destruct CASE as [E1|(J' & w & Ew & B)].
    + assert (X : at_time time d false t (nth j d 0%Z)) by (eapply at_point; eauto).
      destruct (Nat.eqb j (length time - 1)); auto. replace (fle t u) with true by (symmetry; apply Z.leb_le; lia). auto.
    + replace (Nat.eqb j (length time - 1)) with false by (symmetry; apply Nat.eqb_neq; lia). replace (fle t u) with false by (symmetry; apply Z.leb_gt; lia).
      rewrite (nth_error_nth time (Datatypes.S j) 0%Z Ew).
      assert (NS : nth_error d (Datatypes.S j) = Some (nth (Datatypes.S j) d 0%Z)) by (apply nth_error_nth'; lia).
      apply (at_between time d false t _ j u w (nth j d 0%Z) (nth (Datatypes.S j) d 0%Z)); auto.
Qed.

(** No value is lost: every value of the quantity is found on the common time base at its own time. *)
Theorem C26_no_loss : forall m n tb l sh time v v' k d, conf m n -> ~ is_leaf m -> common_time_base m n = Ok tb ->
  leaf_at m n (l ++ [Child (strs "time")]) (VFltA sh time) -> strictly_increasing time ->
  (v = VIntA [k] d \/ v = VFltA [k] d) -> resample_callback lin tb time v = Ok v' ->
  exists d', (v' = VIntA [length tb] d' \/ v' = VFltA [length tb] d') /\
    forall i t y, nth_error time i = Some t -> nth_error d i = Some y ->
      exists q t', nth_error tb q = Some t' /\ f_key t' = f_key t /\ nth_error d' q = Some y.
Proof.
  intros m n tb l sh time v v' k d C NL TB LF S V R. destruct (C26_time_base m n tb C NL TB) as (_ & _ & HAS).
  assert (NE : time <> []) by (destruct LF as (? & _ & _ & F); exact F).
  assert (ONE : forall eb t y y0 i u, nth_error time i = Some u -> f_key t = f_key u -> nth_error d i = Some y -> length d = length time -> at_time time d eb t y0 -> y0 = y).
  { intros eb t y y0 i u E K Y L A.
    assert (MONO : forall a b ta tb0, nth_error time a = Some ta -> nth_error time b = Some tb0 -> (f_key ta < f_key tb0)%Z -> a < b).
    { intros a b ta tb0 Ea Eb LT. destruct (lt_eq_lt_dec a b) as [[?| ->]|G]; auto; [assert (ta = tb0) by congruence; subst; lia|].
      pose proof (sorted_nth _ _ _ S b a _ _ G Eb Ea) as X. cbn in X. lia. }
    assert (SAME : forall a b ta tb0, nth_error time a = Some ta -> nth_error time b = Some tb0 -> f_key ta = f_key tb0 -> a = b).
    { intros a b ta tb0 Ea Eb EQ. destruct (lt_eq_lt_dec a b) as [[G| ->]|G]; auto; exfalso;
      [pose proof (sorted_nth _ _ _ S a b _ _ G Ea Eb) as X|pose proof (sorted_nth _ _ _ S b a _ _ G Eb Ea) as X]; cbn in X; lia. }
    destruct A as [B N0|B N0|i0 u0 E0 K0 N0|i0 u0 w0 _ E0 W0 B N0|i0 u0 w0 a b _ E0 W0 B _ _ _].
    - exfalso. pose proof (MONO i 0 _ _ E (hd_nth time NE) ltac:(lia)). lia.
    - exfalso. assert (i < length time) by (apply nth_error_Some; congruence). assert (LK : nth_error time (length time - 1) = Some (last time 0%Z)) by (apply (last_nth time NE)).
      pose proof (MONO (length time - 1) i _ _ LK E ltac:(lia)). lia.
    - assert (i0 = i) by (eapply SAME; eauto; lia). subst. congruence.
    - exfalso. pose proof (MONO i0 i _ _ E0 E ltac:(lia)). pose proof (MONO i (Datatypes.S i0) _ _ E W0 ltac:(lia)). lia.
    - exfalso. pose proof (MONO i0 i _ _ E0 E ltac:(lia)). pose proof (MONO i (Datatypes.S i0) _ _ E W0 ltac:(lia)). lia. }
  pose proof (C26_resampled tb time v v' S NE R) as P.
  assert (D : exists eb d', (v' = VIntA [length tb] d' \/ v' = VFltA [length tb] d') /\ length d = length time /\
    forall q t, nth_error tb q = Some t -> exists y, nth_error d' q = Some y /\ at_time time d eb t y).
  { destruct V as [->| ->]; destruct v'; try contradiction; destruct P as (-> & L & L' & P); [exists true|exists false]; eexists; eauto. }
  destruct D as (eb & d' & V' & L & P'). exists d'. split; auto. intros i t y E Y.
  destruct (HAS l sh time t LF (nth_error_In _ _ E)) as (t' & I' & K'). apply In_nth_error in I'. destruct I' as (q & Eq).
  exists q, t'. split; auto. split; auto. destruct (P' q t' Eq) as (y0 & N0 & A). rewrite N0. f_equal. eapply ONE; eauto.
Qed.

(** The callback accepts exactly the 1D integer and float quantities of the length of their time base. *)
Theorem C26_accepts : forall tb time v, (exists v', resample_callback lin tb time v = Ok v') <->
  exists k d, (v = VIntA [k] d \/ v = VFltA [k] d) /\ length d = length time.
Proof.
  intros tb time v. unfold resample_callback. split.
  - intros (v' & H). destruct v as [| | | | |sh d|sh d|]; try discriminate; destruct sh as [|k [|]]; try discriminate;
    (destruct (Nat.eqb (length d) (length time)) eqn:L; [|discriminate]); apply Nat.eqb_eq in L; eauto.
  - intros (k & d & [->| ->] & L); apply Nat.eqb_eq in L; change (@length flt d) with (@length Z d); rewrite L; eauto.
Qed.
End C26.
Print Assumptions C26_resampled.
Print Assumptions C26_no_loss.
Print Assumptions C26_accepts.

(** ** Examples *)
Definition ps_meta : meta := Meta (S2 "ec") KStruct
  [Meta (S2 "power") KStruct [Meta (S2 "data") (KLeaf FLT 1) []; Meta (S2 "time") (KLeaf FLT 1) []];
   Meta (S2 "mode") KStruct [Meta (S2 "data") (KLeaf INT 1) []; Meta (S2 "time") (KLeaf FLT 1) []]].
Definition ps_node : node := NStruct
  [(S2 "power", NStruct [(S2 "data", NLeaf (Some (VFltA [2] [100; 200]%Z))); (S2 "time", NLeaf (Some (VFltA [2] [30; 50]%Z)))]);
   (S2 "mode", NStruct [(S2 "data", NLeaf (Some (VIntA [3] [1; 2; 3]%Z))); (S2 "time", NLeaf (Some (VFltA [3] [20; 40; 50]%Z)))])].
Definition mid (x0 x1 y0 y1 t : flt) : flt := ((y0 + y1) / 2)%Z.
Example C26_example :
  conf ps_meta ps_node /\ ~ is_leaf ps_meta /\ common_time_base ps_meta ps_node = Ok [20; 30; 40; 50]%Z /\
  resample_callback mid [20; 30; 40; 50]%Z [30; 50]%Z (VFltA [2] [100; 200]%Z) = Ok (VFltA [4] [100; 100; 150; 200]%Z) /\
  resample_callback mid [20; 30; 40; 50]%Z [20; 40; 50]%Z (VIntA [3] [1; 2; 3]%Z) = Ok (VIntA [4] [1; 1; 2; 3]%Z).
Proof. split; [by_check|]. split; [intros (? & ? & ?); discriminate|]. repeat split; vm_compute; reflexivity. Qed.
Example C26_example_time : strictly_increasing [20; 40; 50]%Z.
Proof. unfold strictly_increasing. repeat constructor. Qed.

(** C26 refuted for a time base with a repeated point (a step): one of the two values is lost. *)
Theorem C26_repeated_time_refuted : exists lin tb time d d' i y, np_unique time = tb /\ nth_error d i = Some y /\
  resample_callback lin tb time (VFltA [length d] d) = Ok (VFltA [length tb] d') /\ ~ In y d'.
Proof.
  exists mid, [10; 20; 30]%Z, [10; 20; 20; 30]%Z, [1; 2; 3; 4]%Z, [1; 3; 4]%Z, 1, 2%Z.
  split; [vm_compute; reflexivity|]. split; [reflexivity|]. split; [vm_compute; reflexivity|]. cbn. intuition discriminate.
Qed.
Print Assumptions C26_repeated_time_refuted.
