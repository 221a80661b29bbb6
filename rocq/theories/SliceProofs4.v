(** A sequence of put_slice, then get. *)
From Verif Require Import Base TreeModel TreeSpec TreeProofs ConvSpec ConvProofs3 ConvProofs4 VmapModel
  StoreModel StoreSpec StoreProofs StoreProofs2 StoreProofs3 StoreProofs4 StoreProofs5 StoreProps SliceModel SliceSpec SliceProofs SliceProofs2 SliceProofs3.
From Verif Require PrimModel.

Section Slices.
Variable resize : nat -> nat -> nat.
Hypothesis RESIZE : forall n, resize n n = n.
Variable dynamic : list str -> bool.
Variable xml_tbp : list str -> str.
Variable maxoccur : list str -> option nat.
Variable mode : Z.
Variable verify : bool.
Variable m : meta.
Hypothesis NM : named m.
Hypothesis W : wf_meta m.
Hypothesis K : mkind m = KStruct.
Hypothesis MODE : mode = 0%Z \/ mode = 1%Z.
Hypothesis D1 : dynamic [strs "ids_properties"] = false.
Hypothesis D2 : dynamic [strs "ids_properties"; strs "homogeneous_time"] = false.
Notation position_of := (position_of dynamic xml_tbp None mode).
Notation extend := (extend dynamic xml_tbp append).
Notation stores := (stores dynamic xml_tbp mode m).
Notation put_slice := (put_slice resize dynamic xml_tbp maxoccur None verify dynamic m mode).
Notation put_slices := (put_slices resize dynamic xml_tbp maxoccur None verify dynamic m mode).

Lemma mode2 : mode <> 2%Z.
Proof. destruct MODE; subst; discriminate. Qed.
Lemma mode_is : is_mode mode = true.
Proof. destruct MODE as [E|E]; rewrite E; reflexivity. Qed.

Record holds (s : store) (c : contents) : Prop := {
  ho_stores : stores s c;
  ho_proper : proper m c;
  ho_mode : at_ c homogeneous_time = Some (VInt mode) }.

(** an IDS that can be put *)
Record ready (n : node) : Prop := {
  re_conf : conf m n;
  re_settled : settled m n;
  re_mode : leaf_at m n homogeneous_time (VInt mode) }.
Lemma ready_struct : forall n, ready n -> exists fs, n = NStruct fs.
Proof. intros n R. pose proof (re_conf _ R) as C. destruct m as [nm k cs]. cbn in K. subst k. inversion C; subst; eauto. Qed.
Lemma ready_mode : forall n, ready n -> at_ (contents_of n) homogeneous_time = Some (VInt mode).
Proof. intros n R. apply (contents_leaf m); auto using re_mode, re_conf. Qed.

Lemma mode_position : position_of false homogeneous_time mode_key.
Proof.
  unfold StoreSpec.position_of, homogeneous_time. apply po_child; [intros [[_ X]|X]; [cbn [app] in X; congruence|discriminate]|].
  apply po_child; [intros [[_ X]|X]; [cbn [app] in X; congruence|discriminate]|]. unfold mode_key.
  assert (E : (strs "ids_properties/homogeneous_time", []) = homogenised mode (path_of [strs "ids_properties"; strs "homogeneous_time"],
     own_base dynamic xml_tbp false [strs "ids_properties"; strs "homogeneous_time"] [strs "ids_properties"; strs "homogeneous_time"])).
  { unfold own_base. rewrite D2. reflexivity. }
  rewrite E. apply po_here. now apply pl_same.
Qed.
Lemma holds_mode : forall s c, holds s c -> s_data s mode_key = Some (VInt mode).
Proof.
  intros s c [S P M]. destruct (pr_leaf _ _ P _ _ M) as (m1 & dt & nd & L & KL & _). rewrite (proj1 S homogeneous_time m1 mode_key L); auto.
  - do 2 eexists; eauto.
  - apply mode_position.
Qed.
Lemma holds_read : forall s c, holds s c -> read_mode s = Ok mode.
Proof. intros s c H. unfold read_mode, read. rewrite (holds_mode s c H). reflexivity. Qed.
Lemma not_empty : (mode =? EMPTY_INT)%Z = false.
Proof. destruct MODE as [E|E]; rewrite E; reflexivity. Qed.

(** ** the first one *)
Lemma first : forall s n s', read_mode s = Ok EMPTY_INT -> ready n -> put_slice s m n = Ok s' -> holds s' (contents_of n).
Proof.
  intros s n s' RM R P. destruct (ready_struct n R) as [fs ->]. destruct R as [CF ST HM]. unfold SliceModel.put_slice, al_put_calls in P. rewrite RM in P.
  cbn [rbind] in P. rewrite Z.eqb_refl in P. cbn [rbind] in P. cbv zeta in P. destruct (put_children _ _ _ _ _ _ _ _ _) as [calls [e|]] eqn:PC; [discriminate P|]. injection P as <-.
  set (s0 := delete_children dynamic m s) in *.
  assert (INJ : forall l l' m1 m1' aos k, loc_ok m l m1 -> loc_ok m l' m1' -> mkind m1 <> KStruct -> mkind m1' <> KStruct ->
    position_of aos l k -> position_of aos l' k -> l = l').
  { intros l l' m1 m1' aos k L L' K1 K2 P1 P2. eapply (position_inj dynamic xml_tbp mode (length l) l l' m m); eauto. }
  assert (CL : forall l m1 aos k, loc_ok m l m1 -> mkind m1 <> KStruct -> position_of aos l k -> s_data s0 k = None /\ s_size s0 k = None).
  { intros l m1 aos k L K1 P1. apply (proj1 (C31_erases dynamic m s NM K)). eapply position_erased; eauto. }
  split.
  - split.
    + intros l m1 k L KL PO. destruct KL as (dt & nd & KL). pose proof (fun v => data_after dynamic xml_tbp maxoccur None mode verify s0 m fs NM W K CF INJ CL calls PC l m1 k v L ltac:(congruence) PO) as DA.
      destruct (s_data (apply_all s0 calls) k) as [v|] eqn:E.
      * symmetry. apply (contents_leaf m); auto. now apply DA.
      * destruct (at_ (contents_of (NStruct fs)) l) as [v|] eqn:E2; auto. apply (contents_leaf m) in E2; auto. apply DA in E2. congruence.
    + intros l m1 k L KL PO. pose proof (fun v => size_after dynamic xml_tbp maxoccur None mode verify s0 m fs NM W K CF INJ CL calls PC l m1 k v L ltac:(congruence) PO) as DA.
      destruct (s_size (apply_all s0 calls) k) as [v|] eqn:E.
      * pose proof (proj1 (DA v) eq_refl) as A. apply (contents_size m) in A; auto. destruct A as [-> A]. destruct v; [lia|reflexivity].
      * destruct (size (contents_of (NStruct fs)) l) as [|v] eqn:E2; auto. assert (A : aos_at m (NStruct fs) l (S v)) by (apply (contents_size m); auto; split; auto; lia).
        apply DA in A. congruence.
  - apply contents_proper; auto.
  - apply (contents_leaf m); auto.
Qed.

(** ** the next ones *)
Lemma extend_mode : forall a b v, at_ a homogeneous_time = Some v -> at_ (extend a b) homogeneous_time = Some v.
Proof.
  intros a b v H. unfold homogeneous_time in *. cbn [SliceSpec.extend at_ SliceSpec.series]. unfold has_time.
  change (loc_names [Child (strs "ids_properties"); Child (strs "homogeneous_time")]) with [strs "ids_properties"; strs "homogeneous_time"]. rewrite D2. cbn [andb]. exact H.
Qed.
Lemma put_slice_calls : forall s c fs, holds s c -> put_slice s m (NStruct fs) =
  match put_children dynamic xml_tbp maxoccur None mode true verify m (NStruct fs) with
  | (_, Some e) => Err e
  | (calls, None) => apply_slices resize s s calls
  end.
Proof.
  intros s c fs H. unfold SliceModel.put_slice, al_put_calls. rewrite (holds_read s c H). cbn [rbind]. rewrite not_empty, Z.eqb_refl. cbn [rbind]. cbv zeta.
  destruct (put_children _ _ _ _ _ _ _ _ _) as [calls [e|]]; reflexivity.
Qed.
Lemma next : forall s c n s', holds s c -> ready n -> same_sizes dynamic c (contents_of n) -> put_slice s m n = Ok s' -> holds s' (extend c (contents_of n)).
Proof.
  intros s c n s' H R SS P. destruct (ready_struct n R) as [fs ->]. destruct R as [CF ST HM]. rewrite (put_slice_calls s c fs H) in P.
  destruct (put_children _ _ _ _ _ _ _ _ _) as [calls [e|]] eqn:PC; [discriminate P|]. destruct H as [S PR M]. split.
  - eapply (stored_step resize RESIZE dynamic xml_tbp maxoccur mode verify m NM W K mode2 fs CF ST calls PC); eauto.
  - apply extend_proper; auto. apply contents_proper; auto.
  - now apply extend_mode.
Qed.

Definition fitting (a b : contents) : Prop :=
  forall l u v, at_ a l = Some u -> at_ b l = Some v -> has_time dynamic xml_tbp l = true -> append u v <> None.
Lemma next_fit : forall s c n s', holds s c -> ready n -> put_slice s m n = Ok s' -> fitting c (contents_of n).
Proof.
  intros s c n s' H R P. destruct (ready_struct n R) as [fs ->]. destruct R as [CF ST HM]. rewrite (put_slice_calls s c fs H) in P.
  destruct (put_children _ _ _ _ _ _ _ _ _) as [calls [e|]] eqn:PC; [discriminate P|]. destruct H as [S PR M]. intros l u v EA EB HT.
  eapply (step_fit resize RESIZE dynamic xml_tbp maxoccur mode verify m NM W K mode2 fs CF ST calls PC s c s'); eauto.
Qed.

(** ** reading *)
Lemma holds_get : forall s c, holds s c -> exists n', al_get dynamic xml_tbp None s m = Ok n' /\
  (forall l v, leaf_at m n' l v <-> at_ c l = Some v) /\ (forall l j, aos_at m n' l j <-> size c l = j /\ j > 0).
Proof.
  intros s c H. pose proof (holds_read s c H) as RM. destruct H as [[SD SZ] P M].
  assert (POS : forall aos l, exists k, position_of aos l k) by (apply (position_any dynamic xml_tbp mode mode2)).
  assert (NB : forall ns, target_of None ns <> Bad) by (intros ns E; discriminate).
  assert (COV : forall l, inside c l -> covered dynamic xml_tbp None mode s l).
  { intros l IN a i b ->. destruct (POS true a) as [k PO]. specialize (IN a i b eq_refl). assert (NZ : size c a <> 0) by lia.
    destruct (pr_size _ _ P _ NZ) as (m1 & L & KL & _). exists k, (size c a). split; auto. split; auto. rewrite (SZ a m1 k L KL PO). now destruct (size c a). }
  destruct (C42_get_succeeds dynamic xml_tbp None mode s m NM K NB) as [n' G].
  { intros l m' dt nd k v L KL PO D. rewrite (SD l m' k L) in D; auto; [|do 2 eexists; eauto]. destruct (pr_leaf _ _ P _ _ D) as (m1 & dt1 & nd1 & L1 & KL1 & V & _).
    assert (m1 = m') as -> by (eapply loc_ok_fun; eauto). rewrite KL in KL1. injection KL1 as <- <-. now apply val_ok_typed. }
  exists n'. split; [unfold al_get; rewrite RM; cbn [rbind]; rewrite mode_is; exact G|]. destruct (C42_get_exact _ _ _ _ _ _ _ NM W K G) as [GL GA]. split.
  - intros l v. rewrite GL. split.
    + intros (m' & dt & nd & k & L & KL & PO & D & _). rewrite (SD l m' k L) in D; auto. do 2 eexists; eauto.
    + intros A. destruct (pr_leaf _ _ P _ _ A) as (m1 & dt & nd & L & KL & V & F & E & IN). destruct (POS false l) as [k PO]. exists m1, dt, nd, k.
      split; auto. split; auto. split; auto. split; [|auto]. rewrite (SD l m1 k L); auto. do 2 eexists; eauto.
  - intros l j. rewrite GA. split.
    + intros (m' & k & L & KL & PO & D & J & _). split; auto. rewrite (SZ l m' k L KL PO) in D. destruct (size c l); congruence.
    + intros [A J]. assert (NZ : size c l <> 0) by lia. destruct (pr_size _ _ P _ NZ) as (m1 & L & KL & IN). destruct (POS true l) as [k PO]. exists m1, k.
      split; auto. split; auto. split; auto. split; [|auto]. rewrite (SZ l m1 k L KL PO). subst j. now destruct (size c l).
Qed.

(** ** all together *)
(** the sizes outside time slices are those of one of the slices *)
Lemma fold_size : forall l bs a, series dynamic [] l = None -> dynamic (loc_names l) = false -> size (fold_left extend bs a) l <> 0 ->
  exists c, In c (a :: bs) /\ size (fold_left extend bs a) l = size c l.
Proof.
  intros l bs. induction bs as [|b bs IH]; intros a S D N; cbn [fold_left] in *; [exists a; split; [now left|auto]|].
  destruct (IH (extend a b) S D N) as (c & [<-|I] & E).
  - rewrite E. cbn [SliceSpec.extend size]. rewrite S, D. destruct (size a l =? 0); [exists b; split; [right; now left|auto]|exists a; split; [now left|auto]].
  - exists c. split; auto. right. now right.
Qed.
Lemma fold_same : forall bs a b, (forall x, In x (a :: bs) -> same_sizes dynamic x b) -> same_sizes dynamic (fold_left extend bs a) b.
Proof. intros bs a b H l S D NA NB. destruct (fold_size l bs a S D NA) as (c & I & E). rewrite E in *. apply (H c I l S D); auto. Qed.

Definition fits_all (a : contents) (bs : list contents) : Prop :=
  forall pre b post, bs = pre ++ b :: post -> fitting (fold_left extend pre a) b.
Lemma slices_from : forall l s a bs s', holds s (fold_left extend bs a) -> fits_all a bs ->
  Forall ready l -> (forall x y, In x (a :: bs ++ map contents_of l) -> In y (map contents_of l) -> same_sizes dynamic x y) ->
  put_slices s m l = Ok s' -> holds s' (fold_left extend (bs ++ map contents_of l) a) /\ fits_all a (bs ++ map contents_of l).
Proof.
  induction l as [|n l IH]; intros s a bs s' H FA R SS P; cbn [SliceModel.put_slices] in P.
  - injection P as <-. cbn [map]. rewrite app_nil_r. auto.
  - inversion R as [|? ? RN RL]; subst. destruct (put_slice s m n) as [s1|e] eqn:P1; [|discriminate P]. cbn [rbind] in P.
    assert (H1 : holds s1 (fold_left extend (bs ++ [contents_of n]) a)).
    { rewrite fold_left_app. cbn [fold_left]. eapply next; eauto. apply fold_same. intros x I. apply SS; [|now left].
      destruct I as [<-|I]; [now left|right; apply in_or_app; now left]. }
    assert (FA1 : fits_all a (bs ++ [contents_of n])).
    { intros pre b post E. destruct post as [|z post] using rev_ind.
      - apply app_inj_tail in E. destruct E as [-> <-]. eapply next_fit; eauto.
      - clear IHpost. change (pre ++ b :: post ++ [z]) with (pre ++ (b :: post) ++ [z]) in E. rewrite app_assoc in E. apply app_inj_tail in E. destruct E as [E _]. eapply FA; eauto. }
    specialize (IH s1 a (bs ++ [contents_of n]) s' H1 FA1 RL). cbn [map]. rewrite <- app_assoc in IH. cbn [app] in IH. apply IH; auto.
    intros x y I J. apply SS; auto. now right.
Qed.

(** ** success *)
Lemma join_arrays_none : forall A (s1 s2 s3 : list nat) (d1 d2 d3 : list A) sh d, s1 <> [] -> join_arrays s1 d1 s2 d2 = Some (sh, d) ->
  join_arrays s1 d1 s3 d3 <> None -> join_arrays sh d s3 d3 <> None.
Proof.
  intros A s1 s2 s3 d1 d2 d3 sh d NE J H. unfold join_arrays in *. destruct (_ && _) in J; [|discriminate J]. injection J as <- <-.
  rewrite removelast_app by discriminate. cbn [removelast]. rewrite app_nil_r.
  assert (L : length (removelast s1 ++ [last s1 0 + last s2 0]) = length s1).
  { rewrite (app_removelast_last 0 NE) at 3. rewrite !app_length. reflexivity. }
  rewrite L. destruct (_ && _) in H |- *; [discriminate|congruence].
Qed.
Lemma append_none : forall dt nd u v w x, val_ok dt nd u -> append u v = Some w -> append u x <> None -> append w x <> None.
Proof.
  intros dt nd u v w x U A N. destruct U; destruct v; cbn in A; try discriminate A.
  2-4: match type of A with option_map _ ?j = _ => destruct j as [[s1 e1]|] eqn:J; [|discriminate A] end; injection A as <-; cbn [fst snd] in *;
       destruct x; cbn in N |- *; try congruence;
       match goal with N : option_map _ ?j <> None |- option_map _ ?k <> None => assert (NJ : j <> None) by (intros X; rewrite X in N; now apply N);
         pose proof (join_arrays_none _ _ _ _ _ _ _ _ _ ltac:(eassumption) J NJ) as Q; now destruct k end.
  injection A as <-. destruct x; cbn in *; congruence.
Qed.
Lemma time_top : forall x l v, proper m x -> at_ x l = Some v -> has_time dynamic xml_tbp l = true -> series dynamic [] l = None.
Proof.
  intros x l v P E HT. destruct (series dynamic [] l) as [[[p i] r]|] eqn:S; auto. exfalso. apply series_top in S. destruct S as (-> & DP & _).
  destruct (pr_leaf _ _ P _ _ E) as (m1 & dt & nd & L & KL & _). unfold has_time in HT. rewrite (inside_series dynamic m p i r m1 dt nd K L KL DP) in HT.
  cbn in HT. rewrite andb_false_r in HT. discriminate HT.
Qed.
Lemma fit_step : forall a b x, proper m a -> proper m x -> fitting a x -> fitting b x -> fitting (extend a b) x.
Proof.
  intros a b x PA PX FA FB l u v E EX HT. cbn [SliceSpec.extend at_] in E. rewrite (time_top x l v PX EX HT), HT in E. unfold joined in E.
  destruct (at_ a l) as [y|] eqn:EA.
  - destruct (at_ b l) as [z|] eqn:EB; [|injection E as <-; eapply FA; eauto].
    destruct (pr_leaf _ _ PA _ _ EA) as (m1 & dt & nd & L & KL & V & _). eapply append_none; eauto.
  - eapply FB; eauto.
Qed.
Lemma fold_proper : forall bs a, proper m a -> Forall (proper m) bs -> (forall x y, In x (a :: bs) -> In y bs -> same_sizes dynamic x y) -> proper m (fold_left extend bs a).
Proof.
  intros bs. induction bs as [|b bs IH] using rev_ind; intros a PA PB SS; auto. rewrite fold_left_app. cbn [fold_left]. apply Forall_app in PB. destruct PB as [PB P1].
  inversion P1; subst. apply extend_proper; auto.
  - apply IH; auto. intros x y I J. apply SS; [|apply in_or_app; now left]. destruct I as [<-|I]; [now left|right; apply in_or_app; now left].
  - apply fold_same. intros x I. apply SS; [|apply in_or_app; right; now left]. destruct I as [<-|I]; [now left|right; apply in_or_app; now left].
Qed.
Lemma fold_fit : forall bs a x, proper m a -> Forall (proper m) bs -> (forall y z, In y (a :: bs) -> In z bs -> same_sizes dynamic y z) -> proper m x ->
  (forall y, In y (a :: bs) -> fitting y x) -> fitting (fold_left extend bs a) x.
Proof.
  intros bs. induction bs as [|b bs IH] using rev_ind; intros a x PA PB SS PX F; [apply F; now left|]. rewrite fold_left_app. cbn [fold_left].
  apply Forall_app in PB. destruct PB as [PB P1]. inversion P1; subst.
  assert (SS' : forall y z, In y (a :: bs) -> In z bs -> same_sizes dynamic y z).
  { intros y z I J. apply SS; [|apply in_or_app; now left]. destruct I as [<-|I]; [now left|right; apply in_or_app; now left]. }
  apply fit_step; auto.
  - apply fold_proper; auto.
  - apply IH; auto. intros y I. apply F. destruct I as [<-|I]; [now left|right; apply in_or_app; now left].
  - apply F. right. apply in_or_app. right. now left.
Qed.

(** the sizes of arrays of structures are allowed *)
Definition allowed (n : node) : Prop := verify = true -> forall l k x, aos_at m n l k -> maxoccur (loc_names l) = Some (S x) -> k <= S x.
Lemma first_total : forall s n, read_mode s = Ok EMPTY_INT -> ready n -> allowed n -> exists s', put_slice s m n = Ok s'.
Proof.
  intros s n RM R A. destruct (ready_struct n R) as [fs ->]. destruct R as [CF ST HM]. unfold SliceModel.put_slice, al_put_calls. rewrite RM.
  cbn [rbind]. rewrite Z.eqb_refl. cbn [rbind]. cbv zeta. pose proof (C31_put_succeeds dynamic xml_tbp maxoccur mode false verify m fs NM K CF A) as PS.
  destruct (put_children _ _ _ _ _ _ _ _ _) as [calls e]. cbn in PS. subst e. eauto.
Qed.
Lemma next_total : forall s c n, holds s c -> ready n -> allowed n -> fitting c (contents_of n) -> exists s', put_slice s m n = Ok s'.
Proof.
  intros s c n H R A F. destruct (ready_struct n R) as [fs ->]. destruct R as [CF ST HM]. rewrite (put_slice_calls s c fs H).
  pose proof (C31_put_succeeds dynamic xml_tbp maxoccur mode true verify m fs NM K CF A) as PS.
  destruct (put_children _ _ _ _ _ _ _ _ _) as [calls e] eqn:PC. cbn in PS. subst e. destruct H as [S P M].
  eapply (step_total resize RESIZE dynamic xml_tbp maxoccur mode verify m NM W K fs CF ST calls PC); eauto.
Qed.
Lemma slices_total : forall l s a bs, holds s (fold_left extend bs a) -> proper m a -> Forall (proper m) bs ->
  Forall ready l -> Forall allowed l -> (forall x y, In x (a :: bs ++ map contents_of l) -> In y (bs ++ map contents_of l) -> same_sizes dynamic x y /\ fitting x y) ->
  exists s', put_slices s m l = Ok s'.
Proof.
  induction l as [|n l IH]; intros s a bs H PA PB R A SS; cbn [SliceModel.put_slices]; [eauto|].
  inversion R as [|? ? RN RL]; subst. inversion A as [|? ? AN AL]; subst.
  assert (PN : proper m (contents_of n)) by (destruct RN; now apply contents_proper).
  assert (SN : forall x, In x (a :: bs) -> same_sizes dynamic x (contents_of n) /\ fitting x (contents_of n)).
  { intros x I. apply SS; [|apply in_or_app; right; now left]. destruct I as [<-|I]; [now left|right; apply in_or_app; now left]. }
  destruct (next_total s (fold_left extend bs a) n H RN AN) as [s1 P1].
  { apply fold_fit; auto; [|intros y I; apply SN; auto]. intros y z I J. apply SS; [|apply in_or_app; now left].
    destruct I as [<-|I]; [now left|right; apply in_or_app; now left]. }
  rewrite P1. cbn [rbind]. apply (IH s1 a (bs ++ [contents_of n])); auto.
  - rewrite fold_left_app. cbn [fold_left]. eapply next; eauto. apply fold_same. intros x I. now apply SN.
  - apply Forall_app. split; auto.
  - intros x y I J. rewrite <- app_assoc in *. now apply SS.
Qed.
End Slices.
