(** C58: appending time slices.  What a get returns after a number of put_slice. *)
From Verif Require Import Base TreeModel TreeSpec TreeProofs TreeCheck ConvSpec ConvProofs3 ConvProofs4 VmapModel
  StoreModel StoreSpec StoreProofs StoreProofs2 StoreProofs4 StoreProps StoreProps2 SliceModel SliceSpec SliceProofs SliceProofs2 SliceProofs3 SliceProofs4 SliceProofs5.
From Verif Require PrimModel.

(** n and then the ones in l are stored with put_slice, in an occurrence without data; all of them are IDSs of the dictionary of the entry,
    with the same homogeneous_time, and arrays of structures that do not depend on time have the same size in all of them. *)
Record session (resize : nat -> nat -> nat) (dynamic : list str -> bool) (xml_tbp : list str -> str) (maxoccur : list str -> option nat) (verify : bool)
    (mode : Z) (m : meta) (s : store) (n : node) (l : list node) : Prop := {
  se_named : named m;
  se_wf : wf_meta m;
  se_struct : mkind m = KStruct;
  se_mode : mode = 0%Z \/ mode = 1%Z;
  se_props : dynamic [strs "ids_properties"] = false;
  se_time : dynamic [strs "ids_properties"; strs "homogeneous_time"] = false;
  se_resize : forall k, resize k k = k;
  se_empty : read_mode s = Ok EMPTY_INT;
  se_ready : forall x, In x (n :: l) -> conf m x /\ settled m x /\ leaf_at m x homogeneous_time (VInt mode);
  se_sizes : forall x y, In x (n :: l) -> In y l -> same_sizes dynamic (contents_of x) (contents_of y) }.

Section C58.
Variable resize : nat -> nat -> nat.
Variable dynamic : list str -> bool.
Variable xml_tbp : list str -> str.
Variable maxoccur : list str -> option nat.
Variable verify : bool.
Variable mode : Z.
Variable m : meta.
Variable s : store.
Variable n : node.
Variable l : list node.
Hypothesis SE : session resize dynamic xml_tbp maxoccur verify mode m s n l.
Notation extend := (extend dynamic xml_tbp append).
Notation put_slices := (put_slices resize dynamic xml_tbp maxoccur None verify dynamic m mode).
Notation get := (al_get dynamic xml_tbp None).
Notation total := (fold_left extend (map contents_of l) (contents_of n)).

Lemma se_all : Forall (ready mode m) (n :: l).
Proof. apply Forall_forall. intros x I. destruct (se_ready _ _ _ _ _ _ _ _ _ _ SE x I) as (A & B & C). now split. Qed.
Lemma se_pairs : forall x y, In x (contents_of n :: map contents_of l) -> In y (map contents_of l) -> same_sizes dynamic x y.
Proof.
  intros x y I J. apply List.in_map_iff in J. destruct J as (y0 & <- & J). change (contents_of n :: map contents_of l) with (map contents_of (n :: l)) in I.
  apply List.in_map_iff in I. destruct I as (x0 & <- & I). exact (se_sizes _ _ _ _ _ _ _ _ _ _ SE x0 y0 I J).
Qed.
Lemma se_proper : proper m (contents_of n) /\ Forall (proper m) (map contents_of l).
Proof.
  pose proof se_all as A. pose proof (se_wf _ _ _ _ _ _ _ _ _ _ SE) as W. inversion A as [|? ? AN AL]; subst. split; [destruct AN; now apply contents_proper|].
  apply Forall_forall. intros x I. apply List.in_map_iff in I. destruct I as (y & <- & I). rewrite Forall_forall in AL. destruct (AL y I). now apply contents_proper.
Qed.
Lemma se_holds : forall s', put_slices s m (n :: l) = Ok s' ->
  holds dynamic xml_tbp mode m s' total /\ fits_all dynamic xml_tbp (contents_of n) (map contents_of l).
Proof.
  intros s' P. destruct SE as [NM W K MO D1 D2 RZ EM RE SZ]. pose proof se_all as A. inversion A as [|? ? AN AL]; subst. cbn [SliceModel.put_slices] in P.
  destruct (put_slice resize dynamic xml_tbp maxoccur None verify dynamic m mode s m n) as [s1|e] eqn:P1; [|discriminate P]. cbn [rbind] in P.
  assert (H1 : holds dynamic xml_tbp mode m s1 (fold_left extend [] (contents_of n))).
  { cbn [fold_left]. eapply (first resize RZ dynamic xml_tbp maxoccur mode verify m NM W K D1 D2); eauto. }
  assert (F1 : fits_all dynamic xml_tbp (contents_of n) []) by (intros [|? ?] b post E; discriminate E).
  apply (slices_from resize RZ dynamic xml_tbp maxoccur mode verify m NM W K MO D1 D2 l s1 (contents_of n) [] s' H1 F1 AL); auto.
  intros x y I J. apply se_pairs; auto.
Qed.

(** C58: after the put_slices, a get returns exactly: the first IDS, extended by the second one, extended by the third one, … *)
Theorem C58_slices : forall s', put_slices s m (n :: l) = Ok s' ->
  exists n', get s' m = Ok n' /\
    (forall p v, leaf_at m n' p v <-> at_ total p = Some v) /\
    (forall p k, aos_at m n' p k <-> size total p = k /\ k > 0).
Proof.
  intros s' P. destruct (se_holds s' P) as [H _]. destruct SE as [NM W K MO D1 D2 RZ EM RE SZ].
  eapply holds_get; eauto.
Qed.

(** C58: the put_slices succeed if the arrays of structures are not too large for the backend and the arrays with a time dimension have the
    same other dimensions in all slices in which they are filled.  *)
Theorem C58_succeeds : 
  (verify = true -> forall x p k j, In x (n :: l) -> aos_at m x p k -> maxoccur (loc_names p) = Some (S j) -> k <= S j) ->
  (forall x y p u v, In x (n :: l) -> In y l -> leaf_at m x p u -> leaf_at m y p v -> has_time dynamic xml_tbp p = true -> append u v <> None) ->
  exists s', put_slices s m (n :: l) = Ok s'.
Proof.
  intros MX FT. pose proof se_proper as [PN PL]. pose proof se_all as A. pose proof se_pairs as SP. destruct SE as [NM W K MO D1 D2 RZ EM RE SZ].
  inversion A as [|? ? AN AL]; subst. cbn [SliceModel.put_slices].
  assert (AW : forall x, In x (n :: l) -> allowed maxoccur verify m x) by (intros x I V p k j; now apply MX).
  assert (FT1 : exists s1, put_slice resize dynamic xml_tbp maxoccur None verify dynamic m mode s m n = Ok s1) by (eapply first_total; eauto; apply AW; now left).
  destruct FT1 as [s1 P1]. rewrite P1. cbn [rbind].
  eapply slices_total with (a := contents_of n) (bs := []); eauto.
  - cbn [fold_left]. eapply (first resize RZ dynamic xml_tbp maxoccur mode verify m NM W K D1 D2); eauto.
  - apply Forall_forall. intros x I. apply AW. now right.
  - cbn [app]. intros x y I J. split; [now apply SP|]. intros p u v EX EY HT.
    apply List.in_map_iff in J. destruct J as (y0 & <- & J). change (contents_of n :: map contents_of l) with (map contents_of (n :: l)) in I.
    apply List.in_map_iff in I. destruct I as (x0 & <- & I).
    destruct (RE x0 I) as (CX & _). destruct (RE y0 (or_intror J)) as (CY & _).
    apply (FT x0 y0 p u v I J); auto; apply (contents_leaf m); auto.
Qed.

(** the number of elements, or of times, of the slices before *)
Definition elements (p : loc) (pre : list node) : nat := list_sum (map (fun x => size (contents_of x) p) pre).
Definition instants (p : loc) (pre : list node) : nat := list_sum (map (fun x => times (contents_of x) p) pre).
Lemma map_map_size : forall p ns, map (fun c => size c p) (map contents_of ns) = map (fun x => size (contents_of x) p) ns.
Proof. intros p ns. now rewrite map_map. Qed.
Lemma map_map_times : forall p ns, map (fun c => times c p) (map contents_of ns) = map (fun x => times (contents_of x) p) ns.
Proof. intros p ns. now rewrite map_map. Qed.

(** C58: time dependent array of structures (not in an element of another one).  It has the elements of all slices, one after the other:
    its element [elements pre + i] is element i of slice b, where pre are the slices before b.  Of the first slice everything is there, of the
    other ones the dynamic data. *)
Theorem C58_elements : forall s' n' p, put_slices s m (n :: l) = Ok s' -> get s' m = Ok n' ->
  series dynamic [] p = None -> dynamic (loc_names p) = true ->
  (forall k, aos_at m n' p k <-> k = elements p (n :: l) /\ k > 0) /\
  (forall pre b post i r, n :: l = pre ++ b :: post -> i < size (contents_of b) p ->
    (forall v, leaf_at m n' (p ++ Elem (elements p pre + i) :: r) v <->
       leaf_at m b (p ++ Elem i :: r) v /\ (pre = [] \/ dynamic (loc_names (p ++ Elem i :: r)) = true)) /\
    (forall k, aos_at m n' (p ++ Elem (elements p pre + i) :: r) k <-> aos_at m b (p ++ Elem i :: r) k)).
Proof.
  intros s' n' p P G S D. destruct (C58_slices s' P) as (n2 & G2 & GL & GA). assert (n2 = n') as -> by congruence. split.
  - intros k. rewrite GA, (fold_size_series dynamic xml_tbp p (map contents_of l) (contents_of n) S D). unfold elements.
    change (contents_of n :: map contents_of l) with (map contents_of (n :: l)). rewrite map_map_size. split; intros [A B]; split; auto.
  - intros pre b post i r E I.
    assert (E2 : contents_of n :: map contents_of l = map contents_of pre ++ contents_of b :: map contents_of post).
    { change (contents_of n :: map contents_of l) with (map contents_of (n :: l)). rewrite E, map_app. reflexivity. }
    destruct (fold_elem dynamic xml_tbp p i r (map contents_of l) (contents_of n) (map contents_of pre) (contents_of b) (map contents_of post) S D E2 I) as [H1 H2].
    rewrite map_map_size, map_length in H1. rewrite map_map_size in H2. fold (elements p pre) in H1, H2.
    assert (IB : In b (n :: l)) by (rewrite E; apply in_or_app; right; now left). destruct SE as [NM W K MO D1 D2 RZ EM RE SZ]. destruct (RE b IB) as (CB & _ & _). split.
    + intros v. rewrite GL, H1. destruct pre as [|x pre]; cbn [length Nat.eqb orb].
      * rewrite <- (contents_leaf m b (p ++ Elem i :: r) v W CB). tauto.
      * rewrite <- (contents_leaf m b (p ++ Elem i :: r) v W CB). destruct (dynamic (loc_names (p ++ Elem i :: r))).
        -- split; [auto|tauto].
        -- split; [discriminate|]. intros [_ [X|X]]; discriminate X.
    + intros k. rewrite GA, H2. exact (contents_size m b (p ++ Elem i :: r) k W CB).
Qed.

(** C58: data with a time dimension (not in an element of a time dependent array of structures).  The last dimension is the sum of those
    of the slices, the other dimensions are those of the slices; column [instants pre + t] is column t of slice b.  *)
Theorem C58_times : forall s' n' p, put_slices s m (n :: l) = Ok s' -> get s' m = Ok n' ->
  series dynamic [] p = None -> has_time dynamic xml_tbp p = true ->
  (forall w, leaf_at m n' p w -> last (shape w) 0 = instants p (n :: l) /\ exists b, In b (n :: l) /\ exists v, leaf_at m b p v) /\
  (forall pre b post v, n :: l = pre ++ b :: post -> leaf_at m b p v ->
     exists w, leaf_at m n' p w /\ removelast (shape w) = removelast (shape v) /\
       forall x t, x < rows v -> t < last (shape v) 0 ->
         nth_item w (x * instants p (n :: l) + (instants p pre + t)) = nth_item v (x * last (shape v) 0 + t)).
Proof.
  intros s' n' p P G S HT. destruct (C58_slices s' P) as (n2 & G2 & GL & GA). assert (n2 = n') as -> by congruence. destruct (se_holds s' P) as [_ FA].
  pose proof se_proper as [PN PL]. destruct SE as [NM W K MO D1 D2 RZ EM RE SZ].
  destruct (fold_times dynamic xml_tbp m W p (map contents_of l) (contents_of n) S HT PN PL FA) as [_ FT].
  assert (EI : list_sum (map (fun c => times c p) (contents_of n :: map contents_of l)) = instants p (n :: l)).
  { change (contents_of n :: map contents_of l) with (map contents_of (n :: l)). rewrite map_map_times. reflexivity. }
  rewrite EI in FT. split.
  - intros w LW. apply GL in LW. destruct FT as [(w' & m1 & dt & nd & EW & _ & _ & _ & LL & _)|[EW _]]; rewrite EW in LW; [|discriminate LW]. injection LW as ->. split; auto.
    destruct (existsb (fun b => match at_ (contents_of b) p with Some _ => true | None => false end) (n :: l)) eqn:EX.
    + apply existsb_exists in EX. destruct EX as (b & IB & EB). destruct (at_ (contents_of b) p) as [v|] eqn:EV; [|discriminate EB]. exists b. split; auto. exists v.
      apply (contents_leaf m); auto. now apply RE.
    + exfalso. assert (Z : forall ns, (forall b, In b ns -> at_ b p = None) -> forall c, at_ c p = None -> at_ (fold_left extend ns c) p = None).
      { intros ns. induction ns as [|b ns IH]; intros H c Hc; cbn [fold_left]; auto. apply IH; [intros; apply H; now right|]. cbn [SliceSpec.extend at_]. rewrite S, HT, Hc.
        rewrite (H b (or_introl eq_refl)). reflexivity. }
      assert (AN : forall b, In b (n :: l) -> at_ (contents_of b) p = None).
      { intros b IB. destruct (at_ (contents_of b) p) as [v|] eqn:EV; auto.
        assert (X : existsb (fun b => match at_ (contents_of b) p with Some _ => true | None => false end) (n :: l) = true) by (apply existsb_exists; exists b; rewrite EV; auto).
        congruence. }
      rewrite Z in EW; [discriminate EW| |apply AN; now left]. intros b IB. apply List.in_map_iff in IB. destruct IB as (b0 & <- & IB). apply AN. now right.
  - intros pre b post v E LV. assert (IB : In b (n :: l)) by (rewrite E; apply in_or_app; right; now left).
    apply (contents_leaf m) in LV; auto; [|now apply RE].
    assert (E2 : contents_of n :: map contents_of l = map contents_of pre ++ contents_of b :: map contents_of post).
    { change (contents_of n :: map contents_of l) with (map contents_of (n :: l)). rewrite E, map_app. reflexivity. }
    destruct FT as [(w & m1 & dt & nd & EW & _ & _ & _ & LL & H)|[_ NO]].
    + destruct (H _ _ _ v E2 LV) as [R1 R2]. exists w. split; [now apply GL|]. split; auto. intros x t X T. rewrite map_map_times in R2. fold (instants p pre) in R2.
      assert (TB : times (contents_of b) p = last (shape v) 0) by (unfold times; now rewrite LV). rewrite TB, LL in R2. apply R2; auto.
    + rewrite (NO (contents_of b)) in LV; [discriminate LV|]. rewrite E2. apply in_or_app. right. now left.
Qed.

(** C58: data that do not depend on time, and are not in elements of a time dependent array of structures: those of the first slice *)
Theorem C58_static : forall s' n' p v, put_slices s m (n :: l) = Ok s' -> get s' m = Ok n' ->
  series dynamic [] p = None -> dynamic (loc_names p) = false -> (leaf_at m n' p v <-> leaf_at m n p v).
Proof.
  intros s' n' p v P G S D. destruct (C58_slices s' P) as (n2 & G2 & GL & GA). assert (n2 = n') as -> by congruence. rewrite GL.
  rewrite (fold_static dynamic xml_tbp p (map contents_of l) (contents_of n) S D).
  apply contents_leaf; [exact (se_wf _ _ _ _ _ _ _ _ _ _ SE)|]. apply (se_ready _ _ _ _ _ _ _ _ _ _ SE). now left.
Qed.
End C58.
Print Assumptions C58_slices.
Print Assumptions C58_succeeds.
Print Assumptions C58_elements.
Print Assumptions C58_times.
Print Assumptions C58_static.
