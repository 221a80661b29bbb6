(** C25: conversion rules that change the representation are inverse to each other. *)
From Verif Require Import Base PathModel TreeModel TreeSpec TreeProofs TreeProofs2 TreeProofs4 TreeCheck ValModel ValProofs ValProofs2 PrimModel PrimSpec PrimProps ConvModel ConvSpec ConvInverse
  ConvProofs ConvProofs2 ConvProofs3 ConvProofs4 ConvProofs5 ConvProps.
From Verif Require VmapModel.
Import VmapModel(handler(..), nmap).

Lemma obs_nonempty : forall m n, wf_meta m -> conf m n -> (has_value m n = true <-> exists r, fval m n r <> None \/ exists k, fsize m n r = Some (S k)).
Proof.
  intros m n W C. rewrite has_value_nonempty by auto. split.
  - intros (l & [(v & H)|(k & H)]); exists l.
    + left. apply fval_leaf in H; auto. congruence.
    + right. assert (k > 0) by (destruct H as (? & ? & _ & _ & _ & ?); auto). destruct k; [lia|]. exists k. apply fsize_aos; auto.
  - intros (r & [H|(k & H)]); exists r.
    + left. destruct (fval m n r) as [v|] eqn:E; [|congruence]. exists v. apply fval_leaf; auto.
    + right. exists (S k). apply fsize_aos; auto.
Qed.

Section C25.
Variable tm : meta.
Variable str_of : pyval -> str.
Variable parse_float : str -> option flt.
Variable parse_cpx : str -> option (flt * flt).
Variable flt_of_int : Z -> option flt.
Variable np_cast : dtype -> pyval -> result pexn value.
Variable array_items : value -> list pyval.
Notation assign := (assign tm str_of parse_float parse_cpx flt_of_int np_cast array_items).
Notation reassign := (reassign tm str_of parse_float parse_cpx flt_of_int np_cast array_items).
Notation post_process := (post_process tm str_of parse_float parse_cpx flt_of_int np_cast array_items).
Notation fval := (fval tm).
Notation fsize := (fsize tm).
Hypothesis W : wf_meta tm.
Hypothesis SO : str_ok tm.
Hypothesis casts : casts_arrays np_cast.

(** only the value at l changes *)
Definition only (l : loc) (n n' : node) : Prop := forall q, q <> l -> fval n' q = fval n q /\ fsize n' q = fsize n q.
(** a data node of the type *)
Definition data_node (l : loc) (dt : dtype) (nd : nat) : Prop := exists nm cs, loc_ok tm l (Meta nm (KLeaf dt nd) cs).

Lemma look_data : forall l dt nd n v, data_node l dt nd -> fval n l = Some v -> exists nm cs, look tm n l = Some (Meta nm (KLeaf dt nd) cs, NLeaf (Some v)) /\ leaf_has_value nd (Some v) = true.
Proof.
  intros l dt nd n v (nm & cs & L) E. unfold ConvProofs.fval in E. destruct (look tm n l) as [[m' n']|] eqn:K; [|discriminate].
  pose proof (loc_ok_fun _ _ _ W L _ (look_loc_ok _ _ _ _ _ K)). subst m'. destruct n' as [| |[v'|]]; try discriminate.
  destruct (leaf_has_value nd (Some v')) eqn:HV; [|discriminate]. injection E as ->. eauto.
Qed.
Lemma assign_ok : forall l from st v dt nd old nm cs, look tm (c_tree st) l = Some (Meta nm (KLeaf dt nd) cs, NLeaf old) -> val_ok dt nd v -> (nd = 0 -> ~ empty dt v) ->
  leaf_has_value nd (Some v) = true ->
  exists st', assign l from (of_value v) st = (st', Ok tt) /\ fval (c_tree st') l = Some v /\ only l (c_tree st) (c_tree st') /\
    (conf tm (c_tree st) -> conf tm (c_tree st')).
Proof.
  intros l from st v dt nd old nm cs L VO NE HV.
  assert (X : exists st', assign l from (of_value v) st = (st', Ok tt) /\ (conf tm (c_tree st) -> conf tm (c_tree st'))).
  { unfold ConvModel.assign. rewrite L. unfold set_value. simpl. rewrite (cast_same str_of parse_float parse_cpx flt_of_int np_cast array_items); [|exact (proj2 casts)|exact VO].
    eexists. split; [reflexivity|]. intros C. cbn [c_tree]. eapply conf_update; eauto. destruct ((nd =? 0) && is_empty dt v); constructor. auto. }
  destruct X as (st' & E & CF). exists st'. split; auto.
  destruct (assign_same tm str_of parse_float parse_cpx flt_of_int np_cast array_items) with (t := l) (from := from) (v := v) (st := st) (st' := st') (mt := Meta nm (KLeaf dt nd) cs) (dt := dt) (nd := nd) as (A & _ & B); auto.
  - exact (proj2 casts).
  - eapply look_loc_ok; eauto.
Qed.
Lemma reassign_ok : forall k l f st v w dt nd, data_node l dt nd -> fval (c_tree st) l = Some v -> f v = Some w -> val_ok dt nd w -> (nd = 0 -> ~ empty dt w) ->
  leaf_has_value nd (Some w) = true ->
  exists st', reassign k l f st = (st', Ok tt) /\ fval (c_tree st') l = Some w /\ only l (c_tree st) (c_tree st') /\
    (conf tm (c_tree st) -> conf tm (c_tree st')).
Proof.
  intros k l f st v w dt nd D E F VO NE HV. destruct (look_data _ _ _ _ _ D E) as (nm & cs & L & HV').
  unfold ConvModel.reassign, target_value, cview, view, cbind, lift, read. cbn [c_tree c_shared].
  assert (I : info_at tm (c_tree st) l = Some (ILeaf nd v)) by (unfold info_at; rewrite L; reflexivity).
  rewrite I. cbn [c_tree c_shared]. rewrite info_access, I, F. unfold of_option, cret.
  set (s1 := {| c_tree := access tm (c_tree st) l; c_shared := c_shared st |}).
  assert (E1 : fval (c_tree s1) l = Some v) by (destruct (obs_access l tm (c_tree st) l) as (O & _); simpl; congruence).
  destruct (look_data _ _ _ _ _ D E1) as (nm1 & cs1 & L1 & _).
  match goal with |- context [assign l ?from _ _] => destruct (assign_ok l from s1 w dt nd _ _ _ L1 VO NE HV) as (st' & A1 & A2 & A3 & A4) end.
  exists st'. split; auto. split; auto. split; [|intros C; apply A4; simpl; apply access_conf; auto]. intros q NQ. destruct (A3 q NQ) as (B1 & B2), (obs_access l tm (c_tree st) q) as (O1 & O2). simpl in *. split; congruence.
Qed.

(** *** Signs: COCOS and direction of the current *)
Theorem C25_sign_flip : forall l dt nd st v, data_node l dt nd -> dt <> STR -> fval (c_tree st) l = Some v -> val_ok dt nd v -> ints32 v ->
  (nd = 0 -> ~ empty dt v /\ forall w, opposite v w -> ~ empty dt w) ->
  exists st1 st2 w, post_process H_cocos l st = (st1, Ok tt) /\ opposite v w /\ fval (c_tree st1) l = Some w /\ only l (c_tree st) (c_tree st1) /\
                    post_process H_cocos l st1 = (st2, Ok tt) /\ fval (c_tree st2) l = Some v /\ only l (c_tree st1) (c_tree st2).
Proof.
  intros l dt nd st v D NS E VO I NE. destruct (negate_spec _ _ _ VO NS I) as (w & N1 & OP & N2 & VW & IW).
  destruct (look_data _ _ _ _ _ D E) as (nm & cs & L & HV).
  assert (HW : leaf_has_value nd (Some w) = true).
  { unfold leaf_has_value, leaf_size in *. destruct nd; auto. destruct OP; simpl in *; auto. }
  destruct (reassign_ok false l negate st v w dt nd D E N1 VW) as (st1 & R1 & V1 & O1 & _); auto. { intros Z. apply (proj2 (NE Z)); auto. }
  destruct (reassign_ok false l negate st1 w v dt nd D V1 N2 VO) as (st2 & R2 & V2 & O2 & _); auto. { intros Z. apply (proj1 (NE Z)). }
  assert (P : forall s x, fval (c_tree s) l = Some x -> post_process H_cocos l s = reassign false l negate s).
  { intros s x Ex. destruct (look_data _ _ _ _ _ D Ex) as (nm' & cs' & L' & _). unfold ConvModel.post_process, cview, lift, view, cbind. unfold info_at. rewrite L'. cbn [info_of mkind]. destruct s; reflexivity. }
  exists st1, st2, w. rewrite (P st v E), (P st1 w V1). auto 8.
Qed.

(** *** Connections of circuits *)
Theorem C25_connections : forall l st v w, data_node l INT 2 -> connections v w -> filled_value v ->
  (fval (c_tree st) l = Some v -> exists st1 st2, post_process H_connections_3to4 l st = (st1, Ok tt) /\ fval (c_tree st1) l = Some w /\ only l (c_tree st) (c_tree st1) /\
     post_process H_connections_4to3 l st1 = (st2, Ok tt) /\ fval (c_tree st2) l = Some v /\ only l (c_tree st1) (c_tree st2)) /\
  (fval (c_tree st) l = Some w -> exists st1 st2, post_process H_connections_4to3 l st = (st1, Ok tt) /\ fval (c_tree st1) l = Some v /\ only l (c_tree st) (c_tree st1) /\
     post_process H_connections_3to4 l st1 = (st2, Ok tt) /\ fval (c_tree st2) l = Some w /\ only l (c_tree st1) (c_tree st2)).
Proof.
  intros l st v w D CN FV. destruct (connections_spec _ _ CN) as (C1 & C2 & V1 & V2).
  assert (HV : leaf_has_value 2 (Some v) = true) by (eapply filled_value_len; eauto).
  assert (HW : leaf_has_value 2 (Some w) = true).
  { eapply filled_value_len; eauto. destruct CN as [a b d d' LN S]. simpl in *. destruct S; [congruence|discriminate..]. }
  assert (P : forall s, fval (c_tree s) l = Some v -> exists s', post_process H_connections_3to4 l s = (s', Ok tt) /\ fval (c_tree s') l = Some w /\ only l (c_tree s) (c_tree s')).
  { intros s E. destruct (look_data _ _ _ _ _ D E) as (nm & cs & L & _).
    set (s1 := {| c_tree := access tm (c_tree s) l; c_shared := c_shared s |}).
    assert (E1 : fval (c_tree s1) l = Some v) by (destruct (obs_access l tm (c_tree s) l) as (O & _); simpl; congruence).
    destruct (reassign_ok false l connections_3to4 s1 v w INT 2 D E1 C1 V2) as (s' & R & Q & O & _); auto; [discriminate|].
    exists s'. split; [|split; auto].
    - unfold ConvModel.post_process, target_value, cview, view, cbind at 1, lift. unfold cbind at 1. cbn [c_tree c_shared].
      assert (I : info_at tm (c_tree s) l = Some (ILeaf 2 v)) by (unfold info_at; rewrite L; reflexivity).
      rewrite I. cbn [c_tree c_shared]. unfold read. rewrite info_access, I. fold s1. destruct CN as [a b d d' LN S]. cbn [value_shape].
      replace (Nat.odd (2 * b)) with false; [exact R|]. symmetry. rewrite Nat.odd_mul. reflexivity.
    - intros q NQ. destruct (O q NQ) as (O1 & O2), (obs_access l tm (c_tree s) q) as (O3 & O4). simpl in *. split; congruence. }
  assert (Q : forall s, fval (c_tree s) l = Some w -> exists s', post_process H_connections_4to3 l s = (s', Ok tt) /\ fval (c_tree s') l = Some v /\ only l (c_tree s) (c_tree s')).
  { intros s E. destruct (reassign_ok false l connections_4to3 s w v INT 2 D E C2 V1) as (s' & R & Q & O & _); auto; [discriminate|]. eauto. }
  split; intros E.
  - destruct (P st E) as (st1 & A1 & A2 & A3), (Q st1 A2) as (st2 & B1 & B2 & B3). exists st1, st2. auto 8.
  - destruct (Q st E) as (st1 & A1 & A2 & A3), (P st1 A2) as (st2 & B1 & B2 & B3). exists st1, st2. auto 8.
Qed.

(** *** Points of contours *)
Definition filled_at (n : node) (l : loc) : Prop := fval n l <> None \/ exists k, fsize n l = Some (S k).
Lemma filled_obs : forall n n' l, fval n' l = fval n l -> fsize n' l = fsize n l -> (filled_at n' l <-> filled_at n l).
Proof. intros n n' l A B. unfold filled_at. rewrite A, B. tauto. Qed.
Notation filled_children := (filled_children tm).

Lemma filled_children_spec : forall st tl nm cs, conf tm (c_tree st) -> loc_ok tm tl (Meta nm KStruct cs) -> (exists r, filled_at (c_tree st) (tl ++ r)) ->
  exists ns, filled_children tl st = (st, Ok ns) /\ NoDup ns /\ forall x, In x ns <-> exists c r, In c cs /\ x = mname c /\ filled_at (c_tree st) (tl ++ Child x :: r).
Proof.
  intros st tl nm cs C LO (r0 & F0).
  assert (X : exists fs, look tm (c_tree st) tl = Some (Meta nm KStruct cs, NStruct fs)).
  { destruct (look tm (c_tree st) tl) as [[m' n']|] eqn:L.
    - pose proof (loc_ok_fun _ _ _ W LO _ (look_loc_ok _ _ _ _ _ L)). subst m'. destruct (vnode_conf tl tm (c_tree st) (Meta nm KStruct cs) n') as (W' & C'); auto. { apply look_vnode; auto. }
      inversion C'; subst. eauto.
    - exfalso. destruct F0 as [F|(k & F)]; revert F; unfold ConvProofs.fval, ConvProofs.fsize; rewrite look_app, L; congruence. }
  destruct X as (fs & L). destruct (vnode_conf tl tm (c_tree st) (Meta nm KStruct cs) (NStruct fs)) as (W' & C'); auto. { apply look_vnode; auto. }
  inversion W' as [? ? ? ND WC HS]; subst. inversion C' as [| |? ? ? CC CK CN|]; subst.
  unfold ConvModel.filled_children. rewrite L. eexists. split; [reflexivity|]. split.
  - assert (Y : forall l, NoDup (map mname l) -> NoDup (map (fun x => mname (fst x)) (iter_nonempty l fs))).
    { induction l as [|c l IH]; intros N; simpl; [constructor|]. inversion N as [|? ? N1 N2]; subst. destruct (alookup (mname c) fs) as [ch|]; [|auto]. destruct (has_value c ch); [|auto].
      simpl. constructor; auto. intros I. apply N1. apply in_map_iff in I as ([c' ch'] & E & I). simpl in E. unfold iter_nonempty in I. apply in_flat_map in I as (c2 & I1 & I2).
      destruct (alookup (mname c2) fs) as [ch2|]; [|destruct I2]. destruct (has_value c2 ch2); [|destruct I2]. destruct I2 as [[= <- <-]|[]]. rewrite <- E. apply in_map. auto. }
    apply Y. auto.
  - intros x. assert (Z : forall c r, In c cs -> look tm (c_tree st) (tl ++ Child (mname c) :: r) = look c (child_or_new c fs) r).
    { intros c r I. rewrite look_app, L. simpl. rewrite (proj2 (child_meta_iff cs (mname c) c ND)); auto. }
    assert (FC : forall c r, In c cs -> (filled_at (c_tree st) (tl ++ Child (mname c) :: r) <-> (ConvProofs.fval c (child_or_new c fs) r <> None \/ exists k, ConvProofs.fsize c (child_or_new c fs) r = Some (S k)))).
    { intros c r I. unfold filled_at, ConvProofs.fval, ConvProofs.fsize. rewrite Z by auto. tauto. }
    assert (CH : forall c, In c cs -> conf c (child_or_new c fs)).
    { intros c I. unfold child_or_new. destruct (alookup (mname c) fs) eqn:E; eauto using new_node_conf. }
    assert (HVN : forall c, In c cs -> has_value c (child_or_new c fs) = true -> exists ch, alookup (mname c) fs = Some ch).
    { intros c I H. unfold child_or_new in H. destruct (alookup (mname c) fs) eqn:E; eauto. exfalso. destruct c as [? [| |? ?] ccs]; simpl in H; try discriminate.
      apply existsb_exists in H as (? & _ & H). discriminate. }
    rewrite in_map_iff. split.
    + intros ([c ch] & E & I). simpl in E. subst x. unfold iter_nonempty in I. apply in_flat_map in I as (c2 & I1 & I2).
      destruct (alookup (mname c2) fs) as [ch2|] eqn:E2; [|destruct I2]. destruct (has_value c2 ch2) eqn:HV; [|destruct I2]. destruct I2 as [[= <- <-]|[]].
      assert (HV' : has_value c2 (child_or_new c2 fs) = true) by (unfold child_or_new; rewrite E2; auto).
      apply obs_nonempty in HV' as (r & F); auto. exists c2, r. split; auto. split; auto. apply FC; auto.
    + intros (c & r & I & -> & F). apply FC in F; auto. assert (HV : has_value c (child_or_new c fs) = true) by (apply obs_nonempty; eauto).
      destruct (HVN c I HV) as (ch & E). exists (c, ch). split; auto. unfold iter_nonempty. apply in_flat_map. exists c. split; auto. unfold child_or_new in HV. rewrite E in HV |- *. rewrite HV. left. auto.
Qed.
(** the loop over the children *)
Lemma each_map : forall tl k f ns st, NoDup ns ->
  (forall x, In x ns -> exists dt nd v w, data_node (tl ++ [Child x]) dt nd /\ nd <> 0 /\ fval (c_tree st) (tl ++ [Child x]) = Some v /\ f v = Some w /\ val_ok dt nd w /\ leaf_has_value nd (Some w) = true) ->
  exists st', citer (fun x => reassign k (tl ++ [Child x]) f) ns st = (st', Ok tt) /\
    (forall x v, In x ns -> fval (c_tree st) (tl ++ [Child x]) = Some v -> fval (c_tree st') (tl ++ [Child x]) = f v) /\
    (forall q, (forall x, In x ns -> q <> tl ++ [Child x]) -> fval (c_tree st') q = fval (c_tree st) q /\ fsize (c_tree st') q = fsize (c_tree st) q) /\
    (conf tm (c_tree st) -> conf tm (c_tree st')).
Proof.
  intros tl k f ns. induction ns as [|x ns IH]; intros st ND H.
  - exists st. split; [reflexivity|]. split; [intros ? ? []|]. split; auto.
  - inversion ND as [|? ? N1 N2]; subst. destruct (H x (or_introl eq_refl)) as (dt & nd & v & w & D & N0 & E & F & VO & HV).
    destruct (reassign_ok k (tl ++ [Child x]) f st v w dt nd D E F VO) as (s1 & R1 & V1 & O1 & C1); auto; try (intros; congruence).
    assert (NX : forall y, In y ns -> tl ++ [Child y] <> tl ++ [Child x]). { intros y I Z. apply app_inv_head in Z. injection Z as ->. auto. }
    destruct (IH s1 N2) as (s2 & R2 & V2 & O2 & C2).
    { intros y I. destruct (H y (or_intror I)) as (dt' & nd' & v' & w' & D' & N0' & E' & F' & VO' & HV'). exists dt', nd', v', w'. repeat (split; auto). rewrite (proj1 (O1 _ (NX y I))). auto. }
    exists s2. split; [|split; [|split; auto]].
    + cbn [citer]. unfold cbind at 1. rewrite R1. exact R2.
    + intros y u [<-|I] U.
      * rewrite (proj1 (O2 (tl ++ [Child x]) ltac:(intros y I Z; symmetry in Z; revert Z; apply NX; auto))). rewrite V1. congruence.
      * apply V2; auto. rewrite (proj1 (O1 _ (NX y I))). auto.
    + intros q NQ. destruct (O2 q (fun y I => NQ y (or_intror I))) as (A & B). destruct (O1 q (NQ x (or_introl eq_refl))) as (A' & B'). split; congruence.
Qed.

Lemma array_shape : forall dt v, typed_array dt v -> forall dt' nd, val_ok dt' nd v -> dt' = dt /\ nd = length (value_shape v) /\ is_array v = true /\ nd <> 0.
Proof. intros dt v T dt' nd VO. destruct T; inversion VO; subst; simpl; repeat split; auto; destruct sh; simpl; congruence. Qed.

(** contour nodes: every filled child is a numeric array *)
Definition points (n : node) (tl : loc) (cs : list meta) : Prop :=
  (exists r, filled_at n (tl ++ r)) /\
  forall c r, In c cs -> filled_at n (tl ++ Child (mname c) :: r) -> r = [] /\ exists dt v, fval n (tl ++ [Child (mname c)]) = Some v /\ typed_array dt v.

Lemma each_inverse : forall tl nm cs k1 k2 f g st, conf tm (c_tree st) -> loc_ok tm tl (Meta nm KStruct cs) -> points (c_tree st) tl cs ->
  (forall c v, In c cs -> fval (c_tree st) (tl ++ [Child (mname c)]) = Some v -> exists w, f v = Some w /\ g w = Some v /\ 
     (forall dt nd, val_ok dt nd v -> val_ok dt nd w) /\ (forall nd, nd <> 0 -> leaf_has_value nd (Some v) = true -> leaf_has_value nd (Some w) = true)) ->
  exists st1 st2, each_child tm tl (fun c => reassign k1 c f) st = (st1, Ok tt) /\ 
    (forall c v, In c cs -> fval (c_tree st) (tl ++ [Child (mname c)]) = Some v -> fval (c_tree st1) (tl ++ [Child (mname c)]) = f v) /\
    (forall q, (forall c, In c cs -> q <> tl ++ [Child (mname c)]) -> fval (c_tree st1) q = fval (c_tree st) q /\ fsize (c_tree st1) q = fsize (c_tree st) q) /\
    each_child tm tl (fun c => reassign k2 c g) st1 = (st2, Ok tt) /\
    forall q, fval (c_tree st2) q = fval (c_tree st) q /\ fsize (c_tree st2) q = fsize (c_tree st) q.
Proof.
  intros tl nm cs k1 k2 f g st C LO (NE & PT) FG.
  destruct (filled_children_spec st tl nm cs C LO NE) as (ns & FC & ND & IN).
  assert (LC : forall c, In c cs -> loc_ok tm (tl ++ [Child (mname c)]) c).
  { intros c I. eapply loc_ok_app; eauto. constructor; auto. constructor. }
  assert (P : forall x, In x ns -> exists c dt nd ta v, In c cs /\ x = mname c /\ data_node (tl ++ [Child x]) dt nd /\ nd <> 0 /\ fval (c_tree st) (tl ++ [Child x]) = Some v /\ val_ok dt nd v /\ leaf_has_value nd (Some v) = true /\ typed_array ta v).
  { intros x I. apply IN in I as (c & r & I & -> & F). destruct (PT c r I F) as (-> & ta & v & E & T). exists c.
    pose proof E as E0. unfold ConvProofs.fval in E. destruct (look tm (c_tree st) (tl ++ [Child (mname c)])) as [[m' n']|] eqn:L; [|discriminate].
    pose proof (loc_ok_fun _ _ _ W (LC c I) _ (look_loc_ok _ _ _ _ _ L)). subst m'.
    destruct (vnode_conf (tl ++ [Child (mname c)]) tm (c_tree st) c n') as (_ & CV); auto. { apply look_vnode; auto. }
    destruct c as [cn [| |dt nd] ccs]; destruct n' as [| |[v'|]]; try discriminate. cbn [mname mkind] in *. destruct (leaf_has_value nd (Some v')) eqn:HV; [|discriminate]. injection E as ->.
    inversion CV as [|? ? ? ? ? VO| |]; subst. destruct (array_shape _ _ T _ _ VO) as (_ & _ & _ & N0).
    exists dt, nd, ta, v. repeat (split; auto). exists cn, ccs. apply LC in I. exact I. }
  destruct (each_map tl k1 f ns st ND) as (s1 & R1 & V1 & O1 & C1).
  { intros x I. destruct (P x I) as (c & dt & nd & ta & v & Ic & -> & D & N0 & E & VO & HV & _). destruct (FG c v Ic E) as (w & F & _ & VW & HW). exists dt, nd, v, w. repeat (split; eauto). }
  assert (NC : forall q, (forall c, In c cs -> q <> tl ++ [Child (mname c)]) -> forall x, In x ns -> q <> tl ++ [Child x]).
  { intros q H x I. apply IN in I as (c & r & I & -> & _). auto. }
  assert (V1' : forall c v, In c cs -> fval (c_tree st) (tl ++ [Child (mname c)]) = Some v -> fval (c_tree s1) (tl ++ [Child (mname c)]) = f v).
  { intros c v I E. apply V1; auto. apply IN. exists c, []. split; auto. split; auto. left. congruence. }
  assert (SZ : forall q x, In x ns -> q = tl ++ [Child x] -> fsize (c_tree st) q = None /\ fsize (c_tree s1) q = None).
  { intros q x I ->. destruct (P x I) as (c & dt & nd & ta & v & Ic & -> & D & _ & E & _). destruct (FG c v Ic E) as (w & F & _). pose proof (V1' c v Ic E) as E1. rewrite F in E1.
    destruct (look_data _ _ _ _ _ D E) as (a & b & L & _), (look_data _ _ _ _ _ D E1) as (a' & b' & L' & _). unfold ConvProofs.fsize. rewrite L, L'. auto. }
  assert (FE : forall c r, In c cs -> (filled_at (c_tree s1) (tl ++ Child (mname c) :: r) <-> filled_at (c_tree st) (tl ++ Child (mname c) :: r))).
  { intros c r Ic. destruct (in_dec str_dec (mname c) ns) as [I|I]; [destruct r as [|x r]|].
    - destruct (P _ I) as (c' & dt & nd & ta & v & Ic' & _ & D & _ & E & _). destruct (FG c v Ic E) as (w & F & _). pose proof (V1' c v Ic E) as E1. split; intros _; left; congruence.
    - destruct (O1 (tl ++ Child (mname c) :: x :: r)) as (A & B). { intros y Iy Z. apply app_inv_head in Z. discriminate. } apply filled_obs; auto.
    - destruct (O1 (tl ++ Child (mname c) :: r)) as (A & B). { intros y Iy Z. apply app_inv_head in Z. injection Z as Z _. congruence. } apply filled_obs; auto. }
  assert (NE1 : exists r, filled_at (c_tree s1) (tl ++ r)).
  { destruct NE as (r & F). destruct (list_eq_dec str_dec ns []) as [N|N].
    - subst ns. exists r. destruct (O1 (tl ++ r)) as (A & B); [intros ? []|]. apply (proj2 (filled_obs _ _ _ A B)). auto.
    - destruct ns as [|x ns]; [congruence|]. destruct (P x (or_introl eq_refl)) as (c & dt & nd & ta & v & Ic & -> & D & _ & E & _). exists (Child (mname c) :: []). apply FE; auto. left. congruence. }
  destruct (filled_children_spec s1 tl nm cs (C1 C) LO NE1) as (ns1 & FC1 & ND1 & IN1).
  assert (EQ : forall x, In x ns1 <-> In x ns).
  { intros x. rewrite IN, IN1. split; intros (c & r & I & -> & F); exists c, r; repeat (split; auto); apply FE; auto. }
  destruct (each_map tl k2 g ns1 s1 ND1) as (s2 & R2 & V2 & O2 & C2).
  { intros x I. apply EQ in I. destruct (P x I) as (c & dt & nd & ta & v & Ic & -> & D & N0 & E & VO & HV & _). destruct (FG c v Ic E) as (w & F & G & VW & HW). exists dt, nd, w, v. repeat (split; eauto).
    rewrite (V1' c v Ic E). auto. }
  exists s1, s2. split; [|split; [|split; [|split]]]; auto.
  - unfold each_child, cbind. rewrite FC. exact R1.
  - unfold each_child, cbind. rewrite FC1. exact R2.
  - intros q. assert (DQ : (exists x, In x ns /\ q = tl ++ [Child x]) \/ forall x, In x ns -> q <> tl ++ [Child x]).
    { clear - ns. induction ns as [|x ns IH]; [right; intros ? []|]. destruct IH as [(y & I & E)|N]; [left; exists y; simpl; auto|].
      destruct (loc_dec q (tl ++ [Child x])) as [->|Z]; [left; exists x; simpl; auto|]. right. intros y [<-|I]; auto. }
    destruct DQ as [(x & I & EQx)|NQ].
    + destruct (P x I) as (c & dt & nd & ta & v & Ic & -> & D & N0 & E & VO & HV & _). destruct (FG c v Ic E) as (w & F & G & VW & HW). pose proof (V1' c v Ic E) as E1. rewrite F in E1.
      pose proof (V2 _ _ (proj2 (EQ _) I) E1) as E2. rewrite G in E2. destruct (SZ q _ I EQx) as (Z1 & _). subst q. split; [congruence|].
      destruct (look_data _ _ _ _ _ D E2) as (a & b & L & _). rewrite Z1. unfold ConvProofs.fsize. rewrite L. auto.
    + destruct (O2 q) as (A & B). { intros y Iy. apply NQ. apply EQ. auto. } destruct (O1 q NQ) as (A' & B'). split; congruence.
Qed.

Lemma prod_cons : forall k r, prod (k :: r) = k * prod r. Proof. reflexivity. Qed.
Ltac sizes HV := cbn [value_len] in HV |- *; rewrite ?prod_cons in *; apply Nat.ltb_lt in HV; apply Nat.ltb_lt; nia.
Lemma closed_up_ok : forall v w, closed_up v w -> (forall dt nd, val_ok dt nd v -> val_ok dt nd w) /\ (forall nd, nd <> 0 -> leaf_has_value nd (Some v) = true -> leaf_has_value nd (Some w) = true).
Proof.
  intros v w H. split.
  - intros dt nd VO. inversion H as [? ? ? ? R|? ? ? ? R|? ? ? ? R]; subst; destruct R as (k & r & -> & K & -> & LD & _); inversion VO; subst; first [apply (vo_inta (S k :: r))|apply (vo_flta (S k :: r))|apply (vo_cpxa (S k :: r))]; try discriminate; rewrite LD; reflexivity.
  - intros nd N HV. unfold leaf_has_value, leaf_size in *. destruct nd; [congruence|].
    inversion H as [? ? ? ? R|? ? ? ? R|? ? ? ? R]; subst; destruct R as (k & r & -> & K & -> & LD & _); sizes HV.
Qed.
Lemma closed_up_back : forall u w ta dt nd, typed_array ta u -> closed_up u w -> val_ok dt nd w -> val_ok dt nd u /\ (leaf_has_value nd (Some w) = true -> leaf_has_value nd (Some u) = true).
Proof.
  intros u w ta dt nd T H VO. split.
  - inversion H as [? ? ? ? R|? ? ? ? R|? ? ? ? R]; subst; destruct R as (k & r & -> & K & -> & LD & _); inversion VO; subst; inversion T; subst;
      first [apply (vo_inta (k :: r))|apply (vo_flta (k :: r))|apply (vo_cpxa (k :: r))]; try discriminate; auto.
  - unfold leaf_has_value, leaf_size. intros HV. inversion H as [? ? ? ? R|? ? ? ? R|? ? ? ? R]; subst; destruct R as (k & r & -> & K & -> & LD & _); (destruct nd; [auto|]); sizes HV.
Qed.

(** Points of contours: appending the first point, then dropping the last *)
Theorem C25_close_open : forall tl nm cs st, conf tm (c_tree st) -> loc_ok tm tl (Meta nm KStruct cs) -> points (c_tree st) tl cs ->
  exists st1 st2, post_process H_repeat_first tl st = (st1, Ok tt) /\
    (forall c v, In c cs -> fval (c_tree st) (tl ++ [Child (mname c)]) = Some v -> exists w, closed_up v w /\ fval (c_tree st1) (tl ++ [Child (mname c)]) = Some w) /\
    (forall q, (forall c, In c cs -> q <> tl ++ [Child (mname c)]) -> fval (c_tree st1) q = fval (c_tree st) q /\ fsize (c_tree st1) q = fsize (c_tree st) q) /\
    post_process H_remove_last tl st1 = (st2, Ok tt) /\
    forall q, fval (c_tree st2) q = fval (c_tree st) q /\ fsize (c_tree st2) q = fsize (c_tree st) q.
Proof.
  intros tl nm cs st C LO PT.
  assert (K : forall c v, In c cs -> fval (c_tree st) (tl ++ [Child (mname c)]) = Some v -> exists w, closed_up v w /\ repeat_first v = Some w /\ drop_last w = Some v).
  { intros c v I E. destruct PT as (_ & PT). destruct (PT c [] I) as (_ & ta & v' & E' & T); [left; congruence|]. assert (v' = v) by congruence. subst v'.
    assert (LC : loc_ok tm (tl ++ [Child (mname c)]) c) by (eapply loc_ok_app; eauto; constructor; auto; constructor).
    unfold ConvProofs.fval in E. destruct (look tm (c_tree st) (tl ++ [Child (mname c)])) as [[m' n']|] eqn:L; [|discriminate].
    pose proof (loc_ok_fun _ _ _ W LC _ (look_loc_ok _ _ _ _ _ L)). subst m'.
    destruct (vnode_conf (tl ++ [Child (mname c)]) tm (c_tree st) c n') as (_ & CV); auto. { apply look_vnode; auto. }
    destruct c as [cn [| |dt nd] ccs]; destruct n' as [| |[v'|]]; try discriminate. cbn [mname mkind] in *. destruct (leaf_has_value nd (Some v')) eqn:HV; [|discriminate]. injection E as ->.
    inversion CV as [|? ? ? ? ? VO| |]; subst. destruct (array_shape _ _ T _ _ VO) as (_ & _ & AR & N0).
    assert (X : exists w, repeat_first v = Some w).
    { unfold repeat_first, add_row. unfold leaf_has_value, leaf_size in HV. destruct nd as [|nd]; [congruence|].
      inversion VO; subst; simpl in AR; try discriminate; (destruct sh as [|[|k] r]; [congruence|discriminate|simpl; eauto]). }
    destruct X as (w & R). exists w. assert (CU : closed_up v w) by (apply repeat_first_spec; eauto). split; auto. split; auto. eapply drop_last_spec; eauto. }
  destruct (each_inverse tl nm cs false true repeat_first drop_last st C LO PT) as (s1 & s2 & A1 & A2 & A3 & A4 & A5).
  { intros c v I E. destruct (K c v I E) as (w & CU & R & D). exists w. split; auto. split; auto. apply closed_up_ok; auto. }
  exists s1, s2. split; [exact A1|]. split; [|auto].
  intros c v I E. destruct (K c v I E) as (w & CU & R & D). exists w. split; auto. rewrite (A2 c v I E). auto.
Qed.
(** dropping the last point, then appending the first: of contours whose last point is the first *)
Theorem C25_open_close : forall tl nm cs st, conf tm (c_tree st) -> loc_ok tm tl (Meta nm KStruct cs) -> points (c_tree st) tl cs ->
  (forall c v, In c cs -> fval (c_tree st) (tl ++ [Child (mname c)]) = Some v -> exists dt u, typed_array dt u /\ closed_up u v) ->
  exists st1 st2, post_process H_remove_last tl st = (st1, Ok tt) /\
    (forall c v, In c cs -> fval (c_tree st) (tl ++ [Child (mname c)]) = Some v -> exists u, closed_up u v /\ fval (c_tree st1) (tl ++ [Child (mname c)]) = Some u) /\
    (forall q, (forall c, In c cs -> q <> tl ++ [Child (mname c)]) -> fval (c_tree st1) q = fval (c_tree st) q /\ fsize (c_tree st1) q = fsize (c_tree st) q) /\
    post_process H_repeat_first tl st1 = (st2, Ok tt) /\
    forall q, fval (c_tree st2) q = fval (c_tree st) q /\ fsize (c_tree st2) q = fsize (c_tree st) q.
Proof.
  intros tl nm cs st C LO PT CL.
  assert (K : forall c v, In c cs -> fval (c_tree st) (tl ++ [Child (mname c)]) = Some v -> exists u, closed_up u v /\ drop_last v = Some u /\ repeat_first u = Some v /\
            (forall dt nd, val_ok dt nd v -> val_ok dt nd u) /\ (forall nd, nd <> 0 -> leaf_has_value nd (Some v) = true -> leaf_has_value nd (Some u) = true)).
  { intros c v I E. destruct (CL c v I E) as (ta & u & T & CU). exists u. 
    assert (VU : exists dt nd, val_ok dt nd u).
    { inversion T; subst; eexists; exists (length sh); constructor; auto; inversion CU as [? ? ? ? R|? ? ? ? R|? ? ? ? R]; subst; destruct R as (? & ? & -> & _); discriminate. }
    split; auto. split; [eapply drop_last_spec; eauto|]. split; [apply repeat_first_spec; auto; inversion T; subst; auto|].
    split; [intros dt nd VO; eapply closed_up_back; eauto|].
    intros nd N HV. unfold leaf_has_value, leaf_size in *. destruct nd; [congruence|]. inversion CU as [? ? ? ? R|? ? ? ? R|? ? ? ? R]; subst; destruct R as (k & r & -> & K & -> & _); sizes HV. }
  destruct (each_inverse tl nm cs true false drop_last repeat_first st C LO PT) as (s1 & s2 & A1 & A2 & A3 & A4 & A5).
  { intros c v I E. destruct (K c v I E) as (u & CU & R & D & V & H). exists u. auto. }
  exists s1, s2. split; [exact A1|]. split; [|auto].
  intros c v I E. destruct (K c v I E) as (u & CU & R & D & _). exists u. split; auto. rewrite (A2 c v I E). auto.
Qed.

End C25.
