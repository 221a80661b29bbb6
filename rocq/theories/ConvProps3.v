(** C25, continued: rules for changed types. *)
From Verif Require Import Base PathModel TreeModel TreeSpec TreeProofs TreeProofs2 TreeProofs3 TreeProofs4 TreeCheck ValModel ValProofs ValProofs2 PrimModel PrimSpec PrimProps ConvModel ConvSpec ConvInverse
  ConvProofs ConvProofs2 ConvProofs3 ConvProofs4 ConvProofs5 ConvProps ConvProps2.
From Verif Require VmapModel.
Import VmapModel(handler(..), nmap).

(** setting a data node leaves all other nodes *)
Lemma info_set_leaf : forall l m n nm dt nd cs old v q, look m n l = Some (Meta nm (KLeaf dt nd) cs, NLeaf old) -> q <> l ->
  info_at m (update m n l (fun _ => NLeaf v)) q = info_at m n q.
Proof.
  unfold info_at. induction l as [|s l IH]; intros m n nm dt nd cs old v q L NQ.
  - simpl in L. injection L as -> ->. destruct q as [|[x|i] q]; [congruence|reflexivity..].
  - destruct s as [x|i]; simpl in L |- *.
    + destruct (mkind m) eqn:K; try discriminate. destruct n as [fs|els|w]; try discriminate. destruct (child_meta x (mchildren m)) as [c|] eqn:CM; try discriminate.
      destruct (child_meta_Some _ _ _ CM) as (_ & CN).
      destruct q as [|[y|j] q]; [destruct m as [? k ?]; simpl in *; subst; auto|..]; simpl; rewrite K; auto.
      destruct (child_meta y (mchildren m)) as [d|] eqn:DM; auto. destruct (str_eqb y x) eqn:E.
      * apply str_eqb_eq in E. subst y. rewrite DM in CM. injection CM as ->. subst x. rewrite child_or_new_aset by auto. eapply IH; eauto. congruence.
      * rewrite child_or_new_aset_ne; auto. destruct (child_meta_Some _ _ _ DM) as (_ & DN). intro Q. rewrite <- DN, Q, str_eqb_refl in E. discriminate.
    + destruct (mkind m) eqn:K; try discriminate. destruct n as [fs|els|w]; try discriminate. destruct (nth_error els i) as [e|] eqn:NE; try discriminate.
      destruct q as [|[y|j] q]; [destruct m as [? k ?]; simpl in *; subst; unfold info_of; simpl; rewrite list_set_length; auto|..]; simpl; rewrite K; auto.
      rewrite nth_error_list_set. destruct (Nat.eqb_spec i j) as [->|NE2]; auto. rewrite NE. eapply IH; eauto. congruence.
Qed.

Section Types.
Variable tm : meta.
Variable str_of : pyval -> str.
Variable parse_float : str -> option flt.
Variable parse_cpx : str -> option (flt * flt).
Variable flt_of_int : Z -> option flt.
Variable np_cast : dtype -> pyval -> result pexn value.
Variable array_items : value -> list pyval.
Notation assign := (assign tm str_of parse_float parse_cpx flt_of_int np_cast array_items).
Notation fval := (fval tm).
Notation fsize := (fsize tm).
Notation only := (only tm).
Hypothesis W : wf_meta tm.
Hypothesis SO : str_ok tm.
Hypothesis casts : casts_arrays np_cast.

(** the data node can be reached in the tree *)
Definition place (n : node) (l : loc) (dt : dtype) (nd : nat) : Prop := exists nm cs old, vnode_at tm n l (Meta nm (KLeaf dt nd) cs) (NLeaf old).

Lemma assign_place : forall l from st v p dt nd, place (c_tree st) l dt nd ->
  assigned str_of parse_float parse_cpx flt_of_int np_cast array_items dt nd p = Ok v -> val_ok dt nd v -> (nd = 0 -> ~ empty dt v) -> leaf_has_value nd (Some v) = true ->
  exists st', assign l from p st = (st', Ok tt) /\ fval (c_tree st') l = Some v /\ only l (c_tree st) (c_tree st') /\ (conf tm (c_tree st) -> conf tm (c_tree st')) /\
    forall q, q <> l -> info_at tm (c_tree st') q = info_at tm (c_tree st) q.
Proof.
  intros l from st v p dt nd (nm & cs & old & N) A VO NE HV. apply look_vnode in N; auto.
  assert (EM : (nd =? 0) && is_empty dt v = false).
  { destruct nd; auto. simpl. destruct (is_empty dt v) eqn:E; auto. apply is_empty_spec in E. exfalso. apply NE; auto. }
  unfold ConvModel.assign. rewrite N. unfold set_value. rewrite A, EM. eexists. split; [reflexivity|]. simpl. split; [|split; [|split]].
  - unfold ConvProofs.fval. pose proof (look_update l tm (c_tree st) (fun _ => NLeaf (Some v)) [] _ _ N) as E. rewrite app_nil_r in E. rewrite E. cbn [look]. rewrite HV. auto.
  - intros q NQ. eapply obs_set_leaf; eauto.
  - intros C. eapply conf_update; eauto. constructor. auto.
  - intros q NQ. eapply info_set_leaf; eauto.
Qed.
Lemma assign_place_value : forall l from st v dt nd, place (c_tree st) l dt nd -> val_ok dt nd v -> (nd = 0 -> ~ empty dt v) -> leaf_has_value nd (Some v) = true ->
  exists st', assign l from (of_value v) st = (st', Ok tt) /\ fval (c_tree st') l = Some v /\ only l (c_tree st) (c_tree st') /\ (conf tm (c_tree st) -> conf tm (c_tree st')) /\
    forall q, q <> l -> info_at tm (c_tree st') q = info_at tm (c_tree st) q.
Proof. intros l from st v dt nd P VO NE HV. eapply assign_place; eauto. apply cast_same; auto. exact (proj2 casts). Qed.

(** *** 0D and 1D *)
Definition casts_one : Prop := forall dt v w, one_of v w -> dt <> STR -> val_ok dt 0 v -> np_cast dt (PList [of_value v]) = Ok w.
Lemma one_of_ok : forall v w dt, one_of v w -> val_ok dt 0 v -> val_ok dt 1 w /\ leaf_has_value 1 (Some w) = true /\ length (value_shape w) = 1.
Proof.
  intros v w dt O VO. inversion O; subst; inversion VO; subst; simpl; auto; (split; [|split; auto]); try (constructor; fail);
    first [apply (vo_inta [1])|apply (vo_flta [1])|apply (vo_cpxa [1])]; auto; discriminate.
Qed.
Notation type_0d_1d := (type_0d_1d tm str_of parse_float parse_cpx flt_of_int np_cast array_items).
Lemma to_1d : forall m dt v w sl tl st, casts_one -> mkind m = KLeaf dt 0 -> val_ok dt 0 v -> one_of v w -> place (c_tree st) tl dt 1 ->
  exists st', type_0d_1d m (NLeaf (Some v)) sl tl st = (st', Ok None) /\ fval (c_tree st') tl = Some w /\ only tl (c_tree st) (c_tree st').
Proof.
  intros m dt v w sl tl st CO K VO O P. destruct (one_of_ok _ _ _ O VO) as (VW & HW & LW).
  destruct (assign_place tl None st w (PList [of_value v]) dt 1 P) as (st' & A & F & ON & _); auto; [|discriminate|].
  - destruct dt; simpl; [inversion O; subst; inversion VO; reflexivity|..]; unfold cast_array; rewrite (CO _ _ _ O) by (auto; discriminate); rewrite LW; reflexivity.
  - exists st'. split; auto. unfold ConvModel.type_0d_1d. unfold leaf_value. rewrite K. unfold cbind. rewrite A. reflexivity.
Qed.
Lemma to_0d : forall m dt v w sl tl st, mkind m = KLeaf dt 1 -> val_ok dt 0 v -> ~ empty dt v -> one_of v w -> place (c_tree st) tl dt 0 ->
  exists st', type_0d_1d m (NLeaf (Some w)) sl tl st = (st', Ok None) /\ fval (c_tree st') tl = Some v /\ only tl (c_tree st) (c_tree st').
Proof.
  intros m dt v w sl tl st K VO NE O P.
  destruct (assign_place_value tl None st v dt 0 P) as (st' & A & F & ON & _); auto.
  exists st'. split; auto. unfold ConvModel.type_0d_1d. unfold leaf_value. rewrite K.
  assert (E : elems_of w = Some [of_value v]) by (inversion O; reflexivity). rewrite E. unfold cbind. rewrite A. reflexivity.
Qed.

(** *** Integers and floats *)
Notation type_flt_int := (type_flt_int tm str_of parse_float parse_cpx flt_of_int np_cast array_items).
(** float(z) is exact; numpy.int32(f) of an integral f is that integer *)
Definition floats_exact : Prop := forall z, int32 z -> exists f, flt_of_int z = Some f /\ (0 <= f < 2 ^ 64)%Z /\ feqz f z = true.
Definition int32_exact (np_int32 : flt -> result pexn Z) : Prop := forall f z, int32 z -> feqz f z = true -> np_int32 f = Ok z.
Lemma not_empty_int : forall f z, (0 <= f < 2 ^ 64)%Z -> int32 z -> feqz f z = true -> ~ empty FLT (VFlt f).
Proof.
  intros f z R I Q X. apply is_empty_spec in X. simpl in X. apply feq_empty in X; auto. subst f. unfold feqz in Q. apply Bool.andb_true_iff in Q as (_ & Q).
  change (0 <=? f_pow EMPTY_FLOAT)%Z with true in Q. apply Z.eqb_eq in Q. unfold int32 in I. rewrite <- Q in I. vm_compute in I. destruct I as (I & _). apply I. reflexivity.
Qed.
Lemma to_flt : forall np_int32 m z sl tl st, floats_exact -> mkind m = KLeaf INT 0 -> int32 z -> place (c_tree st) tl FLT 0 ->
  exists st' f, type_flt_int np_int32 m (NLeaf (Some (VInt z))) sl tl st = (st', Ok None) /\ (0 <= f < 2 ^ 64)%Z /\ feqz f z = true /\ fval (c_tree st') tl = Some (VFlt f) /\ only tl (c_tree st) (c_tree st').
Proof.
  intros np_int32 m z sl tl st FE K I P. destruct (FE z I) as (f & E & R & Q).
  destruct (assign_place_value tl None st (VFlt f) FLT 0 P) as (st' & A & F & ON & _); auto; [constructor|intros _; eapply not_empty_int; eauto|].
  exists st', f. split; auto. unfold ConvModel.type_flt_int, leaf_value. rewrite K, E. unfold cbind. simpl of_value in A. rewrite A. reflexivity.
Qed.
Lemma to_int : forall np_int32 m f z sl tl st, int32_exact np_int32 -> mkind m = KLeaf FLT 0 -> feqz f z = true -> int32 z -> z <> EMPTY_INT -> place (c_tree st) tl INT 0 ->
  exists st', type_flt_int np_int32 m (NLeaf (Some (VFlt f))) sl tl st = (st', Ok None) /\ fval (c_tree st') tl = Some (VInt z) /\ only tl (c_tree st) (c_tree st').
Proof.
  intros np_int32 m f z sl tl st IE K Q I NE P.
  destruct (assign_place_value tl None st (VInt z) INT 0 P) as (st' & A & F & ON & _); auto; [constructor| |].
  { intros _ X. apply is_empty_spec in X. simpl in X. apply Z.eqb_eq in X. auto. }
  exists st'. split; auto. unfold ConvModel.type_flt_int, leaf_value. rewrite K, (IE f z I Q), Q. unfold cbind. simpl of_value in A. rewrite A. reflexivity.
Qed.

(** *** Structures and arrays of one structure *)
Lemma to_array : forall fs sl tl st nm cs els, vnode_at tm (c_tree st) tl (Meta nm KAoS cs) (NAoS els) ->
  exists st', type_structure_aos tm (NStruct fs) sl tl st = (st', Ok (Some (NStruct fs, sl, tl ++ [Elem 0]))) /\
    look tm (c_tree st') tl = Some (Meta nm KAoS cs, NAoS [NStruct []]) /\
    (forall q, ~ within tl q -> fval (c_tree st') q = fval (c_tree st) q /\ fsize (c_tree st') q = fsize (c_tree st) q).
Proof.
  intros fs sl tl st nm cs els N. apply look_vnode in N; auto. unfold type_structure_aos, cview, view, lift, cbind, info_at. rewrite N. cbn [info_of mkind].
  unfold ConvModel.resize. cbn [c_tree c_shared]. rewrite N. eexists. split; [reflexivity|]. simpl. split.
  - pose proof (look_update tl tm (c_tree st) (fun _ => NAoS [NStruct []]) [] _ _ N) as E. rewrite app_nil_r in E. exact E.
  - intros q NW. apply obs_update; auto.
Qed.
Lemma to_structure : forall e sl tl st nm cs fs, vnode_at tm (c_tree st) tl (Meta nm KStruct cs) (NStruct fs) ->
  type_structure_aos tm (NAoS [e]) sl tl st = (st, Ok (Some (e, sl ++ [Elem 0], tl))).
Proof.
  intros e sl tl st nm cs fs N. apply look_vnode in N; auto. unfold type_structure_aos, cview, view, lift, cbind, info_at. rewrite N. cbn [info_of mkind]. destruct st. reflexivity.
Qed.

(** *** Setting the children of a structure *)
Definition live (n : node) (t : loc) (cs : list meta) : Prop := info_at tm n t = Some (IStruct cs).
Lemma live_look : forall n t cs, live n t cs -> exists nm fs, look tm n t = Some (Meta nm KStruct cs, NStruct fs).
Proof.
  intros n t cs H. unfold live, info_at in H. destruct (look tm n t) as [[[nm [| |dt nd] cs'] [fs|els|v]]|]; try discriminate. injection H as ->. eauto.
Qed.
Lemma live_place : forall n t cs d dt nd, conf tm n -> live n t cs -> In d cs -> mkind d = KLeaf dt nd -> place n (t ++ [Child (mname d)]) dt nd.
Proof.
  intros n t cs d dt nd C L I K. destruct (live_look _ _ _ L) as (nm & fs & LK). pose proof LK as V. apply look_vnode in V; auto.
  destruct (vnode_conf _ _ _ _ _ V W C) as (W' & C'). inversion W' as [? ? ? ND WC HS]; subst. inversion C' as [| |? ? ? CC CK CN|]; subst.
  assert (X : exists old, child_or_new d fs = NLeaf old).
  { unfold child_or_new. destruct d as [dn dk dcs]. simpl in K. subst dk. simpl. destruct (alookup dn fs) as [ch|] eqn:A; [|unfold new_node; simpl; eauto].
    specialize (CC _ _ I A). inversion CC; eauto. }
  destruct X as (old & E). destruct d as [dn dk dcs]. simpl in K. subst dk. exists dn, dcs, old. apply look_vnode; auto. rewrite look_app, LK. simpl.
  rewrite (proj2 (child_meta_iff cs dn (Meta dn (KLeaf dt nd) dcs) ND)); auto. rewrite E. reflexivity.
Qed.
Definition set_to (t : loc) (x : str) (from : option loc) (w : value) : CM unit := doc a <- getattr tm t x; assign a from (of_value w).
Lemma set_to_ok : forall t cs d dt nd from w st, conf tm (c_tree st) -> live (c_tree st) t cs -> In d cs -> mkind d = KLeaf dt nd -> val_ok dt nd w -> (nd = 0 -> ~ empty dt w) -> leaf_has_value nd (Some w) = true ->
  exists st', set_to t (mname d) from w st = (st', Ok tt) /\ fval (c_tree st') (t ++ [Child (mname d)]) = Some w /\ only (t ++ [Child (mname d)]) (c_tree st) (c_tree st') /\
    conf tm (c_tree st') /\ forall q, q <> t ++ [Child (mname d)] -> info_at tm (c_tree st') q = info_at tm (c_tree st) q.
Proof.
  intros t cs d dt nd from w st C L I K VO NE HV.
  assert (ND : NoDup (map mname cs)).
  { destruct (live_look _ _ _ L) as (nm & fs & LK). apply look_vnode in LK; auto. destruct (vnode_conf _ _ _ _ _ LK W C) as (W' & _). inversion W'; auto. }
  set (s1 := {| c_tree := access tm (c_tree st) ((t ++ [Child (mname d)]) ++ [Elem 0]); c_shared := c_shared st |}).
  assert (G : getattr tm t (mname d) st = (s1, Ok (t ++ [Child (mname d)]))).
  { unfold ConvModel.getattr, cview, view, lift, cbind. unfold live in L. rewrite L, (proj2 (child_meta_iff cs (mname d) d ND)) by auto. destruct st. reflexivity. }
  assert (C1 : conf tm (c_tree s1)) by (apply access_conf; auto).
  assert (L1 : live (c_tree s1) t cs) by (unfold live; simpl; rewrite info_access; auto).
  destruct (assign_place_value (t ++ [Child (mname d)]) from s1 w dt nd) as (st' & A & F & O & CF & IF); auto. { eapply live_place; eauto. }
  exists st'. split; [unfold set_to, cbind; rewrite G; exact A|]. split; auto. split; [|split; auto].
  - intros q NQ. destruct (O q NQ) as (O1 & O2), (obs_access ((t ++ [Child (mname d)]) ++ [Elem 0]) tm (c_tree st) q) as (O3 & O4). simpl in O1, O2. split; congruence.
  - intros q NQ. rewrite IF by auto. simpl. apply info_access.
Qed.
Lemma snoc_neq : forall (t : loc) x y, x <> y -> t ++ [Child x] <> t ++ [Child y]. Proof. intros t x y N E. apply app_inv_head in E. congruence. Qed.
Lemma self_neq : forall (t : loc) x, t <> t ++ [x]. Proof. intros t x E. apply (f_equal (@length _)) in E. rewrite app_length in E. simpl in E. lia. Qed.
(** the loop over the children of the source *)
Lemma set_all : forall A (name : A -> str) (g : A -> option (option loc * value)) (body : A -> CM unit) t cs kids st, conf tm (c_tree st) -> live (c_tree st) t cs -> NoDup (map name kids) ->
  (forall y s, In y kids -> live (c_tree s) t cs -> body y s = match g y with None => (s, Ok tt) | Some (from, w) => set_to t (name y) from w s end) ->
  (forall y from w, In y kids -> g y = Some (from, w) -> exists d dt nd, In d cs /\ mname d = name y /\ mkind d = KLeaf dt nd /\ val_ok dt nd w /\ (nd = 0 -> ~ empty dt w) /\ leaf_has_value nd (Some w) = true) ->
  exists st', citer body kids st = (st', Ok tt) /\ conf tm (c_tree st') /\ live (c_tree st') t cs /\
    (forall y from w, In y kids -> g y = Some (from, w) -> fval (c_tree st') (t ++ [Child (name y)]) = Some w) /\
    (forall q, (forall y, In y kids -> g y <> None -> q <> t ++ [Child (name y)]) -> fval (c_tree st') q = fval (c_tree st) q /\ fsize (c_tree st') q = fsize (c_tree st) q) /\
    (forall q, (forall y, In y kids -> g y <> None -> q <> t ++ [Child (name y)]) -> info_at tm (c_tree st') q = info_at tm (c_tree st) q).
Proof.
  intros A name g body t cs kids. induction kids as [|y kids IH]; intros st C L ND HB HG.
  - exists st. split; [reflexivity|]. repeat (split; auto). intros ? ? ? [].
  - simpl in ND. inversion ND as [|? ? N1 N2]; subst.
    assert (X : exists s1, body y st = (s1, Ok tt) /\ conf tm (c_tree s1) /\ live (c_tree s1) t cs /\ (forall from w, g y = Some (from, w) -> fval (c_tree s1) (t ++ [Child (name y)]) = Some w) /\
      (forall q, (g y <> None -> q <> t ++ [Child (name y)]) -> fval (c_tree s1) q = fval (c_tree st) q /\ fsize (c_tree s1) q = fsize (c_tree st) q /\ info_at tm (c_tree s1) q = info_at tm (c_tree st) q)).
    { rewrite HB by (auto; left; auto). destruct (g y) as [[from w]|] eqn:G.
      - destruct (HG y from w (or_introl eq_refl) G) as (d & dt & nd & I & E & K & VO & NE & HV). rewrite <- E.
        destruct (set_to_ok t cs d dt nd from w st C L I K VO NE HV) as (s1 & S1 & F1 & O1 & C1 & I1). exists s1. split; auto. split; auto. split; [unfold live; rewrite I1; auto; apply self_neq|].
        split; [intros ? ? [= <- <-]; auto|]. intros q NQ. specialize (NQ ltac:(discriminate)). destruct (O1 q NQ) as (A1 & A2). split; auto.
      - exists st. split; auto. split; auto. split; auto. split; [discriminate|]. auto. }
    destruct X as (s1 & B1 & C1 & L1 & F1 & O1).
    destruct (IH s1 C1 L1 N2) as (s2 & R & C2 & L2 & F2 & O2 & I2).
    + intros z s I. apply HB. right; auto.
    + intros z from w I. apply HG. right; auto.
    + exists s2. split; [cbn [citer]; unfold cbind at 1; rewrite B1; exact R|]. split; auto. split; auto.
      assert (NX : forall z, In z kids -> name y <> name z). { intros z I E. apply N1. rewrite E. apply in_map; auto. }
      split; [|split].
      * intros z from w [<-|I] G; [|eapply F2; eauto]. rewrite (proj1 (O2 (t ++ [Child (name y)]) ltac:(intros z I _; apply snoc_neq; apply NX; auto))). eapply F1; eauto.
      * intros q NQ. destruct (O2 q (fun z I => NQ z (or_intror I))) as (A1 & A2). destruct (O1 q (NQ y (or_introl eq_refl))) as (A3 & A4 & _). split; congruence.
      * intros q NQ. rewrite (I2 q (fun z I => NQ z (or_intror I))). apply (O1 q (NQ y (or_introl eq_refl))).
Qed.
End Types.

(** *** Contours with a flag [closed] *)
Section Contour.
Variables (sm tm : meta).
Variable src : node.
Variable str_of : pyval -> str.
Variable parse_float : str -> option flt.
Variable parse_cpx : str -> option (flt * flt).
Variable flt_of_int : Z -> option flt.
Variable np_cast : dtype -> pyval -> result pexn value.
Variable array_items : value -> list pyval.
Variable close : pyval -> pyval -> bool.
Hypothesis Ws : wf_meta sm.
Hypothesis W : wf_meta tm.
Hypothesis SO : str_ok tm.
Hypothesis casts : casts_arrays np_cast.
Notation type_repeat_first := (type_repeat_first sm tm src str_of parse_float parse_cpx flt_of_int np_cast array_items).
Notation type_remove_last := (type_remove_last tm str_of parse_float parse_cpx flt_of_int np_cast array_items close).
Notation assign := (assign tm str_of parse_float parse_cpx flt_of_int np_cast array_items).
Notation set_to := (set_to tm str_of parse_float parse_cpx flt_of_int np_cast array_items).

Lemma flag_read : forall sl z st, flag_at sm src sl z -> exists cl, source_closed sm src sl st = (st, Ok cl) /\ source_truth sm src cl st = (st, Ok (negb (z =? 0)%Z)).
Proof.
  assert (T : forall y z cl st, vnode_at sm src cl y (NLeaf (Some (VInt z))) -> source_truth sm src cl st = (st, Ok (negb (z =? 0)%Z))).
  { intros y z cl st H. apply look_vnode in H; auto. unfold source_truth, source_at. rewrite H. unfold leaf_value. destruct (mkind y); reflexivity. }
  assert (CM : forall cs, In closed_name (map mname cs) -> exists c, child_meta closed_name cs = Some c).
  { intros cs I. destruct (child_meta closed_name cs) eqn:E; eauto. exfalso. unfold child_meta in E. apply in_map_iff in I as (c & E2 & I). pose proof (find_none _ _ E c I) as X. cbv beta in X. rewrite E2, str_eqb_refl in X. discriminate. }
  intros sl z st [nm cs x y V I V2|nm k cs x y V NI V2].
  - exists (sl ++ [Child closed_name]). split; [|eapply T; eauto]. apply look_vnode in V; auto. unfold source_closed, source_attr, source_at. rewrite V. destruct (CM cs I) as (c & ->). reflexivity.
  - exists (removelast sl ++ [Child closed_name]). split; [|eapply T; eauto]. apply look_vnode in V, V2; auto. unfold source_closed.
    assert (E1 : source_attr sm src sl closed_name = None).
    { unfold source_attr, source_at. rewrite V. destruct k; auto. destruct (child_meta closed_name cs) eqn:E; auto. exfalso. apply child_meta_Some in E as (I & E). apply (NI eq_refl). change (strs "closed") with closed_name. rewrite <- E. apply in_map; auto. }
    rewrite E1. unfold source_attr, source_at. rewrite look_app in V2. destruct (look sm src (removelast sl)) as [[m' n']|]; [|discriminate]. cbn [look] in V2.
    destruct m' as [mn [| |dt nd] mcs]; try discriminate. cbn [mkind mchildren] in V2. destruct n'; try discriminate. fold closed_name in V2. destruct (child_meta closed_name mcs); [reflexivity|discriminate].
Qed.

(** The children of a contour, apart from the flag: numeric 1D arrays.  [d] is the child of the other version. *)
Definition point_child (c d : meta) : Prop :=
  exists dt, mkind c = KLeaf dt 1 /\ mkind d = KLeaf dt 1 /\ dt <> STR /\ mname d = mname c /\ mname c <> strs "closed" /\ mname c <> strs "time" /\
             VmapModel.ends_with (strs "_error_index") (mname c) = false.
Definition contour (scs tcs : list meta) (n : node) : Prop :=
  forall c ch, In c scs -> ne c (node_fields n) = Some ch -> mname c = strs "closed" \/ exists d, In d tcs /\ point_child c d.
(** ... holds v *)
Definition holds (scs : list meta) (n : node) (c : meta) (v : value) : Prop := In c scs /\ mname c <> strs "closed" /\ ne c (node_fields n) = Some (NLeaf (Some v)).

Lemma ne_leaf : forall c ch fs dt nd nm cs, conf (Meta nm KStruct cs) (NStruct fs) -> In c cs -> ne c fs = Some ch -> mkind c = KLeaf dt nd ->
  exists v, ch = NLeaf (Some v) /\ val_ok dt nd v /\ leaf_has_value nd (Some v) = true.
Proof.
  intros c ch fs dt nd nm cs C I E K. unfold ne in E. destruct (alookup (mname c) fs) as [x|] eqn:A; [|discriminate]. destruct (has_value c x) eqn:H; [|discriminate]. injection E as ->.
  inversion C as [| |? ? ? CC CK CN|]; subst. specialize (CC _ _ I A). destruct c as [cn ck ccs]. simpl in K. subst ck. inversion CC; subst; simpl in H; [discriminate|]. eauto.
Qed.
Lemma kids_nodup : forall cs fs, NoDup (map mname cs) -> NoDup (map (fun x => mname (fst x)) (iter_nonempty cs fs)).
Proof.
  intros cs fs. induction cs as [|c l IH]; intros N; simpl; [constructor|]. inversion N as [|? ? N1 N2]; subst. destruct (alookup (mname c) fs) as [ch|]; [|auto]. destruct (has_value c ch); [|auto].
  simpl. constructor; auto. intros I. apply N1. apply in_map_iff in I as ([c' ch'] & E & I). simpl in E. apply in_iter_nonempty in I as (I & _). rewrite <- E. apply in_map. auto.
Qed.
Lemma row_nonempty : forall dt v, val_ok dt 1 v -> dt <> STR -> leaf_has_value 1 (Some v) = true -> is_array v = true /\ exists w, repeat_first v = Some w.
Proof.
  intros dt v VO NS HV. unfold leaf_has_value, leaf_size in HV. inversion VO; subst; try congruence; (split; [reflexivity|]);
    (destruct sh as [|[|k] r]; [congruence|discriminate HV|unfold repeat_first, add_row; simpl; eauto]).
Qed.

Theorem contour_closes : forall snm scs fs tcs sl tl z st, wf_meta (Meta snm KStruct scs) -> conf (Meta snm KStruct scs) (NStruct fs) -> flag_at sm src sl z ->
  conf tm (c_tree st) -> live tm (c_tree st) tl tcs -> contour scs tcs (NStruct fs) ->
  exists st', type_repeat_first (Meta snm KStruct scs) (NStruct fs) sl tl st = (st', Ok None) /\ conf tm (c_tree st') /\ live tm (c_tree st') tl tcs /\
    (forall c v, holds scs (NStruct fs) c v -> exists w, fval tm (c_tree st') (tl ++ [Child (mname c)]) = Some w /\ (z <> 0%Z -> closed_up v w) /\ (z = 0%Z -> w = v)) /\
    (forall q, (forall c v, holds scs (NStruct fs) c v -> q <> tl ++ [Child (mname c)]) -> fval tm (c_tree st') q = fval tm (c_tree st) q /\ fsize tm (c_tree st') q = fsize tm (c_tree st) q).
Proof.
  intros snm scs fs tcs sl tl z st Wm Cm FL C L CT. destruct (flag_read sl z st FL) as (cl & R1 & R2).
  set (b := negb (z =? 0)%Z) in *.
  pose (g := fun y : meta * node => if str_eqb (mname (fst y)) closed_name then None
             else if b then option_map (fun w => (@None loc, w)) (repeat_first (leaf_value (fst y) (snd y))) else Some (Some (sl ++ [Child (mname (fst y))]), leaf_value (fst y) (snd y))).
  assert (PT : forall c ch, In (c, ch) (iter_nonempty scs fs) -> mname c = closed_name \/ exists d dt v, In d tcs /\ mkind d = KLeaf dt 1 /\ mkind c = KLeaf dt 1 /\ dt <> STR /\ mname d = mname c /\ ch = NLeaf (Some v) /\ val_ok dt 1 v /\ leaf_has_value 1 (Some v) = true /\
             str_eqb (mname c) closed_name = false /\ str_eqb (mname c) (strs "time") = false /\ VmapModel.ends_with (strs "_error_index") (mname c) = false).
  { intros c ch I. apply in_iter_nonempty in I as (I & E). destruct (CT c ch I E) as [X|(d & Id & dt & K & Kd & NS & N & N1 & N2 & N3)]; auto. right.
    destruct (ne_leaf c ch fs dt 1 snm scs Cm I E K) as (v & -> & VO & HV). exists d, dt, v. repeat (split; auto); apply str_eqb_neq; auto. }
  destruct (set_all tm str_of parse_float parse_cpx flt_of_int np_cast array_items W SO casts _ (fun y : meta * node => mname (fst y)) g
     (fun y => let (c, ch) := y : meta * node in
       if str_eqb (mname c) closed_name || VmapModel.ends_with (strs "_error_index") (mname c) then cret tt else
       match mkind c with
       | KLeaf _ _ =>
         let v := leaf_value c ch in
         if b && negb (str_eqb (mname c) (strs "time")) && is_num_array c then
           doc w <- of_option CType (repeat_first v);
           doc a <- getattr tm tl (mname c); assign a None (of_value w)
         else set_child tm str_of parse_float parse_cpx flt_of_int np_cast array_items tl (mname c) (sl ++ [Child (mname c)]) v
       | _ => cfail CAttribute
       end) tl tcs (iter_nonempty scs fs) st C L) as (st' & RUN & C' & L' & F' & O' & _).
  - apply kids_nodup. inversion Wm; auto.
  - intros [c ch] s I Ls. cbn [fst snd]. unfold g. cbn [fst snd]. destruct (PT c ch I) as [E|(d & dt & v & Id & Kd & K & NS & N & -> & VO & HV & N1 & N2 & N3)].
    + rewrite E, str_eqb_refl. reflexivity.
    + rewrite N1, N2, N3, K. cbn [orb negb]. rewrite Bool.andb_true_r. assert (IN : is_num_array c = true) by (unfold is_num_array; rewrite K; destruct dt; congruence || reflexivity). rewrite IN, Bool.andb_true_r.
      destruct b; [|reflexivity]. destruct (row_nonempty dt v VO NS HV) as (_ & w & RF). unfold leaf_value. rewrite K, RF. reflexivity.
  - intros [c ch] from w I G. cbn [fst snd]. unfold g in G. cbn [fst snd] in G. destruct (PT c ch I) as [E|(d & dt & v & Id & Kd & K & NS & N & -> & VO & HV & N1 & N2 & N3)].
    + rewrite E, str_eqb_refl in G. discriminate.
    + rewrite N1 in G. exists d, dt, 1. split; auto. split; auto. split; auto. unfold leaf_value in G. rewrite K in G. destruct b.
      * destruct (row_nonempty dt v VO NS HV) as (AR & w' & RF). rewrite RF in G. injection G as <- <-. assert (CU : closed_up v w') by (apply repeat_first_spec; eauto).
        destruct (closed_up_ok v w' CU) as (X1 & X2). split; [auto|]. split; [discriminate|]. apply X2; auto.
      * injection G as <- <-. split; auto. split; [discriminate|auto].
  - exists st'. split; [|split; [auto|split; [auto|split]]].
    + unfold ConvModel.type_repeat_first, cbind at 1. rewrite R1. unfold cbind at 1. rewrite R2. unfold cbind at 1. cbn [pairs cret citer]. unfold cbind at 1 2. cbn [node_fields mchildren]. cbv zeta in RUN. rewrite RUN. reflexivity.
    + intros c v (I & NC & E). assert (IK : In (c, NLeaf (Some v)) (iter_nonempty scs fs)) by (apply in_iter_nonempty; auto).
      destruct (PT _ _ IK) as [X|(d & dt & v' & Id & Kd & K & NS & N & EV & VO & HV & N1 & N2 & N3)]; [contradiction|]. injection EV as <-.
      specialize (F' (c, NLeaf (Some v))). cbn [fst snd] in F'. unfold g in F'. cbn [fst snd] in F'. rewrite N1 in F'. unfold leaf_value in F'. rewrite K in F'. destruct b eqn:B.
      * destruct (row_nonempty dt v VO NS HV) as (AR & w & RF). rewrite RF in F'. exists w. split; [eapply F'; eauto; reflexivity|]. split; [intros _; apply repeat_first_spec; eauto|].
        intros ->. discriminate B.
      * exists v. split; [eapply F'; eauto|]. split; auto. intros NZ. exfalso. apply NZ. unfold b in B. apply Bool.negb_false_iff, Z.eqb_eq in B. auto.
    + intros q NQ. apply O'. intros [c ch] I G. cbn [fst snd]. destruct (PT c ch I) as [E|(d & dt & v & _ & _ & _ & _ & _ & -> & _ & _ & N1 & _)].
      * exfalso. apply G. unfold g. cbn [fst]. rewrite E, str_eqb_refl. reflexivity.
      * apply (NQ c v). apply in_iter_nonempty in I as (I & E). split; auto. split; auto. intros X. rewrite X in N1. discriminate.
Qed.

(** *** back *)
Lemma ends_elems : forall v x y, ends v x y -> exists t, elems_of v = Some (x :: t) /\ last t x = y.
Proof.
  assert (G : forall A B (f : A -> B) (d : list A) a b, nth_error d 0 = Some a -> nth_error d (length d - 1) = Some b -> exists t, map f d = f a :: t /\ last t (f a) = f b).
  { intros A B f d a b H0 H1. destruct d as [|x d]; [discriminate|]. injection H0 as ->. exists (map f d). split; auto. simpl in H1. rewrite Nat.sub_0_r in H1.
    revert a H1. induction d as [|y d IH]; intros a H1; simpl in *; [congruence|]. destruct d as [|z d]; simpl in *; [congruence|]. apply (IH a). destruct (length d); auto. }
  intros v x y H. destruct H as [k d a b H0 H1|k d a b H0 H1|k d a b H0 H1].
  - destruct (G _ _ PInt d a b H0 H1) as (t & E & L). exists t. simpl. rewrite E. auto.
  - destruct (G _ _ PFlt d a b H0 H1) as (t & E & L). exists t. simpl. rewrite E. auto.
  - destruct (G _ _ (fun x => PCpx (fst x) (snd x)) d a b H0 H1) as (t & E & L). exists t. simpl. rewrite E. auto.
Qed.
Lemma ends_ex : forall dt v, val_ok dt 1 v -> dt <> STR -> leaf_has_value 1 (Some v) = true -> exists x y, ends v x y.
Proof.
  assert (G : forall A (d : list A) k, k = length d -> (0 <? k * 1) = true -> exists a b, nth_error d 0 = Some a /\ nth_error d (length d - 1) = Some b).
  { intros A d k -> H. destruct d as [|a d]; [discriminate|]. exists a. destruct (nth_error (a :: d) (length (a :: d) - 1)) as [b|] eqn:E; [eauto|]. apply nth_error_None in E. simpl in E. lia. }
  intros dt v VO NS HV. unfold leaf_has_value, leaf_size in HV. inversion VO; subst; try congruence; (destruct sh as [|k [|? ?]]; [congruence| |discriminate]); cbn [value_len] in HV; match goal with P : prod [_] = _ |- _ => cbn in P end; cbn in HV;
    (destruct (G _ d k) as (a & b & E1 & E2); [lia|exact HV|]); do 2 eexists; econstructor; eauto.
Qed.
Lemma all_close_spec : forall (kids : list (meta * node)), (forall c ch, In (c, ch) kids -> str_eqb (mname c) (strs "time") = false /\ exists x y, ends (leaf_value c ch) x y) ->
  exists b, all_close close kids = Some b /\ (b = true <-> forall c ch x y, In (c, ch) kids -> ends (leaf_value c ch) x y -> close x y = true).
Proof.
  induction kids as [|[c ch] kids IH]; intros H.
  - exists true. split; [reflexivity|]. split; [intros _ ? ? ? ? []|reflexivity].
  - destruct (H c ch (or_introl eq_refl)) as (NT & x & y & E). destruct (IH (fun c' ch' I => H c' ch' (or_intror I))) as (b & A & B).
    cbn [all_close]. rewrite NT. unfold endpoints_close. destruct (ends_elems _ _ _ E) as (t & EL & LA). rewrite EL, LA. destruct (close x y) eqn:CL.
    + exists b. split; auto. rewrite B. split; intros X.
      * intros c' ch' x' y' [[= <- <-]|I] E'; [|eauto]. destruct (ends_elems _ _ _ E') as (t' & EL' & LA'). rewrite EL in EL'. injection EL' as <- <-. congruence.
      * intros c' ch' x' y' I. apply X. right; auto.
    + exists false. split; auto. split; [discriminate|]. intros X. rewrite (X c ch x y (or_introl eq_refl) E) in CL. discriminate.
Qed.

(** the place of the flag in the target *)
Definition flag_place (n : node) (tl : loc) (tcs : list meta) (cl : loc) : Prop :=
  (exists d, In d tcs /\ mname d = strs "closed" /\ mkind d = KLeaf INT 0 /\ cl = tl ++ [Child (strs "closed")]) \/
  (~ In (strs "closed") (map mname tcs) /\ exists pcs d, live tm n (removelast tl) pcs /\ In d pcs /\ mname d = strs "closed" /\ mkind d = KLeaf INT 0 /\ cl = removelast tl ++ [Child (strs "closed")]).
Lemma point_shorter : forall dt v, val_ok dt 1 v -> dt <> STR -> 1 < value_len v -> exists w, drop_last v = Some w /\ val_ok dt 1 w /\ leaf_has_value 1 (Some w) = true.
Proof.
  intros dt v VO NS L. inversion VO; subst; try congruence; (destruct sh as [|k [|? ?]]; [congruence| |discriminate]); cbn in L; match goal with P : prod [_] = _ |- _ => cbn in P end; cbn [drop_last drop_rows];
    (eexists; split; [reflexivity|]); (split; [first [apply (vo_inta [k - 1])|apply (vo_flta [k - 1])|apply (vo_cpxa [k - 1])]; [discriminate|rewrite firstn_length; simpl; lia]|]);
    unfold leaf_has_value, leaf_size; simpl; apply Nat.ltb_lt; lia.
Qed.

Theorem contour_opens : forall snm scs fs tcs sl tl cl st, wf_meta (Meta snm KStruct scs) -> conf (Meta snm KStruct scs) (NStruct fs) ->
  conf tm (c_tree st) -> live tm (c_tree st) tl tcs -> flag_place (c_tree st) tl tcs cl -> contour scs tcs (NStruct fs) -> ~ In (strs "closed") (map mname scs) -> 
  (forall c v, holds scs (NStruct fs) c v -> 1 < value_len v) ->
  exists st' b, type_remove_last (Meta snm KStruct scs) (NStruct fs) sl tl st = (st', Ok None) /\ conf tm (c_tree st') /\
    fval tm (c_tree st') cl = Some (VInt (if b : bool then 1 else 0)) /\
    (b = true <-> forall c v x y, holds scs (NStruct fs) c v -> ends v x y -> close x y = true) /\
    (forall c v, holds scs (NStruct fs) c v -> exists w, fval tm (c_tree st') (tl ++ [Child (mname c)]) = Some w /\ (b = true -> drop_last v = Some w) /\ (b = false -> w = v)) /\
    (forall q, q <> cl -> (forall c v, holds scs (NStruct fs) c v -> q <> tl ++ [Child (mname c)]) -> fval tm (c_tree st') q = fval tm (c_tree st) q /\ fsize tm (c_tree st') q = fsize tm (c_tree st) q).
Proof.
  intros snm scs fs tcs sl tl cl st Wm Cm C L FP CT NCL LEN.
  assert (PT : forall c ch, In (c, ch) (iter_nonempty scs fs) -> exists d dt v, In d tcs /\ mkind d = KLeaf dt 1 /\ mkind c = KLeaf dt 1 /\ dt <> STR /\ mname d = mname c /\ ch = NLeaf (Some v) /\ val_ok dt 1 v /\ leaf_has_value 1 (Some v) = true /\
             mname c <> closed_name /\ str_eqb (mname c) (strs "time") = false /\ 1 < value_len v).
  { intros c ch I. apply in_iter_nonempty in I as (I & E). destruct (CT c ch I E) as [X|(d & Id & dt & K & Kd & NS & N & N1 & N2 & N3)].
    { exfalso. apply NCL. rewrite <- X. apply in_map; auto. }
    destruct (ne_leaf c ch fs dt 1 snm scs Cm I E K) as (v & -> & VO & HV). exists d, dt, v. repeat (split; auto); [apply str_eqb_neq; auto|]. apply (LEN c v). split; auto. }
  assert (HK : forall c v, holds scs (NStruct fs) c v <-> In (c, NLeaf (Some v)) (iter_nonempty scs fs)).
  { intros c v. rewrite in_iter_nonempty. split; [intros (I & _ & E); auto|]. intros (I & E). split; auto. split; auto. intros X. apply NCL. rewrite <- X. apply in_map; auto. }
  destruct (all_close_spec (iter_nonempty scs fs)) as (b & AC & BS).
  { intros c ch I. destruct (PT c ch I) as (d & dt & v & Id & Kd & K & NS & N & -> & VO & HV & N1 & N2 & LN). split; auto. unfold leaf_value. rewrite K. eapply ends_ex; eauto. }
  assert (BS' : b = true <-> forall c v x y, holds scs (NStruct fs) c v -> ends v x y -> close x y = true).
  { rewrite BS. split.
    - intros H c v x y HO E. pose proof (proj1 (HK c v) HO) as I. apply (H c (NLeaf (Some v)) x y I). destruct (PT _ _ I) as (d & dt & v' & _ & _ & K & _). unfold leaf_value. rewrite K. auto.
    - intros H c ch x y I E. destruct (PT _ _ I) as (d & dt & v & _ & _ & K & _ & _ & -> & _). unfold leaf_value in E. rewrite K in E. apply (H c v x y); [apply HK; auto|auto]. }
  (* the flag *)
  assert (FL : exists s1, (doc cc <- target_closed tm tl; assign cc None (PInt (if b then 1 else 0))) st = (s1, Ok tt) /\ (exists s0, target_closed tm tl st = (s0, Ok cl) /\ assign cl None (PInt (if b then 1 else 0)) s0 = (s1, Ok tt)) /\ conf tm (c_tree s1) /\ live tm (c_tree s1) tl tcs /\
    fval tm (c_tree s1) cl = Some (VInt (if b then 1 else 0)) /\ only tm cl (c_tree st) (c_tree s1)).
  { assert (X : exists p cs d, live tm (c_tree st) p cs /\ In d cs /\ mname d = closed_name /\ mkind d = KLeaf INT 0 /\ cl = p ++ [Child closed_name] /\ tl <> cl /\ target_closed tm tl st = getattr tm p closed_name st).
    { unfold target_closed, cview, view, lift, cbind. unfold live in L. rewrite L. destruct FP as [(d & I & N & K & ->)|(NI & pcs & d & LP & I & N & K & ->)].
      - exists tl, tcs, d. repeat (split; auto); [apply self_neq|]. assert (ND : NoDup (map mname tcs)).
        { destruct (live_look _ _ _ _ L) as (nm' & fs' & LK). apply look_vnode in LK; auto. destruct (vnode_conf _ _ _ _ _ LK W C) as (W' & _). inversion W'; auto. }
        rewrite (proj2 (child_meta_iff tcs closed_name d ND)) by auto. destruct st; reflexivity.
      - exists (removelast tl), pcs, d. repeat (split; auto).
        + intros E. destruct (live_look _ _ _ _ L) as (nm' & fs' & LK). destruct (live_look _ _ _ _ LP) as (nmp & fsp & LKP). rewrite E in LK. rewrite look_app, LKP in LK.
          assert (ND : NoDup (map mname pcs)). { apply look_vnode in LKP; auto. destruct (vnode_conf _ _ _ _ _ LKP W C) as (W' & _). inversion W'; auto. }
          cbn [look mkind mchildren] in LK. rewrite (proj2 (child_meta_iff pcs (strs "closed") d ND)) in LK by auto. injection LK as LK _. rewrite LK in K. discriminate.
        + destruct (child_meta closed_name tcs) eqn:E; [|destruct st; reflexivity]. exfalso. apply child_meta_Some in E as (I' & E). apply NI. fold closed_name. rewrite <- E. apply in_map; auto. }
    destruct X as (p & cs & d & LP & I & N & K & EC & NE & TC).
    destruct (set_to_ok tm str_of parse_float parse_cpx flt_of_int np_cast array_items W SO casts p cs d INT 0 None (VInt (if b then 1 else 0)) st) as (s1 & S1 & F1 & O1 & C1 & I1); auto; [constructor| |].
    { intros _ E. apply is_empty_spec in E. destruct b; discriminate. }
    rewrite N, <- EC in *. exists s1. unfold ConvProps3.set_to, cbind in S1. rewrite <- TC in S1. destruct (target_closed tm tl st) as [s0 [a|]] eqn:E0; [|discriminate].
    assert (a = cl) as -> by (symmetry in TC; apply getattr_loc in TC; congruence).
    split; [unfold cbind; rewrite E0; exact S1|]. split; [exists s0; auto|]. split; auto. split; [unfold live; rewrite I1; auto|]. auto. }
  destruct FL as (s1 & _ & (s0 & TC & AS) & C1 & L1 & F1 & O1).
  pose (g := fun y : meta * node => if b then option_map (fun w => (Some (sl ++ [Child (mname (fst y))]), w)) (drop_last (leaf_value (fst y) (snd y))) else Some (Some (sl ++ [Child (mname (fst y))]), leaf_value (fst y) (snd y))).
  destruct (set_all tm str_of parse_float parse_cpx flt_of_int np_cast array_items W SO casts _ (fun y : meta * node => mname (fst y)) g
     (fun y => let (c, ch) := y : meta * node in
       match mkind c with
       | KLeaf _ _ =>
         let v := leaf_value c ch in
         doc w <- (if b && negb (str_eqb (mname c) (strs "time")) && is_num_array c then of_option CType (drop_last v) else cret v);
         set_child tm str_of parse_float parse_cpx flt_of_int np_cast array_items tl (mname c) (sl ++ [Child (mname c)]) w
       | _ => cfail CAttribute
       end) tl tcs (iter_nonempty scs fs) s1 C1 L1) as (st' & RUN & C' & L' & F' & O' & _).
  - apply kids_nodup. inversion Wm; auto.
  - intros [c ch] s I Ls. cbn [fst snd]. unfold g. cbn [fst snd]. destruct (PT c ch I) as (d & dt & v & Id & Kd & K & NS & N & -> & VO & HV & N1 & N2 & LN).
    rewrite N2, K. assert (IN : is_num_array c = true) by (unfold is_num_array; rewrite K; destruct dt; congruence || reflexivity). rewrite IN. cbn [negb]. rewrite !Bool.andb_true_r.
    destruct b; [|reflexivity]. destruct (point_shorter dt v VO NS LN) as (w & DL & _). unfold leaf_value. rewrite K, DL. reflexivity.
  - intros [c ch] from w I G. cbn [fst snd]. unfold g in G. cbn [fst snd] in G. destruct (PT c ch I) as (d & dt & v & Id & Kd & K & NS & N & -> & VO & HV & N1 & N2 & LN).
    exists d, dt, 1. split; auto. split; auto. split; auto. unfold leaf_value in G. rewrite K in G. destruct b.
    + destruct (point_shorter dt v VO NS LN) as (w' & DL & VW & HW). rewrite DL in G. injection G as <- <-. split; auto. split; [discriminate|auto].
    + injection G as <- <-. split; auto. split; [discriminate|auto].
  - exists st', b.
    assert (NCQ : forall y, In y (iter_nonempty scs fs) -> g y <> None -> cl <> tl ++ [Child (mname (fst y))]).
    { intros [c ch] I _ E. cbn [fst] in E. destruct (PT c ch I) as (d & dt & v & Id & Kd & K & NS & N & -> & VO & HV & N1 & _).
      destruct FP as [(d' & _ & _ & _ & X)|(_ & pcs & d' & _ & _ & _ & _ & X)]; rewrite X in E; apply app_inj_tail in E as (_ & E); injection E as E; apply N1; auto. }
    split; [|split; [auto|split; [|split; [exact BS'|split]]]].
    + assert (CCL : contours_close close scs [NStruct fs] = Some b) by (cbn [contours_close node_fields]; rewrite AC; destruct b; reflexivity).
      unfold ConvModel.type_remove_last. cbn [mchildren]. unfold cbind at 1. rewrite TC. rewrite CCL. cbn [of_option]. unfold cbind at 1. cbn [cret]. unfold cbind at 1. rewrite AS.
      unfold cbind at 1. cbn [pairs cret citer]. unfold cbind at 1 2. cbn [node_fields mchildren]. cbv zeta in RUN. rewrite RUN. reflexivity.
    + rewrite (proj1 (O' cl NCQ)). exact F1.
    + intros c v HO. pose proof (proj1 (HK c v) HO) as I. destruct (PT _ _ I) as (d & dt & v' & Id & Kd & K & NS & N & EV & VO & HV & N1 & N2 & LN). injection EV as <-.
      specialize (F' (c, NLeaf (Some v))). cbn [fst snd] in F'. unfold g in F'. cbn [fst snd] in F'. unfold leaf_value in F'. rewrite K in F'. destruct b.
      * destruct (point_shorter dt v VO NS LN) as (w & DL & VW & HW). rewrite DL in F'. exists w. split; [eapply F'; eauto; reflexivity|]. split; [auto|discriminate].
      * exists v. split; [eapply F'; eauto|]. split; [discriminate|auto].
    + intros q NQC NQ. destruct (O' q) as (A1 & A2).
      { intros [c ch] I _. cbn [fst]. destruct (PT c ch I) as (d & dt & v & _ & _ & _ & _ & _ & -> & _). apply (NQ c v). apply HK; auto. }
      destruct (O1 q NQC) as (A3 & A4). split; congruence.
Qed.
End Contour.
