(** C25, continued: thickness of a centreline, identifiers. *)
From Verif Require Import Base PathModel TreeModel TreeSpec TreeProofs TreeProofs2 TreeProofs3 TreeProofs4 TreeCheck ValModel ValProofs ValProofs2 PrimModel PrimSpec PrimProps ConvModel ConvSpec ConvInverse
  ConvProofs ConvProofs2 ConvProofs3 ConvProofs4 ConvProofs5 ConvProps ConvProps2 ConvProps3 ConvProps4.
From Verif Require VmapModel.
Import VmapModel(handler(..), nmap).

(** reading the data node at l gives v *)
Definition shown (m : meta) (n : node) (l : loc) (v : value) : Prop :=
  exists nm dt nd cs x, vnode_at m n l (Meta nm (KLeaf dt nd) cs) (NLeaf x) /\ (x = Some v \/ (x = None /\ v = default_value dt nd)).

Lemma shown_info : forall m n l v, wf_meta m -> (shown m n l v <-> exists nd, info_at m n l = Some (ILeaf nd v)).
Proof.
  intros m n l v W. split.
  - intros (nm & dt & nd & cs & x & V & E). apply look_vnode in V; auto. exists nd. unfold info_at. rewrite V. unfold info_of. cbn [mkind]. do 2 f_equal. unfold leaf_value. cbn [mkind].
    destruct E as [->|(-> & ->)]; reflexivity.
  - intros (nd & I). unfold info_at in I. destruct (look m n l) as [[m' n']|] eqn:L; [|discriminate]. apply look_vnode in L; auto. destruct m' as [nm [| |dt nd'] cs]; unfold info_of in I; cbn [mkind] in I; destruct n' as [|?|x]; try discriminate.
    injection I as -> E. exists nm, dt, nd, cs, x. split; auto. unfold leaf_value in E. cbn [mkind] in E. destruct x; [left; congruence|right; auto].
Qed.
Lemma place_info : forall m n n' l dt nd, wf_meta m -> info_at m n' l = info_at m n l -> place m n l dt nd -> place m n' l dt nd.
Proof.
  intros m n n' l dt nd W E (nm & cs & old & V). apply look_vnode in V; auto. unfold info_at in E. rewrite V in E. unfold info_of in E. cbn [mkind] in E.
  destruct (look m n' l) as [[m' y]|] eqn:L; [|discriminate]. pose proof (loc_ok_fun _ _ _ W (look_loc_ok _ _ _ _ _ V) _ (look_loc_ok _ _ _ _ _ L)). subst m'.
  cbn [mkind] in E. destruct y as [|?|x]; try discriminate. exists nm, cs, x. apply look_vnode; auto.
Qed.

Section Sets.
Variable tm : meta.
Variable str_of : pyval -> str.
Variable parse_float : str -> option flt.
Variable parse_cpx : str -> option (flt * flt).
Variable flt_of_int : Z -> option flt.
Variable np_cast : dtype -> pyval -> result pexn value.
Variable array_items : value -> list pyval.
Notation assign := (assign tm str_of parse_float parse_cpx flt_of_int np_cast array_items).
Notation set_to := (set_to tm str_of parse_float parse_cpx flt_of_int np_cast array_items).
Notation fval := (fval tm).
Notation fsize := (fsize tm).
Notation only := (only tm).
Hypothesis W : wf_meta tm.
Hypothesis SO : str_ok tm.
Hypothesis casts : casts_arrays np_cast.

(** an empty value is the default *)
Definition plain_empty (dt : dtype) (nd : nat) (v : value) : Prop := nd = 0 -> empty dt v -> v = default_value dt 0.
Lemma plain_int : forall z, plain_empty INT 0 (VInt z).
Proof. intros z _ E. apply is_empty_spec in E. simpl in E. apply Z.eqb_eq in E. subst. reflexivity. Qed.
Lemma plain_str : forall s, plain_empty STR 0 (VStr s).
Proof. intros s _ E. apply is_empty_spec in E. simpl in E. destruct s; [reflexivity|discriminate]. Qed.

Lemma assign_any : forall l from st v dt nd, place tm (c_tree st) l dt nd -> val_ok dt nd v -> plain_empty dt nd v ->
  exists st', assign l from (of_value v) st = (st', Ok tt) /\ shown tm (c_tree st') l v /\ (leaf_has_value nd (Some v) = true -> (nd = 0 -> ~ empty dt v) -> fval (c_tree st') l = Some v) /\
    only l (c_tree st) (c_tree st') /\ (conf tm (c_tree st) -> conf tm (c_tree st')) /\
    forall q, q <> l -> info_at tm (c_tree st') q = info_at tm (c_tree st) q.
Proof.
  intros l from st v dt nd (nm & cs & old & N) VO PE. apply look_vnode in N; auto.
  unfold ConvModel.assign. rewrite N. unfold set_value. rewrite (cast_same str_of parse_float parse_cpx flt_of_int np_cast array_items); [|exact (proj2 casts)|exact VO].
  set (x := if (nd =? 0) && is_empty dt v then None else Some v).
  assert (L1 : look tm (update tm (c_tree st) l (fun _ => NLeaf x)) l = Some (Meta nm (KLeaf dt nd) cs, NLeaf x)).
  { pose proof (look_update l tm (c_tree st) (fun _ => NLeaf x) [] _ _ N) as E. rewrite app_nil_r in E. exact E. }
  eexists. split; [reflexivity|]. simpl. split; [|split; [|split; [|split]]].
  - exists nm, dt, nd, cs, x. split; [apply look_vnode; auto|]. unfold x. destruct nd; [|left; reflexivity]. simpl. destruct (is_empty dt v) eqn:E; [|left; reflexivity]. right. split; auto.
    apply PE; auto. apply is_empty_spec; auto.
  - intros HV NE. change (leaf_has_value nd (Some v) = true) in HV. unfold ConvProofs.fval. rewrite L1. unfold x. destruct ((nd =? 0) && is_empty dt v) eqn:E; [|rewrite HV; auto].
    apply Bool.andb_true_iff in E as (E1 & E2). apply Nat.eqb_eq in E1. apply is_empty_spec in E2. exfalso. apply NE; auto.
  - intros q NQ. eapply obs_set_leaf; eauto.
  - intros C. eapply conf_update; eauto. unfold x. destruct ((nd =? 0) && is_empty dt v); constructor. auto.
  - intros q NQ. eapply info_set_leaf; eauto.
Qed.
Lemma set_to_any : forall t cs d dt nd from w st, conf tm (c_tree st) -> live tm (c_tree st) t cs -> In d cs -> mkind d = KLeaf dt nd -> val_ok dt nd w -> plain_empty dt nd w ->
  exists st', set_to t (mname d) from w st = (st', Ok tt) /\ shown tm (c_tree st') (t ++ [Child (mname d)]) w /\
    (leaf_has_value nd (Some w) = true -> (nd = 0 -> ~ empty dt w) -> fval (c_tree st') (t ++ [Child (mname d)]) = Some w) /\ only (t ++ [Child (mname d)]) (c_tree st) (c_tree st') /\
    conf tm (c_tree st') /\ forall q, q <> t ++ [Child (mname d)] -> info_at tm (c_tree st') q = info_at tm (c_tree st) q.
Proof.
  intros t cs d dt nd from w st C L I K VO PE.
  assert (ND : NoDup (map mname cs)).
  { destruct (live_look _ _ _ _ L) as (nm & fs & LK). apply look_vnode in LK; auto. destruct (vnode_conf _ _ _ _ _ LK W C) as (W' & _). inversion W'; auto. }
  set (s1 := {| c_tree := access tm (c_tree st) ((t ++ [Child (mname d)]) ++ [Elem 0]); c_shared := c_shared st |}).
  assert (G : getattr tm t (mname d) st = (s1, Ok (t ++ [Child (mname d)]))).
  { unfold ConvModel.getattr, cview, view, lift, cbind. unfold live in L. rewrite L, (proj2 (child_meta_iff cs (mname d) d ND)) by auto. destruct st. reflexivity. }
  assert (C1 : conf tm (c_tree s1)) by (apply access_conf; auto).
  assert (L1 : live tm (c_tree s1) t cs) by (unfold live; simpl; rewrite info_access; auto).
  destruct (assign_any (t ++ [Child (mname d)]) from s1 w dt nd) as (st' & A & SH & F & O & CF & IF); auto. { eapply live_place; eauto. }
  exists st'. split; [unfold ConvProps3.set_to, cbind; rewrite G; exact A|]. split; auto. split; auto. split; [|split; auto].
  - intros q NQ. destruct (O q NQ) as (O1 & O2), (obs_access ((t ++ [Child (mname d)]) ++ [Elem 0]) tm (c_tree st) q) as (O3 & O4). simpl in O1, O2. split; congruence.
  - intros q NQ. rewrite IF by auto. simpl. apply info_access.
Qed.

(** setting several data nodes, one after the other *)
Record set := { s_at : loc; s_name : str; s_from : option loc; s_value : value }.
Definition s_loc (a : set) : loc := s_at a ++ [Child (s_name a)].
Definition do_set (a : set) : CM unit := set_to (s_at a) (s_name a) (s_from a) (s_value a).
Definition set_ok (n : node) (a : set) : Prop :=
  exists cs d dt nd, live tm n (s_at a) cs /\ In d cs /\ mname d = s_name a /\ mkind d = KLeaf dt nd /\ val_ok dt nd (s_value a) /\ plain_empty dt nd (s_value a).
Lemma leaf_not_live : forall n t cs d dt nd t' cs', conf tm n -> live tm n t cs -> In d cs -> mkind d = KLeaf dt nd -> live tm n t' cs' -> t' <> t ++ [Child (mname d)].
Proof.
  intros n t cs d dt nd t' cs' C L I K L' ->. destruct (live_place tm W n t cs d dt nd C L I K) as (nm & dcs & old & V). apply look_vnode in V; auto. unfold live, info_at in L'. rewrite V in L'. discriminate.
Qed.
Lemma sets : forall acts st, conf tm (c_tree st) -> (forall a, In a acts -> set_ok (c_tree st) a) -> NoDup (map s_loc acts) ->
  exists st', citer do_set acts st = (st', Ok tt) /\ conf tm (c_tree st') /\
    (forall a, In a acts -> shown tm (c_tree st') (s_loc a) (s_value a)) /\
    (forall a cs d dt nd, In a acts -> live tm (c_tree st) (s_at a) cs -> In d cs -> mname d = s_name a -> mkind d = KLeaf dt nd ->
       leaf_has_value nd (Some (s_value a)) = true -> (nd = 0 -> ~ empty dt (s_value a)) -> fval (c_tree st') (s_loc a) = Some (s_value a)) /\
    (forall q, ~ In q (map s_loc acts) -> fval (c_tree st') q = fval (c_tree st) q /\ fsize (c_tree st') q = fsize (c_tree st) q) /\
    (forall q, ~ In q (map s_loc acts) -> info_at tm (c_tree st') q = info_at tm (c_tree st) q).
Proof.
  induction acts as [|a acts IH]; intros st C H ND.
  - exists st. split; [reflexivity|]. split; auto. split; [intros ? []|]. split; [intros ? ? ? ? ? []|]. auto.
  - inversion ND as [|? ? N1 N2]; subst. destruct (H a (or_introl eq_refl)) as (cs & d & dt & nd & L & I & E & K & VO & PE).
    destruct (set_to_any (s_at a) cs d dt nd (s_from a) (s_value a) st C L I K VO PE) as (s1 & S1 & SH & F1 & O1 & C1 & I1). rewrite E in *.
    assert (KEEP : forall t' cs', live tm (c_tree st) t' cs' -> live tm (c_tree s1) t' cs').
    { intros t' cs' L'. unfold live. rewrite I1; [exact L'|]. rewrite <- E. exact (leaf_not_live (c_tree st) (s_at a) cs d dt nd t' cs' C L I K L'). }
    destruct (IH s1) as (st' & R & C' & SH' & F' & O' & I'); auto.
    { intros b Ib. destruct (H b (or_intror Ib)) as (cs' & d' & dt' & nd' & L' & X). exists cs', d', dt', nd'. split; auto. }
    exists st'. split; [cbn [citer]; unfold cbind at 1; unfold do_set at 1; rewrite S1; exact R|]. split; auto. split; [|split; [|split]].
    + intros b [<-|Ib]; [|auto]. apply shown_info; auto. rewrite (I' (s_loc a) N1). apply shown_info; auto.
    + intros b cs' d' dt' nd' [<-|Ib] L' Id' E' K' HV NE.
      * rewrite (proj1 (O' (s_loc a) N1)). assert (cs' = cs) by (unfold live in *; congruence). subst cs'.
        assert (d' = d). { eapply (nodup_name cs); eauto; [|congruence]. destruct (live_look _ _ _ _ L) as (nm & fs & LK). apply look_vnode in LK; auto. destruct (vnode_conf _ _ _ _ _ LK W C) as (W' & _). inversion W'; auto. }
        subst d'. rewrite K in K'. injection K' as <- <-. apply F1; auto.
      * apply (F' b cs' d' dt' nd'); auto.
    + intros q NQ. assert (NQ1 : q <> s_loc a) by (intros ->; apply NQ; left; auto). destruct (O' q (fun X => NQ (or_intror X))) as (A1 & A2). destruct (O1 q NQ1) as (A3 & A4). split; congruence.
    + intros q NQ. rewrite (I' q (fun X => NQ (or_intror X))). apply I1. intros ->. apply NQ. left; auto.
Qed.
Lemma citer_app : forall A (f : A -> CM unit) l1 l2 s, citer f (l1 ++ l2) s = cbind (citer f l1) (fun _ => citer f l2) s.
Proof.
  intros A f l1 l2. induction l1 as [|x l1 IH]; intros s; [reflexivity|]. cbn [app citer]. unfold cbind in *. destruct (f x s) as [s1 [u|e]]; auto.
Qed.
Lemma citer_flat : forall A B (f : A -> CM unit) (g : B -> CM unit) (k : A -> list B) l s, (forall x s, In x l -> f x s = citer g (k x) s) -> citer f l s = citer g (flat_map k l) s.
Proof.
  intros A B f g k l. induction l as [|x l IH]; intros s H; [reflexivity|]. cbn [flat_map]. rewrite citer_app. cbn [citer]. unfold cbind. rewrite H by (left; auto).
  destruct (citer g (k x) s) as [s1 [u|e]]; auto. apply IH. intros y s' I. apply H. right; auto.
Qed.
Lemma citer_ext : forall A (f g : A -> CM unit) l s, (forall x s, In x l -> f x s = g x s) -> citer f l s = citer g l s.
Proof.
  intros A f g l. induction l as [|x l IH]; intros s H; [reflexivity|]. cbn [citer]. unfold cbind. rewrite H by (left; auto). destruct (g x s) as [s1 [u|e]]; auto. apply IH. intros y s' I. apply H. right; auto.
Qed.
End Sets.

(** ** The thickness of a centreline: open ones had one more value before version 4 *)
(** the flag of the centreline next to l *)
Definition centre_flag (m : meta) (n : node) (l : loc) (z : Z) : Prop := shown m n (removelast l ++ [Child (strs "centreline"); Child (strs "closed")]) (VInt z).
Inductive without_last : value -> value -> Prop :=
| wl_int : forall d x, without_last (VIntA [length d + 1] (d ++ [x])) (VIntA [length d] d)
| wl_flt : forall d x, without_last (VFltA [length d + 1] (d ++ [x])) (VFltA [length d] d)
| wl_cpx : forall d x, without_last (VCpxA [length d + 1] (d ++ [x])) (VCpxA [length d] d).
(** a 1D numeric array, with at least k elements *)
Definition vector (dt : dtype) (k : nat) (v : value) : Prop := val_ok dt 1 v /\ dt <> STR /\ k <= value_len v.

Lemma removelast_snoc : forall A (d : list A) k, length d = S k -> exists d' x, d = d' ++ [x] /\ firstn k d = d' /\ length d' = k.
Proof.
  intros A d k L. destruct (rev d) as [|x r] eqn:E; [apply (f_equal (@length _)) in E; rewrite rev_length in E; simpl in E; lia|].
  assert (D : d = rev r ++ [x]) by (rewrite <- (rev_involutive d), E; reflexivity). exists (rev r), x. rewrite D in L. rewrite app_length in L. simpl in L. split; auto. split; [|lia].
  rewrite D, firstn_app. replace (k - length (rev r)) with 0 by lia. simpl. rewrite app_nil_r, firstn_all2 by lia. reflexivity.
Qed.
Lemma vector_drop : forall dt v, vector dt 1 v -> exists w, drop_last v = Some w /\ without_last v w /\ val_ok dt 1 w.
Proof.
  intros dt v (VO & NS & L). inversion VO; subst; try congruence; (destruct sh as [|k [|? ?]]; [congruence| |discriminate]); cbn in L; match goal with P : prod [_] = _ |- _ => cbn in P end;
    (destruct k as [|k]; [lia|]); (destruct (removelast_snoc _ d k ltac:(lia)) as (d' & x & E & F & LD)); cbn [drop_last drop_rows prod fold_right];
    replace (S k - 1) with k by lia; (eexists; split; [reflexivity|]); cbn [prod fold_right]; rewrite ?Nat.mul_1_r, F, E; rewrite <- LD; replace (S (length d')) with (length d' + 1) by lia; (split; [first [apply wl_int|apply wl_flt|apply wl_cpx]|]);
    first [apply (vo_inta [length d'])|apply (vo_flta [length d'])|apply (vo_cpxa [length d'])]; first [discriminate|simpl; rewrite ?Nat.mul_1_r; reflexivity].
Qed.
Lemma vector_filled : forall dt v, vector dt 1 v -> leaf_has_value 1 (Some v) = true.
Proof. intros dt v (_ & _ & L). unfold leaf_has_value, leaf_size. apply Nat.ltb_lt. lia. Qed.
Lemma vector_last : forall dt v, vector dt 1 v -> exists w, repeat_last v = Some w /\ last_again v w /\ vector dt 2 w.
Proof.
  intros dt v (VO & NS & L). assert (AR : is_array v = true) by (inversion VO; subst; try congruence; reflexivity).
  assert (X : exists w, repeat_last v = Some w). { inversion VO; subst; try congruence; (destruct sh as [|k [|? ?]]; [congruence| |discriminate]); cbn in L; (destruct k as [|k]; [lia|]); unfold repeat_last, add_row; destruct (last_row _ _); eauto. }
  destruct X as (w & RL). exists w. split; auto. assert (LA : last_again v w) by (apply repeat_last_spec; eauto). split; auto. inversion LA as [k r d sh' d' R|k r d sh' d' R|k r d sh' d' R]; subst; inversion VO; subst;
    (destruct r; [|discriminate]); destruct R as (k' & r' & E & _ & -> & LD & _); injection E as <- <-; (split; [|split; [auto|simpl; lia]]);
    first [apply (vo_inta [_])|apply (vo_flta [_])|apply (vo_cpxa [_])]; first [discriminate|simpl in *; lia].
Qed.

Section Centre.
Variables (m1 m2 : meta).
Variable src : node.
Variable str_of : pyval -> str.
Variable parse_float : str -> option flt.
Variable parse_cpx : str -> option (flt * flt).
Variable flt_of_int : Z -> option flt.
Variable np_cast : dtype -> pyval -> result pexn value.
Variable array_items : value -> list pyval.
Variable close : pyval -> pyval -> bool.
Variable np_int32 : flt -> result pexn Z.
Variable enum_of : list str -> option (Z -> option (str * str)).
Hypothesis casts : casts_arrays np_cast.
Notation rule sm tm src := (type_change sm tm src str_of parse_float parse_cpx flt_of_int np_cast array_items close np_int32 enum_of).

Lemma look_up : forall m n p x y, look m n (p ++ [Child x]) = Some y -> exists nm cs fs, look m n p = Some (Meta nm KStruct cs, NStruct fs) /\ child_meta x cs <> None.
Proof.
  intros m n p x y L. rewrite look_app in L. destruct (look m n p) as [[[nm k cs] n']|]; [|discriminate]. cbn [look mkind mchildren] in L. destruct k; try discriminate. destruct n' as [fs|?|?]; try discriminate.
  destruct (child_meta x cs) eqn:E; [|discriminate]. exists nm, cs, fs. rewrite E. split; congruence.
Qed.
Lemma centre_source : forall m n p x y z, wf_meta m -> shown m n (p ++ [Child x; Child y]) (VInt z) ->
  source_attr m n p x = Some (p ++ [Child x]) /\ source_attr m n (p ++ [Child x]) y = Some (p ++ [Child x; Child y]) /\
  forall st, source_truth m n (p ++ [Child x; Child y]) st = (st, Ok (negb (z =? 0)%Z)).
Proof.
  intros m n p x y z W (nm & dt & nd & cs & v & V & E). apply look_vnode in V; auto. pose proof V as V0. replace (p ++ [Child x; Child y]) with ((p ++ [Child x]) ++ [Child y]) in V by (rewrite <- app_assoc; reflexivity).
  destruct (look_up _ _ _ _ _ V) as (nm1 & cs1 & fs1 & L1 & N1). destruct (look_up _ _ _ _ _ L1) as (nm2 & cs2 & fs2 & L2 & N2).
  unfold source_attr, source_at. rewrite L1, L2. destruct (child_meta x cs2); [|congruence]. destruct (child_meta y cs1); [|congruence]. rewrite <- app_assoc. split; auto. split; auto.
  intros st. unfold source_truth, source_at. rewrite V0. unfold leaf_value. cbn [mkind]. destruct E as [->|(-> & E)]; [reflexivity|]. rewrite <- E. reflexivity.
Qed.
Lemma getattr_info : forall m n sh p x, wf_meta m -> (exists i, info_at m n (p ++ [Child x]) = Some i) ->
  exists n', getattr m p x {| c_tree := n; c_shared := sh |} = ({| c_tree := n'; c_shared := sh |}, Ok (p ++ [Child x])) /\ (forall q, info_at m n' q = info_at m n q) /\ same_obs m n n'.
Proof.
  intros m n sh p x W (i & I). unfold info_at in I. destruct (look m n (p ++ [Child x])) as [y|] eqn:L; [|discriminate]. destruct (look_up _ _ _ _ _ L) as (nm & cs & fs & L1 & N1).
  unfold getattr, cview, view, lift, cbind, info_at. cbn [c_tree c_shared]. rewrite L1. cbn [info_of mkind mchildren]. destruct (child_meta x cs); [|congruence]. eexists. split; [reflexivity|].
  split; [intros q; apply info_access|]. apply obs_access.
Qed.
Lemma info_up : forall m n p x i, info_at m n (p ++ [Child x]) = Some i -> exists j, info_at m n p = Some j.
Proof.
  intros m n p x i I. unfold info_at in I. destruct (look m n (p ++ [Child x])) as [y|] eqn:L; [|discriminate]. destruct (look_up _ _ _ _ _ L) as (nm & cs & fs & L1 & N1). unfold info_at. rewrite L1. exists (IStruct cs). reflexivity.
Qed.

(** from the older to the newer version *)
Lemma centre_newer : forall sm tm src c dt v sl tl st z, wf_meta sm -> wf_meta tm -> mkind c = KLeaf dt 1 -> vector dt (if (z =? 0)%Z then 2 else 1) v -> centre_flag sm src sl z -> place tm (c_tree st) tl dt 1 ->
  exists st1 w, rule sm tm src H_remove_last_centre c (NLeaf (Some v)) sl tl st = (st1, Ok None) /\ fval tm (c_tree st1) tl = Some w /\ only tm tl (c_tree st) (c_tree st1) /\
    (z <> 0%Z -> w = v) /\ (z = 0%Z -> without_last v w) /\ (drop_last v = Some w \/ w = v).
Proof.
  intros sm tm s c dt v sl tl st z W1 W2 K VV CF P. unfold centre_flag in CF. fold closed_name in CF. destruct (centre_source sm s _ _ _ z W1 CF) as (A1 & A2 & A3).
  assert (X : exists w, (if negb (z =? 0)%Z then cret v else of_option CType (drop_last v)) st = (st, Ok w) /\ val_ok dt 1 w /\ leaf_has_value 1 (Some w) = true /\ (z <> 0%Z -> w = v) /\ (z = 0%Z -> without_last v w) /\ (drop_last v = Some w \/ w = v)).
  { destruct (Z.eqb_spec z 0) as [->|NZ]; cbn [negb].
    - destruct VV as (VO & NS & L). destruct (vector_drop dt v) as (w & DL & WL & VW); [split; auto; split; auto; lia|]. exists w. rewrite DL. split; auto. split; auto. split; [|split; [congruence|auto]].
      unfold leaf_has_value, leaf_size. apply Nat.ltb_lt. inversion WL; subst; simpl in L |- *; lia.
    - exists v. split; auto. split; [apply VV|]. split; [eapply vector_filled; eauto|]. split; [auto|]. split; [intros X; contradiction|auto]. }
  destruct X as (w & E & VW & HV & B1 & B2 & B3).
  destruct (assign_place_value tm str_of parse_float parse_cpx flt_of_int np_cast array_items W2 casts tl (Some sl) st w dt 1 P VW) as (st1 & A & F & ON & _); [discriminate|auto|].
  exists st1, w. split; [|auto]. cbn [type_change]. unfold type_centreline. unfold leaf_value. rewrite K. unfold cbind at 1. rewrite A1. cbn [of_option cret]. unfold cbind at 1. rewrite A2. cbn [of_option cret].
  unfold cbind at 1. rewrite A3. unfold cbind at 1. rewrite E. unfold cbind at 1. rewrite A. reflexivity.
Qed.
(** from the newer to the older version: the flag is the one of the target *)
Lemma centre_older : forall sm tm src c dt v sl tl st z, wf_meta tm -> mkind c = KLeaf dt 1 -> vector dt 1 v -> centre_flag tm (c_tree st) tl z -> place tm (c_tree st) tl dt 1 ->
  exists st1 w, rule sm tm src H_repeat_last_centre c (NLeaf (Some v)) sl tl st = (st1, Ok None) /\ fval tm (c_tree st1) tl = Some w /\ only tm tl (c_tree st) (c_tree st1) /\
    (z <> 0%Z -> w = v) /\ (z = 0%Z -> last_again v w) /\ vector dt (if (z =? 0)%Z then 2 else 1) w /\
    (forall q, q <> tl -> info_at tm (c_tree st1) q = info_at tm (c_tree st) q).
Proof.
  intros sm tm s c dt v sl tl [n0 sh0] z W2 K VV CF P. cbn [c_tree] in *. unfold centre_flag in CF. fold closed_name in CF.
  apply shown_info in CF as (nd & CF); auto. set (p := removelast tl) in *. assert (PE : p ++ [Child (strs "centreline"); Child closed_name] = (p ++ [Child (strs "centreline")]) ++ [Child closed_name]) by (rewrite <- app_assoc; reflexivity).
  rewrite PE in CF. destruct (info_up _ _ _ _ _ CF) as (j & IJ).
  destruct (getattr_info tm n0 sh0 p (strs "centreline") W2 (ex_intro _ _ IJ)) as (n1 & G1 & I1 & O1).
  destruct (getattr_info tm n1 sh0 (p ++ [Child (strs "centreline")]) closed_name W2) as (n2 & G2 & I2 & O2). { rewrite I1. eauto. }
  set (b := (p ++ [Child (strs "centreline")]) ++ [Child closed_name]) in *.
  assert (TV : exists n3, target_value tm b {| c_tree := n2; c_shared := sh0 |} = ({| c_tree := n3; c_shared := sh0 |}, Ok (VInt z)) /\ (forall q, info_at tm n3 q = info_at tm n2 q) /\ same_obs tm n2 n3).
  { unfold target_value, cview, view, lift, cbind, read. cbn [c_tree c_shared]. rewrite I2, I1, CF. cbn [c_tree c_shared]. rewrite info_access, I2, I1, CF. eexists. split; [reflexivity|]. split; [intros q; apply info_access|apply obs_access]. }
  destruct TV as (n3 & TV & I3 & O3).
  assert (IA : forall q, info_at tm n3 q = info_at tm n0 q) by (intros q; rewrite I3, I2, I1; reflexivity).
  assert (OA : forall q, fval tm n3 q = fval tm n0 q /\ fsize tm n3 q = fsize tm n0 q). { intros q. destruct (O1 q), (O2 q), (O3 q). split; congruence. }
  assert (X : exists w from, (if negb (z =? 0)%Z then w = v /\ from = Some sl else repeat_last v = Some w /\ from = None) /\ (z <> 0%Z -> w = v) /\ (z = 0%Z -> last_again v w) /\ vector dt (if (z =? 0)%Z then 2 else 1) w).
  { destruct (Z.eqb_spec z 0) as [->|NZ]; cbn [negb].
    - destruct (vector_last dt v VV) as (w & RL & LA & VW). exists w, None. split; auto. split; [congruence|auto].
    - exists v, (Some sl). split; auto. split; auto. split; [intros X; contradiction|auto]. }
  destruct X as (w & from & E & B1 & B2 & VW).
  assert (VW1 : vector dt 1 w) by (destruct VW as (? & ? & L); split; auto; split; auto; destruct (z =? 0)%Z; lia).
  destruct (assign_place_value tm str_of parse_float parse_cpx flt_of_int np_cast array_items W2 casts tl from {| c_tree := n3; c_shared := sh0 |} w dt 1) as (st1 & A & F & ON & _ & IF); [| |discriminate| |].
  { cbn [c_tree]. apply (place_info tm n0 n3); auto. } { apply VW. } { eapply vector_filled; eauto. }
  exists st1, w. split; [|split; [auto|split]].
  - cbn [type_change]. unfold type_centreline. unfold leaf_value. rewrite K. fold p. unfold cbind at 1. rewrite G1. unfold cbind at 1. rewrite G2. unfold cbind at 1. fold b. rewrite TV. unfold truth. unfold cbind at 1. cbn [cret].
    destruct (negb (z =? 0)%Z).
    + destruct E as (-> & ->). unfold cbind at 1. rewrite A. reflexivity.
    + destruct E as (-> & ->). cbn [of_option]. unfold cbind at 1. cbn [cret]. unfold cbind at 1. rewrite A. reflexivity.
  - intros q NQ. destruct (ON q NQ) as (Q1 & Q2), (OA q) as (Q3 & Q4). cbn [c_tree] in Q1, Q2. split; congruence.
  - split; auto. split; auto. split; auto. intros q NQ. rewrite IF by auto. apply IA.
Qed.

Hypothesis W1 : wf_meta m1.
Hypothesis W2 : wf_meta m2.
(** Newer to older and back gives the same values again, for every value of the flag (also if it is unset). *)
Theorem C25_centreline : forall c1 c2 dt v sl tl st z, mkind c1 = KLeaf dt 1 -> mkind c2 = KLeaf dt 1 -> vector dt 1 v -> place m1 (c_tree st) tl dt 1 -> centre_flag m1 (c_tree st) tl z ->
  (exists x p, tl = p ++ [Child x]) ->
  exists st1 w, rule m2 m1 src H_repeat_last_centre c2 (NLeaf (Some v)) sl tl st = (st1, Ok None) /\ fval m1 (c_tree st1) tl = Some w /\ only m1 tl (c_tree st) (c_tree st1) /\
    (z <> 0%Z -> w = v) /\ (z = 0%Z -> last_again v w) /\
    forall tl' st', place m2 (c_tree st') tl' dt 1 ->
    exists st2, rule m1 m2 (c_tree st1) H_remove_last_centre c1 (NLeaf (Some w)) tl tl' st' = (st2, Ok None) /\ fval m2 (c_tree st2) tl' = Some v /\ only m2 tl' (c_tree st') (c_tree st2).
Proof.
  intros c1 c2 dt v sl tl st z K1 K2 VV P CF NT. destruct (centre_older m2 m1 src c2 dt v sl tl st z W1 K2 VV CF P) as (st1 & w & R & F & ON & B1 & B2 & VW & IF).
  exists st1, w. split; auto. split; auto. split; auto. split; auto. split; auto. intros tl' st' P'.
  assert (CF1 : centre_flag m1 (c_tree st1) tl z).
  { unfold centre_flag in *. apply shown_info; auto. rewrite IF; [apply shown_info; auto|]. destruct NT as (x & q & ->). rewrite removelast_last. intros E. apply app_inv_head in E. discriminate. }
  destruct (centre_newer m1 m2 (c_tree st1) c1 dt w tl tl' st' z W1 W2 K1 VW CF1 P') as (st2 & u & R2 & F2 & ON2 & D1 & D2 & D3).
  exists st2. split; auto. split; auto. rewrite F2. f_equal. destruct (Z.eq_dec z 0) as [->|NZ].
  - specialize (B2 eq_refl). assert (DL : drop_last w = Some v) by (eapply drop_last_spec; eauto; exists dt, 1; apply VV). destruct D3 as [D3|D3]; [congruence|].
    subst u. exfalso. specialize (D2 eq_refl). inversion D2; lia.
  - rewrite D1, B1; auto.
Qed.
(** Older to newer and back, for an open centreline whose last value repeats the one before it. *)
Theorem C25_centreline_older : forall c1 c2 dt u v sl tl st z, mkind c1 = KLeaf dt 1 -> mkind c2 = KLeaf dt 1 -> vector dt 1 u -> (z <> 0%Z -> v = u) -> (z = 0%Z -> last_again u v) ->
  centre_flag m1 src sl z -> place m2 (c_tree st) tl dt 1 ->
  exists st1, rule m1 m2 src H_remove_last_centre c1 (NLeaf (Some v)) sl tl st = (st1, Ok None) /\ fval m2 (c_tree st1) tl = Some u /\ only m2 tl (c_tree st) (c_tree st1) /\
    forall tl' st', place m1 (c_tree st') tl' dt 1 -> centre_flag m1 (c_tree st') tl' z ->
    exists st2, rule m2 m1 (c_tree st1) H_repeat_last_centre c2 (NLeaf (Some u)) tl tl' st' = (st2, Ok None) /\ fval m1 (c_tree st2) tl' = Some v /\ only m1 tl' (c_tree st') (c_tree st2).
Proof.
  intros c1 c2 dt u v sl tl st z K1 K2 VU B1 B2 CF P.
  assert (UV : forall v', (z <> 0%Z -> v' = u) -> (z = 0%Z -> last_again u v') -> v' = v).
  { intros v' A1 A2. destruct (Z.eq_dec z 0) as [->|NZ]; [|rewrite A1, B1; auto]. specialize (A2 eq_refl). specialize (B2 eq_refl). clear - A2 B2.
    inversion A2; subst; inversion B2; subst; match goal with R : with_row _ _ _ _ _, R2 : with_row _ _ _ _ _ |- _ => destruct (with_row_fun _ _ _ _ _ _ _ _ R R2) as (-> & ->); reflexivity end. }
  assert (VV : vector dt (if (z =? 0)%Z then 2 else 1) v).
  { destruct (Z.eqb_spec z 0) as [->|NZ]; [|rewrite B1; auto]. destruct (vector_last dt u VU) as (w & _ & LA & VW). rewrite <- (UV w); auto. intros X. contradiction X. reflexivity. }
  destruct (centre_newer m1 m2 src c1 dt v sl tl st z W1 W2 K1 VV CF P) as (st1 & w & R & F & ON & D1 & D2 & D3).
  assert (w = u) as ->.
  { destruct (Z.eq_dec z 0) as [->|NZ]; [|rewrite D1, B1; auto]. specialize (B2 eq_refl). assert (DL : drop_last v = Some u) by (eapply drop_last_spec; eauto; exists dt, 1; apply VU). destruct D3 as [D3|D3]; [congruence|].
    subst w. exfalso. specialize (D2 eq_refl). inversion D2; lia. }
  exists st1. split; auto. split; auto. split; auto. intros tl' st' P' CF'. destruct (centre_older m2 m1 (c_tree st1) c2 dt u tl tl' st' z W1 K2 VU CF' P') as (st2 & w & R2 & F2 & ON2 & E1 & E2 & _).
  exists st2. split; auto. split; auto. rewrite F2. f_equal. apply UV; auto.
Qed.
End Centre.

(** ** Identifiers *)
(** the children of an identifier structure *)
Definition identifier_children (cs : list meta) : Prop :=
  (exists d, In d cs /\ mname d = strs "index" /\ mkind d = KLeaf INT 0) /\ (exists d, In d cs /\ mname d = strs "name" /\ mkind d = KLeaf STR 0) /\
  (exists d, In d cs /\ mname d = strs "description" /\ mkind d = KLeaf STR 0).

Section Identifiers.
Variables (m1 m2 : meta).
Variable src : node.
Variable str_of : pyval -> str.
Variable parse_float : str -> option flt.
Variable parse_cpx : str -> option (flt * flt).
Variable flt_of_int : Z -> option flt.
Variable np_cast : dtype -> pyval -> result pexn value.
Variable array_items : value -> list pyval.
Variable close : pyval -> pyval -> bool.
Variable np_int32 : flt -> result pexn Z.
Variable enum_of : list str -> option (Z -> option (str * str)).
Hypothesis casts : casts_arrays np_cast.
Hypothesis W1 : wf_meta m1.
Hypothesis W2 : wf_meta m2.
Hypothesis SO2 : str_ok m2.
Notation rule sm tm src := (type_change sm tm src str_of parse_float parse_cpx flt_of_int np_cast array_items close np_int32 enum_of).
Notation do_set := (do_set m2 str_of parse_float parse_cpx flt_of_int np_cast array_items).

(** name and description that belong to an index, for the identifiers at a path *)
Definition meaning (p : list str) (z : Z) : option (str * str) := match enum_of p with Some f => f z | None => None end.
Definition id_sets (tl : loc) (i : nat) (z : Z) : list set :=
  match meaning (loc_names tl) z with
  | Some (nm, desc) => [{| s_at := tl ++ [Elem i]; s_name := strs "name"; s_from := None; s_value := VStr nm |};
                        {| s_at := tl ++ [Elem i]; s_name := strs "index"; s_from := None; s_value := VInt z |};
                        {| s_at := tl ++ [Elem i]; s_name := strs "description"; s_from := None; s_value := VStr desc |}]
  | None => [{| s_at := tl ++ [Elem i]; s_name := strs "index"; s_from := None; s_value := VInt z |}]
  end.
Lemma identifier_sets : forall tl i z s, identifier m2 str_of parse_float parse_cpx flt_of_int np_cast array_items tl (enum_of (loc_names tl)) i z s = citer do_set (id_sets tl i z) s.
Proof.
  intros tl i z s. unfold identifier, id_sets, meaning. generalize (strs "name") (strs "index") (strs "description"). intros a b c.
  assert (U : forall (x : cst * result cexn unit), (let (s', r) := x in match r with Ok _ => (s', Ok tt) | Err e => (s', Err e) end) = x) by (intros [? [[]|?]]; reflexivity).
  destruct (match enum_of (loc_names tl) with Some f => f z | None => None end) as [[nm ds]|]; cbn [citer]; unfold ConvProps5.do_set, set_to; cbn [s_at s_name s_from s_value of_value]; unfold cbind.
  - destruct (getattr m2 (tl ++ [Elem i]) a s) as [s1 [l1|e1]]; auto. match goal with |- context [assign m2 _ _ _ _ _ _ l1 ?f ?p s1] => destruct (assign m2 str_of parse_float parse_cpx flt_of_int np_cast array_items l1 f p s1) as [s2 [u2|e2]] end; auto.
    destruct (getattr m2 (tl ++ [Elem i]) b s2) as [s3 [l3|e3]]; auto. match goal with |- context [assign m2 _ _ _ _ _ _ l3 ?f ?p s3] => destruct (assign m2 str_of parse_float parse_cpx flt_of_int np_cast array_items l3 f p s3) as [s4 [u4|e4]] end; auto.
  - auto.
Qed.
Lemma id_sets_at : forall tl i z a, In a (id_sets tl i z) -> s_at a = tl ++ [Elem i].
Proof. intros tl i z a I. unfold id_sets in I. destruct (meaning _ _) as [[nm ds]|]; repeat (destruct I as [<-|I]; [reflexivity|]); destruct I. Qed.
Lemma id_sets_nodup : forall tl i z, NoDup (map s_loc (id_sets tl i z)).
Proof.
  intros tl i z. unfold id_sets. destruct (meaning _ _) as [[nm ds]|]; cbn [map]; unfold s_loc; cbn [s_at s_name].
  - assert (N : forall x y, x <> y -> (tl ++ [Elem i]) ++ [Child x] <> (tl ++ [Elem i]) ++ [Child y]) by (intros; apply snoc_neq; auto).
    constructor; [intros [E|[E|[]]]; revert E; apply N; discriminate|]. constructor; [intros [E|[]]; revert E; apply N; discriminate|]. constructor; [intros []|constructor].
  - constructor; [intros []|constructor].
Qed.
Lemma elem_inj : forall (tl : loc) i j a b, (tl ++ [Elem i]) ++ a = (tl ++ [Elem j]) ++ b -> i = j.
Proof. intros tl i j a b E. rewrite <- !app_assoc in E. apply app_inv_head in E. injection E as E _. auto. Qed.
Lemma all_sets_nodup : forall tl (d : list Z) k, NoDup (map s_loc (flat_map (fun x => id_sets tl (fst x) (snd x)) (combine (seq k (length d)) d))).
Proof.
  intros tl d. induction d as [|z d IH]; intros k; [constructor|]. cbn [length seq combine flat_map fst snd]. rewrite map_app.
  assert (G : forall A (l1 l2 : list A), NoDup l1 -> NoDup l2 -> (forall x, In x l1 -> ~ In x l2) -> NoDup (l1 ++ l2)).
  { clear. intros A l1 l2 N1 N2 D. induction l1 as [|x l1 IH]; auto. inversion N1; subst. simpl. constructor; [|apply IH; auto; intros y I; apply D; right; auto]. rewrite in_app_iff. intros [I|I]; [auto|]. apply (D x); [left; auto|auto]. }
  apply G; [apply id_sets_nodup|apply IH|]. intros q I1 I2. apply in_map_iff in I1 as (a & <- & I1). apply in_map_iff in I2 as (b & E & I2). apply in_flat_map in I2 as ([j y] & I2 & I3). cbn [fst snd] in I3.
  unfold s_loc in E. rewrite (id_sets_at _ _ _ _ I1), (id_sets_at _ _ _ _ I3) in E. apply elem_inj in E. subst j. apply in_combine_l in I2. apply in_seq in I2. lia.
Qed.

Lemma all_some_map : forall A B (f : A -> option B) (l : list A) (d : list B), length l = length d -> (forall i e z, nth_error l i = Some e -> nth_error d i = Some z -> f e = Some z) -> all_some (map f l) = Some d.
Proof.
  intros A B f l. induction l as [|e l IH]; intros [|z d] L H; try discriminate; [reflexivity|]. cbn [map all_some fold_right]. rewrite (H 0 e z) by reflexivity.
  change (match all_some (map f l) with Some b => Some (z :: b) | None => None end = Some (z :: d)). rewrite (IH d); auto. intros i e' z' A1 A2. apply (H (S i)); auto.
Qed.

(** identifiers to numbers *)
Lemma identifiers_to_int : forall n nm cs els sl d tl' st', vnode_at m2 n sl (Meta nm KAoS cs) (NAoS els) -> NoDup (map mname cs) -> In (strs "index") (map mname cs) -> d <> [] ->
  length els = length d -> (forall i z, nth_error d i = Some z -> shown m2 n (sl ++ [Elem i; Child (strs "index")]) (VInt z)) -> place m1 (c_tree st') tl' INT 1 ->
  exists st2, rule m2 m1 n H_to_identifier (Meta nm KAoS cs) (NAoS els) sl tl' st' = (st2, Ok None) /\ fval m1 (c_tree st2) tl' = Some (VIntA [length d] d) /\ only m1 tl' (c_tree st') (c_tree st2).
Proof.
  intros n nm cs els sl d tl' st' V ND II NE LE SH P.
  destruct (assign_place_value m1 str_of parse_float parse_cpx flt_of_int np_cast array_items W1 casts tl' None st' (VIntA [length d] d) INT 1 P) as (st2 & A & F & ON & _).
  { apply (vo_inta [length d]); [discriminate|simpl; lia]. } { discriminate. } { destruct d; [congruence|]. reflexivity. }
  exists st2. split; [|auto]. cbn [type_change]. unfold type_to_identifier. destruct els as [|e0 els0] eqn:EE; [destruct d; [congruence|discriminate]|]. rewrite <- EE in *. clear EE.
  assert (AS : all_some (map (index_of cs) els) = Some d).
  { apply all_some_map; auto. intros i e z E1 E2. specialize (SH i z E2). apply shown_info in SH as (nd & I); auto. unfold info_at in I. apply look_vnode in V; auto. rewrite look_app, V in I. cbn [look mkind] in I. rewrite E1 in I. cbn [mname mchildren mkind] in I.
    unfold index_of. destruct e as [fs|?|?]; try discriminate. destruct (child_meta (strs "index") cs) as [c|] eqn:CM; [|discriminate]. cbn [node_fields]. unfold info_of in I. destruct (mkind c) eqn:K; try discriminate; destruct (child_or_new c fs); try discriminate.
    injection I as _ E. rewrite E. reflexivity. }
  destruct els as [|e1 els1]; [destruct d; [congruence|discriminate]|]. rewrite AS. cbn [of_option]. unfold cbind at 1. cbn [cret]. unfold cbind at 1. cbn [of_value] in A. rewrite A. reflexivity.
Qed.

(** A list of numbers becomes a list of identifiers, with name and description if the number has a meaning; on the way back the numbers are the same again. *)
Theorem C25_identifiers : forall c1 d sl tl st nm cs els, c1 = Meta (mname c1) (KLeaf INT 1) (mchildren c1) -> d <> [] -> conf m2 (c_tree st) -> vnode_at m2 (c_tree st) tl (Meta nm KAoS cs) (NAoS els) -> identifier_children cs ->
  exists st1, rule m1 m2 src H_to_identifier c1 (NLeaf (Some (VIntA [length d] d))) sl tl st = (st1, Ok None) /\
    fsize m2 (c_tree st1) tl = Some (length d) /\
    (forall i z, nth_error d i = Some z -> shown m2 (c_tree st1) (tl ++ [Elem i; Child (strs "index")]) (VInt z) /\
       (forall a b, meaning (loc_names tl) z = Some (a, b) -> shown m2 (c_tree st1) (tl ++ [Elem i; Child (strs "name")]) (VStr a) /\ shown m2 (c_tree st1) (tl ++ [Elem i; Child (strs "description")]) (VStr b)) /\
       (meaning (loc_names tl) z = None -> forall q, q <> [Child (strs "index")] -> fval m2 (c_tree st1) (tl ++ Elem i :: q) = None)) /\
    (forall q, ~ within tl q -> fval m2 (c_tree st1) q = fval m2 (c_tree st) q /\ fsize m2 (c_tree st1) q = fsize m2 (c_tree st) q) /\
    exists els1, vnode_at m2 (c_tree st1) tl (Meta nm KAoS cs) (NAoS els1) /\ forall tl' st', place m1 (c_tree st') tl' INT 1 ->
    exists st2, rule m2 m1 (c_tree st1) H_to_identifier (Meta nm KAoS cs) (NAoS els1) tl tl' st' = (st2, Ok None) /\ fval m1 (c_tree st2) tl' = Some (VIntA [length d] d) /\ only m1 tl' (c_tree st') (c_tree st2).
Proof.
  intros c1 d sl tl st nm cs els EC NE C V IC. pose proof V as V0. apply look_vnode in V; auto.
  assert (X : exists s1, resize m2 tl (length d) st = (s1, Ok tt) /\ look m2 (c_tree s1) tl = Some (Meta nm KAoS cs, NAoS (repeat (NStruct []) (length d)))).
  { unfold ConvModel.resize. rewrite V. eexists. split; [reflexivity|]. cbn [c_tree]. pose proof (look_update tl m2 (c_tree st) (fun _ => NAoS (repeat (NStruct []) (length d))) [] _ _ V) as E. rewrite app_nil_r in E. exact E. }
  destruct X as (s1 & R1 & L1). destruct (resize_obs m2 tl (length d) st s1 R1) as (Z1 & Z2 & Z3 & Z4).
  assert (C1 : conf m2 (c_tree s1)). { pose proof (conf_resize m2 W2 tl (length d) st C) as X. rewrite R1 in X. exact X. }
  assert (LV : forall i, i < length d -> live m2 (c_tree s1) (tl ++ [Elem i]) cs).
  { intros i Hi. unfold live, info_at. rewrite look_app, L1. cbn [look mkind]. destruct (nth_error (repeat (NStruct []) (length d)) i) as [e|] eqn:E.
    - apply nth_error_In, repeat_spec in E. subst e. reflexivity.
    - apply nth_error_None in E. rewrite repeat_length in E. lia. }
  set (acts := flat_map (fun x => id_sets tl (fst x) (snd x)) (enum d)).
  assert (IN : forall a, In a acts <-> exists i z, nth_error d i = Some z /\ In a (id_sets tl i z)).
  { intros a. unfold acts. rewrite in_flat_map. split.
    - intros ([i z] & I & Ia). apply ValProofs5.enum_In in I. eauto.
    - intros (i & z & N & Ia). exists (i, z). split; [apply ValProofs5.enum_In; auto|auto]. }
  assert (ND : NoDup (map mname cs)). { destruct (vnode_conf _ _ _ _ _ V0 W2 C) as (W' & _). inversion W'; auto. }
  destruct IC as ((di & Ii & Ni & Ki) & (dn & In_ & Nn & Kn) & (dd & Id & Nd & Kd)).
  destruct (sets m2 str_of parse_float parse_cpx flt_of_int np_cast array_items W2 SO2 casts acts s1 C1) as (st1 & R2 & C2 & S2 & F2 & O2 & I2).
  { intros a Ia. apply IN in Ia as (i & z & N & Ia). assert (Hi : i < length d) by (apply nth_error_Some; congruence). specialize (LV i Hi). unfold id_sets in Ia.
    destruct (meaning (loc_names tl) z) as [[a1 b1]|].
    - destruct Ia as [<-|[<-|[<-|[]]]]; unfold set_ok; cbn [s_at s_name s_value].
      + exists cs, dn, STR, 0. split; auto. split; auto. split; auto. split; auto. split; [constructor|apply plain_str].
      + exists cs, di, INT, 0. split; auto. split; auto. split; auto. split; auto. split; [constructor|apply plain_int].
      + exists cs, dd, STR, 0. split; auto. split; auto. split; auto. split; auto. split; [constructor|apply plain_str].
    - destruct Ia as [<-|[]]. exists cs, di, INT, 0. cbn [s_at s_name s_value]. split; auto. split; auto. split; auto. split; auto. split; [constructor|apply plain_int]. }
  { apply all_sets_nodup. }
  assert (LOCS : forall q, In q (map s_loc acts) -> exists i x, q = tl ++ [Elem i; Child x]).
  { intros q I. apply in_map_iff in I as (a & <- & I). apply IN in I as (i & z & _ & I). exists i, (s_name a). unfold s_loc. rewrite (id_sets_at _ _ _ _ I), <- app_assoc. reflexivity. }
  assert (NTL : ~ In tl (map s_loc acts)).
  { intros I. apply LOCS in I as (i & x & E). apply (f_equal (@length _)) in E. rewrite app_length in E. simpl in E. lia. }
  assert (SI : forall i z, nth_error d i = Some z -> shown m2 (c_tree st1) (tl ++ [Elem i; Child (strs "index")]) (VInt z)).
  { intros i z N. assert (Ia : In {| s_at := tl ++ [Elem i]; s_name := strs "index"; s_from := None; s_value := VInt z |} acts).
    { apply IN. exists i, z. split; auto. unfold id_sets. destruct (meaning _ _) as [[a b]|]; simpl; auto. }
    specialize (S2 _ Ia). unfold s_loc in S2. cbn [s_at s_name s_value] in S2. rewrite <- app_assoc in S2. exact S2. }
  assert (L2 : exists els1, look m2 (c_tree st1) tl = Some (Meta nm KAoS cs, NAoS els1) /\ length els1 = length d).
  { pose proof (I2 tl NTL) as E. unfold info_at in E. rewrite L1 in E. cbn [info_of mkind] in E. rewrite repeat_length in E. destruct (look m2 (c_tree st1) tl) as [[m' y]|] eqn:L; [|discriminate].
    pose proof (loc_ok_fun _ _ _ W2 (look_loc_ok _ _ _ _ _ L1) _ (look_loc_ok _ _ _ _ _ L)). subst m'. cbn [info_of mkind] in E. destruct y as [|els1|]; try discriminate. exists els1. split; auto. injection E as E. auto. }
  destruct L2 as (els1 & L2 & LE). exists st1. split; [|split; [|split; [|split]]].
  - transitivity ((doc _ <- resize m2 tl (length d); doc _ <- citer (fun x => identifier m2 str_of parse_float parse_cpx flt_of_int np_cast array_items tl (enum_of (loc_names tl)) (fst x) (snd x)) (enum d); handled) st).
    { cbn [type_change]. unfold type_to_identifier. rewrite EC. unfold leaf_value. cbn [mkind]. clear - NE. destruct d; [congruence|reflexivity]. }
    unfold cbind at 1. rewrite R1.
    unfold cbind at 1. rewrite (citer_flat _ _ _ do_set (fun x => id_sets tl (fst x) (snd x)) (enum d) s1); [|intros [i z] s I; apply identifier_sets]. fold acts. rewrite R2. reflexivity.
  - rewrite (proj2 (O2 tl NTL)). exact Z1.
  - intros i z N. split; auto. split.
    + intros a b M. split.
      * assert (Ia : In {| s_at := tl ++ [Elem i]; s_name := strs "name"; s_from := None; s_value := VStr a |} acts).
        { apply IN. exists i, z. split; auto. unfold id_sets. rewrite M. left. reflexivity. }
        specialize (S2 _ Ia). unfold s_loc in S2. cbn [s_at s_name s_value] in S2. rewrite <- app_assoc in S2. exact S2.
      * assert (Ia : In {| s_at := tl ++ [Elem i]; s_name := strs "description"; s_from := None; s_value := VStr b |} acts).
        { apply IN. exists i, z. split; auto. unfold id_sets. rewrite M. right. right. left. reflexivity. }
        specialize (S2 _ Ia). unfold s_loc in S2. cbn [s_at s_name s_value] in S2. rewrite <- app_assoc in S2. exact S2.
    + intros M q NQ. destruct (O2 (tl ++ Elem i :: q)) as (A1 & _); [|rewrite A1; apply Z3]. intros I. apply in_map_iff in I as (a & E & I). apply IN in I as (j & y & N' & I).
      unfold s_loc in E. pose proof (id_sets_at _ _ _ _ I) as EA. rewrite EA, <- app_assoc in E. apply app_inv_head in E. injection E as <- E. rewrite N in N'. injection N' as <-.
      unfold id_sets in I. rewrite M in I. destruct I as [<-|[]]. apply NQ. auto.
  - intros q NW. destruct (O2 q) as (A1 & A2). { intros I. apply LOCS in I as (i & x & ->). apply NW. exists [Elem i; Child x]. reflexivity. }
    destruct (Z4 q NW) as (A3 & A4). split; congruence.
  - exists els1. split; [apply look_vnode; auto|]. intros tl' st' P. apply (identifiers_to_int (c_tree st1) nm cs els1 tl d tl' st'); auto; [apply look_vnode; auto|]. rewrite <- Ni. apply List.in_map. auto.
Qed.
(** The numbers of any array of identifiers. *)
Theorem C25_identifiers_older : forall n nm cs els sl d tl' st', vnode_at m2 n sl (Meta nm KAoS cs) (NAoS els) -> identifier_children cs -> d <> [] ->
  length els = length d -> (forall i z, nth_error d i = Some z -> shown m2 n (sl ++ [Elem i; Child (strs "index")]) (VInt z)) -> place m1 (c_tree st') tl' INT 1 ->
  exists st2, rule m2 m1 n H_to_identifier (Meta nm KAoS cs) (NAoS els) sl tl' st' = (st2, Ok None) /\ fval m1 (c_tree st2) tl' = Some (VIntA [length d] d) /\ only m1 tl' (c_tree st') (c_tree st2).
Proof.
  intros n nm cs els sl d tl' st' V ((di & Ii & Ni & Ki) & _) NE LE SH P. apply (identifiers_to_int n nm cs els sl d tl' st'); auto.
  - pose proof (ConvProofs4.loc_wf _ _ _ W2 (look_loc_ok _ _ _ _ _ (proj2 (look_vnode _ _ _ _ _ W2) V))) as X. inversion X; auto.
  - rewrite <- Ni. apply List.in_map. auto.
Qed.
End Identifiers.
