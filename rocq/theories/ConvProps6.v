(** C25, continued: contours with a flag [closed], in a structure or in every element of an array of structures, possibly with their time. *)
From Verif Require Import Base PathModel TreeModel TreeSpec TreeProofs TreeProofs2 TreeProofs3 TreeProofs4 TreeCheck ValModel ValProofs ValProofs2 PrimModel PrimSpec PrimProps ConvModel ConvSpec ConvInverse
  ConvProofs ConvProofs2 ConvProofs3 ConvProofs4 ConvProofs5 ConvProps ConvProps2 ConvProps3 ConvProps4 ConvProps5.
From Verif Require VmapModel.
Import VmapModel(handler(..), nmap).

(** the contours of a node: the node itself, or the elements of an array *)
Inductive part : node -> loc -> node -> Prop :=
| pt_self : forall fs, part (NStruct fs) [] (NStruct fs)
| pt_elem : forall els i e, nth_error els i = Some e -> part (NAoS els) [Elem i] e.
(** the time of a contour *)
Definition time_child (c d : meta) : Prop := mname c = strs "time" /\ mname d = mname c /\ exists dt nd, mkind c = KLeaf dt nd /\ mkind d = KLeaf dt nd.
Definition contours (scs tcs : list meta) (n : node) : Prop :=
  forall r e, part n r e -> forall c ch, In c scs -> ne c (node_fields e) = Some ch -> mname c = strs "closed" \/ exists d, In d tcs /\ (point_child c d \/ time_child c d).
Definition time_set (scs : list meta) (n : node) : Prop :=
  forall r e c v dt, part n r e -> holds scs e c v -> mkind c = KLeaf dt 0 -> ~ empty dt v.
(** what a value v of child c becomes in the newer version *)
Definition copied (z : Z) (c : meta) (v w : value) : Prop :=
  (mname c = strs "time" -> w = v) /\ (mname c <> strs "time" -> z <> 0%Z -> closed_up v w) /\ (z = 0%Z -> w = v).

Lemma part_fun : forall n r e e', part n r e -> part n r e' -> e = e'.
Proof. intros n r e e' H1 H2. inversion H1; subst; inversion H2; subst; congruence. Qed.
Lemma part_conf : forall nm k cs n r e, (k = KStruct \/ k = KAoS) -> conf (Meta nm k cs) n -> part n r e -> conf (Meta nm KStruct cs) e /\ exists fs, e = NStruct fs.
Proof.
  intros nm k cs n r e K C P.
  assert (C' : conf (Meta nm KStruct cs) e).
  { destruct P as [fs|els i e N].
    - destruct K as [->| ->]; auto. inversion C.
    - destruct K as [->| ->]; [inversion C|]. inversion C; subst. eapply H0. eapply nth_error_In; eauto. }
  split; auto. inversion C'; eauto.
Qed.

Section Pairs.
Variable tm : meta.
Hypothesis W : wf_meta tm.
Definition nothing (n : node) (tl : loc) : Prop := forall q, fval tm n (tl ++ q) = None /\ forall j, fsize tm n (tl ++ q) <> Some (S j).
Lemma pairs_ok : forall nm k scs n sl tl st tnm tcs x, (k = KStruct \/ k = KAoS) -> conf (Meta nm k scs) n -> conf tm (c_tree st) -> vnode_at tm (c_tree st) tl (Meta tnm k tcs) x ->
  exists s1 ps, pairs tm n sl tl st = (s1, Ok ps) /\ conf tm (c_tree s1) /\ (forall e l t, In (e, l, t) ps <-> exists r, part n r e /\ l = sl ++ r /\ t = tl ++ r) /\ NoDup (map snd ps) /\
    (forall r e, part n r e -> live tm (c_tree s1) (tl ++ r) tcs) /\
    (exists x', vnode_at tm (c_tree s1) tl (Meta tnm k tcs) x' /\ forall r, (exists e, part n r e) <-> (exists e', part x' r e')) /\
    (forall q, ~ within tl q -> fval tm (c_tree s1) q = fval tm (c_tree st) q /\ fsize tm (c_tree s1) q = fsize tm (c_tree st) q) /\
    (k = KAoS -> forall q, fval tm (c_tree s1) (tl ++ q) = None /\ forall j, fsize tm (c_tree s1) (tl ++ q) = Some (S j) -> q = []) /\
    (k = KStruct -> s1 = st) /\ (forall els, n = NAoS els -> fsize tm (c_tree s1) tl = Some (length els)).
Proof.
  intros nm k scs n sl tl st tnm tcs x K Cn C VT. destruct (vnode_conf _ _ _ _ _ VT W C) as (Wt & Ct). pose proof VT as V0. apply look_vnode in VT; auto. destruct K as [->| ->].
  - inversion Cn; subst. exists st, [(NStruct fs, sl, tl)]. split; [reflexivity|]. split; auto. split.
    { intros e l t. split.
      - intros [[= <- <- <-]|[]]. exists []. rewrite !app_nil_r. split; [constructor|auto].
      - intros (r & P & -> & ->). inversion P; subst. rewrite !app_nil_r. left; auto. }
    split; [constructor; [intros []|constructor]|]. inversion Ct; subst. split.
    { intros r e P. inversion P; subst. rewrite app_nil_r. unfold live, info_at. rewrite VT. reflexivity. }
    split. { eexists. split; [exact V0|]. intros r. split; intros (e & P); inversion P; subst; eexists; constructor. }
    split; auto. split; [discriminate|]. split; auto. intros els E. discriminate.
  - inversion Cn; subst. inversion Ct; subst.
    assert (X : exists s1, resize tm tl (length els) st = (s1, Ok tt) /\ look tm (c_tree s1) tl = Some (Meta tnm KAoS tcs, NAoS (repeat (NStruct []) (length els)))).
    { unfold ConvModel.resize. rewrite VT. eexists. split; [reflexivity|]. cbn [c_tree]. pose proof (look_update tl tm (c_tree st) (fun _ => NAoS (repeat (NStruct []) (length els))) [] _ _ VT) as E. rewrite app_nil_r in E. exact E. }
    destruct X as (s1 & R1 & L1). destruct (resize_obs tm tl (length els) st s1 R1) as (Z1 & Z2 & Z3 & Z4).
    exists s1, (map (fun x => (snd x, sl ++ [Elem (fst x)], tl ++ [Elem (fst x)])) (enum els)). split; [unfold pairs, cbind; rewrite R1; reflexivity|].
    split. { pose proof (conf_resize tm W tl (length els) st C) as X. rewrite R1 in X. exact X. }
    split. { intros e l t. rewrite in_map_iff. split.
      - intros ([i e'] & [= <- <- <-] & I). apply ValProofs5.enum_In in I. exists [Elem i]. split; [constructor; auto|auto].
      - intros (r & P & -> & ->). inversion P; subst. exists (i, e). split; auto. apply ValProofs5.enum_In. auto. }
    split. { rewrite map_map. cbn [snd]. unfold enum. clear. assert (G : forall (l : list node) k, NoDup (map (fun x : nat * node => tl ++ [Elem (fst x)]) (combine (seq k (length l)) l))).
      { induction l as [|e l IH]; intros k; [constructor|]. cbn [length seq combine map fst]. constructor; [|apply IH]. intros I. apply in_map_iff in I as ([j y] & E & I). cbn [fst] in E. apply app_inv_head in E. injection E as ->. apply in_combine_l, in_seq in I. lia. }
      apply G. }
    split. { intros r e P. inversion P; subst. unfold live, info_at. rewrite look_app, L1. cbn [look mkind]. destruct (nth_error (repeat (NStruct []) (length els)) i) as [e'|] eqn:E.
      - apply nth_error_In, repeat_spec in E. subst e'. reflexivity.
      - apply nth_error_None in E. rewrite repeat_length in E. assert (i < length els) by (apply nth_error_Some; congruence). lia. }
    split. { eexists. split; [apply look_vnode; eauto|]. intros r. split; intros (e & P); inversion P; subst.
      - assert (LT : i < length els) by (apply nth_error_Some; congruence). destruct (nth_error (repeat (NStruct []) (length els)) i) as [e'|] eqn:E; [exists e'; constructor; auto|]. apply nth_error_None in E. rewrite repeat_length in E. lia.
      - match goal with N : nth_error (repeat _ _) i = Some e |- _ => assert (LT : i < length (repeat (NStruct []) (length els))) by (apply nth_error_Some; congruence) end. rewrite repeat_length in LT.
        destruct (nth_error els i) as [e'|] eqn:E; [exists e'; constructor; auto|]. apply nth_error_None in E. lia. }
    split; auto. split. { intros _ [|y q]; [rewrite app_nil_r; split; auto|]. destruct (Z3 y q) as (A & B). split; auto. intros j E. destruct B; congruence. }
    split; [discriminate|]. intros els' [= <-]. exact Z1.
Qed.

(** the same contours *)
Lemma same_parts : forall n n' l nm k cs x, wf_meta tm -> conf tm n' -> (k = KStruct \/ k = KAoS) -> vnode_at tm n l (Meta nm k cs) x -> conf (Meta nm k cs) x -> info_at tm n' l = info_at tm n l ->
  exists x', vnode_at tm n' l (Meta nm k cs) x' /\ forall r, (exists e, part x r e) <-> (exists e', part x' r e').
Proof.
  intros n n' l nm k cs x W' Cn K V Cx I. apply look_vnode in V; auto. unfold info_at in I. rewrite V in I. destruct (look tm n' l) as [[m' x']|] eqn:L.
  2:{ exfalso. destruct K as [->| ->]; inversion Cx; subst; discriminate I. }
  assert (m' = Meta nm k cs) by (eapply loc_ok_fun; eauto using look_loc_ok). subst m'. exists x'. split; [apply look_vnode; auto|].
  apply look_vnode in L; auto. destruct (vnode_conf _ _ _ _ _ L W' Cn) as (_ & Cx'). intros r. destruct K as [->| ->].
  - inversion Cx; inversion Cx'; subst. split; intros (e & P); inversion P; subst; eexists; constructor.
  - inversion Cx; inversion Cx'; subst. cbn in I. injection I as I. split; intros (e & P); inversion P; subst.
    + destruct (nth_error els0 i) as [e'|] eqn:E; [exists e'; constructor; auto|]. apply nth_error_None in E. assert (i < length els) by (apply nth_error_Some; congruence). lia.
    + destruct (nth_error els i) as [e'|] eqn:E; [exists e'; constructor; auto|]. apply nth_error_None in E. assert (i < length els0) by (apply nth_error_Some; congruence). lia.
Qed.
End Pairs.

Section Parts.
Variable tm : meta.
Variable str_of : pyval -> str.
Variable parse_float : str -> option flt.
Variable parse_cpx : str -> option (flt * flt).
Variable flt_of_int : Z -> option flt.
Variable np_cast : dtype -> pyval -> result pexn value.
Variable array_items : value -> list pyval.
Hypothesis W : wf_meta tm.
Hypothesis SO : str_ok tm.
Hypothesis casts : casts_arrays np_cast.
Notation do_set := (do_set tm str_of parse_float parse_cpx flt_of_int np_cast array_items).

(** the loop over the contours and their children *)
Variable skip : meta -> bool.
Variable tr : meta -> value -> option value.
Variable fr : meta -> loc -> option loc.
Definition kset (l t : loc) (y : meta * node) : list set :=
  if skip (fst y) then [] else match tr (fst y) (leaf_value (fst y) (snd y)) with
                               | Some w => [{| s_at := t; s_name := mname (fst y); s_from := fr (fst y) l; s_value := w |}]
                               | None => []
                               end.
Definition psets (scs : list meta) (x : node * loc * loc) : list set := let '(e, l, t) := x in flat_map (kset l t) (iter_nonempty scs (node_fields e)).
Lemma kset_In : forall l t c ch a, In a (kset l t (c, ch)) -> skip c = false /\ exists w, tr c (leaf_value c ch) = Some w /\ s_at a = t /\ s_name a = mname c /\ s_value a = w.
Proof.
  intros l t c ch a I. unfold kset in I. cbn [fst snd] in I. destruct (skip c); [destruct I|]. destruct (tr c (leaf_value c ch)) as [w|]; [|destruct I]. destruct I as [<-|[]]. split; auto. exists w. auto.
Qed.
Lemma psets_nodup : forall scs ps, NoDup (map mname scs) -> NoDup (map snd ps) -> NoDup (map s_loc (flat_map (psets scs) ps)).
Proof.
  assert (G : forall A (l1 l2 : list A), NoDup l1 -> NoDup l2 -> (forall x, In x l1 -> ~ In x l2) -> NoDup (l1 ++ l2)).
  { clear. intros A l1 l2 N1 N2 D. induction l1 as [|x l1 IH]; auto. inversion N1; subst. simpl. constructor; [|apply IH; auto; intros y I; apply D; right; auto]. rewrite in_app_iff. intros [I|I]; [auto|]. apply (D x); [left; auto|auto]. }
  intros scs ps ND. assert (AT : forall e l t a, In a (psets scs (e, l, t)) -> s_at a = t).
  { intros e l t a I. unfold psets in I. apply in_flat_map in I as ([c ch] & _ & I). apply kset_In in I as (_ & w & _ & E & _). auto. }
  induction ps as [|[[e l] t] ps IH]; intros NP; [constructor|]. inversion NP as [|? ? N1 N2]; subst. cbn [flat_map]. rewrite map_app. apply G; [|apply IH; auto|].
  - unfold psets. pose proof (kids_nodup scs (node_fields e) ND) as KN. induction (iter_nonempty scs (node_fields e)) as [|[c ch] ks IHk]; [constructor|]. cbn [map fst] in KN. inversion KN as [|? ? K1 K2]; subst. cbn [flat_map]. rewrite map_app. apply G; [|apply IHk; auto|].
    + unfold kset. cbn [fst snd]. destruct (skip c); [constructor|]. destruct (tr _ _); [|constructor]. constructor; [intros []|constructor].
    + intros q I1 I2. apply in_map_iff in I1 as (a & <- & I1). apply in_map_iff in I2 as (b & E & I2). apply in_flat_map in I2 as ([c' ch'] & I3 & I2). apply kset_In in I1 as (_ & w & _ & A1 & A2 & _). apply kset_In in I2 as (_ & w' & _ & B1 & B2 & _).
      unfold s_loc in E. rewrite A1, A2, B1, B2 in E. apply app_inv_head in E. injection E as E. apply K1. rewrite <- E. apply (List.in_map (fun x : meta * node => mname (fst x)) ks (c', ch')). auto.
  - intros q I1 I2. apply in_map_iff in I1 as (a & <- & I1). apply in_map_iff in I2 as (b & E & I2). apply in_flat_map in I2 as ([[e' l'] t'] & I3 & I2). apply AT in I1. apply AT in I2. unfold s_loc in E. rewrite I1, I2 in E. apply app_inj_tail in E as (E & _).
    apply N1. cbn [snd]. rewrite <- E. apply (List.in_map snd ps (e', l', t')). auto.
Qed.

Lemma parts_set : forall snm k scs n sl tl tcs s1 ps, (k = KStruct \/ k = KAoS) -> wf_meta (Meta snm k scs) -> conf tm (c_tree s1) ->
  (forall e l t, In (e, l, t) ps <-> exists r, part n r e /\ l = sl ++ r /\ t = tl ++ r) -> NoDup (map snd ps) -> (forall r e, part n r e -> live tm (c_tree s1) (tl ++ r) tcs) ->
  (forall r e c ch, part n r e -> In (c, ch) (iter_nonempty scs (node_fields e)) -> skip c = false ->
     exists d dt nd w, In d tcs /\ mname d = mname c /\ mkind d = KLeaf dt nd /\ tr c (leaf_value c ch) = Some w /\ val_ok dt nd w /\ leaf_has_value nd (Some w) = true /\ (nd = 0 -> ~ empty dt w)) ->
  exists st', citer do_set (flat_map (psets scs) ps) s1 = (st', Ok tt) /\ conf tm (c_tree st') /\
    (forall r e c ch w, part n r e -> In (c, ch) (iter_nonempty scs (node_fields e)) -> skip c = false -> tr c (leaf_value c ch) = Some w -> fval tm (c_tree st') (tl ++ r ++ [Child (mname c)]) = Some w) /\
    (forall q, (exists r e c ch, part n r e /\ In (c, ch) (iter_nonempty scs (node_fields e)) /\ skip c = false /\ q = tl ++ r ++ [Child (mname c)]) \/
       fval tm (c_tree st') q = fval tm (c_tree s1) q /\ fsize tm (c_tree st') q = fsize tm (c_tree s1) q /\ info_at tm (c_tree st') q = info_at tm (c_tree s1) q).
Proof.
  intros snm k scs n sl tl tcs s1 ps K Wm C PS NP LV H.
  assert (IN : forall a, In a (flat_map (psets scs) ps) -> exists r e c ch d dt nd w, part n r e /\ In (c, ch) (iter_nonempty scs (node_fields e)) /\ skip c = false /\ In d tcs /\ mname d = mname c /\ mkind d = KLeaf dt nd /\ tr c (leaf_value c ch) = Some w /\
    val_ok dt nd w /\ leaf_has_value nd (Some w) = true /\ (nd = 0 -> ~ empty dt w) /\ s_at a = tl ++ r /\ s_name a = mname c /\ s_value a = w).
  { intros a I. apply in_flat_map in I as ([[e l] t] & I1 & I). unfold psets in I. apply in_flat_map in I as ([c ch] & I2 & I). apply PS in I1 as (r & P & -> & ->). apply kset_In in I as (SK & w & T & A1 & A2 & A3).
    destruct (H r e c ch P I2 SK) as (d & dt & nd & w' & Id & Nd & Kd & T' & VO & HV & NE). assert (w' = w) by congruence. subst w'. exists r, e, c, ch, d, dt, nd, w. repeat (split; auto). }
  assert (ND : NoDup (map mname scs)) by (inversion Wm; auto).
  destruct (sets tm str_of parse_float parse_cpx flt_of_int np_cast array_items W SO casts (flat_map (psets scs) ps) s1 C) as (st' & R & C' & _ & F & O & I').
  { intros a Ia. destruct (IN a Ia) as (r & e & c & ch & d & dt & nd & w & P & Ik & SK & Id & Nd & Kd & T & VO & HV & NE & A1 & A2 & A3). unfold set_ok. exists tcs, d, dt, nd. rewrite A1, A2, A3. split; [eapply LV; eauto|]. repeat (split; auto).
    intros E0 EM. exfalso. apply (NE E0 EM). }
  { apply psets_nodup; auto. }
  exists st'. split; auto. split; auto. split.
  - intros r e c ch w P Ik SK T. destruct (H r e c ch P Ik SK) as (d & dt & nd & w' & Id & Nd & Kd & T' & VO & HV & NE). assert (w' = w) by congruence. subst w'.
    set (a := {| s_at := tl ++ r; s_name := mname c; s_from := fr c (sl ++ r); s_value := w |}). assert (Ia : In a (flat_map (psets scs) ps)).
    { apply in_flat_map. exists (e, sl ++ r, tl ++ r). split; [apply PS; eauto|]. unfold psets. apply in_flat_map. exists (c, ch). split; auto. unfold kset. cbn [fst snd]. rewrite SK, T. left; reflexivity. }
    pose proof (F a tcs d dt nd Ia (LV r e P) Id Nd Kd HV NE) as X. unfold s_loc in X. cbn [s_at s_name s_value a] in X. rewrite <- app_assoc in X. exact X.
  - intros q. destruct (in_dec loc_dec q (map s_loc (flat_map (psets scs) ps))) as [I|NI].
    + left. apply in_map_iff in I as (a & E & I). destruct (IN a I) as (r & e & c & ch & d & dt & nd & w & P & Ik & SK & _ & _ & _ & _ & _ & _ & _ & A1 & A2 & _). exists r, e, c, ch. split; auto. split; auto. split; auto. rewrite <- E. unfold s_loc. rewrite A1, A2, <- app_assoc. reflexivity.
    + right. destruct (O q NI). split; auto.
Qed.

End Parts.

Lemma fval_fsize : forall m n l v, fval m n l = Some v -> fsize m n l = None.
Proof. intros m n l v H. unfold fval, fsize in *. destruct (look m n l) as [[[nm [| |dt nd] cs] [?|?|?]]|]; try discriminate; reflexivity. Qed.

Section Contours.
Variables (sm tm : meta).
Variable src : node.
Variable str_of : pyval -> str.
Variable parse_float : str -> option flt.
Variable parse_cpx : str -> option (flt * flt).
Variable flt_of_int : Z -> option flt.
Variable np_cast : dtype -> pyval -> result pexn value.
Variable array_items : value -> list pyval.
Variable close : pyval -> pyval -> bool.
Hypothesis Ws : wf_meta sm.
Hypothesis W : wf_meta tm.
Hypothesis SO : str_ok tm.
Hypothesis casts : casts_arrays np_cast.
Notation type_repeat_first := (type_repeat_first sm tm src str_of parse_float parse_cpx flt_of_int np_cast array_items).
Notation type_remove_last := (type_remove_last tm str_of parse_float parse_cpx flt_of_int np_cast array_items close).
Notation assign := (assign tm str_of parse_float parse_cpx flt_of_int np_cast array_items).
Notation do_set := (do_set tm str_of parse_float parse_cpx flt_of_int np_cast array_items).

(** a child of a contour *)
Lemma child_cases : forall snm k scs tcs n r e c ch, (k = KStruct \/ k = KAoS) -> conf (Meta snm k scs) n -> contours scs tcs n -> part n r e -> In (c, ch) (iter_nonempty scs (node_fields e)) ->
  mname c = strs "closed" \/
  (mname c <> strs "closed" /\ VmapModel.ends_with (strs "_error_index") (mname c) = false /\
   exists d dt nd v, In d tcs /\ mname d = mname c /\ mkind c = KLeaf dt nd /\ mkind d = KLeaf dt nd /\ ch = NLeaf (Some v) /\ holds scs e c v /\ leaf_value c ch = v /\ val_ok dt nd v /\ leaf_has_value nd (Some v) = true /\
     (mname c = strs "time" \/ (mname c <> strs "time" /\ nd = 1 /\ dt <> STR /\ is_num_array c = true))).
Proof.
  intros snm k scs tcs n r e c ch K Cn CT P I. destruct (part_conf _ _ _ _ _ _ K Cn P) as (Ce & fs & ->). cbn [node_fields] in I. apply in_iter_nonempty in I as (Ic & E).
  destruct (CT r _ P c ch Ic E) as [X|(d & Id & [PC|TC])]; [auto| |].
  - destruct PC as (dt & K1 & K2 & NS & N & N1 & N2 & N3). right. split; auto. split; auto. destruct (ne_leaf c ch fs dt 1 snm scs Ce Ic E K1) as (v & -> & VO & HV). exists d, dt, 1, v. repeat (split; auto).
    + unfold leaf_value. rewrite K1. reflexivity.
    + right. repeat (split; auto). unfold is_num_array. rewrite K1. destruct dt; congruence || reflexivity.
  - destruct TC as (NT & N & dt & nd & K1 & K2). right. split; [rewrite NT; discriminate|]. split; [rewrite NT; reflexivity|]. destruct (ne_leaf c ch fs dt nd snm scs Ce Ic E K1) as (v & -> & VO & HV). exists d, dt, nd, v. repeat (split; auto).
    + rewrite NT; discriminate.
    + unfold leaf_value. rewrite K1. reflexivity.
Qed.
Lemma holds_In : forall nm cs e c v, conf (Meta nm KStruct cs) e -> (holds cs e c v <-> mname c <> strs "closed" /\ In (c, NLeaf (Some v)) (iter_nonempty cs (node_fields e))).
Proof. intros nm cs e c v C. rewrite in_iter_nonempty. unfold holds. tauto. Qed.
Lemma citer_one : forall A (f : A -> CM unit) x s, citer f [x] s = f x s.
Proof. intros A f x s. cbn [citer]. unfold cbind. destruct (f x s) as [s' [[]|e]]; reflexivity. Qed.

Definition new_tr (b : bool) (c : meta) (v : value) : option value := if b && negb (str_eqb (mname c) (strs "time")) then repeat_first v else Some v.
Definition new_fr (b : bool) (c : meta) (l : loc) : option loc := if b && negb (str_eqb (mname c) (strs "time")) then None else Some (l ++ [Child (mname c)]).
Definition flag_name (c : meta) : bool := str_eqb (mname c) (strs "closed").

Theorem contours_newer : forall snm k scs n sl tl z st tnm tcs x, (k = KStruct \/ k = KAoS) -> wf_meta (Meta snm k scs) -> conf (Meta snm k scs) n -> flag_at sm src sl z ->
  conf tm (c_tree st) -> vnode_at tm (c_tree st) tl (Meta tnm k tcs) x -> nothing tm (c_tree st) tl -> contours scs tcs n -> time_set scs n ->
  exists st' x', type_repeat_first (Meta snm k scs) n sl tl st = (st', Ok None) /\ conf tm (c_tree st') /\ vnode_at tm (c_tree st') tl (Meta tnm k tcs) x' /\
    (forall r, (exists e, part n r e) <-> (exists e', part x' r e')) /\
    (forall r e c v, part n r e -> holds scs e c v -> exists w, fval tm (c_tree st') (tl ++ r ++ [Child (mname c)]) = Some w /\ copied z c v w) /\
    (forall q, ~ within tl q -> fval tm (c_tree st') q = fval tm (c_tree st) q /\ fsize tm (c_tree st') q = fsize tm (c_tree st) q) /\
    (forall q w, fval tm (c_tree st') (tl ++ q) = Some w -> exists r e c v, part n r e /\ holds scs e c v /\ q = r ++ [Child (mname c)]) /\
    (forall q j, fsize tm (c_tree st') (tl ++ q) = Some (S j) -> q = [] /\ k = KAoS).
Proof.
  intros snm k scs n sl tl z st tnm tcs x K Wm Cn FL C VT NO CT TS. destruct (flag_read sm src Ws sl z st FL) as (cl & R1 & R2). set (b := negb (z =? 0)%Z) in *.
  destruct (pairs_ok tm W snm k scs n sl tl st tnm tcs x K Cn C VT) as (s1 & ps & RP & C1 & PS & NP & LV & (x1 & V1 & PX) & OUT & EA & ES & _).
  assert (CASES : forall r e c ch, part n r e -> In (c, ch) (iter_nonempty scs (node_fields e)) -> flag_name c = false ->
     exists d dt nd v w, In d tcs /\ mname d = mname c /\ mkind c = KLeaf dt nd /\ mkind d = KLeaf dt nd /\ ch = NLeaf (Some v) /\ holds scs e c v /\ leaf_value c ch = v /\ new_tr b c v = Some w /\ copied z c v w /\ val_ok dt nd w /\ leaf_has_value nd (Some w) = true /\ (nd = 0 -> ~ empty dt w) /\
       VmapModel.ends_with (strs "_error_index") (mname c) = false /\ (str_eqb (mname c) (strs "time") = false -> is_num_array c = true)).
  { intros r e c ch P I NF. destruct (child_cases snm k scs tcs n r e c ch K Cn CT P I) as [X|(NC & NI & d & dt & nd & v & Id & N & K1 & K2 & -> & HO & LE & VO & HV & TP)].
    { unfold flag_name in NF. rewrite X, str_eqb_refl in NF. discriminate. }
    assert (X : exists w, new_tr b c v = Some w /\ copied z c v w /\ val_ok dt nd w /\ leaf_has_value nd (Some w) = true /\ (nd = 0 -> ~ empty dt w)).
    { unfold new_tr. destruct TP as [T|(T & -> & NS & IN)].
      - rewrite T, str_eqb_refl. cbn [negb]. rewrite Bool.andb_false_r. exists v. split; auto. split; [split; [auto|split; [intros X; contradiction|auto]]|]. split; auto. split; auto. intros ->. eapply TS; eauto.
      - rewrite (proj2 (str_eqb_neq _ _) T). cbn [negb]. rewrite Bool.andb_true_r. destruct b eqn:B.
        + destruct (row_nonempty dt v VO NS HV) as (AR & w & RF). exists w. split; auto. assert (CU : closed_up v w) by (apply repeat_first_spec; eauto). destruct (closed_up_ok v w CU) as (X1 & X2).
          split; [split; [intros X; contradiction|split; [auto|intros ->; discriminate B]]|]. split; [auto|]. split; [apply X2; auto|]. discriminate.
        + exists v. split; auto. split; [split; [auto|split; [|auto]]|]. { intros _ NZ. exfalso. apply NZ. unfold b in B. apply Bool.negb_false_iff, Z.eqb_eq in B. auto. } split; auto. split; auto. discriminate. }
    destruct X as (w & T1 & T2 & T3 & T4 & T5). exists d, dt, nd, v, w. repeat (split; auto). intros T. destruct TP as [X|(_ & _ & _ & X)]; auto. rewrite X, str_eqb_refl in T. discriminate. }
  destruct (parts_set tm str_of parse_float parse_cpx flt_of_int np_cast array_items W SO casts flag_name (new_tr b) (new_fr b) snm k scs n sl tl tcs s1 ps K Wm C1 PS NP LV) as (st' & RS & C' & F & O).
  { intros r e c ch P I NF. destruct (CASES r e c ch P I NF) as (d & dt & nd & v & w & Id & N & K1 & K2 & _ & _ & LE & T & _ & VO & HV & NE & _). exists d, dt, nd, w. rewrite LE. repeat (split; auto). }
  assert (IT : info_at tm (c_tree st') tl = info_at tm (c_tree s1) tl).
  { destruct (O tl) as [(r & e & c & ch & _ & _ & _ & E)|(_ & _ & E)]; auto. exfalso. rewrite <- (app_nil_r tl) in E at 1. apply app_inv_head in E. destruct r; discriminate. }
  destruct (vnode_conf _ _ _ _ _ V1 W C1) as (_ & Cx1). destruct (same_parts tm (c_tree s1) (c_tree st') tl tnm k tcs x1 W C' K V1 Cx1 IT) as (x' & V' & PX').
  assert (TGT : forall q, (exists r e c v, part n r e /\ holds scs e c v /\ q = tl ++ r ++ [Child (mname c)]) \/ (fval tm (c_tree st') q = fval tm (c_tree s1) q /\ fsize tm (c_tree st') q = fsize tm (c_tree s1) q)).
  { intros q. destruct (O q) as [(r & e & c & ch & P & I & NF & E)|(E1 & E2 & _)]; auto. left. destruct (CASES r e c ch P I NF) as (d & dt & nd & v & w & _ & _ & _ & _ & _ & HO & _). exists r, e, c, v. auto. }
  assert (FV : forall r e c v, part n r e -> holds scs e c v -> exists w, fval tm (c_tree st') (tl ++ r ++ [Child (mname c)]) = Some w /\ copied z c v w).
  { intros r e c v P HO. pose proof HO as (Ic & NC & E). destruct (part_conf _ _ _ _ _ _ K Cn P) as (Ce & _). assert (I : In (c, NLeaf (Some v)) (iter_nonempty scs (node_fields e))) by (apply in_iter_nonempty; auto).
    assert (NF : flag_name c = false) by (apply str_eqb_neq; auto). destruct (CASES r e c _ P I NF) as (d & dt & nd & v' & w & Id & N & K1 & K2 & EV & _ & LE & T & CP & _). injection EV as <-. exists w. split; auto. eapply F; eauto. rewrite LE. auto. }
  exists st', x'. split; [|split; [auto|split; [auto|split; [|split; [exact FV|split; [|split]]]]]].
  - unfold ConvModel.type_repeat_first, cbind at 1. rewrite R1. unfold cbind at 1. rewrite R2. unfold cbind at 1. rewrite RP. cbn [mchildren]. unfold cbind at 1.
    match goal with |- context [citer ?f ps s1] => assert (EQ : citer f ps s1 = citer do_set (flat_map (psets flag_name (new_tr b) (new_fr b) scs) ps) s1) end; [|rewrite EQ, RS; reflexivity].
    apply citer_flat. intros [[e l] t] s I. unfold psets. apply citer_flat. intros [c ch] s' Ik. apply PS in I as (r & P & -> & ->). unfold kset. cbn [fst snd].
    destruct (flag_name c) eqn:NF; [unfold flag_name in NF; change closed_name with (strs "closed"); rewrite NF; reflexivity|].
    destruct (CASES r e c ch P Ik NF) as (d & dt & nd & v & w & Id & N & K1 & K2 & _ & _ & LE & T & _ & _ & _ & _ & NI & IN). unfold flag_name in NF. change closed_name with (strs "closed"). rewrite NF, NI, K1. cbn [orb]. cbv zeta. rewrite LE, T.
    rewrite citer_one. unfold ConvProps5.do_set, set_to, new_tr, new_fr in *. cbn [s_at s_name s_from s_value]. destruct (str_eqb (mname c) (strs "time")) eqn:TM; cbn [negb] in *.
    + rewrite Bool.andb_false_r in *. cbn [andb]. injection T as <-. reflexivity.
    + rewrite Bool.andb_true_r in *. rewrite (IN eq_refl), Bool.andb_true_r. destruct b; [rewrite T; reflexivity|]. injection T as <-. reflexivity.
  - intros r. rewrite PX. apply PX'.
  - intros q NW. destruct (TGT q) as [(r & e & c & v & _ & _ & E)|(E1 & E2)]; [exfalso; apply NW; exists (r ++ [Child (mname c)]); auto|]. rewrite E1, E2. apply OUT; auto.
  - intros q w H. destruct (TGT (tl ++ q)) as [(r & e & c & v & P & HO & E)|(E1 & E2)]; [apply app_inv_head in E; exists r, e, c, v; auto|]. exfalso. rewrite E1 in H.
    destruct K as [-> | ->]; [rewrite (ES eq_refl), (proj1 (NO q)) in H; discriminate|]. rewrite (proj1 (EA eq_refl q)) in H. discriminate.
  - intros q j H. destruct (TGT (tl ++ q)) as [(r & e & c & v & P & HO & E)|(E1 & E2)].
    + exfalso. destruct (FV r e c v P HO) as (w & E' & _). rewrite E in H. rewrite (fval_fsize _ _ _ _ E') in H. discriminate.
    + rewrite E2 in H. destruct K as [-> | ->]; [exfalso; rewrite (ES eq_refl) in H; apply (proj2 (NO q) j H)|]. split; auto. apply (proj2 (EA eq_refl q) j H).
Qed.

(** *** back *)
Lemma all_close_time : forall (kids : list (meta * node)), (forall c ch, In (c, ch) kids -> mname c = strs "time" \/ exists x y, ends (leaf_value c ch) x y) ->
  exists b, all_close close kids = Some b /\ (b = true <-> forall c ch x y, In (c, ch) kids -> mname c <> strs "time" -> ends (leaf_value c ch) x y -> close x y = true).
Proof.
  induction kids as [|[c ch] kids IH]; intros H.
  - exists true. split; [reflexivity|]. split; [intros _ ? ? ? ? []|reflexivity].
  - destruct (IH (fun c' ch' I => H c' ch' (or_intror I))) as (b & A & B). cbn [all_close]. destruct (str_eqb (mname c) (strs "time")) eqn:T.
    { exists b. split; auto. apply str_eqb_eq in T. rewrite B. split; intros X.
      - intros c' ch' x' y' [[= <- <-]|I] NT E'; [contradiction|eauto].
      - intros c' ch' x' y' I. apply X. right; auto. }
    apply str_eqb_neq in T. destruct (H c ch (or_introl eq_refl)) as [X|(x & y & E)]; [contradiction|].
    unfold endpoints_close. destruct (ends_elems _ _ _ E) as (t & EL & LA). rewrite EL, LA. destruct (close x y) eqn:CL.
    + exists b. split; auto. rewrite B. split; intros X.
      * intros c' ch' x' y' [[= <- <-]|I] NT E'; [|eauto]. destruct (ends_elems _ _ _ E') as (t' & EL' & LA'). rewrite EL in EL'. injection EL' as <- <-. congruence.
      * intros c' ch' x' y' I. apply X. right; auto.
    + exists false. split; auto. split; [discriminate|]. intros X. rewrite (X c ch x y (or_introl eq_refl) T E) in CL. discriminate.
Qed.
Lemma contours_close_spec : forall cs els, (forall e c ch, In e els -> In (c, ch) (iter_nonempty cs (node_fields e)) -> mname c = strs "time" \/ exists x y, ends (leaf_value c ch) x y) ->
  exists b, contours_close close cs els = Some b /\ (b = true <-> forall e c ch x y, In e els -> In (c, ch) (iter_nonempty cs (node_fields e)) -> mname c <> strs "time" -> ends (leaf_value c ch) x y -> close x y = true).
Proof.
  intros cs. induction els as [|e els IH]; intros H.
  - exists true. split; [reflexivity|]. split; [intros _ ? ? ? ? ? []|reflexivity].
  - destruct (IH (fun e' c' ch' I => H e' c' ch' (or_intror I))) as (b & A & B). destruct (all_close_time (iter_nonempty cs (node_fields e)) (fun c ch => H e c ch (or_introl eq_refl))) as (b1 & A1 & B1).
    cbn [contours_close]. rewrite A1. destruct b1.
    + exists b. split; auto. rewrite B. split; intros X.
      * intros e' c' ch' x' y' [<-|I] Ik NT E; [eapply (proj1 B1); eauto|eauto].
      * intros e' c' ch' x' y' I. apply X. right; auto.
    + exists false. split; auto. split; [discriminate|]. intros X. apply B1. intros c ch x y. apply X. left; auto.
Qed.
Lemma parts_list : forall nm k cs n, (k = KStruct \/ k = KAoS) -> conf (Meta nm k cs) n -> forall e, In e (match n with NAoS els => els | n => [n] end) <-> exists r, part n r e.
Proof.
  intros nm k cs n K C e. destruct K as [->| ->]; inversion C; subst.
  - split; [intros [<-|[]]; exists []; constructor|]. intros (r & P). inversion P; subst. left; auto.
  - split; [intros I; apply In_nth_error in I as (i & E); exists [Elem i]; constructor; auto|]. intros (r & P). inversion P; subst. eapply nth_error_In; eauto.
Qed.

(** the place of the flag: in the structure, or else next to the structure or array *)
Definition flag_place_of (n : node) (tl : loc) (k : kind) (tcs : list meta) (cl : loc) : Prop :=
  (k = KStruct /\ exists d, In d tcs /\ mname d = strs "closed" /\ mkind d = KLeaf INT 0 /\ cl = tl ++ [Child (strs "closed")]) \/
  ((k = KStruct -> ~ In (strs "closed") (map mname tcs)) /\ exists pcs d, live tm n (removelast tl) pcs /\ In d pcs /\ mname d = strs "closed" /\ mkind d = KLeaf INT 0 /\ cl = removelast tl ++ [Child (strs "closed")]).
Lemma set_flag : forall tl cl st tnm k tcs x (b : bool), (k = KStruct \/ k = KAoS) -> conf tm (c_tree st) -> vnode_at tm (c_tree st) tl (Meta tnm k tcs) x -> flag_place_of (c_tree st) tl k tcs cl ->
  exists s0 s1, target_closed tm tl st = (s0, Ok cl) /\ assign cl None (PInt (if b then 1 else 0)) s0 = (s1, Ok tt) /\ conf tm (c_tree s1) /\ info_at tm (c_tree s1) tl = info_at tm (c_tree st) tl /\
    fval tm (c_tree s1) cl = Some (VInt (if b then 1 else 0)) /\ only tm cl (c_tree st) (c_tree s1) /\ (k = KAoS -> ~ within tl cl) /\ exists p, cl = p ++ [Child (strs "closed")].
Proof.
  intros tl cl st tnm k tcs x b K C VT FP. destruct (vnode_conf _ _ _ _ _ VT W C) as (Wt & Cx). pose proof VT as L. apply look_vnode in L; auto.
  assert (ND : NoDup (map mname tcs)) by (inversion Wt; auto).
  assert (X : exists p cs d, live tm (c_tree st) p cs /\ In d cs /\ mname d = closed_name /\ mkind d = KLeaf INT 0 /\ cl = p ++ [Child closed_name] /\ tl <> cl /\ (k = KAoS -> ~ within tl cl) /\ target_closed tm tl st = getattr tm p closed_name st).
  { destruct FP as [(-> & d & I & N & Kd & ->)|(NI & pcs & d & LP & I & N & Kd & ->)].
    - inversion Cx; subst. exists tl, tcs, d. split; [unfold live, info_at; rewrite L; reflexivity|]. split; auto. split; auto. split; auto. split; auto. split; [apply self_neq|]. split; [discriminate|].
      assert (IA : info_at tm (c_tree st) tl = Some (IStruct tcs)) by (unfold info_at; rewrite L; reflexivity).
      unfold target_closed, cview, view, lift, cbind. rewrite IA. rewrite (proj2 (child_meta_iff tcs closed_name d ND)) by auto. destruct st; reflexivity.
    - exists (removelast tl), pcs, d. destruct (live_look _ _ _ _ LP) as (nmp & fsp & LKP).
      assert (NDp : NoDup (map mname pcs)). { apply look_vnode in LKP; auto. destruct (vnode_conf _ _ _ _ _ LKP W C) as (W' & _). inversion W'; auto. }
      assert (NE : tl <> removelast tl ++ [Child closed_name]).
      { intros E. rewrite E in L. rewrite look_app, LKP in L. cbn [look mkind mchildren] in L. rewrite (proj2 (child_meta_iff pcs closed_name d NDp)) in L by auto. injection L as L _. rewrite L in Kd. cbn [mkind] in Kd. destruct K as [->| ->]; discriminate. }
      split; auto. split; auto. split; auto. split; auto. split; auto. split; auto. split.
      { intros -> (r & E). destruct tl as [|a tl'].
        - cbn [removelast look] in LKP. cbn [look] in L. congruence.
        - assert (LE : length (removelast (a :: tl')) = length tl') by (clear; revert a; induction tl' as [|y l IH]; intros a; [reflexivity|]; change (removelast (a :: y :: l)) with (a :: removelast (y :: l)); cbn [length]; rewrite IH; reflexivity).
          pose proof (f_equal (@length _) E) as X. rewrite !app_length in X. cbn [length] in X. destruct r; [|cbn [length] in X; lia]. rewrite app_nil_r in E. apply NE. symmetry. exact E. }
      destruct K as [->| ->]; inversion Cx; subst.
      + assert (IA : info_at tm (c_tree st) tl = Some (IStruct tcs)) by (unfold info_at; rewrite L; reflexivity). unfold target_closed, cview, view, lift, cbind. rewrite IA. destruct (child_meta closed_name tcs) eqn:E; [|destruct st; reflexivity]. exfalso. apply child_meta_Some in E as (I' & E). apply (NI eq_refl). change (strs "closed") with closed_name. rewrite <- E. apply List.in_map; auto.
      + assert (IA : info_at tm (c_tree st) tl = Some (IAoS (length els))) by (unfold info_at; rewrite L; reflexivity). unfold target_closed, cview, view, lift, cbind. rewrite IA. destruct st; reflexivity. }
  destruct X as (p & cs & d & LP & I & N & Kd & EC & NE & NW & TC).
  destruct (set_to_ok tm str_of parse_float parse_cpx flt_of_int np_cast array_items W SO casts p cs d INT 0 None (VInt (if b then 1 else 0)) st) as (s1 & S1 & F1 & O1 & C1 & I1); auto; [constructor| |].
  { intros _ E. apply is_empty_spec in E. destruct b; discriminate. }
  rewrite N, <- EC in *. unfold ConvProps3.set_to, cbind in S1. rewrite <- TC in S1. destruct (target_closed tm tl st) as [s0 [a|]] eqn:E0; [|discriminate].
  assert (a = cl) as -> by (symmetry in TC; apply getattr_loc in TC; congruence).
  exists s0, s1. split; auto. split; [exact S1|]. split; auto. split; [apply I1; auto|]. split; auto. split; auto. split; auto. exists p. exact EC.
Qed.

Definition old_tr (b : bool) (c : meta) (v : value) : option value := if b && negb (str_eqb (mname c) (strs "time")) then drop_last v else Some v.
Definition old_fr (c : meta) (l : loc) : option loc := Some (l ++ [Child (mname c)]).

Theorem contours_older : forall snm k scs n sl tl cl st tnm tcs x, (k = KStruct \/ k = KAoS) -> wf_meta (Meta snm k scs) -> conf (Meta snm k scs) n ->
  conf tm (c_tree st) -> vnode_at tm (c_tree st) tl (Meta tnm k tcs) x -> nothing tm (c_tree st) tl -> flag_place_of (c_tree st) tl k tcs cl -> contours scs tcs n -> time_set scs n ->
  ~ In (strs "closed") (map mname scs) -> (forall r e c v, part n r e -> holds scs e c v -> mname c <> strs "time" -> 1 < value_len v) ->
  exists st' b, type_remove_last (Meta snm k scs) n sl tl st = (st', Ok None) /\ conf tm (c_tree st') /\
    fval tm (c_tree st') cl = Some (VInt (if b : bool then 1 else 0)) /\
    (b = true <-> forall r e c v x y, part n r e -> holds scs e c v -> mname c <> strs "time" -> ends v x y -> close x y = true) /\
    (forall r e c v, part n r e -> holds scs e c v -> exists w, fval tm (c_tree st') (tl ++ r ++ [Child (mname c)]) = Some w /\
       (mname c = strs "time" -> w = v) /\ (mname c <> strs "time" -> b = true -> drop_last v = Some w) /\ (b = false -> w = v)) /\
    (forall q, q <> cl -> ~ within tl q -> fval tm (c_tree st') q = fval tm (c_tree st) q /\ fsize tm (c_tree st') q = fsize tm (c_tree st) q) /\
    (forall q w, tl ++ q <> cl -> fval tm (c_tree st') (tl ++ q) = Some w -> exists r e c v, part n r e /\ holds scs e c v /\ q = r ++ [Child (mname c)]) /\
    (forall q j, fsize tm (c_tree st') (tl ++ q) = Some (S j) -> q = [] /\ k = KAoS) /\
    (exists x', vnode_at tm (c_tree st') tl (Meta tnm k tcs) x' /\ forall r, (exists e, part n r e) <-> (exists e', part x' r e')).
Proof.
  intros snm k scs n sl tl cl st tnm tcs x K Wm Cn C VT NO FP CT TS NCL LEN.
  assert (KC : forall c e r ch, part n r e -> In (c, ch) (iter_nonempty scs (node_fields e)) -> mname c <> strs "closed").
  { intros c e r ch P I X. apply in_iter_nonempty in I as (I & _). apply NCL. rewrite <- X. apply List.in_map; auto. }
  destruct (contours_close_spec scs (match n with NAoS els => els | n => [n] end)) as (b & CC & BS).
  { intros e c ch I Ik. apply (proj1 (parts_list snm k scs n K Cn e)) in I as (r & P). destruct (child_cases snm k scs tcs n r e c ch K Cn CT P Ik) as [X|(NC & NI & d & dt & nd & v & Id & N & K1 & K2 & -> & HO & LE & VO & HV & [T|(T & -> & NS & _)])]; auto.
    - exfalso. eapply KC; eauto.
    - right. rewrite LE. eapply ends_ex; eauto. }
  assert (BS' : b = true <-> forall r e c v x y, part n r e -> holds scs e c v -> mname c <> strs "time" -> ends v x y -> close x y = true).
  { rewrite BS. split.
    - intros H r e c v x0 y P HO NT E. destruct HO as (Ic & NC & EN). assert (Ik : In (c, NLeaf (Some v)) (iter_nonempty scs (node_fields e))) by (apply in_iter_nonempty; auto).
      apply (H e c _ x0 y (proj2 (parts_list snm k scs n K Cn e) (ex_intro _ r P)) Ik NT). destruct (child_cases snm k scs tcs n r e c _ K Cn CT P Ik) as [X|(_ & _ & d & dt & nd & v' & _ & _ & _ & _ & EV & _ & LE & _)]; [contradiction|]. injection EV as <-. rewrite LE. auto.
    - intros H e c ch x0 y I Ik NT E. apply (proj1 (parts_list snm k scs n K Cn e)) in I as (r & P). destruct (child_cases snm k scs tcs n r e c ch K Cn CT P Ik) as [X|(_ & _ & d & dt & nd & v & _ & _ & _ & _ & _ & HO & LE & _)]; [exfalso; eapply KC; eauto|]. rewrite LE in E. eapply H; eauto. }
  destruct (set_flag tl cl st tnm k tcs x b K C VT FP) as (s0 & sf & TC & AS & Cf & If & Ff & Of & NW & pcl & ECL).
  destruct (vnode_conf _ _ _ _ _ VT W C) as (_ & Cx). destruct (same_parts tm (c_tree st) (c_tree sf) tl tnm k tcs x W Cf K VT Cx If) as (xf & Vf & _).
  destruct (pairs_ok tm W snm k scs n sl tl sf tnm tcs xf K Cn Cf Vf) as (s1 & ps & RP & C1 & PS & NP & LV & (x1 & V1 & PX) & OUT & EA & ES & _).
  assert (CASES : forall r e c ch, part n r e -> In (c, ch) (iter_nonempty scs (node_fields e)) -> false = false ->
     exists d dt nd v w, In d tcs /\ mname d = mname c /\ mkind c = KLeaf dt nd /\ mkind d = KLeaf dt nd /\ ch = NLeaf (Some v) /\ holds scs e c v /\ leaf_value c ch = v /\ old_tr b c v = Some w /\ val_ok dt nd w /\ leaf_has_value nd (Some w) = true /\ (nd = 0 -> ~ empty dt w) /\
       (str_eqb (mname c) (strs "time") = false -> is_num_array c = true)).
  { intros r e c ch P I _. destruct (child_cases snm k scs tcs n r e c ch K Cn CT P I) as [X|(NC & NI & d & dt & nd & v & Id & N & K1 & K2 & -> & HO & LE & VO & HV & TP)]; [exfalso; eapply KC; eauto|].
    assert (X : exists w, old_tr b c v = Some w /\ val_ok dt nd w /\ leaf_has_value nd (Some w) = true /\ (nd = 0 -> ~ empty dt w)).
    { unfold old_tr. destruct TP as [T|(T & -> & NS & IN)].
      - rewrite T, str_eqb_refl. cbn [negb]. rewrite Bool.andb_false_r. exists v. split; auto. split; auto. split; auto. intros ->. eapply TS; eauto.
      - rewrite (proj2 (str_eqb_neq _ _) T). cbn [negb]. rewrite Bool.andb_true_r. destruct b.
        + destruct (point_shorter flt_of_int dt v VO NS (LEN r e c v P HO T)) as (w & DL & VW & HW). exists w. split; auto. split; auto. split; auto. discriminate.
        + exists v. split; auto. split; auto. split; auto. discriminate. }
    destruct X as (w & T1 & T3 & T4 & T5). exists d, dt, nd, v, w. repeat (split; auto). intros T. destruct TP as [X|(_ & _ & _ & X)]; auto. rewrite X, str_eqb_refl in T. discriminate. }
  destruct (parts_set tm str_of parse_float parse_cpx flt_of_int np_cast array_items W SO casts (fun _ => false) (old_tr b) old_fr snm k scs n sl tl tcs s1 ps K Wm C1 PS NP LV) as (st' & RS & C' & F & O).
  { intros r e c ch P I NF. destruct (CASES r e c ch P I NF) as (d & dt & nd & v & w & Id & N & K1 & K2 & _ & _ & LE & T & VO & HV & NE & _). exists d, dt, nd, w. rewrite LE. repeat (split; auto). }
  assert (IT : info_at tm (c_tree st') tl = info_at tm (c_tree s1) tl).
  { destruct (O tl) as [(r & e & c & ch & _ & _ & _ & E)|(_ & _ & E)]; auto. exfalso. rewrite <- (app_nil_r tl) in E at 1. apply app_inv_head in E. destruct r; discriminate. }
  destruct (vnode_conf _ _ _ _ _ V1 W C1) as (_ & Cx1). destruct (same_parts tm (c_tree s1) (c_tree st') tl tnm k tcs x1 W C' K V1 Cx1 IT) as (x' & V' & PX').
  assert (TGT : forall q, (exists r e c v, part n r e /\ holds scs e c v /\ q = tl ++ r ++ [Child (mname c)]) \/ (fval tm (c_tree st') q = fval tm (c_tree s1) q /\ fsize tm (c_tree st') q = fsize tm (c_tree s1) q)).
  { intros q. destruct (O q) as [(r & e & c & ch & P & I & NF & E)|(E1 & E2 & _)]; auto. left. destruct (CASES r e c ch P I NF) as (d & dt & nd & v & w & _ & _ & _ & _ & _ & HO & _). exists r, e, c, v. auto. }
  assert (FV : forall r e c v, part n r e -> holds scs e c v -> exists w, fval tm (c_tree st') (tl ++ r ++ [Child (mname c)]) = Some w /\ old_tr b c v = Some w).
  { intros r e c v P HO. pose proof HO as (Ic & NC & E). assert (I : In (c, NLeaf (Some v)) (iter_nonempty scs (node_fields e))) by (apply in_iter_nonempty; auto).
    destruct (CASES r e c _ P I eq_refl) as (d & dt & nd & v' & w & Id & N & K1 & K2 & EV & _ & LE & T & _). injection EV as <-. exists w. split; auto. eapply F; eauto. rewrite LE. auto. }
  assert (CLQ : forall r e c v, part n r e -> holds scs e c v -> cl <> tl ++ r ++ [Child (mname c)]).
  { intros r e c v P (_ & NC & _) E. rewrite ECL, app_assoc in E. apply app_inj_tail in E as (_ & E). injection E as E. apply NC. auto. }
  assert (CLF : fval tm (c_tree s1) cl = fval tm (c_tree sf) cl).
  { destruct K as [-> | ->]; [rewrite (ES eq_refl); reflexivity|]. apply OUT. auto. }
  exists st', b. split; [|split; [auto|split; [|split; [exact BS'|split; [|split; [|split; [|split]]]]]]].
  - unfold ConvModel.type_remove_last. cbn [mchildren]. unfold cbind at 1. rewrite TC. rewrite CC. cbn [of_option]. unfold cbind at 1. cbn [cret]. unfold cbind at 1. rewrite AS. unfold cbind at 1. rewrite RP. unfold cbind at 1.
    match goal with |- context [citer ?f ps s1] => assert (EQ : citer f ps s1 = citer do_set (flat_map (psets (fun _ => false) (old_tr b) old_fr scs) ps) s1) end; [|rewrite EQ, RS; reflexivity].
    apply citer_flat. intros [[e l] t] s I. unfold psets. apply citer_flat. intros [c ch] s' Ik. apply PS in I as (r & P & -> & ->). unfold kset. cbn [fst snd].
    destruct (CASES r e c ch P Ik eq_refl) as (d & dt & nd & v & w & Id & N & K1 & K2 & _ & _ & LE & T & _ & _ & _ & IN). rewrite K1. cbv zeta. rewrite LE, T.
    rewrite citer_one. unfold ConvProps5.do_set, set_to, old_tr, old_fr in *. cbn [s_at s_name s_from s_value]. destruct (str_eqb (mname c) (strs "time")) eqn:TM; cbn [negb] in *.
    + rewrite Bool.andb_false_r in *. cbn [andb]. injection T as <-. reflexivity.
    + rewrite Bool.andb_true_r in *. rewrite (IN eq_refl), Bool.andb_true_r. destruct b; [rewrite T; reflexivity|]. injection T as <-. reflexivity.
  - destruct (TGT cl) as [(r & e & c & v & P & HO & E)|(E1 & _)]; [exfalso; eapply CLQ; eauto|]. rewrite E1, CLF. auto.
  - intros r e c v P HO. destruct (FV r e c v P HO) as (w & E & T). exists w. split; auto. unfold old_tr in T. split; [|split].
    + intros X. rewrite X, str_eqb_refl in T. cbn [negb] in T. rewrite Bool.andb_false_r in T. congruence.
    + intros X ->. rewrite (proj2 (str_eqb_neq _ _) X) in T. exact T.
    + intros ->. cbn [andb] in T. congruence.
  - intros q NC NQ. destruct (TGT q) as [(r & e & c & v & _ & _ & E)|(E1 & E2)]; [exfalso; apply NQ; exists (r ++ [Child (mname c)]); auto|]. rewrite E1, E2. destruct (OUT q NQ) as (-> & ->). apply Of; auto.
  - intros q w NC H. destruct (TGT (tl ++ q)) as [(r & e & c & v & P & HO & E)|(E1 & E2)]; [apply app_inv_head in E; exists r, e, c, v; auto|]. exfalso. rewrite E1 in H.
    destruct K as [-> | ->]; [rewrite (ES eq_refl), (proj1 (Of _ NC)), (proj1 (NO q)) in H; discriminate|]. rewrite (proj1 (EA eq_refl q)) in H. discriminate.
  - intros q j H. destruct (TGT (tl ++ q)) as [(r & e & c & v & P & HO & E)|(E1 & E2)].
    + exfalso. destruct (FV r e c v P HO) as (w & E' & _). rewrite E in H. rewrite (fval_fsize _ _ _ _ E') in H. discriminate.
    + rewrite E2 in H. destruct K as [-> | ->]; [|split; auto; apply (proj2 (EA eq_refl q) j H)]. exfalso. rewrite (ES eq_refl) in H. destruct (loc_dec (tl ++ q) cl) as [X|X].
      * rewrite X in H. rewrite (fval_fsize _ _ _ _ Ff) in H. discriminate.
      * rewrite (proj2 (Of _ X)) in H. apply (proj2 (NO q) j H).
  - exists x'. split; auto. intros r. rewrite PX. apply PX'.
Qed.
End Contours.

Lemma part_step : forall nm k cs n r e, (k = KStruct \/ k = KAoS) -> conf (Meta nm k cs) n -> part n r e -> (k = KStruct /\ r = []) \/ (k = KAoS /\ exists i, r = [Elem i]).
Proof. intros nm k cs n r e K C P. destruct P; destruct K as [->| ->]; try (inversion C; fail); eauto. Qed.
Lemma part_look : forall m n l nm k cs x r e, (k = KStruct \/ k = KAoS) -> look m n l = Some (Meta nm k cs, x) -> conf (Meta nm k cs) x -> part x r e -> look m n (l ++ r) = Some (Meta nm KStruct cs, e).
Proof.
  intros m n l nm k cs x r e K L C P. rewrite look_app, L. destruct P as [fs|els i e E]; destruct K as [->| ->]; try (inversion C; fail); [reflexivity|]. cbn [look mkind mname mchildren]. rewrite E. reflexivity.
Qed.

Section BackContours.
Variables (m1 m2 : meta).
Variable src : node.
Variable str_of : pyval -> str.
Variable parse_float : str -> option flt.
Variable parse_cpx : str -> option (flt * flt).
Variable flt_of_int : Z -> option flt.
Variable np_cast : dtype -> pyval -> result pexn value.
Variable array_items : value -> list pyval.
Variable close : pyval -> pyval -> bool.
Variable np_int32 : flt -> result pexn Z.
Variable enum_of : list str -> option (Z -> option (str * str)).
Hypothesis W1 : wf_meta m1.
Hypothesis W2 : wf_meta m2.
Hypothesis SO1 : str_ok m1.
Hypothesis SO2 : str_ok m2.
Hypothesis casts : casts_arrays np_cast.
Notation rule sm tm src := (type_change sm tm src str_of parse_float parse_cpx flt_of_int np_cast array_items close np_int32 enum_of).

(** Contours to the newer version and back: a structure, or every element of an array; with the time of the contour, if any.
    A closed contour gets its first point again at the end; going back, the flag and the points are those of before. *)
Theorem C25_contours : forall snm k scs n tnm tcs x sl tl z st, (k = KStruct \/ k = KAoS) ->
  vnode_at m1 src sl (Meta snm k scs) n -> conf m1 src -> flag_at m1 src sl z ->
  vnode_at m2 (c_tree st) tl (Meta tnm k tcs) x -> conf m2 (c_tree st) -> nothing m2 (c_tree st) tl -> ~ In (strs "closed") (map mname tcs) ->
  contours scs tcs n -> time_set scs n ->
  (z <> 0%Z -> forall r e c v a b, part n r e -> holds scs e c v -> mname c <> strs "time" -> ends v a b -> close a a = true) ->
  (z = 0%Z -> (forall r e c v, part n r e -> holds scs e c v -> mname c <> strs "time" -> 1 < value_len v) /\
              exists r e c v a b, part n r e /\ holds scs e c v /\ mname c <> strs "time" /\ ends v a b /\ close a b = false) ->
  exists st1 x1, rule m1 m2 src H_repeat_first_cond (Meta snm k scs) n sl tl st = (st1, Ok None) /\
    vnode_at m2 (c_tree st1) tl (Meta tnm k tcs) x1 /\ (forall r, (exists e, part n r e) <-> (exists e', part x1 r e')) /\
    (forall r e c v, part n r e -> holds scs e c v -> exists w, fval m2 (c_tree st1) (tl ++ r ++ [Child (mname c)]) = Some w /\ copied z c v w) /\
    (forall q w, fval m2 (c_tree st1) (tl ++ q) = Some w -> exists r e c v, part n r e /\ holds scs e c v /\ q = r ++ [Child (mname c)]) /\
    (forall q, ~ within tl q -> fval m2 (c_tree st1) q = fval m2 (c_tree st) q /\ fsize m2 (c_tree st1) q = fsize m2 (c_tree st) q) /\
    forall tl' cl' x' st', conf m1 (c_tree st') -> vnode_at m1 (c_tree st') tl' (Meta snm k scs) x' -> nothing m1 (c_tree st') tl' -> flag_place_of m1 (c_tree st') tl' k scs cl' ->
    exists st2 x2, rule m2 m1 (c_tree st1) H_remove_last_cond (Meta tnm k tcs) x1 tl tl' st' = (st2, Ok None) /\
      vnode_at m1 (c_tree st2) tl' (Meta snm k scs) x2 /\ (forall r, (exists e, part n r e) <-> (exists e', part x2 r e')) /\
      fval m1 (c_tree st2) cl' = Some (VInt (if (z =? 0)%Z then 0 else 1)) /\
      (forall r e c v, part n r e -> holds scs e c v -> fval m1 (c_tree st2) (tl' ++ r ++ [Child (mname c)]) = Some v) /\
      (forall q w, tl' ++ q <> cl' -> fval m1 (c_tree st2) (tl' ++ q) = Some w -> exists r e c v, part n r e /\ holds scs e c v /\ q = r ++ [Child (mname c)]) /\
      (forall q, q <> cl' -> ~ within tl' q -> fval m1 (c_tree st2) q = fval m1 (c_tree st') q /\ fsize m1 (c_tree st2) q = fsize m1 (c_tree st') q).
Proof.
  intros snm k scs n tnm tcs x sl tl z st K V C FL VT CT NO NCL CN TS ZN ZZ.
  destruct (vnode_conf _ _ _ _ _ V W1 C) as (Wm & Cm). destruct (vnode_conf _ _ _ _ _ VT W2 CT) as (Wt & _).
  assert (NDs : NoDup (map mname scs)) by (inversion Wm; auto). assert (NDt : NoDup (map mname tcs)) by (inversion Wt; auto).
  destruct (contours_newer m1 m2 src str_of parse_float parse_cpx flt_of_int np_cast array_items W1 W2 SO2 casts snm k scs n sl tl z st tnm tcs x K Wm Cm FL CT VT NO CN TS) as (st1 & x1 & R1 & C1 & V1 & PX & F1 & O1 & N1 & Z1).
  destruct (vnode_conf _ _ _ _ _ V1 W2 C1) as (_ & Cx1). pose proof V1 as LK1. apply look_vnode in LK1; auto.
  (* the children of the contours, before and after *)
  assert (HP : forall r e c v, part n r e -> holds scs e c v -> exists d dt nd, In d tcs /\ mname d = mname c /\ (point_child c d \/ time_child c d) /\ mkind c = KLeaf dt nd /\ mkind d = KLeaf dt nd /\ val_ok dt nd v /\ leaf_has_value nd (Some v) = true /\ (mname c <> strs "time" -> nd = 1 /\ dt <> STR)).
  { intros r e c v P (I & NC & E). destruct (part_conf _ _ _ _ _ _ K Cm P) as (Ce & fs & ->). destruct (CN r _ P c _ I E) as [X|(d & Id & PT)]; [contradiction|].
    destruct PT as [PC|TC]; [pose proof PC as (dt & K1 & K2 & NS & N & _)|pose proof TC as (NT & N & dt & nd & K1 & K2)].
    - destruct (ne_leaf c _ fs dt 1 snm scs Ce I E K1) as (v' & EV & VO & HV). injection EV as <-. exists d, dt, 1. repeat (split; auto).
    - destruct (ne_leaf c _ fs dt nd snm scs Ce I E K1) as (v' & EV & VO & HV). injection EV as <-. exists d, dt, nd. repeat (split; auto); contradiction. }
  assert (SAME : forall r e c v e' c' v', part n r e -> part n r e' -> holds scs e c v -> holds scs e' c' v' -> mname c = mname c' -> e = e' /\ c = c' /\ v = v').
  { intros r e c v e' c' v' P P' (I & _ & E) (I' & _ & E') EN. assert (e = e') by (eapply part_fun; eauto). subst e'. assert (c = c') by (apply (nodup_name scs); auto). subst. split; auto. split; congruence. }
  assert (NEW : forall r e' d ch, part x1 r e' -> In d tcs -> ne d (node_fields e') = Some ch ->
    exists e c v w, part n r e /\ holds scs e c v /\ mname c = mname d /\ (point_child c d \/ time_child c d) /\ ch = NLeaf (Some w) /\ copied z c v w).
  { intros r e' d ch P Id E. destruct (part_conf _ _ _ _ _ _ K Cx1 P) as (Ce & fs & ->). cbn [node_fields] in E. pose proof (part_look m2 (c_tree st1) tl tnm k tcs x1 r _ K LK1 Cx1 P) as LP.
    pose proof E as E0. unfold ne in E0. destruct (alookup (mname d) fs) as [y|] eqn:A; [|discriminate]. destruct (has_value d y) eqn:H; [|discriminate]. injection E0 as <-.
    assert (Wd : wf_meta d) by (inversion Wt; auto). assert (Cd : conf d y) by (inversion Ce as [| |? ? ? CC _ _|]; eauto).
    apply obs_nonempty in H; auto. destruct H as (r' & H).
    assert (LD : look m2 (c_tree st1) (tl ++ r ++ Child (mname d) :: r') = look d y r').
    { rewrite app_assoc, look_app, LP. cbn [look mkind mchildren]. rewrite (proj2 (child_meta_iff tcs (mname d) d NDt)) by auto. unfold child_or_new. rewrite A. reflexivity. }
    assert (X : exists e c v, part n r e /\ holds scs e c v /\ mname c = mname d).
    { destruct H as [H|(j & H)].
      - destruct (fval d y r') as [w|] eqn:FV; [|congruence]. destruct (N1 (r ++ Child (mname d) :: r') w) as (r2 & e & c & v & P2 & HO & EQ); [unfold fval in *; rewrite LD; exact FV|].
        assert (G : r = r2 /\ mname c = mname d).
        { destruct (part_step _ _ _ _ _ _ K Cx1 P) as [(K' & ->)|(K' & i & ->)]; destruct (part_step _ _ _ _ _ _ K Cm P2) as [(K2 & ->)|(K2 & i2 & ->)]; try congruence; cbn [app] in EQ; injection EQ; intros; subst; auto. }
        destruct G as (-> & G). exists e, c, v. auto.
      - exfalso. destruct (Z1 (r ++ Child (mname d) :: r') j) as (Q & _); [unfold fsize in *; rewrite LD; exact H|]. destruct r; discriminate. }
    destruct X as (e & c & v & P2 & HO & EN). destruct (HP r e c v P2 HO) as (d' & dt & nd & Id' & N & PT & Kc & Kd & _). assert (d' = d) by (eapply (nodup_name tcs); eauto; congruence). subst d'.
    destruct (ne_leaf d y fs dt nd tnm tcs Ce Id E Kd) as (w & -> & _). destruct (F1 r e c v P2 HO) as (w' & FW & CP).
    assert (w' = w). { pose proof (proj1 (ne_fval m2 (c_tree st1) (tl ++ r) tnm tcs fs d w dt nd LP NDt Id Kd) E) as X. rewrite <- app_assoc, <- EN in X. congruence. }
    subst w'. exists e, c, v, w. repeat (split; auto). }
  assert (OLD : forall r e c v, part n r e -> holds scs e c v -> exists e' d w, part x1 r e' /\ holds tcs e' d w /\ mname d = mname c).
  { intros r e c v P HO. destruct (HP r e c v P HO) as (d & dt & nd & Id & N & PT & Kc & Kd & _). destruct (F1 r e c v P HO) as (w & FW & _). destruct (proj1 (PX r) (ex_intro _ e P)) as (e' & P'). destruct (part_conf _ _ _ _ _ _ K Cx1 P') as (Ce & fs & ->).
    pose proof (part_look m2 (c_tree st1) tl tnm k tcs x1 r _ K LK1 Cx1 P') as LP. exists (NStruct fs), d, w. split; auto. split; auto. split; auto. split; [rewrite N; apply HO|]. cbn [node_fields].
    apply (ne_fval m2 (c_tree st1) (tl ++ r) tnm tcs fs d w dt nd LP NDt Id Kd). rewrite N, <- app_assoc. exact FW. }
  assert (BK : forall r e' d w, part x1 r e' -> holds tcs e' d w -> exists e c v, part n r e /\ holds scs e c v /\ mname c = mname d /\ (point_child c d \/ time_child c d) /\ copied z c v w).
  { intros r e' d w P (Id & _ & E). destruct (NEW r e' d _ P Id E) as (e & c & v & w' & P2 & HO & EN & PT & EW & CP). injection EW as <-. exists e, c, v. auto. }
  exists st1, x1. split; [exact R1|]. split; auto. split; auto. split; auto. split; auto. split; auto.
  intros tl' cl' x' st' C2 V2 NO2 FP.
  assert (CB : contours tcs scs x1).
  { intros r e' P d ch Id E. destruct (NEW r e' d ch P Id E) as (e & c & v & w & P2 & (Ic & _) & EN & PT & _). right. exists c. split; auto. destruct PT as [PC|TC].
    - left. destruct PC as (dt & K1 & K2 & NS & N & N4 & N2 & N3). exists dt. rewrite N. repeat (split; auto).
    - right. destruct TC as (NT & N & dt & nd & K1 & K2). split; [congruence|]. split; auto. exists dt, nd. auto. }
  assert (TB : time_set tcs x1).
  { intros r e' d w dt P HO Kd. destruct (BK r e' d w P HO) as (e & c & v & P2 & HS & EN & PT & CP1 & _). destruct PT as [PC|TC].
    - exfalso. destruct PC as (dt' & _ & Kd' & _). congruence.
    - destruct TC as (NT & N & dt' & nd & K1 & K2). rewrite (CP1 NT). apply (TS r e c v dt P2 HS). congruence. }
  destruct (contours_older m1 str_of parse_float parse_cpx flt_of_int np_cast array_items close W1 SO1 casts tnm k tcs x1 tl tl' cl' st' snm scs x' K Wt Cx1 C2 V2 NO2 FP CB TB NCL) as (st2 & b & R2 & _ & FF & BS & F2 & O2 & N2 & _ & x2 & VX2 & PX2).
  { intros r e' d w P HO NT. destruct (BK r e' d w P HO) as (e & c & v & P2 & HS & EN & PT & _ & CP2 & CP3). rewrite <- EN in NT. destruct (Z.eq_dec z 0) as [->|NZ].
    - rewrite (CP3 eq_refl). apply (proj1 (ZZ eq_refl) r e c v); auto.
    - specialize (CP2 NT NZ). destruct (HP r e c v P2 HS) as (_ & dt & nd & _ & _ & _ & _ & _ & VO & HV & SH). destruct (SH NT) as (-> & NS). destruct (closed_up_ok v w CP2) as (X1 & _).
      pose proof (X1 dt 1 VO) as VW. inversion CP2 as [? ? ? ? R|? ? ? ? R|? ? ? ? R]; subst; destruct R as (j & r0 & -> & J & -> & LD & _); inversion VW; subst; destruct r0; try discriminate; simpl; lia. }
  assert (BZ : b = negb (z =? 0)%Z).
  { destruct (Z.eqb_spec z 0) as [->|NZ]; simpl.
    - destruct b; auto. exfalso. destruct (ZZ eq_refl) as (_ & r & e & c & v & a & b' & P & HS & NT & E & CF). destruct (OLD r e c v P HS) as (e' & d & w & P' & HO & EN). destruct (BK r e' d w P' HO) as (e2 & c' & v' & P2 & HS' & EN' & _ & _ & _ & CP3).
      destruct (SAME r e c v e2 c' v' P P2 HS HS' ltac:(congruence)) as (<- & <- & <-).
      rewrite (proj1 BS eq_refl r e' d w a b' P' HO) in CF; [discriminate|rewrite EN; auto|]. rewrite (CP3 eq_refl). auto.
    - apply BS. intros r e' d w a b' P HO NT E. destruct (BK r e' d w P HO) as (e & c & v & P2 & HS & EN & PT & _ & CP2 & _). rewrite <- EN in NT. specialize (CP2 NT NZ). destruct (HP r e c v P2 HS) as (_ & dt & nd & _ & _ & _ & _ & _ & VO & HV & SH). destruct (SH NT) as (-> & NS).
      assert (T : typed_array dt v /\ exists j, value_shape v = [j]).
      { inversion VO; subst; inversion CP2; subst; (split; [constructor; auto|]); simpl; destruct sh as [|? [|? ?]]; try congruence; try discriminate; eauto. }
      destruct T as (T & j & SHV). destruct (closed_ends dt v w a b' j CP2 T SHV E) as (-> & y' & E'). apply (ZN NZ r e c v b' y'); auto. }
  exists st2, x2. split; [exact R2|]. split; auto. split; [intros r; rewrite PX; apply PX2|]. split; [rewrite FF, BZ; destruct (z =? 0)%Z; reflexivity|]. split; [|split].
  - intros r e c v P HS. destruct (OLD r e c v P HS) as (e' & d & w & P' & HO & EN). destruct (F2 r e' d w P' HO) as (u & FU & U0 & U1 & U2). rewrite EN in FU. rewrite FU. f_equal.
    destruct (BK r e' d w P' HO) as (e2 & c' & v' & P2 & HS' & EN' & _ & CP1 & CP2 & CP3). destruct (SAME r e c v e2 c' v' P P2 HS HS' ltac:(congruence)) as (<- & <- & <-). rewrite EN in U0, U1.
    destruct (str_dec (mname c) (strs "time")) as [T|T]; [rewrite U0, CP1; auto|]. destruct (Z.eqb_spec z 0) as [->|NZ]; simpl in BZ.
    + rewrite U2 by auto. auto.
    + specialize (U1 T BZ). destruct (HP r e c v P HS) as (_ & dt & nd & _ & _ & _ & _ & _ & VO & _). rewrite (drop_last_spec v w) in U1; [congruence|eauto|left; auto].
  - intros q w NQ H. destruct (N2 q w NQ H) as (r & e' & d & w' & P & HO & ->). destruct (BK r e' d w' P HO) as (e & c & v & P2 & HS & EN & _). exists r, e, c, v. rewrite EN. auto.
  - exact O2.
Qed.

(** An array of structures that becomes a structure: with two or more elements it is left out, and nothing changes. *)
Theorem C25_longer_array : forall c e e' es sl tl st nm cs fs, vnode_at m1 (c_tree st) tl (Meta nm KStruct cs) (NStruct fs) ->
  rule m2 m1 src H_structure_aos c (NAoS (e :: e' :: es)) sl tl st = (st, Ok None).
Proof.
  intros c e e' es sl tl st nm cs fs V. apply look_vnode in V; auto. cbn [type_change]. unfold type_structure_aos, cview, view, lift, cbind, info_at. rewrite V. destruct st. reflexivity.
Qed.
End BackContours.
Print Assumptions C25_longer_array.
Print Assumptions C25_contours.
