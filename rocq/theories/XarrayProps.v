(** * C38: to_xarray gives the data of the paths that are asked for and, transitively, of their coordinates. *)
From Verif Require Import Base TreeModel TreeSpec TreeProofs TreeCheck TreeProps StoreProofs2 NcMetaModel NcMetaSpec NcMetaProofs NcMetaProofs2 NcMetaProofs4 NcFileModel NcFileSpec
  NcFileProofs NcFileProofs2 NcFileProofs4 NcFileProofs5 XarrayModel XarraySpec XarrayProofs XarrayProofs2 NcFileProps.
From Verif Require NcMetaProps NcFileProofs6.
From Coq Require Import Lia.

(** ** The search *)
(** for all graphs of coordinates, also circular ones *)
Theorem C38_terminates : forall r h paths, exists N, forall fuel, N <= fuel -> include_coordinate_paths r h fuel paths <> None.
Proof. intros r h paths. exists (length (start r h paths) + total (nc_coords r) []). intros fuel L. now apply search_ends. Qed.
Print Assumptions C38_terminates.
Theorem C38_closure : forall at_ fu m r h fuel paths l, wf_meta m -> nc_metadata at_ fu m = Ok r ->
  (forall p, In p paths -> exists c a n, in_ids m p c a n) ->
  include_coordinate_paths r h fuel paths = Some l ->
  NoDup l /\ forall p, In p l <-> needed m (get_coordinates r h) paths p.
Proof.
  intros at_ fu m r h fuel paths l W R V H. apply (search_exact at_ fu m r W R h fuel paths l); auto. intros p I. destruct (V p I) as (c & a & n & B). split; [eapply in_ids_nonnil; eauto|]. exists c. eapply meta_at_in; eauto.
Qed.
Print Assumptions C38_closure.

(** ** The nodes that are collected *)
Section Data.
Variable at_ : path -> nattr.
Variable fu : nat.
Variable m : meta.
Variable r : ncmeta.
Variable units : path -> str.
Hypothesis W : wf_meta m.
Hypothesis R : nc_metadata at_ fu m = Ok r.
Hypothesis KR : mkind m = KStruct.
Variable n : node.
Hypothesis C : conf m n.

Lemma collect_spec : forall l its, collect m n l = Ok its -> forall p ix x, In (p, ix, x) its <-> In p l /\ p <> [] /\ ent m n p ix x.
Proof.
  induction l as [|q l IH]; intros its H p ix x; cbn [collect] in H.
  - inversion H. split; [intros []|intros ([] & _)].
  - destruct q as [|q0 q]; [discriminate|]. destruct (meta_at m (q0 :: q)) as [c|]; [|discriminate]. destruct (collect m n l) as [y|] eqn:E; [|discriminate]. cbn [rbind] in H. apply NcFileProofs7.ok_inj in H. subst its.
    rewrite in_app_iff, (IH y eq_refl p ix x), in_map_iff. split.
    + intros [([ix' x'] & E1 & J)|(I & J)]; [|split; auto; now right]. cbn [fst snd] in E1. inversion E1; subst p ix' x'. apply path_iter_ent in J; auto. destruct J as (ix' & -> & J). split; [now left|]. split; [discriminate|exact J].
    + intros ([<-|I] & N & J); [|right; auto]. left. exists (ix, x). split; auto. apply path_iter_ent; auto. exists ix. auto.
Qed.
Lemma collect_ok : forall l, (forall p, In p l -> exists c a k, in_ids m p c a k) -> exists its, collect m n l = Ok its.
Proof.
  induction l as [|p l IH]; intros H; cbn [collect]; [eauto|]. destruct (H p (or_introl eq_refl)) as (c & a & k & B). pose proof (in_ids_nonnil m p c a k B) as NP. destruct p as [|q0 q]; [congruence|].
  rewrite (meta_at_in m W _ c a k B). destruct IH as (its & ->); [intros; apply H; now right|]. cbn [rbind]. eauto.
Qed.

Variable fuel : nat.
Variable paths : list path.
Let h := homogeneous_of n.
Let cs := get_coordinates r h.
Lemma search_nil : forall l, include_coordinate_paths r h fuel paths = Some l -> (l = [] <-> paths = []).
Proof.
  intros l H. unfold include_coordinate_paths in H. split.
  - intros ->. destruct paths as [|p t] eqn:E; auto. exfalso.
    destruct (search_spec r h (fun _ => True) fuel (start r h (p :: t)) [] [] H) as (_ & _ & R3 & _); [auto|auto|constructor|intros ? ? []|]. apply (R3 p). left. unfold start. now left.
  - intros ->. cbn in H. destruct fuel; cbn in H; congruence.
Qed.
Lemma items_spec : forall l its, (forall p, In p paths -> exists c a k, in_ids m p c a k) -> include_coordinate_paths r h fuel paths = Some l -> collected m n l = Ok its ->
  forall p ix x, In (p, ix, x) its <-> included m cs paths p /\ p <> [] /\ ent m n p ix x.
Proof.
  intros l its V S CO p ix x. pose proof (search_nil l S) as NI. destruct (C38_closure at_ fu m r h fuel paths l W R V S) as (_ & Q). unfold collected in CO. destruct l as [|q l].
  - inversion CO; subst its. rewrite (proj1 NI eq_refl). rewrite filled_iter_ent by exact C. unfold included. split.
    + intros (t & ix' & NE & -> & -> & E). split; auto.
    + intros (_ & NE & E). exists p, ix. auto.
  - rewrite (collect_spec _ _ CO). rewrite (Q p). unfold included, cs. split; [tauto|]. intros ([E|N] & X); auto. apply NI in E. discriminate.
Qed.
Lemma valid_spec : forallb (valid_path m) paths = true <-> forall p, In p paths -> exists c a k, in_ids m p c a k.
Proof.
  rewrite forallb_forall. split; intros H p I; specialize (H p I).
  - unfold valid_path in H. destruct p as [|q0 q]; [discriminate|]. destruct (meta_at m (q0 :: q)) as [c|] eqn:M; [|discriminate]. exists c. apply (meta_ids m W (q0 :: q) c ltac:(discriminate) M).
  - destruct H as (c & a & k & B). unfold valid_path. pose proof (in_ids_nonnil m p c a k B). destruct p; [congruence|]. now rewrite (meta_at_in m W _ c a k B).
Qed.

(** ** Contents *)
Record right_dataset (d : dataset) : Prop := {
  (* every included quantity with data has one variable, nothing else has *)
  rd_once : NoDup (map x_name (ds_vars d ++ ds_coords d));
  rd_names : forall nm, In nm (map x_name (ds_vars d ++ ds_coords d)) <-> exists p, nm = dotted p /\ included m cs paths p /\ filled m n p;
  (* with the data *)
  rd_data : forall v, In v (ds_vars d ++ ds_coords d) -> exists p c a k dt nd, x_name v = dotted p /\ in_ids m p c a k /\ mkind c = KLeaf dt nd /\
            x_dims v = get_dimensions r h p /\ has_data m n p dt (x_shape v) (x_data v) /\ x_units v = (match units p with [] => None | u => Some u end) /\
            forall nm, In nm (x_coords v) <-> In nm (cs p) /\ In nm (map x_name (ds_vars d ++ ds_coords d));
  (* coordinates are the variables that some variable has as coordinate *)
  rd_coords : forall v, In v (ds_coords d) <-> In v (ds_vars d ++ ds_coords d) /\ exists w, In w (ds_vars d ++ ds_coords d) /\ In (x_name v) (x_coords w);
  (* every dimension has one size, the largest size of the included data in this dimension *)
  rd_sizes : exists size : str -> nat, (forall v, In v (ds_vars d ++ ds_coords d) -> x_shape v = map size (x_dims v)) /\
             forall v x, In v (ds_vars d ++ ds_coords d) -> In x (x_dims v) ->
               exists l c a k i, included m cs paths (loc_names l) /\ in_ids m (loc_names l) c a k /\ nth_error (get_dimensions r h (loc_names l)) (k + i) = Some x /\
                 ((exists w, leaf_at m n l w /\ nth_error (value_shape w) i = Some (size x)) \/ (aos_at m n l (size x) /\ i = 0)) }.

Theorem contents : names_ok m -> forall d, to_xarray m r units fuel n paths = Ok d -> right_dataset d.
Proof.
  intros NO d H. unfold to_xarray in H. destruct (forallb (valid_path m) paths) eqn:V; [|discriminate]. rewrite valid_spec in V. fold h in H.
  destruct (include_coordinate_paths r h fuel paths) as [l|] eqn:S; [|discriminate]. destruct (collected m n l) as [its|] eqn:CO; [|discriminate]. cbn [rbind] in H.
  destruct (make_dataset m r units h its) as [d'|] eqn:MD; [|discriminate]. cbn [lift_exn] in H. assert (E : d' = d) by congruence. subst d'. clear H.
  pose proof (items_spec l its V S CO) as IT. unfold make_dataset in MD. destruct (all_ok _ (filled_paths r its)) as [[]|]; [|discriminate]. cbn [rbind] in MD.
  destruct (make_vars m r units h its (filled_paths r its)) as [vs|] eqn:MV; [|discriminate]. cbn [rbind] in MD. unfold split_coords in MD.
  destruct (all_ok (fun c => if in_dec str_dec c (map x_name vs) then Ok tt else Err FKey) (flat_map x_coords vs)) as [[]|] eqn:AO; [|discriminate]. cbn [rbind] in MD. apply NcFileProofs7.ok_inj in MD.
  set (names := flat_map x_coords vs) in *.
  pose proof (make_vars_spec m r KR h its units (filled_paths r its) vs MV) as VS.
  assert (FI : forall p, In p (filled_paths r its) -> exists c a lv, in_ids m p c a lv) by (apply (filled_in at_ fu m r W R KR n C (included m cs paths) its IT)).
  assert (ND : NoDup (map x_name vs)).
  { apply (make_vars_nodup m r W KR h its units NO (filled_paths r its) vs FI); auto. eapply filled_nodup; eauto. }
  assert (ALL : forall v, In v (ds_vars d ++ ds_coords d) <-> In v vs).
  { intros v. subst d. cbn [ds_vars ds_coords]. rewrite in_app_iff, !filter_In. destruct (has_name names v) eqn:HN; cbn [negb]; intuition discriminate. }
  assert (ALLN : forall nm, In nm (map x_name (ds_vars d ++ ds_coords d)) <-> In nm (map x_name vs)).
  { intros nm. rewrite !in_map_iff. split; intros (v & E & I); exists v; split; auto; now apply ALL. }
  assert (FV : forall p, In (dotted p) (map x_name vs) /\ (exists c a lv, in_ids m p c a lv) <-> included m cs paths p /\ filled m n p) by (intros p; apply (filled_var at_ fu m r W R KR n C h (included m cs paths) its IT units NO p vs MV)).
  assert (NM : forall nm, In nm (map x_name vs) <-> exists p, nm = dotted p /\ included m cs paths p /\ filled m n p).
  { intros nm. split.
    - intros I. apply in_map_iff in I. destruct I as (v & <- & I). apply VS in I. destruct I as (p & I & V'). pose proof (is_var_name _ _ _ _ _ _ _ V') as E. rewrite E. exists p. split; auto. apply FV. split; [|auto].
      rewrite <- E. apply List.in_map. apply VS. eauto.
    - intros (p & -> & I). apply FV in I. apply I. }
  constructor.
  - subst d. cbn [ds_vars ds_coords]. clear - ND. rewrite map_app. generalize names. intros nms.
    assert (X : forall f : xvar -> bool, NoDup (map x_name (filter f vs))).
    { intros f. clear nms. induction vs as [|v t IH]; cbn [filter map] in *; [constructor|]. inversion ND; subst. destruct (f v); auto. cbn [map]. constructor; auto. intros I. apply in_map_iff in I. destruct I as (w & E & I). apply filter_In in I. apply H1. rewrite <- E. apply List.in_map. apply I. }
    assert (Y : forall x, In x (map x_name (filter (fun v => negb (has_name nms v)) vs)) -> In x (map x_name (filter (has_name nms) vs)) -> False).
    { intros x I J. apply in_map_iff in I, J. destruct I as (v & <- & I), J as (w & E & J). apply filter_In in I, J. destruct I as [_ I], J as [_ J]. unfold has_name in *. rewrite E in J. destruct (in_dec str_dec (x_name v) nms); discriminate. }
    revert Y. pose proof (X (has_name nms)) as X2. specialize (X (fun v => negb (has_name nms v))). revert X X2. generalize (map x_name (filter (fun v => negb (has_name nms v)) vs)) (map x_name (filter (has_name nms) vs)). clear.
    induction l as [|x l IH]; intros l2 A B D; cbn [app]; auto. inversion A; subst. constructor.
    + intros I. apply in_app_or in I. destruct I as [I|I]; auto. apply (D x); auto. now left.
    + apply IH; auto. intros y I J. apply (D y); auto. now right.
  - intros nm. rewrite ALLN. apply NM.
  - intros v I. apply ALL in I. apply VS in I. destruct I as (p & Ip & c & dt & nd & sp & shape & M & K & SP & SZ & ->). destruct (FI p Ip) as (c' & a & k & B). rewrite (meta_at_in m W p c' a k B) in M. inversion M; subst c'.
    exists p, c, a, k, dt, nd. cbn [the_var x_name x_dims x_shape x_data x_coords x_units]. split; auto. split; auto. split; auto. split; auto.
    assert (IP : included m cs paths p).
    { apply (filled_path at_ fu m r W R KR n C (included m cs paths) its IT) in Ip. destruct Ip as (ix & x & J). apply IT in J. tauto. }
    split; [apply (var_data at_ fu m r W R KR n C h (included m cs paths) its IT p c a k dt nd sp shape B K IP SP SZ)|]. split; auto.
    intros nm. rewrite ALLN. unfold filter_coordinates. rewrite filter_In. fold h. fold cs. split.
    + intros [I1 I2]. split; auto. pose proof (all_ok_inv _ _ _ AO nm) as Q. cbn beta in Q. destruct (in_dec str_dec nm (map x_name vs)) as [|N]; auto. exfalso. discriminate Q.
      unfold names. apply in_flat_map. exists (the_var m r h its units p dt shape). split; [apply VS; exists p; split; auto; exists c, dt, nd, sp, shape; rewrite (meta_at_in m W p c a k B); auto 6|]. cbn [the_var x_coords]. unfold filter_coordinates. apply filter_In. auto.
    + intros [I1 I2]. split; auto. destruct (in_dec str_dec nm (filled_variables r its)) as [|N]; auto. exfalso. apply N. apply in_map_iff in I2. destruct I2 as (w & <- & I2). apply VS in I2. destruct I2 as (q & Iq & V'). rewrite (is_var_name _ _ _ _ _ _ _ V').
      unfold filled_variables. apply List.in_map. exact Iq.
  - intros v. rewrite ALL. subst d. cbn [ds_coords]. rewrite filter_In. split.
    + intros [I1 I2]. split; auto. unfold has_name in I2. destruct (in_dec str_dec (x_name v) names) as [J|]; [|discriminate]. apply in_flat_map in J. destruct J as (w & J1 & J2). exists w. split; auto. now apply ALL.
    + intros (I1 & w & J1 & J2). split; auto. unfold has_name. destruct (in_dec str_dec (x_name v) names) as [|N]; auto. exfalso. apply N. apply in_flat_map. exists w. split; auto. now apply ALL in J1.
  - exists (fun x => match sget x (dim_sizes m r h its) with Some k => k | None => 0 end). split.
    + intros v I. apply ALL in I. apply VS in I. destruct I as (p & Ip & c & dt & nd & sp & shape & M & K & SP & SZ & ->). cbn [the_var x_shape x_dims]. clear - SZ. revert shape SZ. induction (dims_of r h p) as [|x t IH]; intros shape SZ; cbn [sizes map] in *; [congruence|].
      destruct (sget x (dim_sizes m r h its)) as [k|]; [|discriminate]. destruct (sizes FKey (dim_sizes m r h its) t) as [s|]; [|discriminate]. cbn [rbind] in SZ. inversion SZ. f_equal. now apply IH.
    + intros v x I J. apply ALL in I. apply VS in I. destruct I as (p & Ip & c & dt & nd & sp & shape & M & K & SP & SZ & ->). cbn [the_var x_dims] in J.
      assert (G : exists k, sget x (dim_sizes m r h its) = Some k).
      { clear - SZ J. revert shape SZ. induction (dims_of r h p) as [|y t IH]; intros shape SZ; [destruct J|]. cbn [sizes] in SZ. destruct (sget y (dim_sizes m r h its)) as [k|] eqn:G; [|discriminate]. destruct J as [->|J]; [eauto|].
        destruct (sizes FKey (dim_sizes m r h its) t) as [s|]; [|discriminate]. eauto. }
      destruct G as (s & G). rewrite G. destruct (size_item at_ fu m r W R KR n C h (included m cs paths) its IT units x s G) as (q & ix & y & cq & a & k & i & Iq & B & N1 & N2).
      destruct y as [|j|w]; cbn [content_shape] in N2; [destruct i; discriminate| |].
      * assert (Q : exists l, aos_at m n l j /\ q = loc_names l).
        { assert (Iq' := Iq). apply IT in Iq'. destruct Iq' as (_ & NE & E). assert (J' : In (q, ix, content_item (ISize j)) (filled_iter m n [] [])) by (apply filled_iter_ent; auto; exists q, ix; auto).
          apply (filled_iter_spec m W n [] [] q ix (ISize j) C) in J'; [|congruence]. destruct J' as (l' & _ & -> & _ & HH). exists l'. split; auto. }
        destruct Q as (l' & A' & ->). destruct i as [|i]; [|destruct i; discriminate]. cbn in N2. inversion N2; subst s. exists l', cq, a, k, 0. apply IT in Iq. split; [tauto|]. split; auto.
      * destruct (item_leaf m W KR n C (included m cs paths) its IT q ix w Iq) as (l' & L & -> & _). exists l', cq, a, k, i. apply IT in Iq. split; [tauto|]. split; auto. split; auto. left. eauto.
Qed.
End Data.

(** [right_dataset] with its parameters: dictionary, names of dimensions and coordinates, units, tree, paths *)
Theorem C38_contents : forall at_ fu m r units fuel n paths d,
  wf_meta m -> mkind m = KStruct -> names_ok m -> nc_metadata at_ fu m = Ok r -> conf m n ->
  to_xarray m r units fuel n paths = Ok d -> right_dataset m r units n paths d.
Proof. intros at_ fu m r units fuel n paths d W KR NO R C H. eapply contents; eauto. Qed.
Print Assumptions C38_contents.

(** ** Success *)
Lemma inside_trans : forall a b c, inside a b -> inside b c -> inside a c.
Proof. intros a b c (x & s & ->) (y & t & ->). exists x, (s ++ y :: t). now rewrite <- app_assoc. Qed.
Lemma parent_inside : forall m names parent lv p c a k, below m names parent lv p c a k -> (a = parent \/ exists q, a = Some q /\ inside q p) /\ exists t, p = names ++ t /\ t <> [].
Proof.
  induction 1 as [nm k cs names parent lv c I|nm k cs names parent lv c p c' a n I K B [IH1 (t & -> & NT)]|nm k cs names parent lv c p c' a n I K B [IH1 (t & -> & NT)]].
  - split; auto. exists [mname c]. split; auto. discriminate.
  - split; auto. exists (mname c :: t). split; [now rewrite <- app_assoc|discriminate].
  - split.
    + right. destruct IH1 as [-> |X]; auto. eexists. split; [reflexivity|]. destruct t as [|y t]; [congruence|]. exists y, t. reflexivity.
    + exists (mname c :: t). split; [now rewrite <- app_assoc|discriminate].
Qed.
Definition int64 (m : meta) (n : node) : Prop := forall l v z, leaf_at m n l v -> In z (ints v) -> (-9223372036854775808 <= z < 9223372036854775808)%Z.
Theorem C38_succeeds_partial : forall at_ fu m r units n paths,
  wf_meta m -> mkind m = KStruct -> names_ok m -> nc_metadata at_ fu m = Ok r -> conf m n -> int64 m n ->
  local_coordinates m (get_coordinates r (homogeneous_of n)) ->
  (forall p, In p paths -> exists c a k, in_ids m p c a k) ->
  exists N, forall fuel, N <= fuel -> exists d, to_xarray m r units fuel n paths = Ok d.
Proof.
  intros at_ fu m r units n paths W KR NO R C I64 LC V. destruct (C38_terminates r (homogeneous_of n) paths) as (N & T). exists N. intros fuel L. unfold to_xarray.
  rewrite (proj2 (valid_spec m W paths) V). specialize (T fuel L). destruct (include_coordinate_paths r (homogeneous_of n) fuel paths) as [l|] eqn:S; [|congruence].
  destruct (C38_closure at_ fu m r (homogeneous_of n) fuel paths l W R V S) as (_ & Q).
  assert (Uniq : forall q c a k q', in_ids m q c a k -> Forall (fun s => ~ In "."%char s) q' -> q' <> [] -> dotted q' = dotted q -> q' = q).
  { intros q c a k q' B F NE E. destruct (path_nodot m W NO q c a k B) as [N1 N2]. unfold dotted in E. rewrite <- (split_join "."%char q' NE), <- (split_join "."%char q N1); [now rewrite E|now apply Forall_forall|now apply Forall_forall]. }
  assert (ND : forall p, needed m (get_coordinates r (homogeneous_of n)) paths p -> exists c a k, in_ids m p c a k).
  { intros p H. destruct H as [p I|p q c a k I J B K|p q H I F NE]; auto; [eauto|]. destruct (LC p _ I) as (q' & c & a & k & E & B & _). rewrite (Uniq q' c a k q B F NE E). eauto. }
  assert (CL : forall p, needed m (get_coordinates r (homogeneous_of n)) paths p -> forall s d b k, in_ids m s d b k -> mkind d = KAoS -> inside s p -> needed m (get_coordinates r (homogeneous_of n)) paths s).
  { intros p H. induction H as [p I|p q c a k I J B K|p q H IH I F NE]; intros s d b j Bs Ks IS.
    - eapply ne_aos; eauto.
    - apply (ne_aos m _ paths p s d b j); auto. eapply inside_trans; eauto.
    - destruct (LC p _ I) as (q' & c & a & k & E & B & _ & X). pose proof (Uniq q' c a k q B F NE E). subst q'. destruct (X s d b j Bs Ks IS) as [-> |Y]; auto. eapply IH; eauto. }
  assert (CO : exists its, collected m n l = Ok its).
  { unfold collected. destruct l as [|p l]; [eauto|]. apply (collect_ok m W n). intros q I. apply ND. now apply Q. }
  destruct CO as (its & CO). rewrite CO. cbn [rbind]. pose proof (items_spec at_ fu m r units W R n C fuel paths l its V S CO) as IT.
  destruct (dataset_ok at_ fu m r W R KR n C (homogeneous_of n) (included m (get_coordinates r (homogeneous_of n)) paths) its IT units NO) as (d & E).
  - intros p c q lv B [I|I]; [now left|right]. destruct (NcMetaProps.below_parent _ _ _ _ _ _ _ _ B) as [[? _]|(q' & e & b & j & E1 & E2 & E3 & E4)]; [discriminate|]. inversion E1; subst q'.
    apply (CL p I q e b j); auto. destruct (parent_inside _ _ _ _ _ _ _ _ B) as [[?|(q' & E & X)] _]; [discriminate|]. inversion E; subst q'. exact X.
  - exact I64.
  - intros p nm I. destruct (LC p nm I) as (q & c & a & k & E & B & (dt & nd & K) & _). exists q, c, a, k, dt, nd. auto.
  - rewrite E. cbn [lift_exn]. eauto.
Qed.
Print Assumptions C38_succeeds_partial.

(** ** Examples *)
Definition is_prefixb (a b : path) : bool := (length a <? length b) && prefixb a b.
Lemma prefixb_app : forall a b, prefixb a b = true <-> exists t, b = a ++ t.
Proof.
  induction a as [|x a IH]; intros b; cbn [prefixb]; [split; [intros _; exists b; auto|auto]|]. destruct b as [|y b]; [split; [discriminate|intros (t & E); discriminate]|].
  rewrite Bool.andb_true_iff, IH, str_eqb_eq. split; [intros [-> (t & ->)]; exists t; auto|intros (t & E); inversion E; subst; eauto].
Qed.
Lemma is_prefixb_spec : forall a b, is_prefixb a b = true <-> inside a b.
Proof.
  intros a b. unfold is_prefixb. rewrite Bool.andb_true_iff, prefixb_app, Nat.ltb_lt. split.
  - intros [L (t & ->)]. destruct t as [|x t]; [rewrite app_nil_r in L; lia|]. exists x, t. auto.
  - intros (x & t & ->). split; [rewrite app_length; cbn; lia|eauto].
Qed.
Definition local_b (m : meta) (r : ncmeta) (h : bool) : bool :=
  let vs := visits m [] None 0 in
  forallb (fun e => forallb (fun nm => existsb (fun v =>
    str_eqb nm (dotted (vp v)) && is_dataf (vc v) &&
    forallb (fun w => negb (is_aos (vc w)) || negb (is_prefixb (vp w) (vp v)) || (if path_dec (vp w) (fst e) then true else false) || is_prefixb (vp w) (fst e)) vs) vs)
    (get_coordinates r h (fst e))) (nc_coords r).
Lemma local_b_sound : forall m r h, local_b m r h = true -> local_coordinates m (get_coordinates r h).
Proof.
  intros m r h H p nm I. unfold local_b in H. rewrite forallb_forall in H.
  assert (J : exists l, In (p, l) (nc_coords r)).
  { unfold get_coordinates in I. destruct (pget p (nc_coords r)) as [l|] eqn:G; [|destruct I]. exists l. unfold pget in G. now apply dget_In in G. }
  destruct J as (l & J). apply H in J. cbn [fst] in J. rewrite forallb_forall in J. apply J in I. apply existsb_exists in I. destruct I as ([[[q c] a] k] & V & X). cbn [vp vc fst snd] in X.
  apply Bool.andb_true_iff in X. destruct X as [X Y]. apply Bool.andb_true_iff in X. destruct X as [X Z]. apply str_eqb_eq in X. exists q, c, a, k. split; auto. split; [apply visits_In in V; exact V|].
  split; [unfold is_dataf in Z; destruct (mkind c) as [| |dt nd]; try discriminate; eauto|]. intros s d b j B K IS. rewrite forallb_forall in Y.
  assert (V' : In (s, d, b, j) (visits m [] None 0)) by (apply visits_In; exact B). apply Y in V'. cbn [vp vc fst snd] in V'. unfold is_aos in V'. rewrite K in V'. cbn [negb orb] in V'. rewrite (proj2 (is_prefixb_spec s q) IS) in V'. cbn [negb orb] in V'.
  apply Bool.orb_true_iff in V'. destruct V' as [V'|V']; [left; destruct (path_dec s p); [auto|discriminate]|right; now apply is_prefixb_spec].
Qed.
Lemma int32_int64 : forall m n, int32 m n -> int64 m n.
Proof. intros m n H l v z L I. specialize (H l v z L I). lia. Qed.

Definition x_names (d : result xexn dataset) : option (list str * list str) := match d with Ok d => Some (map x_name (ds_vars d), map x_name (ds_coords d)) | Err _ => None end.
(** the coordinates of the densities of the ions and the temperature: names of the ions, grid and time *)
Example C38_example : forall h, (h = 0 \/ h = 1)%Z ->
  (wf_meta ex_m /\ mkind ex_m = KStruct /\ names_ok ex_m /\ nc_metadata NcMetaProps.ex_at 100 ex_m = Ok ex_r /\ conf ex_m (ex_tree h) /\ int64 ex_m (ex_tree h) /\
   local_coordinates ex_m (get_coordinates ex_r (homogeneous_of (ex_tree h)))) /\
  x_names (to_xarray ex_m ex_r no_units 100 (ex_tree h) [pth ["profiles_1d"; "ion"; "n"]%string; pth ["profiles_1d"; "t"]%string]) =
    Some (map strs ["profiles_1d.t"; "profiles_1d.ion.n"]%string, map strs [(if (h =? 1)%Z then "time" else "profiles_1d.time"); "profiles_1d.grid.rho"; "profiles_1d.ion.label"]%string).
Proof.
  intros h H. destruct ex_m_ok as (A1 & A2 & A3 & _ & _ & A4). assert (H' : (h = 0 \/ h = 1 \/ h = 2)%Z) by tauto. destruct (ex_tree_ok h H') as (B1 & _ & B2).
  split; [split; [exact A1|split; [exact A2|split; [exact A3|split; [exact A4|split; [exact B1|split; [now apply int32_int64|]]]]]]|].
  - destruct H as [-> | ->]; apply local_b_sound; vm_compute; reflexivity.
  - destruct H as [-> | ->]; vm_compute; reflexivity.
Qed.

(** ** A coordinate inside an array of structures that is not around the quantity
    The array of structures is not included, to_xarray stops with KeyError (ids_tensorizer.py:62-66 adds arrays of structures around the given paths only). *)
Definition far_m : meta :=
  Meta (strs "ids") KStruct
    [ Meta (strs "ids_properties") KStruct [leaf "homogeneous_time" INT 0];
      Meta (strs "grid") KAoS [leaf "x" FLT 1];
      leaf "values" FLT 1 ].
Definition far_at (p : path) : nattr :=
  if path_dec p (pth ["values"]%string) then {| n_refs := fun _ => [pth ["grid"; "x"]%string]; n_same := fun _ => []; n_alts := [] |} else NcMetaProps.no_refs.
Definition far_r : ncmeta := match nc_metadata far_at 100 far_m with Ok r => r | Err _ => {| nc_paths := []; nc_dims := []; nc_coords := []; nc_time := []; nc_aos := [] |} end.
Definition far_tree : node :=
  st [("ids_properties"%string, st [("homogeneous_time"%string, NLeaf (Some (VInt 0)))]); ("grid"%string, NAoS [st [("x"%string, vec [1; 2]%Z)]]); ("values"%string, vec [3; 4]%Z)].
Theorem C38_foreign_coordinate_refuted : exists at_ fu m r n p,
  (wf_meta m /\ mkind m = KStruct /\ names_ok m /\ nc_metadata at_ fu m = Ok r /\ conf m n /\ int64 m n /\ exists c a k, in_ids m p c a k) /\
  (exists d, to_xarray m r no_units 100 n [] = Ok d) /\
  forall fuel, 100 <= fuel -> to_xarray m r no_units fuel n [p] = Err (XExn FKey).
Proof.
  assert (C : conf far_m far_tree) by by_check. assert (NL : ~ is_leaf far_m) by apply not_leaf_ids.
  exists far_at, 100, far_m, far_r, far_tree, (pth ["values"]%string). split; [|split].
  - split; [by_check|]. split; [reflexivity|]. split; [apply (dict_b_sound far_m); vm_compute; reflexivity|]. split; [vm_compute; reflexivity|]. split; [exact C|]. split; [apply int32_int64; apply data_b_sound; auto|].
    exists (leaf "values" FLT 1), None, 0. change (in_ids far_m ([] ++ [mname (leaf "values" FLT 1)]) (leaf "values" FLT 1) None 0). constructor. vm_compute. tauto.
  - destruct (to_xarray far_m far_r no_units 100 far_tree []) as [d|] eqn:E; [eauto|]. exfalso. assert (X : match to_xarray far_m far_r no_units 100 far_tree [] with Ok _ => true | Err _ => false end = true) by (vm_compute; reflexivity). rewrite E in X. discriminate.
  - intros fuel L. do 3 (destruct fuel as [|fuel]; [lia|]). destruct fuel; vm_compute; reflexivity.
Qed.
Print Assumptions C38_foreign_coordinate_refuted.
