(** Dictionaries; the tree of metadata; the state after parsing. *)
From Verif Require Import Base TreeModel TreeSpec TreeProofs NcMetaModel NcMetaSpec.

(** ** dictionaries *)
Lemma nodup_app : forall A (a b : list A), NoDup a -> NoDup b -> (forall x, In x a -> ~ In x b) -> NoDup (a ++ b).
Proof.
  induction a as [|x a IH]; cbn; intros b Ha Hb D; auto. inversion Ha; subst. constructor; [|apply IH; auto].
  intros I. apply in_app_or in I. destruct I as [I|I]; [auto|]. apply (D x); auto.
Qed.
Section Dict.
Variables K V : Type.
Variable dec : forall a b : K, {a = b} + {a <> b}.
Lemma dget_dset : forall (l : list (K * V)) k v k', dget dec k' (dset dec k v l) = if dec k' k then Some v else dget dec k' l.
Proof.
  induction l as [|[k0 w] t IH]; intros k v k'; cbn; [destruct (dec k' k); auto|].
  destruct (dec k k0) as [->|N]; cbn.
  - destruct (dec k' k0); auto.
  - destruct (dec k' k0) as [->|N']; [destruct (dec k0 k); [congruence|auto]|]. apply IH.
Qed.
Lemma dget_keys : forall (l : list (K * V)) k, dget dec k l <> None <-> In k (map fst l).
Proof.
  induction l as [|[k0 w] t IH]; intros k; cbn; [tauto|]. destruct (dec k k0) as [->|N]; [split; [auto|discriminate]|].
  rewrite IH. split; [auto|]. intros [->|H]; [congruence|auto].
Qed.
Lemma dget_In : forall (l : list (K * V)) k v, dget dec k l = Some v -> In (k, v) l.
Proof.
  induction l as [|[k0 w] t IH]; intros k v; cbn; [discriminate|]. destruct (dec k k0) as [->|N]; [|auto]. intros H; inversion H; auto.
Qed.
Lemma In_dget : forall (l : list (K * V)) k v, NoDup (map fst l) -> In (k, v) l -> dget dec k l = Some v.
Proof.
  induction l as [|[k0 w] t IH]; intros k v ND I; [destruct I|]. cbn in *. inversion ND as [|? ? NI ND']; subst. destruct I as [E|I].
  - inversion E; subst. destruct (dec k k); congruence.
  - destruct (dec k k0) as [->|N]; [exfalso; apply NI; apply in_map_iff; exists (k0, v); auto|auto].
Qed.
Lemma dset_keys : forall (l : list (K * V)) k v, map fst (dset dec k v l) = if in_dec dec k (map fst l) then map fst l else map fst l ++ [k].
Proof.
  induction l as [|[k0 w] t IH]; intros k v; [reflexivity|]. cbn [dset map fst]. destruct (dec k k0) as [->|N].
  - cbn [map fst]. destruct (in_dec dec k0 (k0 :: map fst t)) as [|C]; [reflexivity|exfalso; apply C; now left].
  - cbn [map fst]. rewrite IH. destruct (in_dec dec k (map fst t)), (in_dec dec k (k0 :: map fst t)) as [J|J]; auto.
    + exfalso; apply J; now right.
    + exfalso; destruct J; [congruence|auto].
Qed.
Lemma dset_nodup : forall (l : list (K * V)) k v, NoDup (map fst l) -> NoDup (map fst (dset dec k v l)).
Proof.
  intros l k v H. rewrite dset_keys. destruct (in_dec dec k (map fst l)); auto. apply nodup_app; auto; [constructor; auto; constructor|].
  intros x I [->|[]]. auto.
Qed.
End Dict.

Lemma pget_pset : forall V (l : list (path * V)) k v k', pget k' (pset k v l) = if path_dec k' k then Some v else pget k' l.
Proof. intros. apply dget_dset. Qed.
Lemma pget_same : forall V (l : list (path * V)) k v, pget k (pset k v l) = Some v.
Proof. intros. rewrite pget_pset. destruct (path_dec k k); congruence. Qed.
Lemma pget_other : forall V (l : list (path * V)) k v k', k' <> k -> pget k' (pset k v l) = pget k' l.
Proof. intros. rewrite pget_pset. destruct (path_dec k' k); congruence. Qed.
Lemma aget_axset : forall V (l : list (axis * V)) k v k', aget k' (axset k v l) = if axis_dec k' k then Some v else aget k' l.
Proof. intros. apply dget_dset. Qed.
Lemma aget_same : forall V (l : list (axis * V)) k v, aget k (axset k v l) = Some v.
Proof. intros. rewrite aget_axset. destruct (axis_dec k k); congruence. Qed.
Lemma aget_other : forall V (l : list (axis * V)) k v k', k' <> k -> aget k' (axset k v l) = aget k' l.
Proof. intros. rewrite aget_axset. destruct (axis_dec k' k); congruence. Qed.
Lemma sget_sset : forall V (l : list (str * V)) k v k', sget k' (sset k v l) = if str_dec k' k then Some v else sget k' l.
Proof. intros. apply dget_dset. Qed.
Lemma sget_keeps : forall V (l : list (str * V)) k v k', sget k' l <> None -> sget k' (sset k v l) <> None.
Proof. intros. rewrite sget_sset. destruct (str_dec k' k); congruence. Qed.

(** ** paths *)
Lemma prefixb_spec : forall a b, prefixb a b = true <-> exists r, b = a ++ r.
Proof.
  induction a as [|x a IH]; intros b; cbn; [split; eauto|]. destruct b as [|y b]; [split; [discriminate|intros (r & E); discriminate]|].
  rewrite Bool.andb_true_iff, str_eqb_eq, IH. split; [intros (-> & r & ->); eauto|]. intros (r & E). inversion E; subst. eauto.
Qed.
Lemma is_ancestor_spec : forall a b, is_ancestor a b = true <-> inside a b.
Proof.
  intros a b. unfold is_ancestor, inside. rewrite Bool.andb_true_iff, Nat.ltb_lt, prefixb_spec. split.
  - intros (L & r & ->). destruct r as [|x r]; [rewrite app_nil_r in L; lia|eauto].
  - intros (x & r & ->). split; [rewrite app_length; cbn; lia|eauto].
Qed.
Lemma strip_suffix_spec : forall suf s b, strip_suffix suf s = Some b <-> s = b ++ suf.
Proof.
  intros suf s b. unfold strip_suffix. cbv zeta. split.
  - destruct (length suf <=? length s) eqn:L; [|discriminate]. cbn [andb]. destruct (str_eqb (skipn (length s - length suf) s) suf) eqn:E; [|discriminate].
    apply str_eqb_eq in E. intros H. inversion H; subst b. rewrite <- E at 2. symmetry. apply firstn_skipn.
  - intros ->. rewrite app_length. replace (length b + length suf - length suf) with (length b) by lia.
    rewrite skipn_app, skipn_all, Nat.sub_diag. cbn [skipn app]. rewrite str_eqb_refl.
    replace (length suf <=? length b + length suf) with true by (symmetry; apply Nat.leb_le; lia). cbn [andb].
    rewrite firstn_app, firstn_all, Nat.sub_diag. cbn [firstn]. now rewrite app_nil_r.
Qed.
Lemma error_base_spec : forall nm b, error_base nm = Some b <-> nm = b ++ strs "_error_upper" \/ nm = b ++ strs "_error_lower".
Proof.
  intros nm b. unfold error_base. destruct (strip_suffix (strs "_error_upper") nm) as [b'|] eqn:E.
  - apply strip_suffix_spec in E. split.
    + intros H. inversion H; subst. auto.
    + intros [H|H]; [rewrite E in H; apply app_inv_tail in H; congruence|]. exfalso. rewrite E in H.
      assert (X : rev (b' ++ strs "_error_upper") = rev (b ++ strs "_error_lower")) by now rewrite H. rewrite !rev_app_distr in X. cbn in X. inversion X.
  - rewrite strip_suffix_spec. split; [auto|]. intros [H|H]; auto. apply strip_suffix_spec in H. congruence.
Qed.
Lemma error_of_spec : forall p q, error_of p = Some q <-> error_bar p q.
Proof.
  intros p q. unfold error_of, error_bar. destruct p as [|nm r] using rev_ind.
  - cbn. split; [discriminate|]. intros (r & b & _ & [E|E]); destruct r; discriminate.
  - rewrite rev_app_distr. cbn [rev app]. rewrite rev_involutive. split.
    + destruct (error_base nm) as [b|] eqn:E; [|discriminate]. intros H. inversion H; subst q. apply error_base_spec in E.
      exists r, b. split; auto. destruct E as [->| ->]; auto.
    + intros (r' & b & -> & [E|E]); apply app_inj_tail in E; destruct E as [-> ->].
      * rewrite (proj2 (error_base_spec _ b)) by auto. reflexivity.
      * rewrite (proj2 (error_base_spec _ b)) by auto. reflexivity.
Qed.
Lemma error_of_none : forall p, error_of p = None <-> forall q, ~ error_bar p q.
Proof.
  intros p. split.
  - intros E q H. apply error_of_spec in H. congruence.
  - intros H. destruct (error_of p) as [q|] eqn:E; auto. exfalso. apply (H q). now apply error_of_spec.
Qed.

(** ** the nodes in the order of parsing *)
Definition visit := (path * meta * option path * nat)%type.
Definition vp (v : visit) : path := fst (fst (fst v)).
Definition vc (v : visit) : meta := snd (fst (fst v)).
Definition va (v : visit) : option path := snd (fst v).
Definition vl (v : visit) : nat := snd v.
Fixpoint visits (m : meta) (names : path) (parent : option path) (level : nat) {struct m} : list visit :=
  match m with
  | Meta _ _ cs =>
    flat_map (fun c => let p := names ++ [mname c] in
                       (p, c, parent, level) :: match mkind c with
                                                | KStruct => visits c p parent level
                                                | KAoS => visits c p (Some p) (S level)
                                                | KLeaf _ _ => []
                                                end) cs
  end.
Lemma visits_In : forall m names parent level v, In v (visits m names parent level) <-> below m names parent level (vp v) (vc v) (va v) (vl v).
Proof.
  intros m. meta_induction m. intros names parent level [[[p c] a] l]. cbn [visits vp vc va vl fst snd]. rewrite in_flat_map. split.
  - intros (d & D & H). cbv zeta in H. destruct H as [E|H]; [inversion E; subst; constructor; auto|].
    destruct (mkind d) eqn:Kd; [|apply (IH d D) in H; cbn in H; eapply bl_aos; eauto|destruct H].
    apply (IH d D) in H. cbn in H. eapply bl_struct; eauto.
  - intros H. inversion H; subst.
    + exists c. split; auto. cbv zeta. now left.
    + exists c0. split; auto. cbv zeta. right. match goal with K : mkind c0 = _ |- _ => rewrite K end. apply (IH c0); auto.
    + exists c0. split; auto. cbv zeta. right. match goal with K : mkind c0 = _ |- _ => rewrite K end. apply (IH c0); auto.
Qed.
Lemma below_prefix : forall m names parent lv p c a n, below m names parent lv p c a n -> exists x r, p = names ++ x :: r.
Proof.
  induction 1; [exists (mname c), []; auto| |]; destruct IHbelow as (x & r & ->); rewrite <- app_assoc; cbn; eauto.
Qed.
Lemma visits_nodup : forall m names parent level, wf_meta m -> NoDup (map vp (visits m names parent level)).
Proof.
  intros m. meta_induction m. intros names parent level W. cbn [visits].
  assert (ND : NoDup (map mname cs)) by (inversion W; auto). assert (WC : forall c, In c cs -> wf_meta c) by (inversion W; auto). clear W.
  assert (IN : forall c, In c cs -> forall q, In q (map vp (match mkind c with KStruct => visits c (names ++ [mname c]) parent level | KAoS => visits c (names ++ [mname c]) (Some (names ++ [mname c])) (S level) | KLeaf _ _ => [] end)) -> exists x r, q = names ++ mname c :: x :: r).
  { intros c C q Q. destruct (mkind c); [| |destruct Q]; apply in_map_iff in Q; destruct Q as (v & <- & Q); apply visits_In in Q; apply below_prefix in Q; destruct Q as (x & r & ->); rewrite <- app_assoc; cbn; eauto. }
  induction cs as [|c t IHc]; [constructor|]. cbn [flat_map]. rewrite map_app. cbn in ND. inversion ND as [|? ? NI ND']; subst.
  apply nodup_app.
  - cbv zeta. cbn [map vp fst]. constructor.
    + intros Q. apply IN in Q; [|now left]. destruct Q as (x & r & E). apply app_inv_head in E. discriminate.
    + destruct (mkind c); [apply IH; [now left|apply WC; now left]|apply IH; [now left|apply WC; now left]|constructor].
  - apply IHc; auto. 
    + intros; apply IH; auto; now right.
    + intros; apply WC; now right.
    + intros; apply IN; auto; now right.
  - intros q Q1 Q2.
    assert (H1 : exists r, q = names ++ mname c :: r).
    { cbv zeta in Q1. cbn [map vp fst] in Q1. destruct Q1 as [<-|Q1]; [eauto|]. apply IN in Q1; [|now left]. destruct Q1 as (x & r & ->). eauto. }
    assert (H2 : exists d r, In d t /\ q = names ++ mname d :: r).
    { apply in_map_iff in Q2. destruct Q2 as (v & <- & Q2). apply in_flat_map in Q2. destruct Q2 as (d & D & Q2). cbv zeta in Q2. exists d.
      destruct Q2 as [<-|Q2]; [cbn; eauto|]. destruct (IN d (or_intror D) (vp v)) as (x & r & ->); [now apply List.in_map|eauto]. }
    destruct H1 as (r1 & ->). destruct H2 as (d & r2 & D & E). apply app_inv_head in E. inversion E; subst. apply NI. 
    match goal with H : mname c = mname d |- _ => rewrite H end. now apply List.in_map.
Qed.

Section Parse.
Variable at_ : path -> nattr.
Fixpoint parse_all (vs : list visit) (s : ncs) : result nexn ncs :=
  match vs with [] => Ok s | v :: t => do s1 <- parse_one at_ (vc v) (vp v) (va v) (vl v) s; parse_all t s1 end.
Lemma parse_all_app : forall a b s, parse_all (a ++ b) s = (do s1 <- parse_all a s; parse_all b s1).
Proof.
  induction a as [|v a IH]; intros b s; cbn; auto. destruct (parse_one at_ (vc v) (vp v) (va v) (vl v) s); cbn; auto.
Qed.
Lemma parse_visits : forall m names parent level s, parse at_ m names parent level s = parse_all (visits m names parent level) s.
Proof.
  intros m. meta_induction m. intros names parent level. cbn [parse visits].
  induction cs as [|c t IHc]; intros s; [reflexivity|]. cbn [flat_map]. rewrite parse_all_app. cbv zeta. cbn [parse_all vc vp va vl fst snd].
  destruct (parse_one at_ c (names ++ [mname c]) parent level s) as [s1|e]; cbn [rbind]; [|reflexivity].
  assert (E : forall s, (match mkind c with KStruct => parse at_ c (names ++ [mname c]) parent level s | KAoS => parse at_ c (names ++ [mname c]) (Some (names ++ [mname c])) (S level) s | KLeaf _ _ => Ok s end) =
     parse_all (match mkind c with KStruct => visits c (names ++ [mname c]) parent level | KAoS => visits c (names ++ [mname c]) (Some (names ++ [mname c])) (S level) | KLeaf _ _ => [] end) s).
  { intros s0. destruct (mkind c); [apply IH; now left|apply IH; now left|reflexivity]. }
  rewrite E. destruct (parse_all _ s1) as [s2|e]; cbn [rbind]; [|reflexivity]. apply IHc. intros; apply IH; now right.
Qed.
End Parse.
