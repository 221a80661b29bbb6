(** Paths, arrays of structures that contain them and indices; the targets of variables. *)
From Verif Require Import Base PathSpec TreeModel TreeSpec TreeProofs ValProofs StoreProofs2 ConvSpec ConvProofs3 NcMetaModel NcMetaSpec NcMetaProofs2 NcFileModel NcFileProofs NcFileProofs2 NcFileProofs3 NcConvModel NcConvProofs.
From Verif Require ConvProofs2 ConvProofs4.
From Verif Require VmapModel.
From Coq Require Import Lia.

Lemma child_find : forall nm cs, child_meta nm cs = List.find (fun d => str_eqb (mname d) nm) cs.
Proof.
  intros nm cs. unfold child_meta. induction cs as [|c cs IH]; cbn [List.find]; auto. rewrite IH.
  destruct (str_eqb nm (mname c)) eqn:A; destruct (str_eqb (mname c) nm) eqn:B; auto.
  - apply str_eqb_eq in A. subst nm. rewrite str_eqb_refl in B. discriminate.
  - apply str_eqb_eq in B. subst nm. rewrite str_eqb_refl in A. discriminate.
Qed.
Lemma meta_at_path : forall p m c, wf_meta m -> (meta_at m p = Some c <-> at_path m p c).
Proof.
  induction p as [|nm p IH]; intros m c W; cbn [meta_at].
  - split; intros H; inversion H; subst; auto. constructor.
  - split.
    + destruct (List.find (fun d => str_eqb (mname d) nm) (mchildren m)) as [d|] eqn:F; [|discriminate]. intros H. apply find_some in F. destruct F as [I E]. apply str_eqb_eq in E. subst nm.
      constructor; auto. apply IH; auto. eapply wf_child; eauto.
    + intros H. apply at_path_inv in H. destruct H as (d & I & <- & H). rewrite find_name by (auto using wf_nodup). apply IH; auto. eapply wf_child; eauto.
Qed.

(** * The arrays that contain a path *)
Lemma arrays_cons : forall m pre x y t c, wf_meta m -> In c (mchildren m) -> mname c = x ->
  arrays m pre (x :: y :: t) = (match mkind c with KAoS => [pre ++ [x]] | _ => [] end) ++ arrays c (pre ++ [x]) (y :: t).
Proof. intros m pre x y t c W I <-. cbn [arrays]. rewrite child_find, find_name by (auto using wf_nodup). reflexivity. Qed.
Lemma arrays_in : forall p m pre c a, wf_meta m -> at_path m p c ->
  (In a (arrays m pre p) <-> exists a0 b ca, a = pre ++ a0 /\ p = a0 ++ b /\ a0 <> [] /\ b <> [] /\ at_path m a0 ca /\ mkind ca = KAoS).
Proof.
  induction p as [|x p IH]; intros m pre c a W H.
  - split; [intros []|]. intros (a0 & b & ca & _ & E & N & _). destruct a0; [congruence|discriminate].
  - apply at_path_inv in H. destruct H as (d & I & E & H). destruct p as [|y p].
    + split; [intros []|]. intros (a0 & b & ca & _ & E' & N & N' & _). destruct a0 as [|z [|? ?]]; [congruence| |discriminate]. cbn in E'. destruct b; [congruence|discriminate].
    + rewrite (arrays_cons m pre x y p d W I E). rewrite in_app_iff. rewrite (IH d (pre ++ [x]) c a (wf_child _ _ W I) H). split.
      * intros [Q|(a0 & b & ca & -> & E2 & N1 & N2 & A & K)].
        { destruct (mkind d) eqn:Kd; try destruct Q. subst a. exists [x], (y :: p), d. repeat split; auto; try discriminate. subst x. constructor; auto. constructor. destruct H0. }
        { exists (x :: a0), b, ca. rewrite <- app_assoc, E2. repeat split; auto; try discriminate. subst x. now constructor. }
      * intros (a0 & b & ca & -> & E2 & N1 & N2 & A & K). destruct a0 as [|z a0]; [congruence|]. cbn in E2. assert (z = x) by congruence. subst z. apply (f_equal (fun z => tl z)) in E2. cbn in E2.
        apply at_path_inv in A. destruct A as (d' & I' & E' & A). assert (d' = d) by (assert (X : mname d' = mname d) by congruence; pose proof (find_name _ d' (wf_nodup _ W) I') as Y; pose proof (find_name _ d (wf_nodup _ W) I) as Z; rewrite X in Y; congruence). subst d'.
        destruct a0 as [|w a0].
        { left. inversion A; subst. rewrite K. now left. }
        { right. exists (w :: a0), b, ca. rewrite <- app_assoc. repeat split; auto. discriminate. }
Qed.
Lemma arrays_below : forall m names parent lv p c a n, below m names parent lv p c a n -> wf_meta m -> exists t, p = names ++ t /\ t <> [] /\ at_path m t c /\ n = lv + length (arrays m names t) /\ (arrays m names t = [] -> a = parent) /\ (arrays m names t <> [] -> a <> None).
Proof.
  intros m names parent lv p c a n B. induction B as [nm k cs names parent lv c I|nm k cs names parent lv c p c' a n I K B IH|nm k cs names parent lv c p c' a n I K B IH]; intros W.
  - exists [mname c]. split; auto. split; [discriminate|]. split; [constructor; auto; constructor|]. cbn [arrays length]. split; [lia|]. split; auto.
  - destruct IH as (t & -> & N & A & L & E1 & E2); [inversion W; auto|]. exists (mname c :: t). split; [now rewrite <- app_assoc|]. split; [discriminate|]. split; [now constructor|].
    destruct t as [|y t]; [congruence|]. rewrite (arrays_cons _ names (mname c) y t c W I eq_refl), K. auto.
  - destruct IH as (t & -> & N & A & L & E1 & E2); [inversion W; auto|]. exists (mname c :: t). split; [now rewrite <- app_assoc|]. split; [discriminate|]. split; [now constructor|].
    destruct t as [|y t]; [congruence|]. rewrite (arrays_cons _ names (mname c) y t c W I eq_refl), K. cbn [app length]. split; [lia|]. split; [discriminate|]. intros _.
    destruct (arrays c (names ++ [mname c]) (y :: t)) eqn:AR; [rewrite (E1 eq_refl); discriminate|apply E2; discriminate].
Qed.

(** * Locations for a path and an index *)
Lemma make_loc : forall p m pre c idx, wf_meta m -> mkind m = KStruct -> at_path m p c -> length idx = length (arrays m pre p) ->
  exists s, loc_ok m s c /\ loc_names s = p /\ loc_idx s = idx /\ ~ is_elem s.
Proof.
  induction p as [|x p IH]; intros m pre c idx W K H L.
  - inversion H; subst. destruct idx; [|discriminate]. exists []. split; [constructor|]. split; auto. split; auto. intros (a & i & Q). destruct a; discriminate.
  - apply at_path_inv in H. destruct H as (d & I & E & H). destruct m as [nm k cs]. cbn [mkind] in K. subst k. cbn [mchildren] in I.
    assert (Wd : wf_meta d) by (inversion W; auto).
    assert (CH : forall l, ~ is_elem l -> ~ is_elem (Child x :: l)) by (intros l N (a & i & Q); destruct a as [|y a]; cbn in Q; [discriminate|]; apply (f_equal (fun z => tl z)) in Q; cbn in Q; apply N; now exists a, i).
    destruct p as [|y p].
    + inversion H; subst. destruct idx; [|discriminate]. exists [Child (mname c)]. split; [constructor; auto; constructor|]. split; auto. split; auto. apply CH. intros (a & i & Q). destruct a; discriminate.
    + rewrite (arrays_cons _ pre x y p d W I E) in L. destruct (mkind d) as [| |dt nd] eqn:Kd.
      * destruct (IH d (pre ++ [x]) c idx Wd Kd H L) as (s & S1 & S2 & S3 & S4). exists (Child x :: s). subst x. split; [constructor; auto|]. split; [apply (f_equal (cons _)); exact S2|]. split; auto.
      * destruct idx as [|i idx]; [discriminate|]. cbn [app length] in L.
        destruct (IH (body d) (pre ++ [x]) c idx) as (s & S1 & S2 & S3 & S4).
        { destruct d. eapply wf_struct; eauto. } { destruct d; reflexivity. } { apply (proj1 (at_path_body d p c y)). exact H. } { rewrite arrays_body. lia. }
        exists (Child x :: Elem i :: s). subst x. split; [constructor; auto; destruct d as [dn dk dc]; cbn [mkind] in Kd; subst dk; constructor; exact S1|]. split; [apply (f_equal (cons _)); exact S2|]. split; [apply (f_equal (cons _)); exact S3|].
        apply CH. intros (a & j & Q). destruct a as [|z a]; cbn in Q; [assert (s = []) by congruence; subst s; discriminate|]. apply (f_equal (fun z => tl z)) in Q. cbn in Q. apply S4. now exists a, j.
      * exfalso. apply at_path_inv in H. destruct H as (e & J & _). destruct d as [dn dk dc]. cbn [mkind mchildren] in *. subst dk. inversion Wd as [? ? ? _ _ LF]; subst. rewrite (LF _ _ eq_refl) in J. destruct J.
Qed.
Lemma in_sizes_arrays : forall size m l c, wf_meta m -> mkind m = KStruct -> loc_ok m l c -> ~ is_elem l ->
  (in_sizes size [] [] l <-> forall j a i, nth_error (arrays m [] (loc_names l)) j = Some a -> nth_error (loc_idx l) j = Some i -> i < size a (firstn j (loc_idx l))).
Proof.
  intros size m l c W K L N. rewrite (arrays_root m l c W K L N). rewrite in_sizes_iff. cbn [app]. split.
  - intros H j a i A I. rewrite nth_error_map in A. destruct (nth_error (befores [] l) j) as [b|] eqn:B; [|discriminate]. cbn in A. inversion A; subst a. clear A.
    destruct (befores_nth l [] j b B) as (i' & r & E & X & _). cbn in E, X. assert (i' = i).
    { rewrite E in I. rewrite ConvProofs2.idx_app in I. rewrite X in I. assert (LJ : length (firstn j (loc_idx l)) = j). { apply firstn_length_le. apply Nat.lt_le_incl. rewrite <- (befores_len l []). apply nth_error_Some. congruence. }
      rewrite nth_error_app2 in I by lia. rewrite LJ, Nat.sub_diag in I. cbn in I. congruence. }
    subst i'. rewrite <- X. eapply H; eauto.
  - intros H a i b E. assert (LB : nth_error (befores [] l) (length (loc_idx a)) = Some a).
    { rewrite E, befores_app. cbn [app befores]. rewrite nth_error_app2 by (rewrite befores_len; lia). rewrite befores_len, Nat.sub_diag. reflexivity. }
    specialize (H (length (loc_idx a)) (loc_names a) i). rewrite nth_error_map, LB in H. specialize (H eq_refl). rewrite E in H. rewrite ConvProofs2.idx_app in H. cbn [loc_idx flat_map app] in H.
    rewrite nth_error_app2, Nat.sub_diag in H by lia. specialize (H eq_refl). rewrite firstn_app, firstn_all, Nat.sub_diag in H. cbn [firstn] in H. rewrite app_nil_r in H. exact H.
Qed.

(** * The flags of a path *)
Lemma flags_length : forall p m, length (aos_flags m p) = length p.
Proof. induction p as [|x p IH]; intros m; cbn [aos_flags]; auto. destruct (List.find _ _); cbn [length]; [now rewrite IH|]. now rewrite map_length. Qed.
Lemma names_flags : forall m p, map fst (combine p (aos_flags m p)) = p.
Proof. intros. apply ConvProofs4.map_fst_combine. now rewrite flags_length. Qed.
Lemma arrays_longer : forall p m pre a, In a (arrays m pre p) -> length pre < length a.
Proof.
  induction p as [|x p IH]; intros m pre a I; [destruct I|]. cbn [arrays] in I. destruct p as [|y p]; [destruct I|]. destruct (child_meta x (mchildren m)) as [c|]; [|destruct I].
  apply in_app_or in I. destruct I as [I|I]; [destruct (mkind c); try destruct I as [<-|[]]; try destruct I; rewrite app_length; cbn; lia|].
  apply IH in I. rewrite app_length in I. cbn in I. lia.
Qed.
Lemma flags_same : forall p m m' pre c c', wf_meta m -> wf_meta m' -> at_path m p c -> at_path m' p c' -> arrays m pre p = arrays m' pre p ->
  flags_ok (mchildren m') (combine p (aos_flags m p)).
Proof.
  induction p as [|x p IH]; intros m m' pre c c' W W' H H' E; [exact I|].
  apply at_path_inv in H. destruct H as (d & J & Ed & H). apply at_path_inv in H'. destruct H' as (d' & J' & Ed' & H'). cbn [aos_flags].
  assert (F1 : List.find (fun e => str_eqb (mname e) x) (mchildren m) = Some d) by (rewrite <- Ed; apply find_name; auto using wf_nodup).
  assert (F2 : List.find (fun e => str_eqb (mname e) x) (mchildren m') = Some d') by (rewrite <- Ed'; apply find_name; auto using wf_nodup).
  rewrite F1. cbn [combine flags_ok]. destruct p as [|y p]; [exact I|]. destruct (combine (y :: p) (aos_flags d (y :: p))) as [|z zs] eqn:C; [exact I|]. rewrite <- C. clear C.
  rewrite F2.
  rewrite (arrays_cons m pre x y p d W J Ed), (arrays_cons m' pre x y p d' W' J' Ed') in E.
  assert (X : (mkind d = KAoS <-> mkind d' = KAoS) /\ arrays d (pre ++ [x]) (y :: p) = arrays d' (pre ++ [x]) (y :: p)).
  { assert (LA : forall (e : meta) t, arrays e (pre ++ [x]) (y :: p) = (pre ++ [x]) :: t -> False).
    { intros e t Q. assert (Z : In (pre ++ [x]) (arrays e (pre ++ [x]) (y :: p))) by (rewrite Q; now left). apply arrays_longer in Z. lia. }
    destruct (mkind d) eqn:K1; destruct (mkind d') eqn:K2; cbn [app] in E; (split; [split; intros; auto; try discriminate|auto]); try (apply (f_equal (fun z => tl z)) in E; exact E); exfalso; eauto. }
  destruct X as [X1 X2]. split.
  - rewrite <- X1. destruct (mkind d); split; intros; auto; discriminate.
  - eapply IH; eauto using wf_child.
Qed.
Lemma flags_none : forall p m' c' pre, wf_meta m' -> at_path m' p c' -> arrays m' pre p = [] -> flags_ok (mchildren m') (map (fun x => (fst x, false)) (combine p (aos_flags m' p))) .
Proof.
  induction p as [|x p IH]; intros m' c' pre W' H' E; [exact I|]. apply at_path_inv in H'. destruct H' as (d' & J' & Ed' & H'). cbn [aos_flags].
  assert (F2 : List.find (fun e => str_eqb (mname e) x) (mchildren m') = Some d') by (rewrite <- Ed'; apply find_name; auto using wf_nodup). rewrite F2.
  cbn [combine map flags_ok fst]. destruct p as [|y p]; [exact I|]. destruct (map (fun x => (fst x, false)) (combine (y :: p) (aos_flags d' (y :: p)))) as [|z zs] eqn:C; [exact I|]. rewrite <- C. clear C.
  rewrite F2. rewrite (arrays_cons m' pre x y p d' W' J' Ed') in E. apply app_eq_nil in E. destruct E as [E1 E2]. split.
  - split; intros Q; [discriminate|]. rewrite Q in E1. discriminate.
  - eapply IH; eauto using wf_child.
Qed.
Lemma flags_map : forall (a b : list (str * bool)), map fst a = map fst b -> map (fun x => (fst x, false)) a = map (fun x => (fst x, false)) b.
Proof. induction a as [|x a IH]; intros [|y b] E; try discriminate; auto. cbn in *. assert (fst x = fst y) by congruence. rewrite H. f_equal. apply IH. congruence. Qed.

(** * What the reader of the source does *)
Lemma den_gen : forall r g h vs c p idx, den r g h vs c p idx = gen (val_at g vs) (size_at r g h vs) c p idx.
Proof.
  intros r g h vs. induction c as [nm k cs IH] using meta_ind'. intros p idx. cbn [den gen].
  assert (B : forall idx, map (fun d => (mname d, den r g h vs d (p ++ [mname d]) idx)) cs = map (fun d => (mname d, gen (val_at g vs) (size_at r g h vs) d (p ++ [mname d]) idx)) cs).
  { intros idx'. apply map_ext_in. intros d I. f_equal. now apply IH. }
  destruct k; auto; [now rewrite B|]. f_equal. apply map_ext. intros i. now rewrite B.
Qed.
Lemma map_index_each : forall (f : nat -> node -> result fexn node) l i l', map_index f i l = Ok l' -> forall j x, nth_error l j = Some x -> exists y, f (i + j) x = Ok y.
Proof.
  intros f. induction l as [|a l IH]; intros i l' H j x N; [destruct j; discriminate|]. cbn [map_index] in H. destruct (f i a) as [y|e] eqn:Y; [|discriminate]. cbn [rbind] in H.
  destruct (map_index f (S i) l) as [t|e] eqn:T; [|discriminate]. destruct j as [|j]; cbn in N; [inversion N; subst; rewrite Nat.add_0_r; eauto|]. replace (i + S j) with (S i + j) by lia. eauto.
Qed.
Lemma update_inv : forall val size f c0 p cs fs idx names fs', NoDup (map mname cs) -> (forall c, In c cs -> wf_meta c) ->
  (forall c, In c cs -> same c (field c fs) (gen val size c (names ++ [mname c]) idx)) -> update_at cs fs p idx FKey f = Ok fs' ->
  forall l, loc_ok (Meta [] KStruct cs) l c0 -> loc_names l = p -> l <> [] -> ~ is_elem l -> in_sizes size names idx l -> exists n x, f (idx ++ loc_idx l) c0 n = Ok x.
Proof.
  intros val size f c0. induction p as [|nm p IH]; intros cs fs idx names fs' ND WC S U l L N NL NE IS.
  - destruct l as [|[x|i] l]; [congruence|discriminate|inversion L].
  - destruct l as [|[x|i] l]; [discriminate| |inversion L]. cbn in N. assert (x = nm) by congruence. subst x. apply (f_equal (fun z => tl z)) in N. cbn in N. change (loc_names l = p) in N.
    apply loc_ok_child in L. destruct L as (nm' & cs' & d & Em & Id & Nd & L). inversion Em; subst nm' cs'. subst nm.
    cbn [update_at] in U. rewrite find_name in U by auto. fold (field d fs) in U. pose proof (S d Id) as Sd. pose proof (WC d Id) as Wd. cbn [in_sizes] in IS. cbn [loc_idx flat_map app]. change (flat_map _ l) with (loc_idx l).
    destruct p as [|nm2 p].
    + assert (l = []) as ->. { destruct l as [|[y|i] l]; auto; [discriminate|]. exfalso. apply loc_ok_elem in L. destruct L as (nm & cs2 & -> & L). destruct l as [|[y|k] l]; [apply NE; now exists [Child (mname (Meta nm KAoS cs2))], i|discriminate|inversion L]. }
      inversion L; subst. cbn [loc_idx flat_map]. rewrite app_nil_r. destruct (f idx c0 (field c0 fs)) as [x|e] eqn:F; [eauto|discriminate].
    + destruct d as [dn dk dc]. cbn [mname mchildren] in *. inversion Wd as [? ? ? ND' WC' LF]; subst. destruct dk as [| |dt nd].
      * destruct (field (Meta dn KStruct dc) fs) as [fsd|els|lv] eqn:Fi; [|inversion Sd|inversion Sd].
        destruct (update_at dc fsd (nm2 :: p) idx FKey f) as [fs2|e] eqn:U2; [|discriminate].
        apply (IH dc fsd idx (names ++ [dn]) fs2); auto.
        { inversion Sd as [|? ? fa fb SF|]; subst. intros c1 I1. rewrite <- (gen_field val size dc (names ++ [dn]) idx c1); auto. }
        { eapply loc_ok_name; [|exact L]. rewrite N. discriminate. }
        { intros ->. discriminate. }
        { eapply not_elem_tail; eauto. }
      * destruct l as [|[y|i] l]; [discriminate|inversion L|]. apply loc_ok_elem in L. destruct L as (nm & cs2 & Em2 & L). inversion Em2; subst nm cs2. destruct IS as [Li IS].
        destruct (field (Meta dn KAoS dc) fs) as [fsd|els|lv] eqn:Fi; [inversion Sd| |inversion Sd]. cbn [gen] in Sd. inversion Sd as [| |? ? ea eb LE FE]; subst. rewrite map_length, seq_length in LE.
        destruct (map_index (fun i e => do fs'' <- update_at dc (node_fields e) (nm2 :: p) (idx ++ [i]) FKey f; Ok (NStruct fs'')) 0 els) as [els'|e] eqn:U2; [|discriminate].
        destruct (nth_error els i) as [x|] eqn:X; [|apply nth_error_None in X; lia]. destruct (map_index_each _ _ _ _ U2 i x X) as (y & Y). cbn [Nat.add] in Y.
        destruct (update_at dc (node_fields x) (nm2 :: p) (idx ++ [i]) FKey f) as [fx|e] eqn:U3; [|discriminate].
        assert (SX : same (Meta dn KStruct dc) x (NStruct (gen_fields val size dc (names ++ [dn]) (idx ++ [i])))).
        { apply (FE i); auto. rewrite nth_error_map, seq_nth_error by lia. reflexivity. }
        inversion SX as [|? ? fx0 ? SF|]; subst. cbn [node_fields] in U3. cbn [loc_idx flat_map app]. change (flat_map _ l) with (loc_idx l).
        destruct (IH dc fx0 (idx ++ [i]) (names ++ [dn]) fx ND' WC') with (l := l) as (n & z & Z); auto.
        { intros c1 I1. rewrite <- (gen_field val size dc (names ++ [dn]) (idx ++ [i]) c1); auto. }
        { eapply loc_ok_name; [|exact L]. change (loc_names l = nm2 :: p) in N. rewrite N. discriminate. }
        { intros ->. discriminate. }
        { eapply not_elem_tail. eapply not_elem_tail. eauto. }
        rewrite <- app_assoc in Z. eauto.
      * exfalso. inversion L; subst; discriminate.
Qed.
