(** Conversion: paths, locations and arrays. *)
From Verif Require Import Base PathModel PathSpec PathProofs3 TreeModel TreeSpec TreeProofs TreeProofs2 TreeProofs4 ValModel ValProofs ValProofs2 PrimModel ConvModel ConvSpec ConvProofs ConvProofs2.
From Verif Require VmapModel.
Import VmapModel(handler(..), nmap).

Lemma parse_plain : forall q, q <> [] -> Forall is_name q -> parse (slashed q) = Ok (plain q).
Proof.
  intros q NE F. pose proof (print_parse false (map (fun x => (x, None)) q)) as H.
  replace (print_steps false (map (fun x => (x, None)) q)) with (slashed q) in H.
  - rewrite H.
    + unfold plain. rewrite !map_map. f_equal. f_equal; [apply map_id|]. clear. induction q; simpl; f_equal; auto.
    + destruct q; [congruence|discriminate].
    + apply Forall_map. exact F.
  - clear. unfold slashed. induction q as [|x q IH]; auto. destruct q as [|y q]; [reflexivity|].
    change (x ++ "/"%char :: join_with "/" (y :: q) = x ++ "/"%char :: print_steps false (map (fun x => (x, None)) (y :: q))). rewrite IH. reflexivity.
Qed.
Lemma slashed_inj : forall p q, Forall is_name p -> Forall is_name q -> slashed p = slashed q -> p = q.
Proof.
  assert (NS : forall l, Forall is_name l -> forall x, In x l -> ~ In "/"%char x).
  { intros l F x I. apply name_no; try reflexivity; try discriminate. rewrite Forall_forall in F. auto. }
  assert (NN : forall l, Forall is_name l -> l <> [] -> slashed l <> []).
  { intros [|x [|y l]] F N; [congruence| |]; inversion F; subst; match goal with H : is_name x |- _ => apply name_nonnil in H end; destruct x; [congruence|discriminate|congruence|discriminate]. }
  intros p q Fp Fq E. destruct p as [|a p], q as [|b q]; auto.
  - symmetry in E. exfalso. eapply (NN (b :: q)); eauto. discriminate.
  - exfalso. eapply (NN (a :: p)); eauto. discriminate.
  - rewrite <- (split_join "/"%char (a :: p)), <- (split_join "/"%char (b :: q)); try discriminate; eauto. unfold slashed in E. rewrite E. reflexivity.
Qed.

(** ** Metadata *)
Lemma wf_child : forall m c, wf_meta m -> In c (mchildren m) -> wf_meta c.
Proof. intros m c W I. inversion W; subst; simpl in *; auto. Qed.
Lemma wf_nodup : forall m, wf_meta m -> NoDup (map mname (mchildren m)). Proof. intros m W. inversion W; subst; auto. Qed.
Lemma at_path_inv : forall m x p m', at_path m (x :: p) m' -> exists c, In c (mchildren m) /\ mname c = x /\ at_path c p m'.
Proof. intros m x p m' H. inversion H; subst. eauto. Qed.
Lemma loc_ok_child : forall m x l m', loc_ok m (Child x :: l) m' -> exists nm cs c, m = Meta nm KStruct cs /\ In c cs /\ mname c = x /\ loc_ok c l m'.
Proof. intros m x l m' H. inversion H; subst. repeat eexists; eauto. Qed.
Lemma loc_ok_elem : forall m i l m', loc_ok m (Elem i :: l) m' -> exists nm cs, m = Meta nm KAoS cs /\ loc_ok (Meta nm KStruct cs) l m'.
Proof. intros m i l m' H. inversion H; subst. repeat eexists; eauto. Qed.
Lemma at_path_fun : forall m p m1 m2, wf_meta m -> at_path m p m1 -> at_path m p m2 -> m1 = m2.
Proof.
  intros m p m1 m2 W H. revert m2 W. induction H as [m|m c p m' I H IH]; intros m2 W H2; inversion H2; subst; auto.
  assert (c0 = c) as -> by (eapply nodup_name; eauto using wf_nodup). apply IH; eauto using wf_child.
Qed.
Lemma at_path_app : forall m p m1 q m2, at_path m p m1 -> at_path m1 q m2 -> at_path m (p ++ q) m2.
Proof. intros m p m1 q m2 H. induction H; intros; simpl; auto. constructor; auto. Qed.
Lemma at_path_split : forall p m q m2, at_path m (p ++ q) m2 -> exists m1, at_path m p m1 /\ at_path m1 q m2.
Proof.
  induction p as [|x p IH]; intros m q m2 H; simpl in *; [exists m; split; auto; constructor|].
  apply at_path_inv in H as (c & I & <- & H). apply IH in H as (m1 & A & B). exists m1. split; auto. constructor; auto.
Qed.
Lemma at_path_wf : forall m p m', wf_meta m -> at_path m p m' -> wf_meta m'.
Proof. intros m p m' W H. induction H; auto. apply IHat_path. eapply wf_child; eauto. Qed.

(** ** Locations *)
Definition body (m : meta) : meta := Meta (mname m) KStruct (mchildren m).
Lemma loc_ok_app : forall m a m1 b m2, loc_ok m a m1 -> loc_ok m1 b m2 -> loc_ok m (a ++ b) m2.
Proof. intros m a m1 b m2 H. induction H; intros; simpl; auto; constructor; auto. Qed.
Lemma loc_ok_split : forall a m b m2, loc_ok m (a ++ b) m2 -> exists m1, loc_ok m a m1 /\ loc_ok m1 b m2.
Proof.
  induction a as [|x a IH]; intros m b m2 H; simpl in *; [exists m; split; auto; constructor|].
  destruct x as [x|i].
  - apply loc_ok_child in H as (nm & cs & c & -> & I & <- & H). apply IH in H as (m1 & A & B). exists m1. split; auto. constructor; auto.
  - apply loc_ok_elem in H as (nm & cs & -> & H). apply IH in H as (m1 & A & B). exists m1. split; auto. constructor; auto.
Qed.
Lemma not_elem_tail : forall x l, ~ is_elem (x :: l) -> ~ is_elem l.
Proof. intros x l N (l' & i & ->). apply N. exists (x :: l'), i. reflexivity. Qed.
Lemma at_path_body : forall m p m' x, at_path m (x :: p) m' <-> at_path (body m) (x :: p) m'.
Proof. intros m p m' x. split; intros H; inversion H; subst; constructor; auto. Qed.
Lemma loc_at_path : forall m l m', loc_ok m l m' -> ~ is_elem l -> at_path m (loc_names l) m'.
Proof.
  intros m l m' H. induction H as [m|nm cs c l m' I H IH|nm cs i l m' H IH]; intros NE; [constructor| |].
  - apply (ap_child (Meta nm KStruct cs) c); auto. apply IH. eapply not_elem_tail; eauto.
  - specialize (IH (not_elem_tail _ _ NE)). simpl.
    destruct (loc_names l) as [|x p] eqn:N.
    + exfalso. destruct l as [|[x|j] l]; [|discriminate|inversion H]. apply NE. exists [], i. reflexivity.
    + apply (at_path_body (Meta nm KAoS cs)). exact IH.
Qed.
Lemma loc_at_path_elem : forall m l i m', loc_ok m (l ++ [Elem i]) m' -> wf_meta m ->
  exists m1, loc_ok m l m1 /\ mkind m1 = KAoS /\ m' = body m1 /\ ~ is_elem l.
Proof.
  intros m l i m' H W. apply loc_ok_split in H as (m1 & A & B). exists m1. split; auto. apply loc_ok_elem in B as (nm & cs & -> & B).
  inversion B; subst. repeat split; auto.
  intros (l' & j & ->). apply loc_ok_split in A as (m2 & A & C). apply loc_ok_elem in C as (nm' & cs' & -> & C). inversion C.
Qed.
Lemma loc_unique : forall m l1 m1, wf_meta m -> loc_ok m l1 m1 -> forall l2 m2, loc_ok m l2 m2 -> loc_names l1 = loc_names l2 -> loc_idx l1 = loc_idx l2 -> l1 = l2.
Proof.
  intros m l1 m1 W H. induction H as [m|nm cs c l m' I H IH|nm cs i l m' H IH]; intros l2 m2 H2 N X; inversion H2; subst; auto; simpl in *; try discriminate.
  - injection N as N1 N2. assert (c0 = c) as -> by (inversion W; subst; eapply nodup_name; eauto). f_equal. eapply IH; eauto. inversion W; subst; auto.
  - injection X as -> X. f_equal. eapply IH; eauto. eapply wf_struct; eauto.
Qed.
Lemma look_loc_ok : forall l m n m' n', look m n l = Some (m', n') -> loc_ok m l m'.
Proof.
  induction l as [|[nm|i] l IH]; intros m n m' n' L; simpl in L.
  - injection L as <- <-. constructor.
  - destruct m as [name k cs]; simpl in *. destruct k; try discriminate. destruct n; try discriminate.
    destruct (child_meta nm cs) as [c|] eqn:CM; try discriminate. apply child_meta_Some in CM as (I & <-). constructor; eauto.
  - destruct m as [name k cs]; simpl in *. destruct k; try discriminate. destruct n as [|els|]; try discriminate.
    destruct (nth_error els i); try discriminate. constructor; eauto.
Qed.
Lemma node_at_loc_ok : forall m n l m' n', node_at m n l m' n' -> loc_ok m l m'.
Proof. intros m n l m' n' H. induction H; constructor; auto. Qed.

(** ** Arrays that contain a location *)
Fixpoint befores (pre l : loc) : list loc :=
  match l with
  | [] => []
  | Child x :: t => befores (pre ++ [Child x]) t
  | Elem i :: t => pre :: befores (pre ++ [Elem i]) t
  end.
Lemma befores_app : forall a pre b, befores pre (a ++ b) = befores pre a ++ befores (pre ++ a) b.
Proof.
  induction a as [|[x|i] a IH]; intros pre b; simpl; [rewrite app_nil_r; reflexivity|rewrite IH, <- app_assoc; reflexivity|].
  rewrite IH, <- app_assoc. reflexivity.
Qed.
Lemma befores_childs : forall x pre, befores pre (map Child x) = [].
Proof. induction x; intros; simpl; auto. Qed.
Lemma befores_len : forall l pre, length (befores pre l) = length (loc_idx l).
Proof. induction l as [|[x|i] l IH]; intros; simpl; auto. Qed.
Lemma befores_nth : forall l pre j a, nth_error (befores pre l) j = Some a ->
  exists i r, pre ++ l = a ++ Elem i :: r /\ loc_idx a = loc_idx pre ++ firstn j (loc_idx l) /\ within pre a.
Proof.
  induction l as [|[x|i] l IH]; intros pre j a H; simpl in *; [destruct j; discriminate| |].
  - apply IH in H as (i & r & E & X & W). rewrite <- app_assoc in E. simpl in E. exists i, r. split; auto. split.
    + rewrite X, idx_app. simpl. rewrite app_nil_r. reflexivity.
    + eapply within_trans; [|exact W]. exists [Child x]. reflexivity.
  - destruct j as [|j]; simpl in H.
    + injection H as <-. exists i, l. rewrite app_nil_r. auto with conv.
    + apply IH in H as (i' & r & E & X & W). rewrite <- app_assoc in E. simpl in E. exists i', r. split; auto. split.
      * rewrite X, idx_app. simpl. rewrite <- app_assoc. reflexivity.
      * eapply within_trans; [|exact W]. exists [Elem i]. reflexivity.
Qed.
Definition above (m : meta) (pre l : loc) : list (list str) :=
  match mkind m, l with KAoS, _ :: _ => [loc_names pre] | _, _ => [] end.
Lemma arrays_loc : forall l m m' pre, wf_meta m -> loc_ok m l m' -> ~ is_elem l ->
  map loc_names (befores pre l) = above m pre l ++ arrays m (loc_names pre) (loc_names l).
Proof.
  induction l as [|[x|i] l IH]; intros m m' pre W H NE.
  - simpl. unfold above. destruct (mkind m); reflexivity.
  - apply loc_ok_child in H as (nm & cs & c & -> & I & <- & H). simpl. rewrite (IH c m'); eauto using not_elem_tail; [|inversion W; auto].
    assert (CM : child_meta (mname c) cs = Some c) by (inversion W; subst; apply child_meta_iff; auto).
    rewrite CM. unfold above. simpl. rewrite names_app. simpl.
    destruct (loc_names l) as [|y p] eqn:N.
    + assert (l = []) as ->. { destruct l as [|[y|j] l]; auto; [discriminate|]. exfalso. apply loc_ok_elem in H as (nm' & cs' & -> & H). destruct l as [|[y|k] l].
        - apply NE. eexists [Child _], j. reflexivity.
        - discriminate.
        - inversion H. }
      destruct (mkind c); reflexivity.
    + destruct l as [|z l]; [discriminate|]. destruct (mkind c); reflexivity.
  - apply loc_ok_elem in H as (nm & cs & -> & H). simpl. unfold above. simpl. f_equal. rewrite (IH (Meta nm KStruct cs) m'); eauto using not_elem_tail, wf_struct.
    unfold above. simpl. rewrite names_elem.
    destruct (loc_names l) as [|x p]; reflexivity.
Qed.
Lemma arrays_root : forall m l m', wf_meta m -> mkind m = KStruct -> loc_ok m l m' -> ~ is_elem l -> arrays m [] (loc_names l) = map loc_names (befores [] l).
Proof. intros m l m' W K H NE. rewrite (arrays_loc l m m' []); auto. unfold above. rewrite K. reflexivity. Qed.
Lemma arrays_body : forall m pre p, arrays (body m) pre p = arrays m pre p.
Proof. intros m pre [|x [|y p]]; reflexivity. Qed.
(** the metadata below the innermost array *)
Lemma arrays_none : forall q m pre mt, wf_meta m -> at_path m q mt -> mkind m = KStruct -> arrays m pre q = [] -> loc_ok m (map Child q) mt.
Proof.
  induction q as [|x q IH]; intros m pre mt W H K A; [inversion H; constructor|].
  apply at_path_inv in H as (c & I & <- & H).
  destruct m as [nm k cs]. simpl in K, I. subst k. simpl. constructor; auto.
  assert (CM : child_meta (mname c) cs = Some c) by (inversion W; subst; apply child_meta_iff; auto).
  destruct q as [|y q]; [inversion H; subst; constructor|]. simpl in A. simpl in CM. rewrite CM in A. apply app_eq_nil in A as (A1 & A2).
  assert (WC : wf_meta c) by (inversion W; auto).
  eapply IH; eauto. destruct (mkind c) eqn:KC; auto; [discriminate|]. exfalso.
  apply at_path_inv in H as (d & J & _ & _). inversion WC as [nm' k' cs' _ _ LF]; subst. simpl in KC, J. rewrite (LF _ _ KC) in J. contradiction.
Qed.
Lemma arrays_last : forall q m pre mt L qa, wf_meta m -> at_path m q mt -> arrays m pre q = L ++ [qa] ->
  exists q0 q1 ma, qa = pre ++ q0 /\ q = q0 ++ q1 /\ q0 <> [] /\ q1 <> [] /\ at_path m q0 ma /\ mkind ma = KAoS /\ at_path ma q1 mt /\ arrays ma qa q1 = [].
Proof.
  induction q as [|x q IH]; intros m pre mt L qa W H A.
  - destruct L; discriminate.
  - apply at_path_inv in H as (c & I & <- & H). destruct q as [|y q]; [destruct L; discriminate|].
    assert (CM : child_meta (mname c) (mchildren m) = Some c) by (apply child_meta_iff; auto using wf_nodup). 
    simpl in A.
    assert (A' : (match mkind c with KAoS => [pre ++ [mname c]] | _ => [] end) ++ arrays c (pre ++ [mname c]) (y :: q) = L ++ [qa]) by (try rewrite CM in A; exact A).
    clear A. assert (WC : wf_meta c) by (eapply wf_child; eauto).
    destruct (arrays c (pre ++ [mname c]) (y :: q)) as [|z AR] eqn:AE.
    + rewrite app_nil_r in A'. destruct (mkind c) eqn:KC; try (destruct L; discriminate).
      destruct L as [|? [|? ?]]; simpl in A'; try discriminate. injection A' as <-.
      exists [mname c], (y :: q), c. repeat split; auto; try discriminate. apply (ap_child m c []); auto. constructor.
    + destruct (exists_last (l := z :: AR)) as (L' & w & E); [discriminate|]. rewrite E in AE, A'.
      assert (w = qa) as -> by (rewrite app_assoc in A'; apply app_inj_tail in A' as (_ & ->); reflexivity).
      destruct (IH c (pre ++ [mname c]) mt L' qa WC H AE) as (q0 & q1 & ma & E1 & E2 & N0 & N1 & P0 & K & P1 & AN).
      exists (mname c :: q0), q1, ma. rewrite E1, E2, <- app_assoc. repeat split; auto; try discriminate. constructor; auto. rewrite <- app_assoc in E1. rewrite E1 in AN. exact AN.
Qed.
