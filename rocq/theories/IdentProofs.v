(** Lemmas about identifiers. *)
From Verif Require Import Base IdentModel IdentSpec.

(* ---- strip and the alias attribute ---- *)

Lemma lstrip_decomp : forall s, exists sp, s = sp ++ lstrip s /\ blank sp.
Proof.
  induction s as [|c t IH]; simpl; [exists []; split; auto; intros c []|].
  destruct (is_space c) eqn:E.
  - destruct IH as (sp & E1 & B). exists (c :: sp). split; [simpl; congruence|]. intros x [<-|I]; auto.
  - exists []. split; auto. intros x [].
Qed.

Lemma lstrip_head : forall s c t, lstrip s = c :: t -> is_space c = false.
Proof.
  induction s as [|x s IH]; simpl; intros c t H; [discriminate|]. destruct (is_space x) eqn:E; eauto. congruence.
Qed.

Lemma lstrip_blank : forall sp s, blank sp -> lstrip (sp ++ s) = lstrip s.
Proof.
  induction sp as [|c t IH]; simpl; intros s B; auto. rewrite (B c) by (left; auto). apply IH. intros x I. apply B. right; auto.
Qed.

Lemma lstrip_id : forall s, (forall c t, s = c :: t -> is_space c = false) -> lstrip s = s.
Proof. intros [|c t] H; auto. simpl. now rewrite (H c t). Qed.

Lemma blank_rev : forall s, blank s -> blank (rev s).
Proof. intros s B c I. apply B. now apply in_rev. Qed.

Lemma strip_decomp : forall s, exists sp1 sp2, s = sp1 ++ strip s ++ sp2 /\ blank sp1 /\ blank sp2.
Proof.
  intros s. destruct (lstrip_decomp s) as (sp1 & E1 & B1). destruct (lstrip_decomp (rev (lstrip s))) as (sp2 & E2 & B2).
  exists sp1, (rev sp2). repeat split; auto using blank_rev. rewrite E1 at 1. f_equal.
  rewrite <- (rev_involutive (lstrip s)) at 1. rewrite E2 at 1. rewrite rev_app_distr. reflexivity.
Qed.

Lemma strip_last : forall s t c, strip s = t ++ [c] -> is_space c = false.
Proof.
  intros s t c H. unfold strip in H. apply (f_equal (@rev ascii)) in H. rewrite rev_involutive, rev_app_distr in H.
  simpl in H. eapply lstrip_head; eauto.
Qed.

Lemma strip_first : forall s c t, strip s = c :: t -> is_space c = false.
Proof.
  intros s c t H. destruct (lstrip_decomp (rev (lstrip s))) as (sp & E & _).
  apply (f_equal (@rev ascii)) in E. rewrite rev_involutive, rev_app_distr in E.
  fold (strip s) in E. rewrite H in E. simpl in E. eapply lstrip_head; eauto.
Qed.

Lemma strip_unique : forall sp1 a sp2, blank sp1 -> blank sp2 ->
  (forall c t, a = c :: t -> is_space c = false) -> (forall c t, a = t ++ [c] -> is_space c = false) -> a <> [] ->
  strip (sp1 ++ a ++ sp2) = a.
Proof.
  intros sp1 a sp2 B1 B2 Hf Hl Hn. unfold strip. rewrite lstrip_blank by auto.
  rewrite (lstrip_id (a ++ sp2)).
  2:{ intros c t H. destruct a as [|x a']; [congruence|]. simpl in H. injection H as -> _. eauto. }
  rewrite rev_app_distr, lstrip_blank by (now apply blank_rev). rewrite lstrip_id, rev_involutive; auto.
  intros c t H. apply (Hl c (rev t)). rewrite <- (rev_involutive a), H. reflexivity.
Qed.

Lemma split_on_In : forall c s p, In p (split_on c s) -> ~ In c p.
Proof. exact split_on_no_sep. Qed.

Lemma split_on_app : forall c a b, split_on c (a ++ c :: b) = split_on c a ++ split_on c b.
Proof.
  intros c. induction a as [|x a IH]; simpl; intros b; [now rewrite Ascii.eqb_refl|].
  destruct (Ascii.eqb x c); [now rewrite IH|]. rewrite IH.
  pose proof (split_on_nonnil c a). destruct (split_on c a); [congruence|]. reflexivity.
Qed.

(** The pieces of a split are the maximal comma-free parts. *)
Lemma split_on_pieces : forall c s p, In p (split_on c s) <->
  exists pre post, s = pre ++ p ++ post /\ (pre = [] \/ exists q, pre = q ++ [c]) /\ (post = [] \/ exists q, post = c :: q) /\ ~ In c p.
Proof.
  intros c s p. split.
  - intros I. pose proof (split_on_no_sep _ _ _ I) as N. rewrite <- (join_split c s). revert I. generalize (split_on c s) as l.
    induction l as [|h l IH]; intros I; [destruct I|]. destruct l as [|h2 l].
    + destruct I as [<-|[]]. exists [], []. simpl. rewrite app_nil_r. repeat split; auto.
    + change (join_with c (h :: h2 :: l)) with (h ++ c :: join_with c (h2 :: l)). destruct I as [<-|I].
      * exists [], (c :: join_with c (h2 :: l)). simpl. repeat split; eauto.
      * destruct (IH I) as (pre & post & -> & P1 & P2 & _). exists (h ++ c :: pre), post.
        rewrite <- app_assoc. repeat split; auto. right.
        destruct P1 as [->|(q & ->)]; [exists h; auto|exists (h ++ c :: q); now rewrite <- app_assoc].
  - intros (pre & post & -> & P1 & P2 & N).
    assert (G : In p (split_on c (p ++ post))).
    { destruct P2 as [->|(q & ->)]; [rewrite app_nil_r, split_on_single by auto; left; auto|].
      rewrite split_on_app_sep by auto. left; auto. }
    destruct P1 as [->|(q & ->)]; auto. rewrite <- app_assoc. simpl. rewrite split_on_app, in_app_iff. auto.
Qed.

Lemma alias_list_spec : forall attr a, In a (alias_list attr) <-> listed attr a.
Proof.
  intros attr a. unfold alias_list. rewrite in_map_iff. split.
  - intros (p & <- & I). apply filter_In in I as [I Hn]. pose proof (split_on_In _ _ _ I) as Hc.
    apply split_on_pieces in I as (pre & post & E & E1 & E2 & _). destruct (strip_decomp p) as (sp1 & sp2 & Ep & B1 & B2).
    exists pre, sp1, sp2, post. repeat split; auto.
    + rewrite E. rewrite Ep at 1. now rewrite <- !app_assoc.
    + now rewrite <- Ep.
    + intros H. rewrite H in Hn. discriminate.
    + apply strip_first.
    + intros c t. apply strip_last.
  - intros (pre & sp1 & sp2 & post & E & B1 & B2 & P1 & P2 & Nc & Na & Hf & Hl).
    exists (sp1 ++ a ++ sp2). pose proof (strip_unique sp1 a sp2 B1 B2 Hf Hl Na) as Es. split; auto.
    apply filter_In. rewrite Es. split; [|destruct a; auto; congruence].
    apply split_on_pieces. exists pre, post. repeat split; auto. rewrite E. now rewrite <- !app_assoc.
Qed.

(* ---- the dictionary of values ---- *)

Definition val_of (e : int_element) := (ie_value e, ie_descr e, alias_list (ie_alias e)).
Definition entries (es : list int_element) : list (str * (Z * str * list str)) :=
  concat (map (fun e => map (fun n => (n, val_of e)) (names_of e)) es).

Lemma aset_app {V} : forall (m : list (str * V)) k v, ~ In k (akeys m) -> aset k v m = m ++ [(k, v)].
Proof.
  induction m as [|[k' v'] t IH]; simpl; intros k v H; auto.
  destruct (str_eqb k k') eqn:E; [apply str_eqb_eq in E; subst; exfalso; auto|]. f_equal. apply IH. auto.
Qed.

Lemma aset_keys_in {V} : forall (m : list (str * V)) k v, In k (akeys m) -> akeys (aset k v m) = akeys m.
Proof.
  induction m as [|[k' v'] t IH]; simpl; intros k v H; [tauto|].
  destruct (str_eqb k k') eqn:E; simpl; auto. f_equal. apply IH. destruct H; auto. subst. now rewrite str_eqb_refl in E.
Qed.

Lemma NoDup_snoc {A} : forall (l : list A) x, NoDup l -> ~ In x l -> NoDup (l ++ [x]).
Proof.
  induction l as [|y l IH]; simpl; intros x N H; [constructor; auto|]. inversion N; subst. constructor.
  - rewrite in_app_iff. intros [I|[<-|[]]]; auto.
  - apply IH; auto.
Qed.

Lemma aset_NoDup {V} : forall (m : list (str * V)) k v, NoDup (akeys m) -> NoDup (akeys (aset k v m)).
Proof.
  intros m k v N. destruct (in_dec str_dec k (akeys m)) as [I|I].
  - now rewrite aset_keys_in.
  - rewrite aset_app by auto. unfold akeys in *. rewrite map_app. simpl. apply NoDup_snoc; auto.
Qed.

Lemma fold_aset_app {V} : forall ks (v : V) m, NoDup ks -> (forall k, In k ks -> ~ In k (akeys m)) ->
  fold_left (fun d a => aset a v d) ks m = m ++ map (fun k => (k, v)) ks.
Proof.
  induction ks as [|k ks IH]; simpl; intros v m N H; [now rewrite app_nil_r|]. inversion N; subst.
  rewrite aset_app by auto. rewrite IH; auto.
  - now rewrite <- app_assoc.
  - intros k' I J. unfold akeys in J. rewrite map_app, in_app_iff in J. simpl in J. destruct J as [J|[->|[]]]; auto. apply (H k'); auto.
Qed.

Lemma NoDup_app_l {A} : forall a b : list A, NoDup (a ++ b) -> NoDup a.
Proof. induction a as [|x a IH]; simpl; intros b N; [constructor|]. inversion N; subst. constructor; [|eauto]. intros I. apply H1. rewrite in_app_iff. auto. Qed.
Lemma NoDup_app_r {A} : forall a b : list A, NoDup (a ++ b) -> NoDup b.
Proof. induction a as [|x a IH]; simpl; intros b N; auto. inversion N; subst; auto. Qed.
Lemma NoDup_app_disj {A} : forall (a b : list A) x, NoDup (a ++ b) -> In x a -> In x b -> False.
Proof. induction a as [|y a IH]; simpl; intros b x N I J; [tauto|]. inversion N; subst. destruct I as [->|I]; eauto. apply H1. rewrite in_app_iff. auto. Qed.

Lemma entries_keys : forall es, akeys (entries es) = concat (map names_of es).
Proof.
  unfold entries, akeys. induction es as [|e es IH]; auto. cbn [map concat]. rewrite map_app, IH. f_equal. rewrite map_map. apply map_id.
Qed.

Lemma add_element_app : forall d e, NoDup (akeys d ++ names_of e) -> add_element d e = d ++ map (fun n => (n, val_of e)) (names_of e).
Proof.
  intros d e N. unfold add_element.
  assert (E : fold_left (fun d a => aset a (val_of e) d) (names_of e) d = d ++ map (fun n => (n, val_of e)) (names_of e)).
  { apply fold_aset_app; [eapply NoDup_app_r; eauto|]. intros k I J. eapply NoDup_app_disj; eauto. }
  exact E.
Qed.

Lemma enum_values_distinct : forall es, NoDup (concat (map names_of es)) -> enum_values es = entries es.
Proof.
  unfold enum_values. intros es N.
  assert (G : forall es d, NoDup (akeys d ++ concat (map names_of es)) -> fold_left add_element es d = d ++ entries es).
  { clear. induction es as [|e es IH]; cbn [map concat fold_left]; intros d N; [unfold entries; simpl; now rewrite app_nil_r|].
    rewrite app_assoc in N. rewrite add_element_app by (eapply NoDup_app_l; eauto).
    rewrite IH; [unfold entries; cbn [map concat]; now rewrite <- app_assoc|].
    unfold akeys in *. rewrite map_app, map_map. simpl. rewrite map_id. exact N. }
  rewrite G; auto.
Qed.

Lemma aset_In {V} : forall (m : list (str * V)) k v x, In x (aset k v m) -> x = (k, v) \/ In x m.
Proof.
  induction m as [|[k' v'] t IH]; simpl; intros k v x H; [destruct H as [<-|[]]; auto|].
  destruct (str_eqb k k') eqn:E; simpl in H.
  - apply str_eqb_eq in E; subst. destruct H as [<-|H]; auto.
  - destruct H as [<-|H]; auto. apply IH in H as [->|H]; auto.
Qed.

Lemma fold_aset_In {V} : forall ks (v : V) m x, In x (fold_left (fun d a => aset a v d) ks m) -> (exists k, In k ks /\ x = (k, v)) \/ In x m.
Proof.
  induction ks as [|k ks IH]; simpl; intros v m x H; auto. apply IH in H as [(k' & I & ->)|H]; [eauto|].
  apply aset_In in H as [->|H]; eauto.
Qed.

Lemma enum_values_from : forall es k v, In (k, v) (enum_values es) -> exists e, In e es /\ In k (names_of e) /\ v = val_of e.
Proof.
  unfold enum_values. intros es k v.
  assert (G : forall es d, In (k, v) (fold_left add_element es d) -> (exists e, In e es /\ In k (names_of e) /\ v = val_of e) \/ In (k, v) d).
  { clear. induction es as [|e es IH]; simpl; intros d H; auto. apply IH in H as [(e' & I & H)|H]; [left; exists e'; auto|].
    unfold add_element in H. apply fold_aset_In in H as [(k' & I & E)|H].
    - injection E as -> ->. left. exists e. split; [auto|]. split; [right; auto|reflexivity].
    - apply aset_In in H as [E|H]; auto. injection E as -> ->. left. exists e. split; [auto|]. split; [left; auto|reflexivity]. }
  intros H. apply G in H as [H|[]]; auto.
Qed.

Lemma enum_values_NoDup : forall es, NoDup (akeys (enum_values es)).
Proof.
  unfold enum_values. intros es.
  assert (F : forall ks (v : Z * str * list str) m, NoDup (akeys m) -> NoDup (akeys (fold_left (fun d a => aset a v d) ks m))).
  { induction ks as [|k ks IH]; simpl; intros v m N; auto using aset_NoDup. }
  assert (G : forall es d, NoDup (akeys d) -> NoDup (akeys (fold_left add_element es d))).
  { induction es0 as [|e es0 IH]; simpl; intros d N; auto. apply IH. unfold add_element. apply F. now apply aset_NoDup. }
  apply G. constructor.
Qed.

(* ---- creation of the members ---- *)

Record inv (id : nat) (done : list (str * (Z * str * list str))) (en : enum) : Prop := {
  i_id : en_id en = id;
  i_enum : forall m, In m (en_members en) -> mb_enum m = id;
  i_key : forall m, In m (en_members en) -> nth_error (en_members en) (mb_key m) = Some m;
  i_idx : NoDup (map mb_index (en_members en));
  i_keys : akeys (en_map en) = akeys done;
  i_map : forall k m, In (k, m) (en_map en) -> In m (en_members en) /\ exists d al, In (k, (mb_index m, d, al)) done;
  i_mem : forall m, In m (en_members en) -> exists p q, done = p ++ (mb_name m, (mb_index m, mb_descr m, mb_aliases m)) :: q /\
            (forall k d al, ~ In (k, (mb_index m, d, al)) p);
  i_all : forall k z d al, In (k, (z, d, al)) done -> exists m, In m (en_members en) /\ mb_index m = z
}.

Lemma by_value_Some : forall ms z m, by_value ms z = Some m -> In m ms /\ mb_index m = z.
Proof. intros ms z m H. unfold by_value in H. apply find_some in H as [I E]. apply Z.eqb_eq in E. auto. Qed.

Lemma by_value_None : forall ms z, by_value ms z = None -> forall m, In m ms -> mb_index m <> z.
Proof. intros ms z H m I E. unfold by_value in H. apply (find_none _ _ H) in I. apply Z.eqb_neq in I. auto. Qed.

Lemma inv_step : forall id done en kv, inv id done en -> inv id (done ++ [kv]) (add_name en kv).
Proof.
  intros id done en [k [[z d] al]] [A1 A2 A3 A4 A5 A6 A7 A8]. unfold add_name.
  destruct (by_value (en_members en) z) as [m0|] eqn:B.
  - apply by_value_Some in B as [I0 E0]. constructor; cbn [en_id en_members en_map]; auto.
    + unfold akeys in *. now rewrite !map_app, A5.
    + intros k' m I. apply in_app_iff in I as [I|[I|[]]].
      * apply A6 in I as [I (d' & al' & J)]. split; auto. exists d', al'. rewrite in_app_iff; auto.
      * injection I as <- <-. split; auto. exists d, al. rewrite E0, in_app_iff. right; left; auto.
    + intros m I. destruct (A7 m I) as (p & q & E & N). exists p, (q ++ [(k, (z, d, al))]). split; auto. rewrite E, <- app_assoc. reflexivity.
    + intros k' z' d' al' I. apply in_app_iff in I as [I|[I|[]]]; eauto. injection I as <- <- <- <-. eauto.
  - pose proof (by_value_None _ _ B) as Bn. set (mm := Build_member _ _ _ _ _ _). constructor; cbn [en_id en_members en_map]; auto.
    + intros m I. apply in_app_iff in I as [I|[<-|[]]]; auto.
    + intros m I. apply in_app_iff in I as [I|[<-|[]]].
      * rewrite nth_error_app1; auto. apply nth_error_Some. rewrite A3; auto. discriminate.
      * unfold mm; simpl. rewrite nth_error_app2, Nat.sub_diag; auto.
    + rewrite map_app. simpl. apply NoDup_snoc; auto. intros I. apply in_map_iff in I as (m & E & I). apply (Bn m I E).
    + unfold akeys in *. now rewrite !map_app, A5.
    + intros k' m I. apply in_app_iff in I as [I|[I|[]]].
      * apply A6 in I as [I (d' & al' & J)]. split; [rewrite in_app_iff; auto|]. exists d', al'. rewrite in_app_iff; auto.
      * injection I as <- <-. split; [rewrite in_app_iff; right; left; auto|]. exists d, al. rewrite in_app_iff. right; left; auto.
    + intros m I. apply in_app_iff in I as [I|[<-|[]]].
      * destruct (A7 m I) as (p & q & E & N). exists p, (q ++ [(k, (z, d, al))]). split; auto. rewrite E, <- app_assoc. reflexivity.
      * exists done, []. split; auto. intros k' d' al' I. apply A8 in I as (m & I & E). exact (Bn m I E).
    + intros k' z' d' al' I. apply in_app_iff in I as [I|[I|[]]].
      * apply A8 in I as (m & I & E). exists m. rewrite in_app_iff; auto.
      * injection I as <- <- <- <-. exists mm. rewrite in_app_iff. split; [right; left|]; auto.
Qed.

Lemma from_xml_inv : forall id es, inv id (enum_values es) (from_xml id es).
Proof.
  intros id es. unfold from_xml.
  assert (G : forall l done en, inv id done en -> inv id (done ++ l) (fold_left add_name l en)).
  { induction l as [|kv l IH]; simpl; intros done en H; [now rewrite app_nil_r|].
    replace (done ++ kv :: l) with ((done ++ [kv]) ++ l) by (now rewrite <- app_assoc). apply IH. now apply inv_step. }
  apply (G (enum_values es) []). constructor; simpl; auto; try tauto. constructor.
Qed.

Lemma NoDup_map_inj {A B} (f : A -> B) : forall l, NoDup (map f l) -> forall a b, In a l -> In b l -> f a = f b -> a = b.
Proof.
  induction l as [|x l IH]; simpl; intros N a b Ia Ib E; [tauto|]. inversion N; subst.
  destruct Ia as [<-|Ia], Ib as [<-|Ib]; auto.
  - exfalso. apply H1. rewrite E. now apply in_map.
  - exfalso. apply H1. rewrite <- E. now apply in_map.
Qed.

(** The member that an element of a distinct definition creates. *)
Lemma member_of : forall id es e, distinct_defs es -> In e es -> exists m, In m (en_members (from_xml id es)) /\
  mb_name m = ie_name e /\ mb_index m = ie_value e /\ mb_descr m = ie_descr e /\ mb_aliases m = alias_list (ie_alias e) /\
  (forall n, In n (names_of e) -> alookup n (en_map (from_xml id es)) = Some m).
Proof.
  intros id es e [Nv Nn] I. pose proof (from_xml_inv id es) as Hi. pose proof (enum_values_distinct es Nn) as Ev. rewrite Ev in Hi.
  destruct Hi as [A1 A2 A3 A4 A5 A6 A7 A8].
  assert (Ein : forall n, In n (names_of e) -> In (n, val_of e) (entries es)).
  { intros n J. unfold entries. apply in_concat. eexists. split; [apply in_map_iff; exists e; split; [reflexivity|auto]|].
    apply in_map_iff. eauto. }
  destruct (A8 (ie_name e) (ie_value e) (ie_descr e) (alias_list (ie_alias e))) as (m & Im & Em); [apply Ein; left; auto|].
  exists m. split; auto.
  (* the first entry with the index of e is the one with its name *)
  destruct (A7 m Im) as (p & q & Ed & Np).
  assert (Hfrom : forall es' k v, In (k, v) (entries es') -> exists e', In e' es' /\ In k (names_of e') /\ v = val_of e').
  { intros es' k v J. unfold entries in J. apply in_concat in J as (l & J & K). apply in_map_iff in J as (e' & <- & J).
    apply in_map_iff in K as (n & E & K). injection E as <- <-. eauto. }
  assert (Hfirst : exists p' q', entries es = p' ++ (ie_name e, val_of e) :: q' /\ (forall k d al, ~ In (k, (ie_value e, d, al)) p')).
  { apply in_split in I as (l1 & l2 & ->). exists (entries l1).
    eexists. split.
    - unfold entries. rewrite map_app, concat_app. cbn [map concat names_of]. reflexivity.
    - intros k d al J. apply Hfrom in J as (e' & J & _ & Ev'). injection Ev' as Ev' _ _.
      rewrite map_app in Nv. simpl in Nv. apply (NoDup_app_disj (map ie_value l1) (ie_value e :: map ie_value l2) (ie_value e) Nv); [|left; auto].
      rewrite Ev'. now apply in_map. }
  destruct Hfirst as (p' & q' & Ed' & Np').
  assert (Hu : forall (P : str * (Z * str * list str) -> Prop) a x b c y d, a ++ x :: b = c ++ y :: d -> P x -> P y -> (forall z, In z a -> ~ P z) -> (forall z, In z c -> ~ P z) -> x = y).
  { clear. intros P. induction a as [|h a IH]; intros x b [|h' c] y d H Px Py Na Nc; simpl in H; injection H as H1 H2; auto.
    - subst. exfalso. apply (Nc h'); [left; auto|auto].
    - subst. exfalso. apply (Na y); [left; auto|auto].
    - apply (IH x b c y d); auto; intros z J; [apply Na|apply Nc]; right; auto. }
  assert (Hx : (mb_name m, (mb_index m, mb_descr m, mb_aliases m)) = (ie_name e, val_of e)).
  { rewrite Ed' in Ed. symmetry. apply (Hu (fun x => fst (fst (snd x)) = ie_value e) p' _ q' p _ q); auto.
    - intros [k [[z d] al]] J E. simpl in E. subst. exact (Np' k d al J).
    - intros [k [[z d] al]] J E. simpl in E. subst. apply (Np k d al). rewrite Em. exact J. }
  unfold val_of in Hx. injection Hx as E1 E2 E3 E4. repeat split; auto.
  intros n J. specialize (Ein n J).
  assert (Nk : NoDup (akeys (en_map (from_xml id es)))) by (rewrite A5, entries_keys; auto).
  apply alookup_NoDup_In; auto.
  assert (K : In n (akeys (en_map (from_xml id es)))).
  { rewrite A5. unfold akeys. apply in_map_iff. exists (n, val_of e). auto. }
  unfold akeys in K. apply in_map_iff in K as ([n' m'] & E & K). simpl in E. subst n'.
  destruct (A6 _ _ K) as [Im' (d & al & Jd)]. assert (Ev2 : (mb_index m', d, al) = val_of e).
  { assert (Nd : NoDup (akeys (entries es))) by (rewrite entries_keys; auto).
    apply (alookup_NoDup_In _ _ _ Nd) in Jd. apply (alookup_NoDup_In _ _ _ Nd) in Ein. congruence. }
  injection Ev2 as Ev2 _ _. assert (m' = m) by (apply (NoDup_map_inj mb_index _ A4); auto; congruence). subst. exact K.
Qed.

(* ---- assignment ---- *)

Lemma set_field_ok : forall s k v old, alookup k s = Some old ->
  match old, v with FStr _, FStr _ | FInt _, FInt _ => True | _, _ => False end -> set_field false s k v = (aset k v s, Ok tt).
Proof. intros s k v old H C. unfold set_field. rewrite H. destruct old, v; tauto. Qed.

Lemma assign_ok : forall en s a m, identifier_struct s -> lookup_arg en a = Ok m ->
  exists s', assign_identifier false (Some en) s a = (s', Ok tt) /\ reads s' (mb_name m) (mb_index m) (mb_descr m) /\ others_same s s'.
Proof.
  intros en s a m ((n & En) & (i & Ei) & (d & Ed)) L. unfold assign_identifier. rewrite L.
  rewrite (set_field_ok s _ (FStr (mb_name m)) _ En I). rewrite (set_field_ok _ (strs "index") _ (FInt i)).
  2:{ rewrite alookup_aset_other; auto. discriminate. } 2:exact I.
  rewrite (set_field_ok _ (strs "description") _ (FStr d)).
  2:{ rewrite !alookup_aset_other; auto; discriminate. } 2:exact I.
  eexists. split; [reflexivity|]. unfold reads, others_same. split.
  - rewrite !alookup_aset_same. repeat split.
    + rewrite alookup_aset_other by discriminate. rewrite alookup_aset_other by discriminate. apply alookup_aset_same.
    + rewrite alookup_aset_other by discriminate. apply alookup_aset_same.
  - intros k H1 H2 H3. rewrite !alookup_aset_other; auto.
Qed.

Lemma assign_err : forall lz oen s a e, match oen with None => True | Some en => lookup_arg en a = Err e end ->
  exists e', assign_identifier lz oen s a = (s, Err e').
Proof. intros lz [en|] s a e H; unfold assign_identifier; [rewrite H|]; eauto. Qed.
