(** Property theorems about occurrences in netCDF files (C39). *)
From Coq Require Import Sorted Permutation ZifyBool.
From Verif Require Import Base IdentModel IdentSpec IdentProofs NcEntryModel.

(* ---- specification ---- *)

(** The call addresses occurrence [z] of IDS [name] with the DD version of the file. *)
Definition addresses {C} (ver name : str) (z : Z) (p : call C) : Prop := p_version _ p = ver /\ p_name _ p = name /\ p_occ _ p = z.
(** The first such call of a sequence. *)
Definition first_call {C} (ver name : str) (z : Z) (ps : list (call C)) (p : call C) : Prop :=
  exists l1 l2, ps = l1 ++ p :: l2 /\ addresses ver name z p /\ forall q, In q l1 -> ~ addresses ver name z q.
Definition increasing (l : list Z) : Prop := StronglySorted Z.lt l.

(* ---- decimal notation ---- *)

Lemma digit_not_space : forall c, is_digit c = true -> is_space c = false.
Proof. intros [[] [] [] [] [] [] [] []]; vm_compute; congruence. Qed.
Lemma digit_not_sign : forall c, is_digit c = true -> Ascii.eqb c "-" = false /\ Ascii.eqb c "+" = false /\ Ascii.eqb c "_" = false.
Proof. intros [[] [] [] [] [] [] [] []]; vm_compute; intuition congruence. Qed.

Lemma strip_id : forall s, (forall c, In c s -> is_space c = false) -> strip s = s.
Proof.
  intros s H. destruct s as [|c t] eqn:E; [reflexivity|]. rewrite <- E in *.
  assert (G : strip ([] ++ s ++ []) = s).
  { apply strip_unique.
    - intros x [].
    - intros x [].
    - intros x u Es. apply H. rewrite Es. left; auto.
    - intros x u Es. apply H. rewrite Es, in_app_iff. right; left; auto.
    - congruence. }
  simpl in G. now rewrite app_nil_r in G.
Qed.

Lemma int_digits_id : forall s, s <> [] -> forallb is_digit s = true -> int_digits s = Some s.
Proof.
  induction s as [|c t IH]; intros Hn H; [congruence|]. cbn [forallb] in H. apply andb_true_iff in H as [Hc Ht].
  cbn [int_digits]. rewrite Hc. destruct t as [|u t']; auto.
  assert (Hu : is_digit u = true) by (cbn [forallb] in Ht; now apply andb_true_iff in Ht).
  destruct (digit_not_sign u Hu) as (_ & _ & ->). rewrite IH; auto. congruence.
Qed.

Lemma int_unsigned_show : forall n, int_unsigned (show_N n) = Some (Z.of_N n).
Proof.
  intros n. unfold int_unsigned. rewrite int_digits_id; [|apply show_N_nonnil|apply show_N_digits]. simpl. now rewrite show_N_value.
Qed.

Lemma py_int_show : forall z, py_int (show_Z z) = Some z.
Proof.
  intros z. assert (Hd : forall c n, In c (show_N n) -> is_digit c = true).
  { intros c n I. pose proof (show_N_digits n) as H. rewrite forallb_forall in H. auto. }
  unfold show_Z. destruct (z <? 0)%Z eqn:E; unfold py_int.
  - rewrite strip_id.
    + replace (Ascii.eqb "-" "-") with true by reflexivity. rewrite int_unsigned_show. simpl. f_equal. lia.
    + intros c [<-|I]; [reflexivity|]. eapply digit_not_space, Hd; eauto.
  - rewrite strip_id by (intros c I; eapply digit_not_space, Hd; eauto).
    pose proof (show_N_nonnil (Z.abs_N z)) as Hn. destruct (show_N (Z.abs_N z)) as [|c t] eqn:Es; [congruence|].
    destruct (digit_not_sign c) as (-> & -> & _); [eapply Hd; rewrite Es; left; auto|].
    rewrite <- Es, int_unsigned_show. f_equal. lia.
Qed.

Lemma show_Z_inj : forall a b, show_Z a = show_Z b -> a = b.
Proof. intros a b H. pose proof (py_int_show a) as A. rewrite H, py_int_show in A. congruence. Qed.

(* ---- sorting ---- *)

Lemma zinsert_perm : forall x l, Permutation (x :: l) (zinsert x l).
Proof.
  induction l as [|y t IH]; simpl; auto. destruct (x <=? y)%Z; auto. rewrite perm_swap. now constructor.
Qed.
Lemma zsort_perm : forall l, Permutation l (zsort l).
Proof. induction l as [|x t IH]; simpl; auto. rewrite <- zinsert_perm. now constructor. Qed.
Lemma zinsert_sorted : forall x l, StronglySorted Z.le l -> StronglySorted Z.le (zinsert x l).
Proof.
  induction l as [|y t IH]; simpl; intros S; [repeat constructor|]. inversion S; subst.
  destruct (x <=? y)%Z eqn:E.
  - constructor; auto. constructor; [lia|]. eapply Forall_impl; [|eauto]. simpl. intros; lia.
  - constructor; auto. apply Forall_forall. intros z I. apply (Permutation_in z (Permutation_sym (zinsert_perm x t))) in I as [<-|I]; [lia|].
    rewrite Forall_forall in H2. auto.
Qed.
Lemma zsort_sorted : forall l, StronglySorted Z.le (zsort l).
Proof. induction l as [|x t IH]; simpl; [constructor|]. now apply zinsert_sorted. Qed.
Lemma sorted_strict : forall l, StronglySorted Z.le l -> NoDup l -> increasing l.
Proof.
  induction l as [|x t IH]; intros S N; [constructor|]. inversion S; subst; inversion N; subst. constructor; [apply IH; auto|].
  apply Forall_forall. intros y I. rewrite Forall_forall in H2. specialize (H2 y I). assert (x <> y) by (intros ->; auto). lia.
Qed.

Lemma filter_map_In {A B} (f : A -> option B) : forall l b, In b (filter_map f l) <-> exists a, In a l /\ f a = Some b.
Proof.
  induction l as [|a l IH]; simpl; intros b; [split; [tauto|intros (a & [] & _)]|].
  destruct (f a) as [b'|] eqn:E; simpl; rewrite IH; split.
  - intros [<-|(x & I & H)]; eauto.
  - intros (x & [<-|I] & H); [left; congruence|eauto].
  - intros (x & I & H); eauto.
  - intros (x & [<-|I] & H); [congruence|eauto].
Qed.

(* ---- the invariant of a file written by this library ---- *)

Section Props.
Context {C : Type}.
Implicit Types (d : dataset C) (ps : list (call C)).

Definition empty_ds (ver : str) : dataset C := {| ds_version := ver; ds_groups := [] |}.

Lemma run_version : forall ps d, ds_version (run C d ps) = ds_version d.
Proof.
  unfold run. induction ps as [|p ps IH]; simpl; intros d; auto. rewrite IH. unfold do_put, put.
  destruct (negb _); auto. destruct (alookup _ _); auto.
Qed.

Lemma name_groups_put : forall d n z v c ok name,
  name_groups C (fst (put C d n z v c ok)) name =
  if str_eqb (ds_version d) v && str_eqb name n && match alookup (show_Z z) (name_groups C d n) with None => true | _ => false end
  then name_groups C d n ++ [(show_Z z, if ok then Some c else None)] else name_groups C d name.
Proof.
  intros. unfold put. destruct (str_eqb (ds_version d) v); simpl; auto.
  destruct (alookup (show_Z z) (name_groups C d n)) eqn:E; simpl; [now rewrite andb_false_r|].
  unfold name_groups at 1. simpl. rewrite alookup_aset. rewrite andb_true_r. destruct (str_eqb name n); auto.
Qed.

Lemma alookup_app {V} : forall (a b : list (str * V)) k, alookup k (a ++ b) = match alookup k a with Some v => Some v | None => alookup k b end.
Proof. induction a as [|[k' v'] t IH]; simpl; intros b k; auto. destruct (str_eqb k k'); auto. Qed.

(** Group of an occurrence after one call. *)
Lemma lookup_put : forall d p name z,
  alookup (show_Z z) (name_groups C (fst (do_put C d p)) name) =
  match alookup (show_Z z) (name_groups C d name) with
  | Some x => Some x
  | None => if str_eqb (ds_version d) (p_version _ p) && str_eqb name (p_name _ p) && (z =? p_occ _ p)%Z
            then Some (if p_writer_ok _ p then Some (p_content _ p) else None) else None
  end.
Proof.
  intros d p name z. unfold do_put. rewrite name_groups_put.
  destruct (str_eqb (ds_version d) (p_version C p)) eqn:Ev; simpl; [|destruct (alookup _ _); auto].
  destruct (str_eqb name (p_name C p)) eqn:En; simpl; [|destruct (alookup _ _); auto].
  apply str_eqb_eq in En; subst. destruct (z =? p_occ C p)%Z eqn:Ez.
  - apply Z.eqb_eq in Ez; subst. destruct (alookup (show_Z (p_occ C p)) (name_groups C d (p_name C p))) eqn:L; [now rewrite L|].
    rewrite alookup_app, L. simpl. now rewrite str_eqb_refl.
  - apply Z.eqb_neq in Ez. assert (Hn : str_eqb (show_Z z) (show_Z (p_occ C p)) = false).
    { apply str_eqb_neq. intros H. apply show_Z_inj in H. congruence. }
    destruct (alookup (show_Z (p_occ C p)) (name_groups C d (p_name C p))); [destruct (alookup _ _); auto|].
    rewrite alookup_app. simpl. rewrite Hn. destruct (alookup _ _); auto.
Qed.

Lemma addresses_b : forall ver name z (p : call C), (str_eqb ver (p_version _ p) && str_eqb name (p_name _ p) && (z =? p_occ _ p)%Z = true) <-> addresses ver name z p.
Proof.
  intros. unfold addresses. rewrite !andb_true_iff, !str_eqb_eq, Z.eqb_eq. split; [intros [[? ?] ?]|intros (? & ? & ?)]; auto.
Qed.

Lemma lookup_run : forall ps d name z, alookup (show_Z z) (name_groups C d name) = None ->
  (forall p, first_call (ds_version d) name z ps p ->
     alookup (show_Z z) (name_groups C (run C d ps) name) = Some (if p_writer_ok _ p then Some (p_content _ p) else None)) /\
  ((forall p, In p ps -> ~ addresses (ds_version d) name z p) -> alookup (show_Z z) (name_groups C (run C d ps) name) = None).
Proof.
  assert (Keep : forall ps d name z x, alookup (show_Z z) (name_groups C d name) = Some x -> alookup (show_Z z) (name_groups C (run C d ps) name) = Some x).
  { induction ps as [|p ps IH]; intros d name z x H; auto. unfold run in *. simpl. apply IH. rewrite lookup_put, H. reflexivity. }
  induction ps as [|p ps IH]; intros d name z H.
  - split; [|auto]. intros p (l1 & l2 & E & _). destruct l1; discriminate.
  - assert (Ev : ds_version (fst (do_put C d p)) = ds_version d) by (apply (run_version [p] d)).
    pose proof (lookup_put d p name z) as L. rewrite H in L.
    destruct (str_eqb (ds_version d) (p_version C p) && str_eqb name (p_name C p) && (z =? p_occ C p)%Z) eqn:A.
    + split.
      * intros q (l1 & l2 & E & Aq & N). destruct l1 as [|h l1].
        -- simpl in E. injection E as <- <-. change (run C d (p :: ps)) with (run C (fst (do_put C d p)) ps). apply Keep. exact L.
        -- simpl in E. injection E as <- ->. exfalso. apply (N p); [left; auto|]. now apply addresses_b.
      * intros N. exfalso. apply (N p); [left; auto|]. now apply addresses_b.
    + destruct (IH _ _ _ L) as [I1 I2]. rewrite Ev in *. change (run C d (p :: ps)) with (run C (fst (do_put C d p)) ps). split.
      * intros q (l1 & l2 & E & Aq & N). destruct l1 as [|h l1]; simpl in E; injection E as <- E.
        -- apply addresses_b in Aq. congruence.
        -- apply I1. exists l1, l2. repeat split; auto; [apply Aq|apply Aq|apply Aq|]. intros r I. apply N. right; auto.
      * intros N. apply I2. intros r I. apply N. right; auto.
Qed.

Lemma first_or_none : forall ver name z ps, (exists p, first_call ver name z ps p) \/ (forall p, In p ps -> ~ addresses ver name z p).
Proof.
  intros ver name z. induction ps as [|p ps IH]; [right; intros p []|].
  destruct (str_eqb ver (p_version C p) && str_eqb name (p_name C p) && (z =? p_occ C p)%Z) eqn:A.
  - left. exists p, [], ps. split; [reflexivity|]. split; [now apply addresses_b|intros q []].
  - assert (NA : ~ addresses ver name z p) by (intros H; apply addresses_b in H; congruence).
    destruct IH as [(q & l1 & l2 & -> & Aq & N)|N].
    + left. exists q, (p :: l1), l2. repeat split; auto; try apply Aq. intros r [<-|I]; auto.
    + right. intros r [<-|I]; auto.
Qed.

(** Names of all groups are decimal numbers, each once. *)
Definition own_file d : Prop := forall name, exists l, NoDup l /\ map fst (name_groups C d name) = map show_Z l.

Lemma own_put : forall d p, own_file d -> own_file (fst (do_put C d p)).
Proof.
  intros d p H name. unfold do_put. rewrite name_groups_put. destruct (_ && _) eqn:B; [|apply H].
  apply andb_true_iff in B as [B L]. destruct (alookup _ _) eqn:La; [discriminate|]. destruct (H (p_name C p)) as (l & N & E).
  exists (l ++ [p_occ C p]). rewrite !map_app, E. split; auto. apply NoDup_snoc; auto.
  intros I. apply alookup_None_keys in La. apply La. unfold akeys. rewrite E. now apply in_map.
Qed.

Lemma own_run : forall ps d, own_file d -> own_file (run C d ps).
Proof. unfold run. induction ps as [|p ps IH]; simpl; intros d H; auto. apply IH. now apply own_put. Qed.

Lemma own_list : forall d name l, NoDup l -> map fst (name_groups C d name) = map show_Z l -> list_all_occurrences C d name = zsort l.
Proof.
  intros d name l N E. unfold list_all_occurrences. f_equal. clear N. revert l E. induction (name_groups C d name) as [|[k x] g IH]; intros [|z l] E; try discriminate; auto.
  simpl in E. injection E as -> E. simpl. rewrite py_int_show. f_equal. auto.
Qed.

Lemma own_list_In : forall d name z, own_file d -> increasing (list_all_occurrences C d name) /\
  (In z (list_all_occurrences C d name) <-> alookup (show_Z z) (name_groups C d name) <> None).
Proof.
  intros d name z H. destruct (H name) as (l & N & E). rewrite (own_list d name l N E). split.
  - apply sorted_strict; [apply zsort_sorted|]. eapply Permutation_NoDup; [apply zsort_perm|auto].
  - rewrite alookup_None_keys. unfold akeys. rewrite E. split.
    + intros I J. apply J. apply in_map. eapply Permutation_in; [apply Permutation_sym, zsort_perm|auto].
    + intros J. apply Permutation_in with (l := l); [apply zsort_perm|].
      destruct (in_dec Z.eq_dec z l); auto. exfalso. apply J. intros I. apply in_map_iff in I as (y & Ey & I). apply show_Z_inj in Ey. congruence.
Qed.

Lemma own_empty : forall ver, own_file (empty_ds ver).
Proof. intros ver name. exists []. split; [constructor|reflexivity]. Qed.

(** After any sequence of puts, the list of occurrences is increasing, without repetition, and holds exactly the occurrences
    for which a put was called (with the DD version of the file; other puts are refused). *)
Theorem C39_listed : forall ver ps name z,
  increasing (list_all_occurrences C (run C (empty_ds ver) ps) name) /\
  (In z (list_all_occurrences C (run C (empty_ds ver) ps) name) <-> exists p, In p ps /\ addresses ver name z p).
Proof.
  intros ver ps name z. destruct (own_list_In (run C (empty_ds ver) ps) name z) as [S I]; [apply own_run, own_empty|].
  split; auto. rewrite I. destruct (lookup_run ps (empty_ds ver) name z eq_refl) as [L1 L2].
  destruct (first_or_none ver name z ps) as [(p & F)|N].
  - split; [|intros _; rewrite (L1 p F); discriminate]. intros _. destruct F as (l1 & l2 & -> & A & _). exists p. rewrite in_app_iff. simpl. auto.
  - split; [intros H; now rewrite (L2 N) in H|]. intros (p & J & A). exfalso. exact (N p J A).
Qed.

(** An occurrence is never overwritten: reading gives what the first put stored. *)
Theorem C39_write_once : forall ver ps name z p, (forall p, In p ps -> p_writer_ok _ p = true) ->
  first_call ver name z ps p -> get C (run C (empty_ds ver) ps) name z = Ok (p_content _ p).
Proof.
  intros ver ps name z p W F. destruct (lookup_run ps (empty_ds ver) name z eq_refl) as [L1 _]. unfold get. rewrite (L1 p F).
  destruct F as (l1 & l2 & -> & _). rewrite (W p) by (rewrite in_app_iff; simpl; auto). reflexivity.
Qed.

(** Without failures of the writer: listed iff it can be read. *)
Theorem C39_listed_iff_stored : forall ver ps name z, (forall p, In p ps -> p_writer_ok _ p = true) ->
  (In z (list_all_occurrences C (run C (empty_ds ver) ps) name) <-> exists c, get C (run C (empty_ds ver) ps) name z = Ok c).
Proof.
  intros ver ps name z W. destruct (first_or_none ver name z ps) as [(p & F)|N].
  - split; [eauto using C39_write_once|]. intros _. apply C39_listed. destruct F as (l1 & l2 & -> & A & _). exists p. rewrite in_app_iff. simpl. auto.
  - destruct (lookup_run ps (empty_ds ver) name z eq_refl) as [_ L2]. split.
    + intros I. apply C39_listed in I as (p & I & A). exfalso. exact (N p I A).
    + intros (c & G). unfold get in G. rewrite (L2 N) in G. discriminate.
Qed.

(** A put to a stored occurrence, or with another DD version, is refused and changes nothing, in whatever file. *)
Theorem C39_refused : forall d p, (In (p_occ _ p) (list_all_occurrences C d (p_name _ p)) /\ own_file d \/ p_version _ p <> ds_version d) ->
  do_put C d p = (d, Err RuntimeErr).
Proof.
  intros d p H. unfold do_put, put. destruct (str_eqb (ds_version d) (p_version C p)) eqn:E; auto. simpl. apply str_eqb_eq in E.
  destruct H as [[I O]|H]; [|congruence]. apply (own_list_In d (p_name C p) (p_occ C p) O) in I. destruct (alookup _ _); congruence.
Qed.

(** Every file, also one with groups that this library did not write: the list is the sorted list of the group names that are
    integers. *)
Theorem C39_any_file : forall d name, StronglySorted Z.le (list_all_occurrences C d name) /\
  forall z, In z (list_all_occurrences C d name) <-> exists k x, In (k, x) (name_groups C d name) /\ py_int k = Some z.
Proof.
  intros d name. split; [apply zsort_sorted|]. intros z. unfold list_all_occurrences. split.
  - intros I. apply (Permutation_in z (Permutation_sym (zsort_perm _))) in I. apply filter_map_In in I as ([k x] & I & E). eauto.
  - intros (k & x & I & E). apply (Permutation_in z (zsort_perm _)). apply filter_map_In. exists (k, x). auto.
Qed.
End Props.
Print Assumptions C39_listed.
Print Assumptions C39_write_once.
Print Assumptions C39_listed_iff_stored.
Print Assumptions C39_refused.
Print Assumptions C39_any_file.

Definition mk (n : string) (z : Z) (c : nat) (ok : bool) : call nat :=
  {| p_name := n; p_occ := z; p_version := strs "4.0.0"; p_content := c; p_writer_ok := ok |}.
Definition d0 := run nat (empty_ds (strs "4.0.0")) [mk "wall" 10 1 true; mk "wall" 2 5 true; mk "equilibrium" 0 3 true; mk "wall" 2 4 true].
Example ex_listed : list_all_occurrences nat d0 (strs "wall") = [2%Z; 10%Z] /\ get nat d0 (strs "wall") 2 = Ok 5 /\ get nat d0 (strs "wall") 0 = Err DataEntryExc.
Proof. vm_compute. auto. Qed.

(** A put that fails while writing leaves its occurrence behind: it is listed although nothing was stored completely, and the same
    occurrence cannot be put again. *)
Theorem C39_failed_put_refuted : exists d p q, do_put nat d p = (fst (do_put nat d p), Err WriterErr) /\
  In (p_occ _ p) (list_all_occurrences nat (fst (do_put nat d p)) (p_name _ p)) /\
  p_writer_ok _ q = true /\ p_occ _ q = p_occ _ p /\ p_name _ q = p_name _ p /\
  snd (do_put nat d q) = Ok tt /\ snd (do_put nat (fst (do_put nat d p)) q) = Err RuntimeErr.
Proof. exists (empty_ds (strs "4.0.0")), (mk "wall" 0 1 false), (mk "wall" 0 1 true). vm_compute. intuition. Qed.
Print Assumptions C39_failed_put_refuted.
