(** Property theorems about usage statistics (C44) and path search (C45). *)
From Coq Require Import Sorted Permutation ZifyBool.
From Verif Require Import Base TreeModel HashModel HashProofs2 HashProofs3 AnalysisModel.

(* ---- specification ---- *)

Definition named (n : str) (i : ids_info) : bool := str_eqb (ii_name i) n.
Definition fills (p : str) (i : ids_info) : bool := existsb (str_eqb p) (ii_filled i).
(** Number of entries that have the IDS, number of entries that have it with the path filled in some occurrence. *)
Definition entries_with (n : str) (es : list entry) : nat := length (filter (existsb (named n)) es).
Definition entries_filling (n p : str) (es : list entry) : nat := length (filter (existsb (fun i => named n i && fills p i)) es).
(** The same for occurrences. *)
Definition occurrences (n : str) (es : list entry) : list ids_info := filter (named n) (concat es).
Definition occurrences_filling (n p : str) (es : list entry) : nat := length (filter (fills p) (occurrences n es)).
(** No path is listed twice for one occurrence. *)
Definition no_repeats (es : list entry) : Prop := forall e i, In e es -> In i e -> NoDup (ii_filled i).

(* ---- counters ---- *)

Fixpoint times (p : str) (l : list str) : nat := match l with [] => 0 | x :: t => (if str_eqb p x then 1 else 0) + times p t end.

Lemma count_update : forall ps c p, count_of (counter_update c ps) p = count_of c p + times p ps.
Proof.
  unfold counter_update. induction ps as [|x ps IH]; simpl; intros c p; [lia|]. rewrite IH. unfold count_of at 1. rewrite alookup_aset.
  destruct (str_eqb p x) eqn:E; [apply str_eqb_eq in E; subst; lia|]. fold (count_of c p). lia.
Qed.

Lemma keys_update : forall ps c p, In p (akeys (counter_update c ps)) <-> In p (akeys c) \/ In p ps.
Proof.
  unfold counter_update. induction ps as [|x ps IH]; simpl; intros c p; [tauto|]. rewrite IH, akeys_aset_In. intuition.
Qed.

Lemma aset_keys_same {V} : forall (m : list (str * V)) k v, In k (akeys m) -> akeys (aset k v m) = akeys m.
Proof.
  induction m as [|[k' v'] t IH]; simpl; intros k v H; [tauto|]. destruct (str_eqb k k') eqn:E; simpl; auto.
  f_equal. apply IH. destruct H; auto. subst. now rewrite str_eqb_refl in E.
Qed.
Lemma aset_keys_new {V} : forall (m : list (str * V)) k v, ~ In k (akeys m) -> akeys (aset k v m) = akeys m ++ [k].
Proof.
  induction m as [|[k' v'] t IH]; simpl; intros k v H; auto. destruct (str_eqb k k') eqn:E; simpl.
  - apply str_eqb_eq in E; subst. exfalso; auto.
  - f_equal. apply IH. auto.
Qed.
Lemma NoDup_snoc {A} : forall (l : list A) x, NoDup l -> ~ In x l -> NoDup (l ++ [x]).
Proof.
  induction l as [|y l IH]; simpl; intros x N H; [constructor; auto|]. inversion N; subst. constructor; [|apply IH; auto].
  rewrite in_app_iff. intros [I|[<-|[]]]; auto.
Qed.
Lemma aset_keys_NoDup {V} : forall (m : list (str * V)) k v, NoDup (akeys m) -> NoDup (akeys (aset k v m)).
Proof.
  intros m k v N. destruct (in_dec str_dec k (akeys m)); [rewrite aset_keys_same|rewrite aset_keys_new]; auto using NoDup_snoc.
Qed.
Lemma counter_NoDup : forall ps c, NoDup (akeys c) -> NoDup (akeys (counter_update c ps)).
Proof. unfold counter_update. induction ps as [|x ps IH]; simpl; intros c N; auto. apply IH. now apply aset_keys_NoDup. Qed.

Lemma times_In : forall p l, In p l <-> times p l <> 0.
Proof.
  induction l as [|x l IH]; simpl; [intuition|]. destruct (str_eqb p x) eqn:E.
  - apply str_eqb_eq in E; subst. split; auto.
  - apply str_eqb_neq in E. rewrite <- IH. split; auto. intros [H|H]; congruence.
Qed.
Lemma times_NoDup : forall p l, NoDup l -> times p l = if existsb (str_eqb p) l then 1 else 0.
Proof.
  induction l as [|x l IH]; intros N; auto. inversion N; subst. simpl. rewrite IH by auto. destruct (str_eqb p x) eqn:E; simpl; auto.
  apply str_eqb_eq in E; subst. destruct (existsb (str_eqb x) l) eqn:X; auto.
  apply existsb_exists in X as (y & I & Y). apply str_eqb_eq in Y; subst. tauto.
Qed.

(* ---- usages ---- *)

Definition nocc (u : usages) (n : str) : nat := num_occurrences (usage_of u n).
Definition cnt (u : usages) (n p : str) : nat := count_of (path_counter (usage_of u n)) p.
(** Counters with a positive number for exactly their keys. *)
Definition counter_ok (c : list (str * nat)) : Prop := NoDup (akeys c) /\ forall p, In p (akeys c) <-> count_of c p <> 0.
Definition usages_ok (u : usages) : Prop := NoDup (akeys u) /\ forall n x, In (n, x) u -> counter_ok (path_counter x).

Lemma counter_ok_update : forall c ps, counter_ok c -> counter_ok (counter_update c ps).
Proof.
  intros c ps [N H]. split; [now apply counter_NoDup|]. intros p. rewrite keys_update, count_update, H, times_In. lia.
Qed.

Lemma usage_of_ok : forall u n, usages_ok u -> counter_ok (path_counter (usage_of u n)).
Proof.
  intros u n [N H]. unfold usage_of. destruct (alookup n u) as [x|] eqn:E; [apply alookup_In in E; eauto|].
  split; [constructor|]. simpl. unfold count_of; simpl. tauto.
Qed.

Lemma usage_update : forall u n k ps m, nocc (update_usage u n k ps) m = nocc u m + (if str_eqb m n then k else 0) /\
  (forall p, cnt (update_usage u n k ps) m p = cnt u m p + if str_eqb m n then times p ps else 0).
Proof.
  intros u n k ps m. unfold nocc, cnt, update_usage.
  set (x := {| num_occurrences := num_occurrences (usage_of u n) + k; path_counter := counter_update (path_counter (usage_of u n)) ps |}).
  assert (G : usage_of (aset n x u) m = if str_eqb m n then x else usage_of u m).
  { unfold usage_of. rewrite alookup_aset. destruct (str_eqb m n); auto. }
  rewrite G. destruct (str_eqb m n) eqn:E; [|split; intros; lia].
  apply str_eqb_eq in E; subst. unfold x; cbn [num_occurrences path_counter]. split; auto. intros p. now rewrite count_update.
Qed.

Lemma usages_ok_update : forall u n k ps, usages_ok u -> usages_ok (update_usage u n k ps).
Proof.
  intros u n k ps H. pose proof (usage_of_ok u n H) as Hn. destruct H as [N H]. unfold update_usage. split; [now apply aset_keys_NoDup|].
  intros m x I. assert (G : (m, x) = (n, {| num_occurrences := num_occurrences (usage_of u n) + k; path_counter := counter_update (path_counter (usage_of u n)) ps |}) \/ In (m, x) u).
  { revert I. generalize {| num_occurrences := num_occurrences (usage_of u n) + k; path_counter := counter_update (path_counter (usage_of u n)) ps |} as y. intros y. clear. induction u as [|[k' v'] t IH]; simpl; [intros [<-|[]]; auto|]. destruct (str_eqb n k') eqn:E; simpl.
    - apply str_eqb_eq in E; subst. intros [<-|I]; auto.
    - intros [<-|I]; auto. destruct (IH I) as [J|J]; auto. }
  destruct G as [G|G]; [|eauto]. injection G as -> ->. simpl. now apply counter_ok_update.
Qed.

Lemma keys_update_usage : forall u n k ps m, In m (akeys (update_usage u n k ps)) <-> m = n \/ In m (akeys u).
Proof. intros. unfold update_usage. apply akeys_aset_In. Qed.

(* ---- one entry ---- *)

Definition inner (e : entry) (s : usages * usages) : usages * usages :=
  fold_left (fun '(this, occ) i => (update_usage this (ii_name i) 0 (ii_filled i), update_usage occ (ii_name i) 1 (ii_filled i))) e s.

(** Number of times a path is listed in the occurrences of an IDS. *)
Fixpoint listed_in (n p : str) (l : list ids_info) : nat :=
  match l with [] => 0 | i :: t => (if named n i then times p (ii_filled i) else 0) + listed_in n p t end.

Lemma eqb_sym : forall a b, str_eqb a b = str_eqb b a.
Proof. intros a b. apply eq_true_iff_eq. rewrite !str_eqb_eq. split; auto. Qed.

(** Splits a conjunction as written. *)
Ltac sp := match goal with |- _ /\ _ => split; [|sp] | _ => idtac end.

Lemma inner_spec : forall e this occ this' occ', inner e (this, occ) = (this', occ') ->
  (forall n, In n (akeys this') <-> In n (akeys this) \/ existsb (named n) e = true) /\
  (forall n, In n (akeys occ') <-> In n (akeys occ) \/ existsb (named n) e = true) /\
  (forall n p, cnt this' n p = cnt this n p + listed_in n p e) /\
  (forall n, nocc occ' n = nocc occ n + length (filter (named n) e)) /\
  (forall n p, cnt occ' n p = cnt occ n p + listed_in n p e) /\
  (usages_ok this -> usages_ok this') /\ (usages_ok occ -> usages_ok occ').
Proof.
  unfold inner. induction e as [|i e IH]; simpl; intros this occ this' occ' H.
  - injection H as <- <-. sp; intros; auto; intuition discriminate.
  - apply IH in H as (A & B & Cn & D & E & F & G). clear IH.
    assert (Q : forall n, str_eqb n (ii_name i) = named n i) by (intros; apply eqb_sym).
    sp.
    + intros n. rewrite A, keys_update_usage, orb_true_iff, <- Q, str_eqb_eq. tauto.
    + intros n. rewrite B, keys_update_usage, orb_true_iff, <- Q, str_eqb_eq. tauto.
    + intros n p. rewrite Cn. rewrite (proj2 (usage_update this (ii_name i) 0 (ii_filled i) n)), Q. lia.
    + intros n. rewrite D. rewrite (proj1 (usage_update occ (ii_name i) 1 (ii_filled i) n)), Q. destruct (named n i); simpl; lia.
    + intros n p. rewrite E. rewrite (proj2 (usage_update occ (ii_name i) 1 (ii_filled i) n)), Q. lia.
    + intros O. apply F. now apply usages_ok_update.
    + intros O. apply G. now apply usages_ok_update.
Qed.

Lemma outer_spec : forall this u, NoDup (akeys this) -> (forall n x, In (n, x) this -> counter_ok (path_counter x)) ->
  let u' := fold_left (fun u nu => update_usage u (fst nu) 1 (akeys (path_counter (snd nu)))) this u in
  (forall n, In n (akeys u') <-> In n (akeys u) \/ In n (akeys this)) /\
  (forall n, nocc u' n = nocc u n + if has_key n this then 1 else 0) /\
  (forall n p, cnt u' n p = cnt u n p + if (cnt this n p =? 0)%nat then 0 else 1) /\
  (usages_ok u -> usages_ok u').
Proof.
  induction this as [|[n x] this IH]; intros u N H; cbn [fold_left fst snd].
  - cbv zeta. sp; auto; intros; try (simpl; tauto || lia).
  - inversion N as [|? ? Nn Nt]; subst. specialize (IH (update_usage u n 1 (akeys (path_counter x))) Nt).
    destruct IH as (A & B & Cc & D); [intros; apply (H n0 x0); right; auto|]. cbv zeta in *.
    assert (Hx : counter_ok (path_counter x)) by (apply (H n x); left; auto). destruct Hx as [Nx Hx].
    assert (Ht : alookup n this = None) by (now apply alookup_None_keys).
    sp.
    + intros m. rewrite A, keys_update_usage. simpl. intuition.
    + intros m. rewrite B, (proj1 (usage_update u n 1 (akeys (path_counter x)) m)). unfold has_key. simpl.
      destruct (str_eqb m n) eqn:E; [apply str_eqb_eq in E; subst; rewrite Ht; lia|lia].
    + intros m p. rewrite Cc, (proj2 (usage_update u n 1 (akeys (path_counter x)) m)).
      assert (G : cnt ((n, x) :: this) m p = if str_eqb m n then count_of (path_counter x) p else cnt this m p).
      { unfold cnt, usage_of. simpl. destruct (str_eqb m n); auto. }
      rewrite G. destruct (str_eqb m n) eqn:E.
      * apply str_eqb_eq in E; subst. replace (cnt this n p) with 0 by (unfold cnt, usage_of; now rewrite Ht). simpl (0 =? 0)%nat.
        rewrite (times_NoDup p _ Nx). destruct (count_of (path_counter x) p =? 0)%nat eqn:Z0.
        -- apply Nat.eqb_eq in Z0. destruct (existsb _ _) eqn:X; [|lia]. exfalso. apply existsb_exists in X as (y & I & Y).
           apply str_eqb_eq in Y; subst. apply Hx in I. auto.
        -- apply Nat.eqb_neq in Z0. apply Hx in Z0. destruct (existsb _ _) eqn:X; [lia|]. exfalso.
           assert (existsb (str_eqb p) (akeys (path_counter x)) = true); [|congruence]. apply existsb_exists. exists p. split; auto. apply str_eqb_refl.
      * lia.
    + intros O. apply D. now apply usages_ok_update.
Qed.

Lemma listed_zero : forall n p e, (listed_in n p e =? 0)%nat = negb (existsb (fun i => named n i && fills p i) e).
Proof.
  induction e as [|i e IH]; auto. cbn [listed_in existsb]. destruct (named n i); simpl; auto. unfold fills.
  destruct (existsb (str_eqb p) (ii_filled i)) eqn:X; simpl.
  - apply existsb_exists in X as (y & I & Y). apply str_eqb_eq in Y; subst. apply times_In in I. destruct (times y (ii_filled i)); [congruence|]. reflexivity.
  - assert (Z0 : times p (ii_filled i) = 0).
    { destruct (Nat.eq_dec (times p (ii_filled i)) 0); auto. apply times_In in n0.
      assert (existsb (str_eqb p) (ii_filled i) = true); [|congruence]. apply existsb_exists. exists p. split; auto. apply str_eqb_refl. }
    now rewrite Z0.
Qed.

(* ---- all files ---- *)

Record tot (es : list entry) (t : totals) : Prop := {
  t_num : num_entries t = length es;
  t_ekeys : forall n, In n (akeys (per_entry t)) <-> entries_with n es <> 0;
  t_okeys : forall n, In n (akeys (per_occurrence t)) <-> occurrences n es <> [];
  t_enum : forall n, nocc (per_entry t) n = entries_with n es;
  t_ecnt : forall n p, cnt (per_entry t) n p = entries_filling n p es;
  t_onum : forall n, nocc (per_occurrence t) n = length (occurrences n es);
  t_ocnt : forall n p, cnt (per_occurrence t) n p = listed_in n p (concat es);
  t_eok : usages_ok (per_entry t);
  t_ook : usages_ok (per_occurrence t)
}.

Lemma listed_app : forall n p a b, listed_in n p (a ++ b) = listed_in n p a + listed_in n p b.
Proof. induction a as [|i a IH]; simpl; intros b; auto. rewrite IH. lia. Qed.

Lemma filter_len_app {A} (f : A -> bool) : forall a b, length (filter f (a ++ b)) = length (filter f a) + length (filter f b).
Proof. intros. now rewrite filter_app, app_length. Qed.

Lemma existsb_filter {A} (f : A -> bool) : forall l, existsb f l = true <-> filter f l <> [].
Proof.
  induction l as [|x l IH]; simpl; [intuition discriminate|]. destruct (f x); simpl; [intuition discriminate|auto].
Qed.

Lemma has_key_In {V} : forall (m : list (str * V)) k, has_key k m = true <-> In k (akeys m).
Proof.
  intros m k. unfold has_key. destruct (alookup k m) as [v|] eqn:E.
  - apply alookup_In in E. split; auto. intros _. unfold akeys. apply in_map_iff. exists (k, v). auto.
  - apply alookup_None_keys in E. split; [discriminate|tauto].
Qed.

Lemma tot_step : forall es t e, tot es t -> tot (es ++ [e]) (add_entry t e).
Proof.
  intros es t e [A B B' C D E F G H]. unfold add_entry. fold (inner e ([], per_occurrence t)).
  destruct (inner e ([], per_occurrence t)) as [this occ] eqn:I.
  apply inner_spec in I as (I1 & I2 & I3 & I4 & I5 & I6 & I7).
  assert (Ot : usages_ok this) by (apply I6; split; [constructor|intros ? ? []]).
  destruct (outer_spec this (per_entry t) (proj1 Ot) (proj2 Ot)) as (J1 & J2 & J3 & J4). cbv zeta in *.
  assert (Hk : forall n, has_key n this = existsb (named n) e).
  { intros n. apply eq_true_iff_eq. rewrite has_key_In, I1. split; [intros [[]|X]; auto|auto]. }
  constructor; cbn [num_entries per_entry per_occurrence]; auto.
  - rewrite A, app_length. simpl. lia.
  - intros n. rewrite J1, B, I1. unfold entries_with. rewrite filter_len_app. simpl. destruct (existsb (named n) e); simpl; intuition lia.
  - intros n. rewrite I2, B', existsb_filter. unfold occurrences. rewrite concat_app, filter_app. simpl. rewrite app_nil_r.
    destruct (filter (named n) (concat es)); simpl; intuition congruence.
  - intros n. rewrite J2, C, Hk. unfold entries_with. rewrite filter_len_app. simpl. destruct (existsb (named n) e); simpl; lia.
  - intros n p. rewrite J3, D, I3. unfold entries_filling. rewrite filter_len_app. simpl.
    change (cnt [] n p) with 0. rewrite listed_zero. destruct (existsb _ e); simpl; lia.
  - intros n. rewrite I4, E. unfold occurrences. rewrite concat_app, filter_len_app. simpl. now rewrite app_nil_r.
  - intros n p. rewrite I5, F, concat_app, listed_app. simpl. now rewrite app_nil_r.
Qed.

Lemma tot_read : forall files, tot (concat files) (read_files files).
Proof.
  intros files. unfold read_files.
  assert (G : forall l es t, tot es t -> tot (es ++ l) (fold_left add_entry l t)).
  { induction l as [|e l IH]; simpl; intros es t H; [now rewrite app_nil_r|].
    replace (es ++ e :: l) with ((es ++ [e]) ++ l) by (now rewrite <- app_assoc). apply IH. now apply tot_step. }
  apply (G (concat files) []).
  assert (K : usages_ok []) by (split; [apply NoDup_nil|intros ? ? []]).
  constructor; cbn [num_entries per_entry per_occurrence]; auto; intros; cbn; tauto.
Qed.

(** Every entry and every occurrence is counted once, whatever the files contain. *)
Theorem C44_counts : forall files n p, let t := read_files files in let es := concat files in
  num_entries t = length es /\
  num_occurrences (usage_of (per_entry t) n) = entries_with n es /\
  count_of (path_counter (usage_of (per_entry t) n)) p = entries_filling n p es /\
  num_occurrences (usage_of (per_occurrence t) n) = length (occurrences n es) /\
  (no_repeats es -> count_of (path_counter (usage_of (per_occurrence t) n)) p = occurrences_filling n p es).
Proof.
  intros files n p t es. pose proof (tot_read files) as T. change (tot es t) in T. destruct T as [A B B' C D E F G H]. sp; auto; try apply C; try apply D; try apply E.
  intros NR. change (cnt (per_occurrence t) n p = occurrences_filling n p es). rewrite F. unfold occurrences_filling, occurrences.
  assert (NR' : forall i, In i (concat es) -> NoDup (ii_filled i)) by (intros i I; apply in_concat in I as (e & I & J); eauto).
  clear -NR'. induction (concat es) as [|i l IH]; auto. cbn [listed_in filter]. rewrite IH by (intros; apply NR'; right; auto).
  destruct (named n i); simpl; auto. rewrite times_NoDup by (apply NR'; left; auto). unfold fills. destruct (existsb _ _); auto.
Qed.
Print Assumptions C44_counts.

Lemma in_path_rows : forall n eu ou r, In r (path_rows n eu ou) <->
  exists p c, In (p, c) (path_counter eu) /\ infix "_error_"%string p = false /\
    r = RPath n p (has_key (p ++ strs "_error_upper") (path_counter eu)) c (num_occurrences eu) (count_of (path_counter ou) p) (num_occurrences ou).
Proof.
  intros n eu ou r. unfold path_rows. rewrite in_concat. split.
  - intros (l & I & J). apply in_map_iff in I as ([p c] & <- & I). rewrite in_isort in I. cbn [fst snd] in *.
    destruct (infix _ p) eqn:X; [destruct J|]. destruct J as [<-|[]]. exists p, c. auto.
  - intros (p & c & I & X & ->). eexists. split; [apply in_map_iff; exists (p, c); split; [reflexivity|rewrite in_isort; auto]|].
    cbn [fst snd]. rewrite X. left; auto.
Qed.

(** The rows of the CSV file are exactly: one row for each IDS that occurs, and one for each of its filled paths that is no error node. *)
Theorem C44_rows : forall files r, let es := concat files in no_repeats es ->
  (In r (csv_rows (read_files files)) <->
   (exists n, entries_with n es <> 0 /\ r = RIds n (entries_with n es) (length es)) \/
   (exists n p ue, entries_filling n p es <> 0 /\ infix "_error_"%string p = false /\
      (ue = true <-> entries_filling n (p ++ strs "_error_upper") es <> 0) /\
      r = RPath n p ue (entries_filling n p es) (entries_with n es) (occurrences_filling n p es) (length (occurrences n es)))).
Proof.
  intros files r es NR. pose proof (tot_read files) as T. set (t := read_files files) in *. change (tot es t) in T.
  assert (Lk : forall n u, In (n, u) (per_entry t) -> u = usage_of (per_entry t) n /\ entries_with n es <> 0).
  { intros n u I. destruct T. split.
    - unfold usage_of. now rewrite (alookup_NoDup_In _ _ _ (proj1 t_eok0) I).
    - apply t_ekeys0. unfold akeys. apply in_map_iff. exists (n, u). auto. }
  assert (Pc : forall n p c, In (p, c) (path_counter (usage_of (per_entry t) n)) <-> c = entries_filling n p es /\ entries_filling n p es <> 0).
  { intros n p c. destruct T. destruct (usage_of_ok (per_entry t) n t_eok0) as [N K]. specialize (t_ecnt0 n p). unfold cnt in t_ecnt0. split.
    - intros I. pose proof (alookup_NoDup_In _ _ _ N I) as L. assert (Ec : count_of (path_counter (usage_of (per_entry t) n)) p = c) by (unfold count_of; now rewrite L).
      rewrite <- t_ecnt0. split; auto. apply K. unfold akeys. apply in_map_iff. exists (p, c). auto.
    - intros [-> Z]. rewrite <- t_ecnt0 in *. unfold count_of in *. destruct (alookup p _) as [v|] eqn:L; [|congruence]. now apply alookup_In. }
  assert (Hue : forall n q, has_key q (path_counter (usage_of (per_entry t) n)) = true <-> entries_filling n q es <> 0).
  { intros n q. rewrite has_key_In. destruct T. destruct (usage_of_ok (per_entry t) n t_eok0) as [N K]. rewrite K. specialize (t_ecnt0 n q). unfold cnt in t_ecnt0. now rewrite t_ecnt0. }
  assert (Num : forall n, num_occurrences (usage_of (per_entry t) n) = entries_with n es) by (intros n; apply (t_enum _ _ T)).
  assert (Onum : forall n, num_occurrences (usage_of (per_occurrence t) n) = length (occurrences n es)) by (intros n; apply (t_onum _ _ T)).
  assert (Ocnt : forall n p, count_of (path_counter (usage_of (per_occurrence t) n)) p = occurrences_filling n p es).
  { intros n p. exact (proj2 (proj2 (proj2 (proj2 (C44_counts files n p)))) NR). }
  unfold csv_rows. rewrite in_concat. split.
  - intros (l & I & J). apply in_map_iff in I as ([n u] & <- & I). rewrite in_isort in I. cbn [fst snd] in J.
    destruct (Lk n u I) as [-> E0]. destruct J as [<-|J].
    + left. exists n. rewrite Num, (t_num _ _ T). auto.
    + right. apply in_path_rows in J as (p & c & J & X & ->). apply Pc in J as [-> J]. exists n, p, (has_key (p ++ strs "_error_upper") (path_counter (usage_of (per_entry t) n))).
      rewrite Num, Onum, Ocnt. repeat split; auto; apply Hue.
  - intros [(n & E0 & ->)|(n & p & ue & E0 & X & U & ->)].
    + destruct (alookup n (per_entry t)) as [u|] eqn:L.
      * apply alookup_In in L. exists (RIds n (num_occurrences u) (num_entries t) :: path_rows n u (usage_of (per_occurrence t) n)).
        split; [apply in_map_iff; exists (n, u); rewrite in_isort; auto|]. left. destruct (Lk n u L) as [-> _]. now rewrite Num, (t_num _ _ T).
      * apply alookup_None_keys in L. exfalso. apply L. now apply (t_ekeys _ _ T).
    + assert (In n (akeys (per_entry t))).
      { apply (t_ekeys _ _ T). revert E0. unfold entries_filling, entries_with. clear. induction es as [|e es IH]; simpl; auto.
        destruct (existsb (fun i => named n i && fills p i) e) eqn:Y.
        - intros _. apply existsb_exists in Y as (i & I & Y). apply andb_true_iff in Y as [Y _].
          assert (Z : existsb (named n) e = true) by (apply existsb_exists; eauto). rewrite Z. simpl. lia.
        - intros Z. destruct (existsb (named n) e); simpl; auto. }
      unfold akeys in H. apply in_map_iff in H as ([n' u] & En & L). simpl in En; subst n'.
      exists (RIds n (num_occurrences u) (num_entries t) :: path_rows n u (usage_of (per_occurrence t) n)).
      split; [apply in_map_iff; exists (n, u); rewrite in_isort; auto|]. right. destruct (Lk n u L) as [-> _].
      apply in_path_rows. exists p, (entries_filling n p es). rewrite Num, Onum, Ocnt. split; [apply Pc; auto|]. split; auto. f_equal.
      apply eq_true_iff_eq. rewrite U, Hue. tauto.
Qed.
Print Assumptions C44_rows.

Lemma filter_le {A} (f g : A -> bool) : (forall x, f x = true -> g x = true) -> forall l, length (filter f l) <= length (filter g l).
Proof.
  intros H. induction l as [|x l IH]; simpl; auto. destruct (f x) eqn:E; [rewrite (H x E); simpl; lia|]. destruct (g x); simpl; lia.
Qed.
Lemma filter_len {A} (f : A -> bool) : forall l, length (filter f l) <= length l.
Proof. induction l as [|x l IH]; simpl; auto. destruct (f x); simpl; lia. Qed.

(** All frequencies have a positive denominator and lie in [0, 1]. *)
Theorem C44_frequencies : forall files r, no_repeats (concat files) -> In r (csv_rows (read_files files)) ->
  match r with
  | RIds _ a b => a <= b /\ 0 < b
  | RPath _ _ _ a b c d => a <= b /\ 0 < b /\ c <= d /\ 0 < d
  end.
Proof.
  intros files r NR I. apply C44_rows in I as [(n & E & ->)|(n & p & ue & E & _ & _ & ->)]; auto; set (es := concat files) in *.
  - pose proof (filter_len (existsb (named n)) es) as L. unfold entries_with, entry in *. lia.
  - assert (A : entries_filling n p es <= entries_with n es).
    { apply filter_le. intros e X. apply existsb_exists in X as (i & I & X). apply andb_true_iff in X as [X _]. apply existsb_exists. eauto. }
    assert (B : length (occurrences n es) <> 0).
    { unfold entries_filling in E. destruct (filter (existsb (fun i => named n i && fills p i)) es) as [|e l] eqn:Ef; [simpl in E; lia|].
      assert (I : In e (filter (existsb (fun i => named n i && fills p i)) es)) by (rewrite Ef; left; auto).
      apply filter_In in I as [I X]. apply existsb_exists in X as (i & J & X). apply andb_true_iff in X as [X _].
      assert (K : In i (occurrences n es)) by (unfold occurrences; apply filter_In; split; auto; apply in_concat; eauto).
      destruct (occurrences n es); [destruct K|simpl; lia]. }
    pose proof (filter_len (fills p) (occurrences n es)). unfold occurrences_filling. lia.
Qed.
Print Assumptions C44_frequencies.

(** A path listed twice for one occurrence makes a frequency larger than 1. *)
Theorem C44_frequencies_refuted : exists files n p u a b c d, In (RPath n p u a b c d) (csv_rows (read_files files)) /\ d < c.
Proof.
  exists [[[{| ii_name := strs "wall"; ii_filled := [strs "time"; strs "time"] |}]]], (strs "wall"), (strs "time"), false, 1, 1, 2, 1.
  vm_compute. intuition.
Qed.
Print Assumptions C44_frequencies_refuted.

Definition info (n : string) (l : list string) : ids_info := {| ii_name := strs n; ii_filled := map strs l |}.
Definition demo : list (list entry) :=
  [[[info "wall" ["time"; "x/y"]; info "wall" ["time"]; info "equilibrium" ["time"; "time_error_upper"]]]; [[info "equilibrium" ["code"]]; []]]%string.
Example ex_rows : csv_rows (read_files demo) =
  [RIds (strs "equilibrium") 2 3; RPath (strs "equilibrium") (strs "code") false 1 2 1 2; RPath (strs "equilibrium") (strs "time") true 1 2 1 2;
   RIds (strs "wall") 1 3; RPath (strs "wall") (strs "time") false 1 1 2 2; RPath (strs "wall") (strs "x/y") false 1 1 1 2].
Proof. vm_compute. reflexivity. Qed.
Example ex_no_repeats : no_repeats (concat demo).
Proof. intros e i He Hi. simpl in He. repeat (destruct He as [<-|He]; [simpl in Hi; repeat (destruct Hi as [<-|Hi]; [vm_compute; repeat constructor; simpl; intuition discriminate|]); tauto|]). tauto. Qed.

(** The name of an IDS file gives back the name of the IDS: "name" for occurrence 0, "name_n" for the others. *)
Definition no_digit_part (s : str) : Prop := forall a c b, s = a ++ "_"%char :: c :: b -> is_digit c = false.
Theorem C44_file_name : forall name n, no_digit_part name ->
  fst (split_stem name) = name /\ split_stem (name ++ "_"%char :: show_N n) = (name, show_N n).
Proof.
  intros name n H.
  assert (D : forall c t, show_N n = c :: t -> is_digit c = true).
  { intros c t E. pose proof (show_N_digits n) as X. rewrite E in X. simpl in X. now apply andb_true_iff in X. }
  induction name as [|c t IH].
  - split; auto. simpl. pose proof (show_N_nonnil n). destruct (show_N n) as [|d r] eqn:E; [congruence|]. now rewrite (D d r).
  - destruct IH as [I1 I2]; [intros a x b E; apply (H (c :: a) x b); simpl; congruence|].
    assert (Hc : forall u, Ascii.eqb c "_" && match t ++ u with d :: _ => is_digit d | [] => false end = false \/ t = []).
    { intros u. destruct t as [|d r]; auto. left. simpl. destruct (Ascii.eqb c "_") eqn:E; auto. apply Ascii.eqb_eq in E; subst. apply (H [] d r). reflexivity. }
    split.
    + cbn [split_stem]. destruct (Hc []) as [E| ->]; [rewrite app_nil_r in E; rewrite E; destruct (split_stem t); simpl in *; congruence|].
      rewrite andb_false_r. reflexivity.
    + cbn [split_stem app]. destruct (Hc ("_"%char :: show_N n)) as [E| ->].
      * rewrite E, I2. reflexivity.
      * cbn [app] in *. rewrite I2. replace (is_digit "_") with false by reflexivity. now rewrite andb_false_r.
Qed.
Print Assumptions C44_file_name.

(** The numbers of the overview table: data nodes below a node, and the filled ones among them. *)
Inductive data_node : meta -> str -> str -> Prop :=
| dn_leaf : forall m pre c, In c (mchildren m) -> mchildren c = [] -> data_node m pre (child_path pre (mname c))
| dn_down : forall m pre c p, In c (mchildren m) -> data_node c (child_path pre (mname c)) p -> data_node m pre p.
Fixpoint data_paths (pre : str) (m : meta) : list str :=
  concat (map (fun c => match mchildren c with [] => [child_path pre (mname c)] | _ => data_paths (child_path pre (mname c)) c end) (mchildren m)).

Lemma meta_ind' : forall P : meta -> Prop, (forall m, (forall c, In c (mchildren m) -> P c) -> P m) -> forall m, P m.
Proof.
  intros P H. fix IH 1. intros [n k cs]. apply H. simpl. revert cs. fix IHl 1. intros [|c cs] x I; [destruct I|destruct I as [E|I]].
  - exact (eq_ind c P (IH c) x E).
  - exact (IHl cs x I).
Qed.

Lemma data_paths_unfold : forall pre m, data_paths pre m =
  concat (map (fun c => match mchildren c with [] => [child_path pre (mname c)] | _ => data_paths (child_path pre (mname c)) c end) (mchildren m)).
Proof. intros pre [n k cs]. reflexivity. Qed.

Lemma data_paths_spec : forall m pre p, In p (data_paths pre m) <-> data_node m pre p.
Proof.
  induction m as [m IH] using meta_ind'. intros pre p. rewrite data_paths_unfold, in_concat. split.
  - intros (l & I & J). apply in_map_iff in I as (c & <- & I). destruct (mchildren c) eqn:E.
    + destruct J as [<-|[]]. now apply dn_leaf.
    + apply IH in J; auto. eapply dn_down; eauto.
  - intros D. inversion D as [m0 pre0 c I E|m0 pre0 c p0 I D']; subst.
    + eexists. split; [apply in_map_iff; exists c; split; [reflexivity|auto]|]. rewrite E. left; auto.
    + eexists. split; [apply in_map_iff; exists c; split; [reflexivity|auto]|]. apply IH in D'; auto.
      destruct (mchildren c) eqn:E; auto. rewrite data_paths_unfold, E in D'. destruct D'.
Qed.

Lemma walk_unfold : forall f pre m, walk f pre m = fold_left (fun '(n, f') c =>
    let p := child_path pre (mname c) in
    match mchildren c with [] => (S n, if f p then S f' else f') | _ => let (n', g) := walk f p c in (n + n', f' + g) end) (mchildren m) (0, 0).
Proof. intros f pre [n k cs]. reflexivity. Qed.

Theorem C44_overview : forall filled m pre, walk filled pre m = (length (data_paths pre m), length (filter filled (data_paths pre m))) /\
  (forall p, In p (data_paths pre m) <-> data_node m pre p).
Proof.
  intros filled m pre. split; [|apply data_paths_spec]. revert pre. induction m as [m IH] using meta_ind'. intros pre.
  rewrite walk_unfold, data_paths_unfold.
  assert (G : forall cs a b, (forall c, In c cs -> forall pre, walk filled pre c = (length (data_paths pre c), length (filter filled (data_paths pre c)))) ->
    fold_left (fun '(n, f') c => let p := child_path pre (mname c) in
      match mchildren c with [] => (S n, if filled p then S f' else f') | _ => let (n', g) := walk filled p c in (n + n', f' + g) end) cs (a, b) =
    let l := concat (map (fun c => match mchildren c with [] => [child_path pre (mname c)] | _ => data_paths (child_path pre (mname c)) c end) cs) in
    (a + length l, b + length (filter filled l))).
  { induction cs as [|c cs IHc]; intros a b Hc; [simpl; f_equal; lia|]. cbn [fold_left map concat]. cbv zeta.
    rewrite app_length, filter_len_app. destruct (mchildren c) eqn:E.
    - rewrite IHc by (intros; apply Hc; right; auto). cbv zeta. simpl. destruct (filled (child_path pre (mname c))); simpl; f_equal; lia.
    - rewrite (Hc c) by (left; auto). rewrite IHc by (intros; apply Hc; right; auto). cbv zeta. f_equal; lia. }
  rewrite G by (intros; apply IH; auto). reflexivity.
Qed.
Print Assumptions C44_overview.

(* ---- C45 ---- *)

Definition xkids (x : xml) : list xml := match x with Xml _ cs => cs end.
(** The element at a position (list of child numbers), and the document order of positions. *)
Inductive at_pos : xml -> list nat -> xml -> Prop :=
| at_here : forall x, at_pos x [] x
| at_kid : forall x i c l y, nth_error (xkids x) i = Some c -> at_pos c l y -> at_pos x (i :: l) y.
Inductive before : list nat -> list nat -> Prop :=
| b_parent : forall i l, before [] (i :: l)
| b_sibling : forall i j l l', i < j -> before (i :: l) (j :: l')
| b_below : forall i l l', before l l' -> before (i :: l) (i :: l').

Fixpoint number {A} (k : nat) (l : list A) : list (nat * A) := match l with [] => [] | a :: t => (k, a) :: number (S k) t end.
Fixpoint places (x : xml) : list (list nat * xml) :=
  match x with Xml _ cs => ([], x) :: concat (map (fun il => map (fun py => (fst il :: fst py, snd py)) (snd il)) (number 0 (map places cs))) end.

Lemma xml_ind' : forall P : xml -> Prop, (forall x, (forall c, In c (xkids x) -> P c) -> P x) -> forall x, P x.
Proof.
  intros P H. fix IH 1. intros [p cs]. apply H. simpl. revert cs. fix IHl 1. intros [|c cs] x I; [destruct I|destruct I as [E|I]].
  - exact (eq_ind c P (IH c) x E).
  - exact (IHl cs x I).
Qed.

Lemma number_In {A} : forall (l : list A) k i a, In (i, a) (number k l) <-> k <= i /\ nth_error l (i - k) = Some a.
Proof.
  induction l as [|x l IH]; intros k i a; simpl.
  - split; [tauto|]. intros [_ H]. destruct (i - k); discriminate.
  - rewrite IH. split.
    + intros [E|[L E]]; [injection E as -> ->; rewrite Nat.sub_diag; auto|]. split; [lia|]. replace (i - k) with (S (i - S k)) by lia. exact E.
    + intros [L E]. destruct (Nat.eq_dec i k) as [->|N]; [rewrite Nat.sub_diag in E; injection E as ->; auto|]. right. split; [lia|].
      replace (i - k) with (S (i - S k)) in E by lia. exact E.
Qed.

Lemma places_unfold : forall x, places x = ([], x) :: concat (map (fun il => map (fun py => (fst il :: fst py, snd py)) (snd il)) (number 0 (map places (xkids x)))).
Proof. intros [p cs]. reflexivity. Qed.
Lemma iter_unfold : forall x, xml_iter x = x :: concat (map xml_iter (xkids x)).
Proof. intros [p cs]. reflexivity. Qed.

Lemma places_iter : forall x, map snd (places x) = xml_iter x.
Proof.
  induction x as [x IH] using xml_ind'. rewrite places_unfold, iter_unfold. simpl. f_equal.
  generalize 0 as k. induction (xkids x) as [|c cs IHc]; intros k; auto. simpl. rewrite map_app, IHc by (intros; apply IH; right; auto).
  f_equal. rewrite map_map. simpl. apply IH. left; auto.
Qed.

Lemma places_at : forall x l y, In (l, y) (places x) <-> at_pos x l y.
Proof.
  induction x as [x IH] using xml_ind'. intros l y. rewrite places_unfold. simpl. rewrite in_concat. split.
  - intros [E|(q & I & J)]; [injection E as <- <-; constructor|]. apply in_map_iff in I as ([i ps] & <- & I). simpl in J.
    apply in_map_iff in J as ([l' y'] & E & J). simpl in E. injection E as <- <-. apply number_In in I as [_ I].
    rewrite Nat.sub_0_r, nth_error_map in I. destruct (nth_error (xkids x) i) as [c|] eqn:N; [|discriminate]. injection I as <-.
    apply IH in J; [|eapply nth_error_In; eauto]. econstructor; eauto.
  - intros A. inversion A as [|x0 i c l' y0 N A']; subst; auto. right. exists (map (fun py => (i :: fst py, snd py)) (places c)). split.
    + apply in_map_iff. exists (i, places c). split; auto. apply number_In. split; [lia|]. rewrite Nat.sub_0_r, nth_error_map, N. reflexivity.
    + apply in_map_iff. exists (l', y). split; auto. apply IH; auto. eapply nth_error_In; eauto.
Qed.

Lemma places_sorted : forall x, StronglySorted before (map fst (places x)).
Proof.
  induction x as [x IH] using xml_ind'. rewrite places_unfold. simpl. constructor.
  - generalize 0 as k. induction (xkids x) as [|c cs IHc]; intros k; [constructor|]. simpl. rewrite map_app, map_map. simpl.
    assert (Happ : forall a b, StronglySorted before a -> StronglySorted before b -> (forall p q, In p a -> In q b -> before p q) -> StronglySorted before (a ++ b)).
    { induction a as [|p a IHa]; simpl; intros b Sa Sb H; auto. inversion Sa; subst. constructor; [apply IHa; auto|].
      apply Forall_app. split; auto. apply Forall_forall. intros q I. apply H; auto. }
    apply Happ.
    + rewrite <- map_map with (f := fst) (g := fun l => k :: l). specialize (IH c (or_introl eq_refl)). revert IH. generalize (map fst (places c)) as l.
      induction l as [|p l IHl]; intros S; [constructor|]. inversion S; subst. simpl. constructor; auto. apply Forall_forall. intros q I.
      apply in_map_iff in I as (q' & <- & I). apply b_below. rewrite Forall_forall in H2. auto.
    + apply IHc. intros; apply IH; right; auto.
    + intros p q I J. apply in_map_iff in I as ([p' y] & <- & I). apply in_map_iff in J as ([q' z] & <- & J). simpl.
      apply in_concat in J as (ll & J & K). apply in_map_iff in J as ([j ps] & <- & J). simpl in K. apply in_map_iff in K as ([l' y'] & E & K).
      simpl in E. injection E as <- <-. apply number_In in J as [J _]. constructor. lia.
  - apply Forall_forall. intros q I. apply in_map_iff in I as ([q' z] & <- & J). simpl. apply in_concat in J as (ll & J & K).
    apply in_map_iff in J as ([j ps] & <- & J). apply in_map_iff in K as ([l' y'] & E & K). injection E as <- <-. constructor.
Qed.

(** The result lists, for all elements at or below the node in document order, the paths that the query matches. *)
Theorem C45_exact : forall search x, exists l : list (list nat * xml),
  StronglySorted before (map fst l) /\ (forall pos y, In (pos, y) l <-> at_pos x pos y /\ search (xpath y) = true) /\
  find_paths search x = map (fun py => xpath (snd py)) l.
Proof.
  intros search x. exists (filter (fun py => search (xpath (snd py))) (places x)). split; [|split].
  - pose proof (places_sorted x) as S. induction (places x) as [|[p y] l IH]; [constructor|]. simpl in *. inversion S; subst.
    destruct (search (xpath y)); auto. simpl. constructor; auto. rewrite Forall_forall in *. intros q I. apply H2.
    apply in_map_iff in I as (r & <- & I). apply filter_In in I as [I _]. now apply in_map.
  - intros pos y. rewrite filter_In, places_at. simpl. tauto.
  - unfold find_paths. rewrite <- places_iter, map_map. clear. induction (places x) as [|[p y] l IH]; auto. simpl. destruct (search (xpath y)); simpl; congruence.
Qed.
Print Assumptions C45_exact.

Definition x0 : xml := Xml None [Xml (Some (strs "a")) [Xml (Some (strs "a/time")) []]; Xml (Some (strs "time")) []].
Example ex_find : find_paths (infix (strs "time")) x0 = [strs "a/time"; strs "time"]. Proof. reflexivity. Qed.

(** A query that matches the empty string also returns "" for an element without a path (the IDS itself): no path of the dictionary. *)
Theorem C45_empty_path_refuted : exists search x p, In p (find_paths search x) /\ forall pos y, at_pos x pos y -> y <> Xml (Some p) (xkids y).
Proof.
  exists (fun _ => true), x0, []. split; [left; auto|]. intros pos y A E. destruct y as [q cs]. simpl in E. injection E as ->.
  apply places_at in A. vm_compute in A. intuition discriminate.
Qed.
Print Assumptions C45_empty_path_refuted.
