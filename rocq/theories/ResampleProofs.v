(** Sorting, searching and selection of time slices. *)
From Coq Require Import Sorting.Sorted Sorting.Permutation.
From Verif Require Import Base TreeModel TreeSpec TreeProofs ResampleModel ResampleSpec.

(** ** numpy.unique *)
Lemma insert_unique_hd : forall t l a, HdRel (fun a b => (f_key a < f_key b)%Z) a l -> (f_key a < f_key t)%Z ->
  HdRel (fun a b => (f_key a < f_key b)%Z) a (insert_unique t l).
Proof.
  intros t [|u r] a H L; cbn; [constructor; auto|]. inversion H; subst. destruct (flt_lt t u); [constructor; auto|].
  destruct (fle t u); constructor; auto.
Qed.
Lemma insert_unique_sorted : forall t l, strictly_increasing l -> strictly_increasing (insert_unique t l).
Proof.
  intros t l H. unfold strictly_increasing in *. assert (T : Relations_1.Transitive (fun a b => (f_key a < f_key b)%Z)) by (intros x y z; lia).
  apply Sorted_StronglySorted; auto. apply StronglySorted_Sorted in H. induction H; cbn; [repeat constructor|].
  unfold flt_lt, fle. destruct (f_key t <? f_key a)%Z eqn:E.
  { apply Z.ltb_lt in E. constructor; [constructor; auto|constructor; auto]. }
  destruct (f_key t <=? f_key a)%Z eqn:E'; [constructor; auto|]. apply Z.leb_gt in E'. constructor; auto. apply insert_unique_hd; auto.
Qed.
Lemma insert_unique_from : forall t l x, In x (insert_unique t l) -> x = t \/ In x l.
Proof.
  induction l as [|u r IH]; cbn; [intuition|]. intros x. destruct (flt_lt t u); [cbn; intuition|]. destruct (fle t u); [cbn; intuition|].
  cbn. intros [H|H]; [auto|]. apply IH in H. intuition.
Qed.
Lemma insert_unique_keeps : forall t l x, In x l -> In x (insert_unique t l).
Proof.
  induction l as [|u r IH]; cbn; [intuition|]. intros x H. destruct (flt_lt t u); [cbn; intuition|]. destruct (fle t u); [cbn; intuition|].
  cbn. intuition.
Qed.
Lemma insert_unique_has : forall t l, exists x, In x (insert_unique t l) /\ f_key x = f_key t.
Proof.
  induction l as [|u r IH]; cbn; [eauto|]. unfold flt_lt, fle. destruct (f_key t <? f_key u)%Z eqn:E; [exists t; cbn; auto|].
  destruct (f_key t <=? f_key u)%Z eqn:E'.
  - exists u. split; [now left|]. apply Z.ltb_ge in E. apply Z.leb_le in E'. lia.
  - destruct IH as (x & I & K). exists x. split; [now right|auto].
Qed.
Lemma unique_sorted : forall l, strictly_increasing (np_unique l).
Proof. induction l; cbn; [constructor|now apply insert_unique_sorted]. Qed.
Lemma unique_from : forall l x, In x (np_unique l) -> In x l.
Proof. induction l as [|t l IH]; cbn; auto. intros x H. apply insert_unique_from in H. destruct H as [->|H]; auto. Qed.
Lemma unique_has : forall l t, In t l -> exists x, In x (np_unique l) /\ f_key x = f_key t.
Proof.
  induction l as [|u l IH]; cbn; [intros t []|]. intros t [->|H]; [apply insert_unique_has|].
  destruct (IH _ H) as (x & I & K). exists x. split; auto. now apply insert_unique_keeps.
Qed.

(** ** a sorted list and a predicate that holds on a prefix *)
Section Prefix.
Variables (A : Type) (R : A -> A -> Prop) (P : A -> bool).
Hypothesis down : forall a b, R a b -> P b = true -> P a = true.
Lemma count_prefix : forall l, StronglySorted R l -> forall i a, nth_error l i = Some a -> (P a = true <-> i < length (filter P l)).
Proof.
  induction 1 as [|x l S IH F]; intros i a E; [destruct i; discriminate|].
  destruct (P x) eqn:Px; cbn [filter]; rewrite Px; cbn [length].
  - destruct i as [|i]; cbn in E; [inversion E; subst; split; [lia|auto]|]. specialize (IH i a E). rewrite IH. lia.
  - assert (Z0 : filter P l = []).
    { destruct (filter P l) as [|y r] eqn:Fl; auto. exfalso.
      assert (I : In y (filter P l)) by (rewrite Fl; now left).
      apply filter_In in I. destruct I as [I Py]. rewrite Forall_forall in F. rewrite (down _ _ (F _ I) Py) in Px. discriminate. }
    rewrite Z0. cbn [length]. split; [|lia]. intros Pa. destruct i as [|i]; cbn in E; [inversion E; subst; congruence|].
    apply nth_error_In in E. rewrite Forall_forall in F. rewrite (down _ _ (F _ E) Pa) in Px. discriminate.
Qed.
End Prefix.

Lemma sorted_nth : forall A (R : A -> A -> Prop) l, StronglySorted R l ->
  forall i j a b, i < j -> nth_error l i = Some a -> nth_error l j = Some b -> R a b.
Proof.
  induction 1 as [|x l S IH F]; intros i j a b L Ea Eb; [destruct i; discriminate|].
  destruct j as [|j]; [lia|]. cbn in Eb. destruct i as [|i]; cbn in Ea.
  - inversion Ea; subst. rewrite Forall_forall in F. apply F. eapply nth_error_In; eauto.
  - eapply (IH i j); eauto. lia.
Qed.

(** ** argsort *)
Definition le_by (x : list flt) (a b : nat) : Prop := (key_at x a < key_at x b)%Z \/ (key_at x a = key_at x b /\ a <= b).
Lemma before_eq_spec : forall x a b, before_eq x a b = true <-> le_by x a b.
Proof.
  intros. unfold before_eq, le_by. rewrite Bool.orb_true_iff, Bool.andb_true_iff, Z.ltb_lt, Z.eqb_eq, Nat.leb_le. reflexivity.
Qed.
Lemma insert_by_perm : forall le a l, Permutation (a :: l) (insert_by le a l).
Proof.
  induction l as [|b r IH]; cbn; auto. destruct (le a b); auto. eapply perm_trans; [apply perm_swap|]. now apply perm_skip.
Qed.
Lemma insert_by_sorted : forall x a l, StronglySorted (le_by x) l -> StronglySorted (le_by x) (insert_by (before_eq x) a l).
Proof.
  intros x a l H. assert (T : Relations_1.Transitive (le_by x)) by (intros u v w; unfold le_by; lia).
  apply Sorted_StronglySorted; auto. apply StronglySorted_Sorted in H. induction H as [|b r S IH F]; cbn; [repeat constructor|].
  destruct (before_eq x a b) eqn:E; [constructor; [constructor; auto|constructor; now apply before_eq_spec]|].
  assert (L : le_by x b a).
  { assert (~ le_by x a b) by (rewrite <- before_eq_spec; congruence). unfold le_by in *. lia. }
  constructor; auto. clear IH S E. destruct r as [|c r]; cbn; [constructor; auto|]. inversion F; subst. destruct (before_eq x a c); constructor; auto.
Qed.
Lemma argsort_perm : forall x, Permutation (seq 0 (length x)) (argsort x).
Proof.
  intros. unfold argsort. induction (seq 0 (length x)) as [|a l IH]; cbn; auto.
  eapply perm_trans; [apply perm_skip; apply IH|apply insert_by_perm].
Qed.
Lemma argsort_sorted : forall x, StronglySorted (le_by x) (argsort x).
Proof. intros. unfold argsort. induction (seq 0 (length x)); cbn; [constructor|now apply insert_by_sorted]. Qed.
Lemma argsort_length : forall x, length (argsort x) = length x.
Proof. intros. rewrite <- (Permutation_length (argsort_perm x)). apply seq_length. Qed.
Lemma argsort_In : forall x k, In k (argsort x) <-> k < length x.
Proof.
  intros. split; intros H.
  - apply (Permutation_in _ (Permutation_sym (argsort_perm x))) in H. apply in_seq in H. lia.
  - apply (Permutation_in _ (argsort_perm x)). apply in_seq. lia.
Qed.

Lemma key_at_nth : forall x k, k < length x -> key_at x k = f_key (nth k x 0%Z).
Proof. intros x k H. unfold key_at. rewrite (nth_error_nth' x 0%Z H). reflexivity. Qed.
Lemma latest_fun : forall x t k k', latest x t k -> latest x t k' -> k = k'.
Proof.
  intros x t k k' (u & E & L & M) (u' & E' & L' & M'). destruct (M _ _ E' L') as [H|[H1 H2]]; destruct (M' _ _ E L) as [H'|[H1' H2']]; lia.
Qed.

Lemma previous_index_spec : forall old t k, previous_index old t = Ok k -> k < length old /\ latest old t k /\ in_range old t.
Proof.
  intros old t k. unfold previous_index. cbv zeta. set (ind := argsort old). set (x := map (fun i => nth i old 0%Z) ind).
  assert (IL : length ind = length old) by (apply argsort_length).
  assert (XL : length x = length old) by (unfold x; now rewrite map_length).
  assert (SO : StronglySorted (le_by old) ind) by (apply argsort_sorted).
  assert (XN : forall i, nth_error x i = option_map (fun i => nth i old 0%Z) (nth_error ind i)) by (intros; unfold x; apply nth_error_map).
  assert (IN : forall i, In i ind <-> i < length old) by (apply argsort_In).
  destruct x as [|x0 xr] eqn:EX; [discriminate|]. destruct (flt_lt t x0 || flt_lt (last (x0 :: xr) 0%Z) t) eqn:R; [discriminate|].
  apply Bool.orb_false_iff in R. destruct R as [R1 R2]. unfold flt_lt in R1, R2. apply Z.ltb_ge in R1. apply Z.ltb_ge in R2.
  intros H. inversion H as [K]. clear H.
  set (P := fun i => fle (nth i old 0%Z) t).
  assert (CNT : count_le (x0 :: xr) t = length (filter P ind)).
  { unfold count_le. rewrite <- EX. unfold x. clear. induction ind as [|a l IH]; cbn; auto. unfold P at 1. destruct (fle (nth a old 0%Z) t); cbn; now rewrite IH. }
  assert (DOWN : forall a b, le_by old a b /\ a < length old /\ b < length old -> P b = true -> P a = true).
  { intros a b (L & A & B) Pb. unfold P, fle in *. apply Z.leb_le in Pb. apply Z.leb_le. unfold le_by in L. rewrite !key_at_nth in L by auto. lia. }
  assert (SO' : StronglySorted (fun a b => le_by old a b /\ a < length old /\ b < length old) ind).
  { clear - SO IN. assert (F : forall i, In i ind -> i < length old) by (intros; now apply IN). clear IN. induction SO as [|a l S IH Fa]; constructor.
    - apply IH. intros; apply F; now right.
    - rewrite Forall_forall in *. intros b B. split; [auto|]. split; apply F; [now left|now right]. }
  pose proof (count_prefix _ _ P DOWN ind SO') as CP.
  assert (C1 : 1 <= length (filter P ind)).
  { specialize (XN 0). destruct (nth_error ind 0) as [i0|] eqn:E0; [|discriminate]. cbn in XN. injection XN as XN.
    assert (P i0 = true) by (unfold P, fle; apply Z.leb_le; rewrite <- XN; lia). apply (CP 0 i0 E0) in H. lia. }
  assert (C2 : length (filter P ind) <= length old).
  { rewrite <- IL. clear. induction ind as [|a l IH]; cbn; auto. destruct (P a); cbn; lia. }
  subst k. rewrite CNT. unfold clip. cbn [length] in XL. rewrite XL.
  replace (Nat.min (length old) (Nat.max 1 (length (filter P ind)))) with (length (filter P ind)) by lia.
  set (c := length (filter P ind)) in *.
  destruct (nth_error ind (c - 1)) as [k0|] eqn:EK; [|apply nth_error_None in EK; lia].
  rewrite (nth_error_nth ind (c - 1) 0 EK). pose proof EK as EI. apply nth_error_In in EI. apply IN in EI.
  assert (Pk : P k0 = true) by (apply (CP _ _ EK); lia).
  assert (LT : latest old t k0).
  { exists (nth k0 old 0%Z). split; [now apply nth_error_nth'|]. unfold P, fle in Pk. apply Z.leb_le in Pk. split; auto.
    intros k' u' E' L'. assert (B : k' < length old) by (apply nth_error_Some; congruence).
    assert (N' : nth k' old 0%Z = u') by (now apply nth_error_nth).
    assert (Pk' : P k' = true) by (unfold P, fle; rewrite N'; now apply Z.leb_le).
    assert (I' : In k' ind) by (now apply IN). apply In_nth_error in I'. destruct I' as (i & Ei). pose proof Pk' as Lt. apply (CP _ _ Ei) in Lt.
    assert (i = c - 1 \/ i < c - 1) as [->|LI] by lia.
    - assert (k' = k0) by congruence. subst. right. lia.
    - pose proof (sorted_nth _ _ _ SO' i (c - 1) k' k0 LI Ei EK) as (Q & _ & _). unfold le_by in Q. rewrite !key_at_nth in Q by auto.
      rewrite N' in Q. lia. }
  split; auto. split; auto. split.
  - destruct LT as (u & E & L & _). exists u. split; auto. eapply nth_error_In; eauto.
  - exists (last (x0 :: xr) 0%Z). split; [|lia]. rewrite <- EX.
    assert (NE : x <> []) by (rewrite EX; discriminate).
    assert (IL' : In (last x 0%Z) x).
    { destruct (exists_last NE) as (l' & a & ->). rewrite last_last. apply in_or_app. right. now left. }
    unfold x in IL' at 2. apply List.in_map_iff in IL'. destruct IL' as (i & Ei & Ii). apply IN in Ii.
    rewrite <- Ei. now apply nth_In.
Qed.

(** the latest index exists whenever there is an earlier time *)
Lemma latest_exists : forall old t, (exists u, In u old /\ (f_key u <= f_key t)%Z) -> exists k, latest old t k.
Proof.
  intros old. induction old as [|a l IH] using rev_ind; [intros t (u & [] & _)|].
  intros t (u & I & L). destruct (Z_le_gt_dec (f_key a) (f_key t)) as [La|Ga].
  - assert (D : (exists u, In u l /\ (f_key u <= f_key t)%Z) \/ ~ (exists u, In u l /\ (f_key u <= f_key t)%Z)).
    { destruct (existsb (fun u => (f_key u <=? f_key t)%Z) l) eqn:E.
      - left. apply existsb_exists in E. destruct E as (v & Iv & Ev). apply Z.leb_le in Ev. eauto.
      - right. intros (v & Iv & Lv). assert (X : existsb (fun u => (f_key u <=? f_key t)%Z) l = true) by (apply existsb_exists; exists v; split; auto; now apply Z.leb_le). congruence. }
    assert (NA : nth_error (l ++ [a]) (length l) = Some a) by (rewrite nth_error_app2, Nat.sub_diag by auto; reflexivity).
    destruct D as [D|D].
    + destruct (IH t D) as (k & w & E & Lw & M). destruct (Z_lt_ge_dec (f_key a) (f_key w)) as [Lt|Ge].
      * exists k, w. split; [rewrite nth_error_app1; auto; apply nth_error_Some; congruence|]. split; auto. intros k' u' E' L'.
        destruct (lt_dec k' (length l)) as [B|B]; [rewrite nth_error_app1 in E' by auto; eauto|].
        assert (k' = length l). { assert (X : k' < length (l ++ [a])) by (apply nth_error_Some; congruence). rewrite app_length in X. cbn in X. lia. }
        subst. assert (u' = a) by congruence. subst. auto.
      * exists (length l), a. split; auto. split; auto. intros k' u' E' L'.
        destruct (lt_dec k' (length l)) as [B|B].
        { rewrite nth_error_app1 in E' by auto. destruct (M _ _ E' L') as [?|[? ?]]; [left; lia|]. destruct (Z_lt_ge_dec (f_key w) (f_key a)); [left; lia|right; split; lia]. }
        assert (k' = length l). { assert (X : k' < length (l ++ [a])) by (apply nth_error_Some; congruence). rewrite app_length in X. cbn in X. lia. }
        subst. assert (u' = a) by congruence. subst. right. auto.
    + exists (length l), a. split; auto. split; auto. intros k' u' E' L'.
      destruct (lt_dec k' (length l)) as [B|B].
      { exfalso. apply D. rewrite nth_error_app1 in E' by auto. exists u'. split; auto. eapply nth_error_In; eauto. }
      assert (k' = length l). { assert (X : k' < length (l ++ [a])) by (apply nth_error_Some; congruence). rewrite app_length in X. cbn in X. lia. }
      subst. assert (u' = a) by congruence. subst. right. auto.
  - assert (I' : exists u, In u l /\ (f_key u <= f_key t)%Z).
    { apply in_app_or in I. destruct I as [I|[->|[]]]; [eauto|lia]. }
    destruct (IH t I') as (k & w & E & Lw & M). exists k, w. split; [rewrite nth_error_app1; auto; apply nth_error_Some; congruence|]. split; auto.
    intros k' u' E' L'. destruct (lt_dec k' (length l)) as [B|B]; [rewrite nth_error_app1 in E' by auto; eauto|].
    assert (NA : nth_error (l ++ [a]) (length l) = Some a) by (rewrite nth_error_app2, Nat.sub_diag by auto; reflexivity).
    assert (k' = length l). { assert (X : k' < length (l ++ [a])) by (apply nth_error_Some; congruence). rewrite app_length in X. cbn in X. lia. }
    subst. assert (u' = a) by congruence. subst. lia.
Qed.

(** ... and a requested time in range is accepted *)
Lemma previous_index_total : forall old t, in_range old t -> exists k, previous_index old t = Ok k.
Proof.
  intros old t ((u & Iu & Lu) & (w & Iw & Lw)). unfold previous_index. cbv zeta.
  set (ind := argsort old). set (x := map (fun i => nth i old 0%Z) ind).
  assert (SX : forall i j a b, i <= j -> nth_error x i = Some a -> nth_error x j = Some b -> (f_key a <= f_key b)%Z).
  { intros i j a b L Ea Eb. unfold x in Ea, Eb. rewrite nth_error_map in Ea, Eb.
    destruct (nth_error ind i) as [ia|] eqn:Ei; [|discriminate]. destruct (nth_error ind j) as [jb|] eqn:Ej; [|discriminate].
    cbn in Ea, Eb. inversion Ea; subst. inversion Eb; subst. assert (i = j \/ i < j) as [->|LT] by lia.
    - assert (ia = jb) by congruence. subst. lia.
    - pose proof (sorted_nth _ _ _ (argsort_sorted old) i j ia jb LT Ei Ej) as Q.
      unfold le_by in Q. assert (ia < length old) by (apply argsort_In; eapply nth_error_In; eauto). assert (jb < length old) by (apply argsort_In; eapply nth_error_In; eauto).
      rewrite !key_at_nth in Q by auto. lia. }
  assert (INX : forall v, In v old -> exists i, nth_error x i = Some v).
  { intros v Iv. apply In_nth_error in Iv. destruct Iv as (k & Ek). assert (B : k < length old) by (apply nth_error_Some; congruence).
    apply argsort_In in B. apply In_nth_error in B. destruct B as (i & Ei). exists i. unfold x. rewrite nth_error_map. unfold ind. rewrite Ei. cbn. f_equal. now apply nth_error_nth. }
  destruct x as [|x0 xr] eqn:EX; [destruct (INX u Iu) as (i & Ei); destruct i; discriminate|].
  destruct (INX u Iu) as (i & Ei). destruct (INX w Iw) as (j & Ej).
  assert (B1 : flt_lt t x0 = false) by (apply Z.ltb_ge; specialize (SX 0 i x0 u ltac:(lia) eq_refl Ei); lia).
  assert (LA : nth_error (x0 :: xr) (length xr) = Some (last (x0 :: xr) 0%Z)).
  { clear. revert x0. induction xr as [|y r IH]; intros; [reflexivity|]. change (length (y :: r)) with (S (length r)).
    change (nth_error (x0 :: y :: r) (S (length r))) with (nth_error (y :: r) (length r)). rewrite IH. reflexivity. }
  assert (JL : j <= length xr). { assert (j < length (x0 :: xr)) by (apply nth_error_Some; congruence). cbn in H. lia. }
  assert (B2 : flt_lt (last (x0 :: xr) 0%Z) t = false) by (apply Z.ltb_ge; specialize (SX j (length xr) w _ JL Ej LA); lia).
  rewrite B1, B2. cbn [orb]. eauto.
Qed.

Lemma rmap_ok : forall A B (f : A -> result rexn B) l r, rmap f l = Ok r -> Forall2 (fun x y => f x = Ok y) l r.
Proof.
  induction l as [|x t IH]; cbn; intros r H; [inversion H; constructor|].
  destruct (f x) as [y|e] eqn:E; cbn in H; [|discriminate]. destruct (rmap f t) as [s|e] eqn:Et; cbn in H; [|discriminate].
  inversion H; subst. constructor; auto.
Qed.
Lemma rmap_total : forall A B (f : A -> result rexn B) l, (forall x, In x l -> exists y, f x = Ok y) -> exists r, rmap f l = Ok r.
Proof.
  induction l as [|x t IH]; cbn; intros H; [eauto|]. destruct (H x (or_introl eq_refl)) as (y & Ey). rewrite Ey. cbn.
  destruct IH as (r & Er); [intros; apply H; now right|]. rewrite Er. cbn. eauto.
Qed.
Lemma forall2_length : forall A B (R : A -> B -> Prop) l r, Forall2 R l r -> length l = length r.
Proof. induction 1; cbn; auto. Qed.
Lemma forall2_nth : forall A B (R : A -> B -> Prop) l r, Forall2 R l r ->
  forall i, (forall x, nth_error l i = Some x -> exists y, nth_error r i = Some y /\ R x y) /\
            (forall y, nth_error r i = Some y -> exists x, nth_error l i = Some x /\ R x y).
Proof.
  induction 1 as [|x y l r H F IH]; intros i; [split; intros z E; destruct i; discriminate|].
  destruct i as [|i]; cbn; [split; intros z E; inversion E; subst; eauto|apply IH].
Qed.

(** ** take_axis *)
Lemma flat_map_length_const : forall A B (f : A -> list B) c l, (forall x, In x l -> length (f x) = c) -> length (flat_map f l) = length l * c.
Proof. induction l as [|x l IH]; cbn; intros H; auto. rewrite app_length, (H x) by now left. rewrite IH; auto. Qed.
Lemma flat_map_nth_const : forall A B (f : A -> list B) c l, (forall x, In x l -> length (f x) = c) ->
  forall i j x, nth_error l i = Some x -> j < c -> nth_error (flat_map f l) (i * c + j) = nth_error (f x) j.
Proof.
  induction l as [|y l IH]; intros H i j x E J; [destruct i; discriminate|]. cbn [flat_map].
  assert (L : length (f y) = c) by (apply H; now left). destruct i as [|i]; cbn in E.
  - inversion E; subst. cbn. rewrite nth_error_app1; [auto|lia].
  - rewrite nth_error_app2 by (rewrite L; cbn; lia). replace (S i * c + j - length (f y)) with (i * c + j) by (rewrite L; cbn; lia).
    apply IH; auto. intros; apply H; now right.
Qed.
Lemma nth_error_firstn_lt : forall A (l : list A) n i, i < n -> nth_error (firstn n l) i = nth_error l i.
Proof. induction l as [|x l IH]; intros n i H; [now rewrite firstn_nil|]. destruct n; [lia|]. destruct i; cbn; auto. apply IH. lia. Qed.
Lemma nth_error_skipn_plus : forall A (l : list A) n i, nth_error (skipn n l) i = nth_error l (n + i).
Proof. induction l as [|x l IH]; intros n i; [rewrite skipn_nil; destruct i, n; reflexivity|]. destruct n; cbn; auto. Qed.

Lemma take_axis_spec : forall A pre n post idx (d : list A), length d = pre * n * post -> (forall k, In k idx -> k < n) ->
  length (take_axis pre n post idx d) = pre * length idx * post /\
  forall i q j k, i < pre -> nth_error idx q = Some k -> j < post ->
    nth_error (take_axis pre n post idx d) ((i * length idx + q) * post + j) = nth_error d ((i * n + k) * post + j).
Proof.
  intros A pre n post idx d L B. unfold take_axis.
  assert (Q : forall i, i < pre -> forall k, In k idx -> length (firstn post (skipn ((i * n + k) * post) d)) = post).
  { intros i Hi k Hk. apply B in Hk. rewrite firstn_length, skipn_length, L. apply Nat.min_l.
    assert (X : (i * n + k + 1) * post <= pre * n * post); [|lia].
    apply Nat.mul_le_mono_r. apply Nat.le_trans with ((i + 1) * n); [rewrite Nat.mul_add_distr_r; lia|apply Nat.mul_le_mono_r; lia]. }
  assert (W : forall i, In i (seq 0 pre) -> length (flat_map (fun k => firstn post (skipn ((i * n + k) * post) d)) idx) = length idx * post).
  { intros i Hi. apply in_seq in Hi. apply flat_map_length_const. apply Q. lia. }
  split.
  - rewrite (flat_map_length_const _ _ _ _ _ W), seq_length. lia.
  - intros i q j k Hi Eq Hj.
    assert (QL : q < length idx) by (apply nth_error_Some; congruence).
    assert (Ei : nth_error (seq 0 pre) i = Some i). { rewrite (nth_error_nth' _ 0) by (rewrite seq_length; auto). now rewrite seq_nth. }
    replace ((i * length idx + q) * post + j) with (i * (length idx * post) + (q * post + j)) by lia.
    assert (X : q * post + j < length idx * post). { apply Nat.lt_le_trans with ((q + 1) * post); [lia|apply Nat.mul_le_mono_r; lia]. }
    rewrite (flat_map_nth_const _ _ _ _ _ W i (q * post + j) i Ei X).
    rewrite (flat_map_nth_const _ _ (fun k => firstn post (skipn ((i * n + k) * post) d)) post idx (Q i Hi) q j k Eq Hj).
    rewrite nth_error_firstn_lt by auto. now rewrite nth_error_skipn_plus.
Qed.

Lemma prod_app : forall a b, prod (a ++ b) = prod a * prod b.
Proof. unfold prod. induction a as [|x a IH]; intros; cbn [app fold_right]; [lia|]. rewrite IH. apply Nat.mul_assoc. Qed.
Lemma prod_cons : forall a b, prod (a :: b) = a * prod b.
Proof. reflexivity. Qed.

Lemma resample_array_spec : forall A old new axis sh (d : list A) sh' d', prod sh = length d ->
  resample_array old new axis sh d = Ok (sh', d') -> slices old new axis sh d sh' d' /\ Forall (in_range old) new.
Proof.
  intros A old new axis sh d sh' d' PL H. unfold resample_array in H. destruct (nth_error sh axis) as [n|] eqn:En; [|discriminate].
  destruct (Nat.eqb n (length old)) eqn:EL; [|discriminate]. apply Nat.eqb_eq in EL. subst n.
  destruct (rmap (previous_index old) new) as [idx|e] eqn:EI; cbn [rbind] in H; [|discriminate]. cbv zeta in H.
  apply rmap_ok in EI. pose proof (forall2_length _ _ _ _ _ EI) as LI.
  destruct (nth_error_split _ _ En) as (pre & post & ES & EP). subst axis.
  assert (F1 : firstn (length pre) sh = pre) by (rewrite ES, firstn_app, Nat.sub_diag, firstn_all; cbn; apply app_nil_r).
  assert (F2 : skipn (S (length pre)) sh = post).
  { rewrite ES. change (pre ++ length old :: post) with (pre ++ [length old] ++ post). rewrite app_assoc.
    replace (S (length pre)) with (length (pre ++ [length old])) by (rewrite app_length; cbn; lia).
    rewrite skipn_app, skipn_all, Nat.sub_diag. reflexivity. }
  rewrite F2, F1 in H. assert (E1 : sh' = pre ++ length new :: post) by congruence.
  assert (E2 : d' = take_axis (prod pre) (length old) (prod post) idx d) by congruence. clear H. subst sh' d'.
  assert (LD : length d = prod pre * length old * prod post) by (rewrite <- PL, ES, prod_app, prod_cons; lia).
  assert (B : forall k, In k idx -> k < length old).
  { intros k Ik. apply In_nth_error in Ik. destruct Ik as (q & Eq). destruct (proj2 (forall2_nth _ _ _ _ _ EI q) _ Eq) as (t & Et & Ht).
    apply previous_index_spec in Ht. tauto. }
  destruct (take_axis_spec _ (prod pre) (length old) (prod post) idx d LD B) as [TL TN].
  split.
  - exists pre, post. split; auto. split; auto. split; auto. split; [rewrite TL, prod_app, prod_cons, LI; lia|].
    intros q t k Et Lk i j Hi Hj. destruct (proj1 (forall2_nth _ _ _ _ _ EI q) _ Et) as (k' & Ek' & Hp).
    apply previous_index_spec in Hp. destruct Hp as (_ & Lk' & _). rewrite (latest_fun _ _ _ _ Lk Lk'). rewrite LI. now apply TN.
  - apply Forall_forall. intros t It. apply In_nth_error in It. destruct It as (q & Eq).
    destruct (proj1 (forall2_nth _ _ _ _ _ EI q) _ Eq) as (k' & Ek' & Hp). apply previous_index_spec in Hp. tauto.
Qed.
