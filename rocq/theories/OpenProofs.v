(** Lemmas for C60: binding of arguments, parts of a URI. *)
From Verif Require Import Base OpenModel OpenSpec.
From Coq Require Import Lia.

(** ** Binding *)
Lemma existsb_In : forall l s, existsb (str_eqb s) l = true <-> In s l.
Proof. intros l s. rewrite existsb_exists. split; [intros (x & I & E); apply str_eqb_eq in E; now subst|intros I; exists s; split; auto; apply str_eqb_refl]. Qed.
Lemma nth_skip : forall A (l : list A) n i, nth_error (skipn n l) i = nth_error l (n + i).
Proof. intros A l n. revert l. induction n as [|n IH]; intros [|x l] i; cbn; auto. now destruct i. Qed.
Section Bind.
Context {A : Type}.
Implicit Types (ps : list (str * option A)) (args vs : list A) (kw : list (str * A)).
Lemma fill_spec : forall ps kw vs, NoDup (map fst kw) -> (fill ps kw = Some vs <->
  length vs = length ps /\ forall i n d v, nth_error ps i = Some (n, d) -> nth_error vs i = Some v -> In (n, v) kw \/ (~ In n (map fst kw) /\ d = Some v)).
Proof.
  intros ps kw vs ND. revert vs. induction ps as [|[n d] ps IH]; intros vs; cbn [fill].
  - split.
    + intros E. assert (vs = []) by congruence. subst. split; auto. intros [|i] ? ? ? H; discriminate.
    + intros (L & _). destruct vs; [reflexivity|discriminate].
  - assert (X : forall v, (match alookup n kw with Some v => Some v | None => d end) = Some v <-> In (n, v) kw \/ (~ In n (map fst kw) /\ d = Some v)).
    { intros v. destruct (alookup n kw) as [w|] eqn:E.
      - split; [intros Q; left; apply alookup_In; congruence|]. intros [Q|(Q & _)]; [apply alookup_NoDup_In in Q; auto; congruence|]. exfalso. apply Q. apply alookup_In in E. apply (in_map fst) in E. exact E.
      - apply alookup_None_keys in E. split; [auto|]. intros [Q|(_ & Q)]; auto. exfalso. apply E. apply (in_map fst) in Q. exact Q. }
    destruct (match alookup n kw with Some v => Some v | None => d end) as [v|] eqn:V.
    + pose proof (proj1 (X v) eq_refl) as Xv. destruct (fill ps kw) as [l|] eqn:F.
      * destruct (IH l) as [I1 _]. destruct (I1 eq_refl) as [L1 I2]. split.
        { intros E. assert (vs = v :: l) by congruence. subst vs. split; [cbn; now rewrite L1|]. intros [|i] n0 d0 v0 N1 N2; cbn in N1, N2; [|eapply I2; eauto]. assert (n0 = n /\ d0 = d /\ v0 = v) as (-> & -> & ->) by (repeat split; congruence). exact Xv. }
        { intros (L & H). destruct vs as [|v' vs]; [discriminate|]. assert (v' = v). { pose proof (proj2 (X v') (H 0 n d v' eq_refl eq_refl)) as Q. congruence. } subst v'.
          assert (Some l = Some vs). { apply IH. split; [cbn in L; lia|]. intros i. exact (H (S i)). } congruence. }
      * split; [discriminate|]. intros (L & H). exfalso. destruct vs as [|v' vs]; [discriminate|]. assert (None = Some vs); [|discriminate]. apply IH. split; [cbn in L; lia|]. intros i. exact (H (S i)).
    + split; [destruct (fill ps kw); discriminate|]. intros (L & H). exfalso. destruct vs as [|v' vs]; [discriminate|]. pose proof (proj2 (X v') (H 0 n d v' eq_refl eq_refl)). discriminate.
Qed.
Lemma bind_takes : forall ps args kw vs, NoDup (map fst kw) -> (bind ps args kw = Some vs <-> takes ps args kw vs).
Proof.
  intros ps args kw vs ND. unfold bind, param, takes. destruct (Nat.ltb_spec (length ps) (length args)) as [L|L]; [split; [intros Q0; discriminate Q0|intros (Q & _); lia]|].
  set (rest := skipn (length args) ps).
  assert (NR : forall j, nth_error rest j = nth_error ps (length args + j)) by (intros j; apply nth_skip).
  assert (LR : length rest = length ps - length args) by apply skipn_length.
  assert (K : forallb (fun k => existsb (str_eqb (fst k)) (map fst rest)) kw = true <-> forall n v, In (n, v) kw -> exists i d, length args <= i /\ nth_error ps i = Some (n, d)).
  { rewrite forallb_forall. split.
    - intros H n v I. specialize (H _ I). cbn in H. apply existsb_In in H. apply List.in_map_iff in H. destruct H as ((n' & d) & E & I2). cbn in E. subst n'. apply In_nth_error in I2. destruct I2 as (j & J). rewrite NR in J. exists (length args + j), d. split; [lia|auto].
    - intros H (n & v) I. destruct (H n v I) as (i & d & Li & N). cbn. apply existsb_In. apply List.in_map_iff. exists (n, d). split; auto. apply nth_error_In with (n := i - length args). rewrite NR. replace (length args + (i - length args)) with i by lia. auto. }
  destruct (forallb _ kw) eqn:F; cbn [negb].
  - pose proof (proj1 K eq_refl) as K1. split.
    + intros E. destruct (fill rest kw) as [l|] eqn:FL; [|discriminate]. assert (vs = args ++ l) by (cbn in E; congruence). subst vs. apply fill_spec in FL; auto. destruct FL as (LL & FL).
      split; [lia|]. split; auto. split; [rewrite app_length; lia|]. intros i n d v N1 N2. destruct (Nat.lt_ge_cases i (length args)) as [Li|Li]; [left; now rewrite nth_error_app1 in N2|right; split; auto].
      rewrite nth_error_app2 in N2 by auto. apply (FL (i - length args) n d v); auto. rewrite NR. replace (length args + (i - length args)) with i by lia. auto.
    + intros (_ & _ & LV & H). assert (FL : fill rest kw = Some (skipn (length args) vs)).
      { apply fill_spec; auto. split; [rewrite skipn_length; lia|]. intros j n d v N1 N2. rewrite NR in N1. rewrite nth_skip in N2. destruct (H _ _ _ _ N1 N2) as [Q|(_ & Q)]; auto. exfalso. assert (length args + j < length args) by (apply nth_error_Some; congruence). lia. }
      rewrite FL. cbn. f_equal. rewrite <- (firstn_skipn (length args) vs) at 2. f_equal.
      assert (EX : forall i, nth_error args i = nth_error (firstn (length args) vs) i).
      { intros i. destruct (Nat.lt_ge_cases i (length args)) as [Li|Li].
        - rewrite nth_error_firstn by auto. destruct (nth_error ps i) as [[n d]|] eqn:N1; [|apply nth_error_None in N1; lia]. destruct (nth_error vs i) as [v|] eqn:N2; [|apply nth_error_None in N2; lia]. destruct (H _ _ _ _ N1 N2) as [Q|(Q & _)]; [auto|lia].
        - rewrite (proj2 (nth_error_None args i)) by auto. symmetry. apply nth_error_None. rewrite firstn_length. lia. }
      clear - EX. revert EX. generalize (firstn (length args) vs) as l. generalize args. induction args0 as [|a t IH]; intros [|b l] E; auto; try (specialize (E 0); discriminate). f_equal; [specialize (E 0); cbn in E; congruence|]. apply IH. intros i. exact (E (S i)).
  - split; [discriminate|]. intros (_ & Q & _). apply K in Q. discriminate.
Qed.
Lemma takes_length : forall ps args kw vs, takes ps args kw vs -> length vs = length ps.
Proof. intros ps args kw vs (_ & _ & L & _). exact L. Qed.
Lemma takes_In : forall ps args kw kw' vs, (forall k, In k kw <-> In k kw') -> takes ps args kw vs -> takes ps args kw' vs.
Proof.
  intros ps args kw kw' vs E (H1 & H2 & H3 & H4). split; auto. split; [intros n v I; apply (H2 n v); now apply E|]. split; auto. intros i n d v N1 N2. destruct (H4 i n d v N1 N2) as [Q|(Q1 & [Q|(Q & D)])]; auto.
  - right. split; auto. left. now apply E.
  - right. split; auto. right. split; auto. intros I. apply Q. apply List.in_map_iff in I. destruct I as ([n' w] & EQ & I). apply List.in_map_iff. exists (n', w). split; auto. now apply E.
Qed.
End Bind.

(** ** Text *)
Lemma cut_none : forall f a, (forall c, In c a -> f c = false) -> cut_at f a = (a, None).
Proof. induction a as [|c a IH]; intros H; cbn; auto. rewrite (H c (or_introl eq_refl)), IH; [reflexivity|]. intros; apply H; right; auto. Qed.
Lemma cut_some : forall f a x b, (forall c, In c a -> f c = false) -> f x = true -> cut_at f (a ++ x :: b) = (a, Some b).
Proof. induction a as [|c a IH]; intros x b H X; cbn; [now rewrite X|]. rewrite (H c (or_introl eq_refl)), IH; auto. intros; apply H; right; auto. Qed.
Lemma until_some : forall f a x b, (forall c, In c a -> f c = false) -> f x = true -> until f (a ++ x :: b) = (a, x :: b).
Proof. induction a as [|c a IH]; intros x b H X; cbn; [now rewrite X|]. rewrite (H c (or_introl eq_refl)), IH; auto. intros; apply H; right; auto. Qed.
Lemma split_any_none : forall f a, (forall c, In c a -> f c = false) -> split_any f a = [a].
Proof. induction a as [|c a IH]; intros H; cbn; auto. rewrite (H c (or_introl eq_refl)), IH; [reflexivity|]. intros; apply H; right; auto. Qed.
Lemma split_any_some : forall f a x b, (forall c, In c a -> f c = false) -> f x = true -> split_any f (a ++ x :: b) = a :: split_any f b.
Proof. induction a as [|c a IH]; intros x b H X; cbn; [now rewrite X|]. rewrite (H c (or_introl eq_refl)), IH; auto. intros; apply H; right; auto. Qed.
Lemma eqc_false : forall c d, c <> d -> eqc c d = false.
Proof. intros c d N. apply Ascii.eqb_neq. auto. Qed.
Lemma existsb_eqc : forall l c, existsb (eqc c) l = true <-> In c l.
Proof. intros l c. rewrite existsb_exists. split; [intros (x & I & E); apply Ascii.eqb_eq in E; now subst|intros I; exists c; split; auto; apply Ascii.eqb_refl]. Qed.
Lemma existsb_eqc_false : forall l c, ~ In c l -> existsb (eqc c) l = false.
Proof. intros l c N. destruct (existsb (eqc c) l) eqn:E; auto. apply existsb_eqc in E. tauto. Qed.
Definition nb (c : ascii) : bool := negb (existsb (eqc c) ["009"; "010"; "013"]%char).
Lemma filter_nb : forall bad s, without bad s -> filter nb s = s.
Proof.
  intros bad. induction s as [|c s IH]; intros H; cbn [filter]; auto. assert (E : nb c = true). { unfold nb. rewrite existsb_eqc_false; auto. intros I. apply (H c (or_introl eq_refl)). apply in_or_app. left. exact I. }
  rewrite E. f_equal. apply IH. intros d I. apply H. right. exact I.
Qed.
Lemma without_not : forall bad s x c, without bad s -> In x bad -> In c s -> eqc x c = false.
Proof. intros bad s x c H X I. apply eqc_false. intros ->. apply (H c I). apply in_or_app. right. exact X. Qed.
Lemma lower_small : forall c, small c (lower_chr c).
Proof.
  intros c. unfold small, lower_chr, code. pose proof (ascii_N_embedding c) as EM. destruct ((65 <=? N_of_ascii c) && (N_of_ascii c <=? 90))%N eqn:E.
  - apply Bool.andb_true_iff in E. destruct E as [E1 E2]. apply N.leb_le in E1, E2. left. exists (N_of_ascii c - 65)%N. split; [lia|]. split; [rewrite <- EM at 1; f_equal; lia|f_equal; lia].
  - right. split; auto. intros (i & Li & ->). rewrite N_ascii_embedding in E by lia. destruct (N.leb_spec 65 (65 + i)); destruct (N.leb_spec (65 + i) 90); cbn in E; try lia.
Qed.
Lemma dropwhile_none : forall f s, (forall c, In c s -> f c = false) -> dropwhile f s = s.
Proof. intros f [|c s] H; cbn; auto. now rewrite (H c (or_introl eq_refl)). Qed.

(** ** The options *)
Lemma last_value_dec : forall opts n, (exists v, last_value opts n v) \/ ~ In n (map fst opts).
Proof.
  induction opts as [|[n' v'] opts IH]; intros n; [right; auto|]. destruct (IH n) as [(v & l1 & l2 & -> & N)|N]; [left; exists v, ((n', v') :: l1), l2; auto|].
  destruct (str_dec n' n) as [->|D]; [left; exists v', [], opts; auto|right; intros [Q|Q]; auto].
Qed.
Lemma last_snoc : forall l n v n' v', last_value (l ++ [(n', v')]) n v <-> (n = n' /\ v = v') \/ (n <> n' /\ last_value l n v).
Proof.
  intros l n v n' v'. split.
  - intros (l1 & l2 & E & N). destruct (exists_last (l := (n, v) :: l2)) as (l3 & [a b] & E3); [discriminate|]. rewrite E3, app_assoc in E. apply app_inj_tail in E. destruct E as [-> E]. injection E as <- <-.
    destruct l3 as [|x l3]; cbn in E3; [injection E3 as -> -> ->; auto|]. injection E3 as <- ->. right. split; [intros ->; apply N; rewrite map_app; apply in_or_app; right; left; auto|].
    exists l1, l3. split; auto. intros I. apply N. rewrite map_app. apply in_or_app. auto.
  - intros [(-> & ->)|(D & l1 & l2 & -> & N)]; [exists l, []; auto|]. exists l1, (l2 ++ [(n', v')]). split; [now rewrite <- app_assoc|]. rewrite map_app. intros I. apply in_app_or in I. destruct I as [I|[I|[]]]; auto.
Qed.
Lemma fold_last : forall opts d n v, alookup n (fold_left (fun d (o : str * str) => aset (fst o) (snd o) d) opts d) = Some v <->
  last_value opts n v \/ (~ In n (map fst opts) /\ alookup n d = Some v).
Proof.
  intros opts d n v. induction opts as [|[n' v'] opts IH] using rev_ind; cbn [fold_left].
  - split; [intros H; right; auto|]. intros [(l1 & l2 & E & _)|(_ & H)]; auto. destruct l1; discriminate.
  - rewrite fold_left_app. cbn [fold_left fst snd]. rewrite alookup_aset. rewrite last_snoc, map_app. destruct (str_eqb n n') eqn:E.
    + apply str_eqb_eq in E. subst n'. split; [intros [= <-]; auto|]. intros [[(_ & ->)|(D & _)]|(D & _)]; auto; [congruence|]. exfalso. apply D. apply in_or_app. right. left. auto.
    + apply str_eqb_neq in E. rewrite IH. split.
      * intros [H|(H & L)]; [left; right; auto|right]. split; auto. intros I. apply in_app_or in I. destruct I as [I|[I|[]]]; auto.
      * intros [[(-> & _)|(_ & H)]|(H & L)]; [congruence|auto|right]. split; auto. intros I. apply H. apply in_or_app. auto.
Qed.
