(** Lemmas about PathModel. *)
From Coq Require Import ZifyBool ZifyNat ZifyN.
From Verif Require Import Base PathModel PathSpec.

(** ** Finding characters *)
Lemma find0_Some : forall c s k, find0 c s = Some k ->
  exists a b, s = a ++ c :: b /\ length a = k /\ ~ In c a.
Proof.
  induction s as [|x s IH]; simpl; intros k H; [congruence|].
  destruct (Ascii.eqb x c) eqn:E.
  - apply Ascii.eqb_eq in E; subst. inversion H; subst. exists [], s. simpl. auto.
  - destruct (find0 c s) as [k'|]; simpl in H; [|congruence]. inversion H; subst.
    destruct (IH k' eq_refl) as (a & b & -> & Hl & Hn). exists (x :: a), b. simpl.
    repeat split; auto. intros [->|Hin]; auto. rewrite Ascii.eqb_refl in E. congruence.
Qed.

Lemma find0_None : forall c s, find0 c s = None <-> ~ In c s.
Proof.
  induction s as [|x s IH]; simpl; [tauto|].
  destruct (Ascii.eqb x c) eqn:E.
  - apply Ascii.eqb_eq in E; subst. split; intros H; [congruence|]. exfalso; auto.
  - apply Ascii.eqb_neq in E. destruct (find0 c s); simpl; split; intros H; try congruence.
    + exfalso. apply H. right. destruct IH as [_ IH]. destruct (in_dec ascii_dec c s); auto.
      specialize (IH n0). congruence.
    + intros [->|Hin]; auto. apply IH in Hin; auto.
Qed.

Lemma find0_app : forall c a b, ~ In c a -> find0 c (a ++ c :: b) = Some (length a).
Proof.
  induction a as [|x a IH]; simpl; intros b H.
  - now rewrite Ascii.eqb_refl.
  - assert (x <> c) as Hx by (intros ->; apply H; auto). apply Ascii.eqb_neq in Hx. rewrite Hx.
    rewrite IH; auto.
Qed.

Lemma skipn_skipn' : forall {A} a b (l : list A), skipn a (skipn b l) = skipn (a + b) l.
Proof.
  intros A a b. revert a. induction b as [|b IH]; intros a l.
  - now rewrite Nat.add_0_r.
  - destruct l as [|x l]; [now rewrite !skipn_nil|].
    rewrite Nat.add_succ_r. simpl. apply IH.
Qed.

Lemma find_shift : forall c s base i, find c s (base + i) = option_map (Nat.add base) (find c (skipn base s) i).
Proof.
  intros. unfold find. rewrite skipn_skipn', (Nat.add_comm i base).
  destruct (find0 c (skipn (base + i) s)); simpl; auto. now rewrite Nat.add_assoc.
Qed.

Definition rshift (base : nat) (r : result path_exn nat) : result path_exn nat :=
  match r with Ok n => Ok (base + n) | Err e => Err e end.

Lemma inner_loop_shift : forall fuel o c s base no nc,
  inner_loop fuel o c s (option_map (Nat.add base) no) (base + nc)
  = rshift base (inner_loop fuel o c (skipn base s) no nc).
Proof.
  induction fuel as [|f IH]; intros; auto. cbn [inner_loop].
  destruct no as [no|]; simpl; auto.
  replace (base + no <? base + nc) with (no <? nc) by lia.
  destruct (no <? nc); auto.
  rewrite <- !Nat.add_assoc, (find_shift c s base (nc + 1)), (find_shift o s base (no + 1)).
  destruct (find c (skipn base s) (nc + 1)) as [nc'|]; cbn [option_map]; auto.
Qed.

(** ** Depth counting *)
Fixpoint run (o c : ascii) (d : nat) (s : str) : option nat :=
  match s with
  | [] => Some d
  | x :: t => if Ascii.eqb x o then run o c (S d) t
              else if Ascii.eqb x c then match d with O => None | S d' => run o c d' t end
              else run o c d t
  end.

Fixpoint cnt (x : ascii) (s : str) : nat :=
  match s with [] => 0 | y :: t => (if Ascii.eqb y x then 1 else 0) + cnt x t end.

Lemma cnt_app : forall x a b, cnt x (a ++ b) = cnt x a + cnt x b.
Proof. induction a; simpl; intros; auto. rewrite IHa. lia. Qed.

Lemma cnt_notin : forall x a, ~ In x a -> cnt x a = 0.
Proof.
  induction a as [|y a IH]; simpl; intros H; auto.
  assert (y <> x) as Hx by (intros ->; apply H; auto). apply Ascii.eqb_neq in Hx. rewrite Hx.
  rewrite IH; auto.
Qed.

Lemma run_app : forall o c a d b, run o c d (a ++ b) = match run o c d a with None => None | Some d' => run o c d' b end.
Proof.
  induction a as [|x a IH]; simpl; intros; auto.
  destruct (Ascii.eqb x o); auto. destruct (Ascii.eqb x c); auto. destruct d; auto.
Qed.

Lemma run_cnt : forall o c s d d', o <> c -> run o c d s = Some d' -> d' + cnt c s = d + cnt o s.
Proof.
  induction s as [|x s IH]; simpl; intros d d' Hoc H.
  - inversion H; lia.
  - destruct (Ascii.eqb x o) eqn:E1.
    + apply Ascii.eqb_eq in E1; subst x. apply Ascii.eqb_neq in Hoc as Hoc'. rewrite Hoc'.
      apply IH in H; auto. lia.
    + destruct (Ascii.eqb x c) eqn:E2.
      * destruct d; [congruence|]. apply IH in H; auto. lia.
      * apply IH in H; auto.
Qed.

Lemma run_no_close : forall o c s d, o <> c -> ~ In c s -> run o c d s = Some (d + cnt o s).
Proof.
  induction s as [|x s IH]; simpl; intros d Hoc H; [now rewrite Nat.add_0_r|].
  assert (x <> c) as Hx by (intros ->; apply H; auto). apply Ascii.eqb_neq in Hx. rewrite Hx.
  destruct (Ascii.eqb x o); rewrite IH by auto; f_equal; lia.
Qed.

Lemma run_mono : forall o c s d d', run o c d s = Some d' -> run o c (S d) s = Some (S d').
Proof.
  induction s as [|x s IH]; simpl; intros d d' H; [congruence|].
  destruct (Ascii.eqb x o); auto. destruct (Ascii.eqb x c); auto.
  destruct d; [congruence|]. auto.
Qed.

(** balanced <-> run from depth 0 ends at depth 0 *)
Lemma balanced_run : forall o c s, o <> c -> balanced o c s -> forall d, run o c d s = Some d.
Proof.
  intros o c s Hoc H. induction H as [|x s H1 H2 H IH|i s Hi IHi Hs IHs]; intros d; simpl; auto.
  - apply Ascii.eqb_neq in H1, H2. now rewrite H1, H2.
  - rewrite Ascii.eqb_refl, run_app, IHi. simpl. apply not_eq_sym in Hoc. apply Ascii.eqb_neq in Hoc.
    rewrite Hoc, Ascii.eqb_refl. auto.
Qed.

Lemma balanced_app : forall o c a b, balanced o c a -> balanced o c b -> balanced o c (a ++ b).
Proof.
  intros o c a b Ha Hb. induction Ha; simpl; auto.
  - now constructor.
  - rewrite <- app_assoc. simpl. now constructor.
Qed.

(** From depth d to 0: d closings separate balanced pieces. *)
Lemma run_split : forall o c s d, o <> c -> run o c (S d) s = Some 0 ->
  exists a b, s = a ++ c :: b /\ balanced o c a /\ run o c d b = Some 0.
Proof.
  intros o c s. remember (length s) as n eqn:Hn. assert (length s <= n) as Hle by lia. clear Hn.
  revert s Hle. induction n as [|n IH]; intros s Hle d Hoc H.
  - destruct s; simpl in *; [congruence|lia].
  - destruct s as [|x s]; simpl in *; [congruence|].
    destruct (Ascii.eqb x o) eqn:E1.
    + apply Ascii.eqb_eq in E1; subst x.
      destruct (IH s ltac:(lia) (S d) Hoc H) as (a & b & -> & Ha & Hb).
      rewrite app_length in Hle. simpl in Hle.
      destruct (IH b ltac:(lia) d Hoc Hb) as (a2 & b2 & -> & Ha2 & Hb2).
      exists (o :: a ++ c :: a2), b2. repeat split; auto.
      * simpl. rewrite <- app_assoc. reflexivity.
      * now constructor.
    + destruct (Ascii.eqb x c) eqn:E2.
      * apply Ascii.eqb_eq in E2; subst x. exists [], s. repeat split; auto. constructor.
      * destruct (IH s ltac:(lia) d Hoc H) as (a & b & -> & Ha & Hb).
        apply Ascii.eqb_neq in E1, E2.
        exists (x :: a), b. repeat split; auto. now constructor.
Qed.

Lemma run_balanced : forall o c s, o <> c -> run o c 0 s = Some 0 -> balanced o c s.
Proof.
  intros o c s Hoc. remember (length s) as n eqn:Hn. assert (length s <= n) as Hle by lia. clear Hn.
  revert s Hle. induction n as [|n IH]; intros s Hle H.
  - destruct s; simpl in *; [constructor|lia].
  - destruct s as [|x s]; simpl in *; [constructor|].
    destruct (Ascii.eqb x o) eqn:E1.
    + apply Ascii.eqb_eq in E1; subst x.
      destruct (run_split o c s 0 Hoc H) as (a & b & -> & Ha & Hb).
      rewrite app_length in Hle; simpl in Hle. apply bal_wrap; auto. apply IH; auto. lia.
    + destruct (Ascii.eqb x c) eqn:E2; [congruence|].
      apply Ascii.eqb_neq in E1, E2. constructor; auto. apply IH; auto. lia.
Qed.

(** ** The inner loop finds the matching closing bracket *)
Lemma app_same_length_eq : forall {A} (a a' b b' : list A),
  a ++ b = a' ++ b' -> length a = length a' -> a = a' /\ b = b'.
Proof.
  induction a as [|x a IH]; destruct a' as [|x' a']; simpl; intros b b' H Hl; try lia; auto.
  inversion H; subst. apply IH in H2 as [-> ->]; auto.
Qed.

Definition inv_open (o c : ascii) (t : str) (nopen : option nat) (pre : str) : Prop :=
  match nopen with
  | Some p => exists a b, t = a ++ o :: b /\ length a = p /\ cnt o a = cnt c pre
  | None => cnt o t <= cnt c pre
  end.

Lemma find_at : forall c a b, find c (a ++ b) (length a) = option_map (Nat.add (length a)) (find0 c b).
Proof. intros. unfold find. now rewrite skipn_app, skipn_all, Nat.sub_diag. Qed.

Lemma find_after : forall c a x b, find c (a ++ x :: b) (length a + 1) = option_map (Nat.add (length a + 1)) (find0 c b).
Proof.
  intros. replace (a ++ x :: b) with ((a ++ [x]) ++ b) by (now rewrite <- app_assoc).
  replace (length a + 1) with (length (a ++ [x])) by (now rewrite app_length).
  apply find_at.
Qed.

Lemma prefix_cmp : forall {A} (a a' : list A) b b', a ++ b = a' ++ b' -> length a <= length a' ->
  exists m, a' = a ++ m /\ b = m ++ b'.
Proof.
  induction a as [|x a IH]; intros a' b b' H Hl.
  - exists a'. auto.
  - destruct a' as [|x' a']; simpl in *; [lia|]. inversion H; subst.
    destruct (IH a' b b' H2 ltac:(lia)) as (m & -> & ->). exists m. auto.
Qed.

Lemma inner_loop_spec : forall o c t, o <> c -> forall fuel nopen pre post d,
  t = pre ++ c :: post ->
  run o c 0 pre = Some d ->
  inv_open o c t nopen pre ->
  length t - length pre < fuel ->
  match inner_loop fuel o c t nopen (length pre) with
  | Ok k => exists i rest, t = i ++ c :: rest /\ length i = k /\ balanced o c i
  | Err e => e = UnmatchedParens /\ ~ exists i rest, t = i ++ c :: rest /\ balanced o c i
  end.
Proof.
  intros o c t Hoc. induction fuel as [|f IH]; intros nopen pre post d Ht Hrun Hopen Hf; [lia|].
  cbn [inner_loop].
  pose proof (run_cnt _ _ _ _ _ Hoc Hrun) as Hcnt.
  assert (Hzero : d = 0 -> exists i rest, t = i ++ c :: rest /\ length i = length pre /\ balanced o c i).
  { intros ->. exists pre, post. repeat split; auto. now apply run_balanced. }
  destruct nopen as [p|].
  - destruct Hopen as (a & b & Ha & Hp & Hca).
    destruct (Nat.ltb_spec p (length pre)) as [Hlt|Hge].
    + (* an open bracket before the close: advance *)
      assert (Hd : d >= 1).
      { rewrite Ht in Ha. symmetry in Ha.
        destruct (prefix_cmp (a ++ [o]) pre b (c :: post)) as (m & Hm & _).
        { now rewrite <- app_assoc. } { rewrite app_length; simpl; lia. }
        assert (cnt o pre >= cnt o a + 1).
        { rewrite Hm, !cnt_app. simpl. rewrite Ascii.eqb_refl. lia. }
        lia. }
      replace (find c t (length pre + 1)) with (option_map (Nat.add (length pre + 1)) (find0 c post))
        by (rewrite Ht; symmetry; apply find_after).
      destruct (find0 c post) as [k|] eqn:Ek; simpl option_map.
      * destruct (find0_Some _ _ _ Ek) as (u & v & -> & Hu & Hnu).
        set (pre2 := pre ++ c :: u).
        assert (Hl2 : length pre + 1 + k = length pre2).
        { unfold pre2. rewrite app_length. simpl. lia. }
        rewrite Hl2. destruct d as [|d]; [lia|].
        assert (Hoc' : Ascii.eqb c o = false) by (apply Ascii.eqb_neq; congruence).
        apply (IH _ pre2 v (d + cnt o u)).
        -- rewrite Ht. unfold pre2. rewrite <- app_assoc. reflexivity.
        -- unfold pre2. rewrite run_app, Hrun. simpl. rewrite Hoc', Ascii.eqb_refl.
           apply run_no_close; auto.
        -- assert (Hc2 : cnt c pre2 = cnt c pre + 1).
           { unfold pre2. rewrite cnt_app. simpl. rewrite Ascii.eqb_refl, (cnt_notin c u Hnu). lia. }
           replace (find o t (p + 1)) with (option_map (Nat.add (p + 1)) (find0 o b)).
           2:{ rewrite Ha, <- Hp. symmetry. apply find_after. }
           destruct (find0 o b) as [q|] eqn:Eq; simpl.
           ++ destruct (find0_Some _ _ _ Eq) as (u2 & v2 & -> & Hu2 & Hnu2).
              exists (a ++ o :: u2), v2. repeat split.
              ** rewrite Ha, <- app_assoc. reflexivity.
              ** rewrite app_length. simpl. lia.
              ** rewrite cnt_app. simpl. rewrite Ascii.eqb_refl, (cnt_notin o u2 Hnu2). lia.
           ++ apply find0_None in Eq. rewrite Ha, cnt_app. simpl.
              rewrite Ascii.eqb_refl, (cnt_notin o b Eq). lia.
        -- rewrite <- Hl2. assert (length t >= length pre + 1).
           { rewrite Ht, app_length. simpl. lia. } lia.
      * (* no further close: unmatched *)
        split; auto. intros (i & rest & Hi & Hbal). apply find0_None in Ek.
        assert (Hir : run o c 0 (i ++ [c]) = None).
        { rewrite run_app, (balanced_run o c i Hoc Hbal). simpl.
          assert (Ascii.eqb c o = false) as -> by (apply Ascii.eqb_neq; congruence).
          now rewrite Ascii.eqb_refl. }
        rewrite Ht in Hi.
        destruct (le_lt_dec (length pre) (length i)) as [Hle|Hlt2].
        -- destruct (prefix_cmp pre i (c :: post) (c :: rest) Hi Hle) as (m & -> & Hm).
           destruct m as [|y m].
           ++ rewrite app_nil_r in Hir. rewrite run_app, Hrun in Hir. simpl in Hir.
              assert (Ascii.eqb c o = false) as Hx by (apply Ascii.eqb_neq; congruence).
              rewrite Hx, Ascii.eqb_refl in Hir. destruct d; [lia|congruence].
           ++ inversion Hm; subst. apply Ek. apply in_or_app. right. simpl; auto.
        -- symmetry in Hi.
           destruct (prefix_cmp (i ++ [c]) pre rest (c :: post)) as (m & -> & _).
           { rewrite <- app_assoc. auto. } { rewrite app_length. simpl. lia. }
           rewrite run_app, Hir in Hrun. congruence.
    + apply Hzero. rewrite Ht in Ha.
      destruct (prefix_cmp pre a (c :: post) (o :: b) Ha) as (m & -> & Hm); [lia|].
      rewrite cnt_app in Hca. lia.
  - apply Hzero. simpl in Hopen. rewrite Ht, cnt_app in Hopen. lia.
Qed.

(** Uniqueness of the matching bracket *)
Lemma match_unique : forall o c i rest i' rest', o <> c ->
  balanced o c i -> balanced o c i' -> i ++ c :: rest = i' ++ c :: rest' -> i = i' /\ rest = rest'.
Proof.
  intros o c i rest i' rest' Hoc Hi Hi' H.
  assert (Hx : Ascii.eqb c o = false) by (apply Ascii.eqb_neq; congruence).
  assert (Haux : forall a b ra rb, balanced o c a -> balanced o c b -> a ++ c :: ra = b ++ c :: rb ->
                 length a <= length b -> length a = length b).
  { intros a b ra rb Ha Hb He Hl. destruct (prefix_cmp a b _ _ He Hl) as (m & Hm & Hm2).
    destruct m as [|y m]; [rewrite Hm, app_nil_r; auto|].
    inversion Hm2; subst y. pose proof (balanced_run o c b Hoc Hb 0) as Hr.
    rewrite Hm, run_app, (balanced_run o c a Hoc Ha) in Hr. simpl in Hr.
    rewrite Hx, Ascii.eqb_refl in Hr. congruence. }
  assert (length i = length i') as Hl.
  { destruct (le_lt_dec (length i) (length i')); [eapply Haux; eauto|].
    symmetry. eapply Haux; eauto. lia. }
  apply app_same_length_eq in H as [-> H]; auto. inversion H; auto.
Qed.

(** ** The splitter meets its specification *)
Lemma split_loop_shift : forall fuel o c s cur,
  length s < fuel + cur \/ True ->
  split_loop fuel o c s cur =
  match fuel with
  | O => Err OutOfFuel
  | S f =>
    let t := skipn cur s in
    match find o t 0 with
    | Some no =>
      match find c t 0 with
      | None => Err UnmatchedParens
      | Some nc =>
        if nc <? no then Err UnmatchedParens else
        match inner_loop (S (length s)) o c t (find o t (no + 1)) nc with
        | Err e => Err e
        | Ok nc' =>
          match split_loop f o c s (cur + (nc' + 1)) with
          | Err e => Err e
          | Ok r => Ok (slice t 0 no :: slice t (no + 1) nc' :: r)
          end
        end
      end
    | None => Ok [t]
    end
  end.
Proof.
  intros fuel o c s cur _. destruct fuel as [|f]; auto. cbn [split_loop].
  replace (find o s cur) with (find o s (cur + 0)) by (now rewrite Nat.add_0_r).
  replace (find c s cur) with (find c s (cur + 0)) by (now rewrite Nat.add_0_r).
  rewrite (find_shift o s cur 0), (find_shift c s cur 0). cbn zeta.
  destruct (find o (skipn cur s) 0) as [no|] eqn:Eo; [|reflexivity]. cbn [option_map].
  destruct (find c (skipn cur s) 0) as [nc|] eqn:Ec; [|reflexivity]. cbn [option_map].
  replace (cur + nc <? cur + no) with (nc <? no) by lia.
  destruct (nc <? no); auto.
  rewrite <- Nat.add_assoc, find_shift, inner_loop_shift.
  destruct (inner_loop (S (length s)) o c (skipn cur s) (find o (skipn cur s) (no + 1)) nc) as [nc'|e];
    simpl rshift; cbn [rshift]; auto.
  rewrite <- Nat.add_assoc.
  destruct (split_loop f o c s (cur + (nc' + 1))) as [r|e]; auto.
  f_equal. f_equal.
  - unfold slice. rewrite skipn_O, Nat.sub_0_r. replace (cur + no - cur) with no by lia. reflexivity.
  - f_equal. unfold slice. rewrite skipn_skipn'.
    replace (cur + nc' - (cur + (no + 1))) with (nc' - (no + 1)) by lia.
    now replace (no + 1 + cur) with (cur + (no + 1)) by lia.
Qed.

Lemma slice_0_app : forall a b, slice (a ++ b) 0 (length a) = a.
Proof. intros. unfold slice. rewrite skipn_O, Nat.sub_0_r, firstn_app, firstn_all, Nat.sub_diag. simpl. apply app_nil_r. Qed.

Lemma slice_mid : forall a x m b, slice (a ++ x :: m ++ b) (length a + 1) (length a + 1 + length m) = m.
Proof.
  intros. unfold slice.
  replace (a ++ x :: m ++ b) with ((a ++ [x]) ++ m ++ b) by (now rewrite <- app_assoc).
  replace (length a + 1) with (length (a ++ [x])) by (now rewrite app_length).
  rewrite skipn_app, skipn_all, Nat.sub_diag. simpl.
  replace (length (a ++ [x]) + length m - length (a ++ [x])) with (length m) by lia.
  rewrite firstn_app, firstn_all, Nat.sub_diag. simpl. apply app_nil_r.
Qed.

Lemma skipn_app_len : forall {A} (a b : list A) k, k = length a -> skipn k (a ++ b) = b.
Proof. intros. subst. now rewrite skipn_app, skipn_all, Nat.sub_diag. Qed.

Lemma find_0 : forall c t, find c t 0 = find0 c t.
Proof. intros. unfold find. simpl. destruct (find0 c t); auto. Qed.

Lemma balanced_no_lead_close : forall o c i x, o <> c -> balanced o c i -> i <> c :: x.
Proof.
  intros o c i x Hoc H Hc. subst. pose proof (balanced_run _ _ _ Hoc H 0) as Hr. simpl in Hr.
  assert (Ascii.eqb c o = false) as E by (apply Ascii.eqb_neq; congruence).
  rewrite E, Ascii.eqb_refl in Hr. congruence.
Qed.

Lemma split_loop_spec : forall o c s, o <> c -> forall fuel cur,
  cur <= length s -> length s - cur < fuel ->
  match split_loop fuel o c s cur with
  | Ok r => splits o c (skipn cur s) r
  | Err e => e = UnmatchedParens /\ forall r, ~ splits o c (skipn cur s) r
  end.
Proof.
  intros o c s Hoc. induction fuel as [|f IH]; intros cur Hcur Hf; [lia|].
  rewrite split_loop_shift by auto. cbn zeta.
  set (t := skipn cur s).
  assert (Hlt : length t = length s - cur) by (unfold t; apply skipn_length).
  rewrite !find_0.
  destruct (find0 o t) as [no|] eqn:Eo.
  2:{ apply find0_None in Eo. now constructor. }
  destruct (find0_Some _ _ _ Eo) as (p & b & Ht & Hp & Hnp).
  destruct (find0 c t) as [nc|] eqn:Ec.
  2:{ split; auto. intros r Hs. apply find0_None in Ec. inversion Hs; subst.
      - rewrite Ht in H. apply H. apply in_or_app. simpl; auto.
      - apply Ec. rewrite <- H. apply in_or_app. right. simpl. right. apply in_or_app. simpl. auto. }
  destruct (find0_Some _ _ _ Ec) as (pc & bc & Htc & Hpc & Hnpc).
  (* any decomposition starts with p, o *)
  assert (Hstart : forall r, splits o c t r -> exists i rest r', r = p :: i :: r' /\ b = i ++ c :: rest
             /\ balanced o c i /\ splits o c rest r' /\ ~ In c p).
  { intros r Hs. inversion Hs; subst.
    - exfalso. apply H. rewrite Ht. apply in_or_app; simpl; auto.
    - assert (p0 = p /\ i ++ c :: rest = b) as [-> <-].
      { assert (length p0 = length p) as Hl.
        { pose proof (find0_app o p0 (i ++ c :: rest) H0) as E1. rewrite H in E1. congruence. }
        rewrite Ht in H. apply app_same_length_eq in H as [-> H]; auto. inversion H; auto. }
      exists i, rest, r0. auto. }
  destruct (Nat.ltb_spec nc no) as [Hnc|Hnc].
  { split; auto. intros r Hs. destruct (Hstart r Hs) as (i & rest & r' & _ & _ & _ & _ & Hc).
    apply Hc. rewrite Ht in Htc. symmetry in Htc.
    destruct (prefix_cmp (pc ++ [c]) p bc (o :: b)) as (m & -> & _).
    { now rewrite <- app_assoc. } { rewrite app_length. simpl. lia. }
    apply in_or_app. left. apply in_or_app. simpl; auto. }
  (* close after open: pc = p ++ o :: w *)
  assert (Hw : exists w, pc = p ++ o :: w /\ b = w ++ c :: bc).
  { rewrite Ht in Htc. destruct (prefix_cmp p pc _ _ Htc) as (m & Hm & Hm2); [lia|].
    destruct m as [|y m]; simpl in Hm2; inversion Hm2; subst; [congruence|]. exists m. auto. }
  destruct Hw as (w & Hpcw & Hb).
  assert (Hncp : ~ In c p).
  { intros Hin. apply Hnpc. rewrite Hpcw. apply in_or_app; auto. }
  assert (Hcw : ~ In c w).
  { intros Hin. apply Hnpc. rewrite Hpcw. apply in_or_app. simpl; auto. }
  (* rewrite inner loop as one over b *)
  assert (Hsk : skipn (no + 1) t = b).
  { rewrite Ht. replace (p ++ o :: b) with ((p ++ [o]) ++ b) by (now rewrite <- app_assoc).
    apply skipn_app_len. rewrite app_length; simpl; lia. }
  replace (find o t (no + 1)) with (option_map (Nat.add (no + 1)) (find0 o b)).
  2:{ unfold find. now rewrite Hsk. }
  replace nc with (no + 1 + length w).
  2:{ rewrite <- Hpc, Hpcw, app_length. simpl. lia. }
  rewrite inner_loop_shift, Hsk.
  assert (Hlb : length t = no + 1 + length b).
  { rewrite Ht, app_length. simpl. lia. }
  pose proof (inner_loop_spec o c b Hoc (S (length s)) (find0 o b) w bc (0 + cnt o w) Hb
                (run_no_close o c w 0 Hoc Hcw)) as Hin.
  specialize (Hin ltac:(
    destruct (find0 o b) as [q|] eqn:Eq; simpl;
    [ destruct (find0_Some _ _ _ Eq) as (u & v & Hu & Hlu & Hnu); exists u, v; repeat split; auto;
      rewrite (cnt_notin o u Hnu), (cnt_notin c w Hcw); reflexivity
    | apply find0_None in Eq; rewrite (cnt_notin o b Eq); lia ])).
  specialize (Hin ltac:(lia)).
  destruct (inner_loop (S (length s)) o c b (find0 o b) (length w)) as [k|e]; simpl rshift; cbn [rshift].
  - destruct Hin as (i & rest & Hbi & Hik & Hbal).
    assert (Hrest : skipn (cur + (no + 1 + k + 1)) s = rest).
    { replace (cur + (no + 1 + k + 1)) with ((k + 1) + (no + 1) + cur) by lia.
      rewrite <- (skipn_skipn' (k + 1 + (no + 1)) cur s). fold t.
      rewrite <- (skipn_skipn' (k + 1) (no + 1) t). rewrite Hsk, Hbi.
      replace (i ++ c :: rest) with ((i ++ [c]) ++ rest) by (now rewrite <- app_assoc).
      apply skipn_app_len. rewrite app_length; simpl; lia. }
    assert (Hlb2 : length b = k + 1 + length rest).
    { rewrite Hbi, app_length. simpl. lia. }
    specialize (IH (cur + (no + 1 + k + 1)) ltac:(lia) ltac:(lia)). rewrite Hrest in IH.
    destruct (split_loop f o c s (cur + (no + 1 + k + 1))) as [r|e].
    + assert (Hs1 : slice t 0 no = p) by (rewrite Ht, <- Hp; apply slice_0_app).
      assert (Hs2 : slice t (no + 1) (no + 1 + k) = i).
      { rewrite Ht, Hbi, <- Hp, <- Hik. apply slice_mid. }
      rewrite Hs1, Hs2, Ht, Hbi. now constructor.
    + destruct IH as [He Hno]. split; auto. intros r Hs.
      destruct (Hstart r Hs) as (i' & rest' & r' & _ & Hb' & Hbal' & Hs' & _).
      rewrite Hbi in Hb'. destruct (match_unique _ _ _ _ _ _ Hoc Hbal Hbal' Hb') as [-> ->].
      apply (Hno r'). auto.
  - destruct Hin as [He Hno]. split; auto. intros r Hs.
    destruct (Hstart r Hs) as (i' & rest' & r' & _ & Hb' & Hbal' & Hs' & _).
    apply Hno. exists i', rest'. auto.
Qed.

Lemma splits_det : forall o c s r, o <> c -> splits o c s r -> forall r', splits o c s r' -> r = r'.
Proof.
  intros o c s r Hoc H. induction H as [p Hp|p i rest r Hp1 Hp2 Hb Hs IH]; intros r' H'.
  - inversion H'; subst; auto. exfalso. apply Hp. apply in_or_app; simpl; auto.
  - inversion H'; subst.
    + exfalso. apply H. apply in_or_app; simpl; auto.
    + assert (length p0 = length p) as Hl.
      { pose proof (find0_app o p (i ++ c :: rest) Hp1) as E1.
        pose proof (find0_app o p0 (i0 ++ c :: rest0) H0) as E2. rewrite H in E2. congruence. }
      apply app_same_length_eq in H as [-> H]; auto. inversion H.
      destruct (match_unique _ _ _ _ _ _ Hoc H2 Hb H5) as [-> ->].
      f_equal. f_equal. auto.
Qed.

Lemma split_correct : forall o c s r, o <> c ->
  split_on_matching_parens s o c = Ok r <-> splits o c s r.
Proof.
  intros o c s r Hoc. unfold split_on_matching_parens.
  pose proof (split_loop_spec o c s Hoc (S (length s)) 0 ltac:(lia) ltac:(lia)) as H.
  rewrite skipn_O in H. destruct (split_loop (S (length s)) o c s 0) as [r0|e].
  - split; intros H2; [inversion H2; subst; auto|]. f_equal. eapply splits_det; eauto.
  - destruct H as [_ H]. split; intros H2; [congruence|]. exfalso. eapply H; eauto.
Qed.

Lemma split_error : forall o c s e, o <> c -> split_on_matching_parens s o c = Err e ->
  e = UnmatchedParens /\ forall r, ~ splits o c s r.
Proof.
  intros o c s e Hoc. unfold split_on_matching_parens.
  pose proof (split_loop_spec o c s Hoc (S (length s)) 0 ltac:(lia) ltac:(lia)) as H.
  rewrite skipn_O in H. destruct (split_loop (S (length s)) o c s 0); intros; [congruence|].
  inversion H0; subst. auto.
Qed.
