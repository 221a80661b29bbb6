(** Lemmas about paths, dictionaries and origins. *)
From Verif Require Import Base DataTypeModel HashModel ValModel VmapModel VmapSpec.

(** * Paths *)
Lemma iter_parents_spec : forall q p, In p (iter_parents q) <-> inside q p.
Proof.
  unfold inside, slash. induction q as [|c t IH]; intros p; cbn [iter_parents].
  - split; [intros []|]. intros [r E]. destruct p; discriminate.
  - destruct (Ascii.eqb c "/") eqn:Ec.
    + apply Ascii.eqb_eq in Ec. subst c. split.
      * intros [<-|H]; [exists t; reflexivity|]. apply in_map_iff in H. destruct H as [p' [<- H]]. apply IH in H. destruct H as [r ->]. exists r. reflexivity.
      * intros [r E]. destruct p as [|d p']; [left; reflexivity|]. right. cbn in E. inversion E; subst. apply in_map_iff. exists p'.
        split; [reflexivity|]. apply IH. exists r. reflexivity.
    + assert (N : c <> "/"%char) by (intros ->; discriminate). split.
      * intros H. apply in_map_iff in H. destruct H as [p' [<- H]]. apply IH in H. destruct H as [r ->]. exists r. reflexivity.
      * intros [r E]. destruct p as [|d p']; cbn in E; inversion E; subst; [congruence|]. apply in_map_iff. exists p'.
        split; [reflexivity|]. apply IH. exists r. reflexivity.
Qed.

Lemma iter_parents_plain : forall n, no_slash n -> iter_parents n = [].
Proof.
  unfold no_slash, slash. induction n as [|c t IH]; intros H; [reflexivity|]. cbn [iter_parents].
  rewrite IH by (intros K; apply H; right; exact K). cbn. destruct (Ascii.eqb c "/") eqn:E; [|reflexivity].
  apply Ascii.eqb_eq in E. subst c. exfalso. apply H. left. reflexivity.
Qed.
Lemma iter_parents_app : forall q n, no_slash n -> iter_parents (q ++ slash :: n) = iter_parents q ++ [q].
Proof.
  intros q n Hn. induction q as [|c t IH]; cbn [app iter_parents].
  - rewrite iter_parents_plain by exact Hn. reflexivity.
  - rewrite IH. rewrite map_app. destruct (Ascii.eqb c "/"); reflexivity.
Qed.
Lemma rev_parents_app : forall q n, no_slash n -> rev (iter_parents (q ++ slash :: n)) = q :: rev (iter_parents q).
Proof. intros q n H. rewrite iter_parents_app by exact H. rewrite rev_app_distr. reflexivity. Qed.
Lemma before_slash_app : forall q n, no_slash n -> before_slash (q ++ slash :: n) = Some q.
Proof. intros q n H. unfold before_slash. rewrite rev_parents_app by exact H. reflexivity. Qed.
Lemma before_slash_plain : forall n, no_slash n -> before_slash n = None.
Proof. intros n H. unfold before_slash. rewrite iter_parents_plain by exact H. reflexivity. Qed.

(** Every path is a name or a name inside a path. *)
Lemma path_cases : forall q, no_slash q \/ exists p n, q = p ++ slash :: n /\ no_slash n.
Proof.
  induction q as [|c t IH]; [left; intros []|]. destruct IH as [IH|[p [n [-> Hn]]]].
  - destruct (ascii_dec c slash) as [->|N]; [right; exists [], t; split; [reflexivity|exact IH]|]. left. intros [H|H]; [congruence|exact (IH H)].
  - right. exists (c :: p), n. split; [reflexivity|exact Hn].
Qed.
Lemma split_unique : forall (p p' n n' : str), no_slash n -> no_slash n' -> p ++ slash :: n = p' ++ slash :: n' -> p = p' /\ n = n'.
Proof.
  intros p p' n n' Hn Hn' E. assert (B := before_slash_app p n Hn). rewrite E, before_slash_app in B by exact Hn'. inversion B; subst.
  split; [reflexivity|]. apply app_inv_head in E. inversion E. reflexivity.
Qed.
Lemma not_plain : forall p n, ~ no_slash (p ++ slash :: n).
Proof. intros p n H. apply H. apply in_or_app. right. left. reflexivity. Qed.

(** A path and a longer one: an induction over the names below [q]. *)
Lemma suffix_ind : forall (P : str -> Prop), (forall n, no_slash n -> P n) -> (forall r n, P r -> no_slash n -> P (r ++ slash :: n)) -> forall r, P r.
Proof.
  intros P H0 H1 r. remember (length r) as k eqn:E. revert r E. induction k as [k IH] using (well_founded_induction Wf_nat.lt_wf). intros r E.
  destruct (path_cases r) as [H|[p [n [-> Hn]]]]; [apply H0; exact H|]. apply H1; [|exact Hn]. apply (IH (length p)); [|reflexivity].
  subst k. rewrite app_length. cbn. lia.
Qed.

Lemma inside_cases : forall q p n, no_slash n -> inside (q ++ slash :: n) p -> p = q \/ inside q p.
Proof.
  intros q p n Hn H. apply iter_parents_spec in H. rewrite iter_parents_app in H by exact Hn. apply in_app_or in H. destruct H as [H|[H|[]]].
  - right. apply iter_parents_spec. exact H.
  - left. symmetry. exact H.
Qed.
Lemma inside_trans : forall a b c, inside a b -> inside b c -> inside a c.
Proof. intros a b c [r ->] [r' ->]. exists (r' ++ slash :: r). rewrite <- app_assoc. reflexivity. Qed.
Lemma inside_length : forall q p, inside q p -> length p < length q.
Proof. intros q p [r ->]. rewrite app_length. cbn. lia. Qed.

Lemma starts_with_spec : forall p q, starts_with p q = true <-> exists r, q = p ++ r.
Proof.
  unfold starts_with. intros p q. rewrite str_eqb_eq. split.
  - intros E. exists (skipn (length p) q). rewrite E at 1. symmetry. apply firstn_skipn.
  - intros [r ->]. rewrite firstn_app, firstn_all, Nat.sub_diag. cbn. rewrite app_nil_r. reflexivity.
Qed.
Lemma replace_prefix_app : forall p q r, replace_prefix p q (p ++ r) = q ++ r.
Proof. intros p q r. unfold replace_prefix. rewrite skipn_app, skipn_all, Nat.sub_diag. reflexivity. Qed.

(** * The dictionaries path -> element *)
Lemma by_path_snoc : forall f e, by_path (f ++ [e]) = aset (e_path e) e (by_path f).
Proof. intros f e. unfold by_path. rewrite fold_left_app. reflexivity. Qed.
Lemma by_path_lookup : forall f, NoDup (map e_path f) -> forall p e, alookup p (by_path f) = Some e <-> In e f /\ e_path e = p.
Proof.
  induction f as [|e0 f IH] using rev_ind; intros N p e.
  - cbn. split; [discriminate|intros [[] _]].
  - rewrite map_app in N. cbn [map] in N. assert (N1 : NoDup (map e_path f)) by (apply NoDup_remove_1 in N; rewrite app_nil_r in N; exact N).
    assert (N2 : ~ In (e_path e0) (map e_path f)) by (apply NoDup_remove_2 in N; rewrite app_nil_r in N; exact N).
    rewrite by_path_snoc, alookup_aset. destruct (str_eqb p (e_path e0)) eqn:E.
    + apply str_eqb_eq in E. subst p. split.
      * intros H. inversion H; subst. split; [apply in_or_app; right; left; reflexivity|reflexivity].
      * intros [H1 H2]. apply in_app_or in H1. destruct H1 as [H1|[H1|[]]]; [|congruence].
        exfalso. apply N2. rewrite <- H2. apply List.in_map. exact H1.
    + apply str_eqb_neq in E. rewrite (IH N1). split; intros [H1 H2]; (split; [|exact H2]).
      * apply in_or_app. left. exact H1.
      * apply in_app_or in H1. destruct H1 as [H1|[H1|[]]]; [exact H1|]. subst. congruence.
Qed.
Lemma by_path_keys : forall f p, In p (akeys (by_path f)) <-> exists_in f p.
Proof.
  unfold exists_in. induction f as [|e0 f IH] using rev_ind; intros p.
  - cbn. split; [intros []|intros [e [[] _]]].
  - rewrite by_path_snoc, akeys_aset_In, IH. split.
    + intros [->|[e [H1 H2]]]; [exists e0|exists e]; (split; [apply in_or_app|]); auto. right. left. reflexivity.
    + intros [e [H1 H2]]. apply in_app_or in H1. destruct H1 as [H1|[H1|[]]]; [right; exists e; auto|left; subst; reflexivity].
Qed.
Lemma has_In : forall {V} k (d : list (str * V)), has k d = true <-> In k (akeys d).
Proof.
  intros V k d. unfold has. destruct (alookup k d) eqn:E.
  - split; [|reflexivity]. intros _. apply alookup_In in E. apply in_map_iff. exists (k, v). split; [reflexivity|exact E].
  - apply alookup_None_keys in E. split; [discriminate|contradiction].
Qed.
Lemma has_exists : forall f p, has p (by_path f) = true <-> exists_in f p.
Proof. intros f p. rewrite has_In. apply by_path_keys. Qed.
Lemma has_not_exists : forall f p, has p (by_path f) = false <-> ~ exists_in f p.
Proof. intros f p. rewrite <- has_exists. destruct (has p (by_path f)); split; congruence. Qed.
Lemma exists_dec : forall f p, exists_in f p \/ ~ exists_in f p.
Proof. intros f p. rewrite <- has_exists. destruct (has p (by_path f)); [left|right]; congruence. Qed.

Lemma in_map_In : forall k m, in_map k m = true <-> In k (akeys (m_path m)).
Proof. intros k m. apply (has_In k (m_path m)). Qed.

(** * Origins *)
Section Origin.
Variables (old new : fields) (v : Z).
Hypothesis Wn : wf_fields new.

Lemma rule_fun : forall q a b, rule new v q a -> rule new v q b -> a = b.
Proof.
  intros q a b (e & n & vs & ns & i & x & A1 & A2 & A3 & A4 & A5 & A6 & A7 & A8 & A9 & A10)
    (e' & n' & vs' & ns' & i' & x' & B1 & B2 & B3 & B4 & B5 & B6 & B7 & B8 & B9 & B10).
  assert (e' = e).
  { assert (L : alookup q (by_path new) = Some e) by (apply by_path_lookup; [apply Wn|auto]).
    assert (L' : alookup q (by_path new) = Some e') by (apply by_path_lookup; [apply Wn|auto]). congruence. }
  subst e'. assert (n' = n) by congruence. subst n'. assert (vs' = vs) by congruence. subst vs'. assert (ns' = ns) by congruence. subst ns'.
  assert (i = i').
  { destruct (Nat.lt_trichotomy i i') as [L|[L|L]]; [|exact L|].
    - specialize (B9 i x L A7). lia.
    - specialize (A9 i' x' L B7). lia. }
  subst i'. congruence.
Qed.

Lemma origin_fun : forall q p b, origin old new v q p b -> forall p' b', origin old new v q p' b' -> p = p' /\ b = b'.
Proof.
  intros q p b H. induction H as [n Hn Hk|n prev Hn Hr Ho|q p b n H IH Hn Hk|q p b n prev H IH Hn Hr Ho]; intros p' b' H'.
  - inversion H'; subst; try (exfalso; match goal with K : no_slash (_ ++ _) |- _ => exact (not_plain _ _ K) end).
    + split; reflexivity.
    + exfalso. match goal with K : rule _ _ _ ?x, L : exists_in old ?x |- _ => exact (Hk _ K L) end.
  - inversion H'; subst; try (exfalso; match goal with K : no_slash (_ ++ _) |- _ => exact (not_plain _ _ K) end).
    + exfalso. match goal with K : forall prev, rule _ _ _ _ -> _ |- _ => exact (K _ Hr Ho) end.
    + split; [|reflexivity]. eapply rule_fun; eassumption.
  - inversion H'; subst; try (exfalso; match goal with K : no_slash (_ ++ _) |- _ => exact (not_plain _ _ K) end).
    + match goal with K : _ ++ _ = _ ++ _ |- _ => apply split_unique in K; [|assumption|assumption]; destruct K as [-> ->] end.
      match goal with K : origin _ _ _ q _ _ |- _ => apply IH in K; destruct K as [-> ->] end. split; reflexivity.
    + match goal with K : _ ++ _ = _ ++ _ |- _ => apply split_unique in K; [|assumption|assumption]; destruct K as [-> ->] end.
      match goal with K : origin _ _ _ q _ _ |- _ => apply IH in K; destruct K as [-> ->] end.
      exfalso. match goal with K : rule _ _ _ ?x, L : exists_in old (_ ++ slash :: ?x) |- _ => exact (Hk _ K L) end.
  - inversion H'; subst; try (exfalso; match goal with K : no_slash (_ ++ _) |- _ => exact (not_plain _ _ K) end).
    + match goal with K : _ ++ _ = _ ++ _ |- _ => apply split_unique in K; [|assumption|assumption]; destruct K as [-> ->] end.
      match goal with K : origin _ _ _ q _ _ |- _ => apply IH in K; destruct K as [-> ->] end.
      exfalso. match goal with K : forall prev, rule _ _ _ _ -> _ |- _ => exact (K _ Hr Ho) end.
    + match goal with K : _ ++ _ = _ ++ _ |- _ => apply split_unique in K; [|assumption|assumption]; destruct K as [-> ->] end.
      match goal with K : origin _ _ _ q _ _ |- _ => apply IH in K; destruct K as [-> ->] end.
      split; [|reflexivity]. f_equal. f_equal. eapply rule_fun; eassumption.
Qed.
End Origin.
