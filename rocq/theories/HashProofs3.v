(** The content hash does not depend on the order of children in the dictionary. *)
From Coq Require Import Permutation ZifyN.
From Verif Require Import Base TreeModel TreeSpec TreeProofs TreeProofs2 HashModel HashSpec HashProofs HashProofs2.

Lemma str_leb_total : forall a b, str_leb a b = true \/ str_leb b a = true.
Proof.
  induction a as [|x a IH]; intros [|y b]; simpl; auto.
  destruct (Ascii.eqb x y) eqn:E.
  - apply Ascii.eqb_eq in E. subst. rewrite Ascii.eqb_refl. apply IH.
  - rewrite Ascii.eqb_sym, E. rewrite !N.ltb_lt. apply Ascii.eqb_neq in E.
    assert (N_of_ascii x <> N_of_ascii y) by (intros K; apply E; rewrite <- (ascii_N_embedding x), <- (ascii_N_embedding y); congruence). lia.
Qed.
Lemma str_leb_antisym : forall a b, str_leb a b = true -> str_leb b a = true -> a = b.
Proof.
  induction a as [|x a IH]; intros [|y b]; simpl; auto; try discriminate.
  destruct (Ascii.eqb x y) eqn:E.
  - apply Ascii.eqb_eq in E. subst. rewrite Ascii.eqb_refl. intros. f_equal. auto.
  - rewrite Ascii.eqb_sym, E. rewrite !N.ltb_lt. lia.
Qed.
Lemma str_leb_trans : forall a b c, str_leb a b = true -> str_leb b c = true -> str_leb a c = true.
Proof.
  induction a as [|x a IH]; intros [|y b] [|z c]; simpl; auto; try discriminate.
  destruct (Ascii.eqb x y) eqn:E1.
  - apply Ascii.eqb_eq in E1. subst. destruct (Ascii.eqb y z); auto. apply IH.
  - rewrite N.ltb_lt. destruct (Ascii.eqb y z) eqn:E2.
    + apply Ascii.eqb_eq in E2. subst. rewrite E1. rewrite N.ltb_lt. auto.
    + rewrite N.ltb_lt. intros H1 H2. destruct (Ascii.eqb x z) eqn:E3; [|rewrite N.ltb_lt; lia].
      apply Ascii.eqb_eq in E3. subst. lia.
Qed.

Definition kle {A} (x y : str * A) : Prop := str_leb (fst x) (fst y) = true.
Lemma insert_sorted : forall {A} x (l : list (str * A)), sorted_by kle l -> sorted_by kle (insert x l).
Proof.
  intros A x l Hs. induction Hs as [|y l Hy Hs IH]; simpl; [constructor; [simpl; tauto|constructor]|].
  destruct (str_leb (fst x) (fst y)) eqn:E.
  - constructor; [|constructor; auto]. intros z [<-|Hz]; [exact E|]. unfold kle in *. eapply str_leb_trans; eauto.
  - constructor; auto. intros z Hz. apply (Permutation_in _ (insert_perm x l)) in Hz. destruct Hz as [<-|Hz]; auto.
    unfold kle. destruct (str_leb_total (fst x) (fst y)); congruence.
Qed.
Lemma isort_sorted : forall {A} (l : list (str * A)), sorted_by kle (isort l).
Proof. induction l; simpl; [constructor|apply insert_sorted; auto]. Qed.

Lemma sorted_perm_eq : forall {A} (l1 l2 : list (str * A)), sorted_by kle l1 -> sorted_by kle l2 -> Permutation l1 l2 ->
  NoDup (map fst l1) -> l1 = l2.
Proof.
  intros A l1. induction l1 as [|x l1 IH]; intros l2 S1 S2 P N.
  - apply Permutation_nil in P. auto.
  - destruct l2 as [|y l2]; [symmetry in P; apply Permutation_nil in P; discriminate|].
    inversion S1 as [|? ? Sx S1']; subst. inversion S2 as [|? ? Sy S2']; subst.
    assert (x = y) as ->.
    { assert (Hy : In y (x :: l1)) by (eapply Permutation_in; [symmetry; exact P|simpl; auto]).
      assert (Hx : In x (y :: l2)) by (eapply Permutation_in; [exact P|simpl; auto]).
      destruct Hy as [Hy|Hy]; auto. destruct Hx as [Hx|Hx]; auto.
      assert (E : fst x = fst y) by (apply str_leb_antisym; [apply Sx|apply Sy]; auto).
      exfalso. inversion N as [|? ? N1 N2]; subst. apply N1. rewrite E. apply in_map. auto. }
    f_equal. apply IH; auto; [eapply Permutation_cons_inv; eauto|]. inversion N; auto.
Qed.

Lemma reorder_name : forall m m', reorder m m' -> mname m = mname m' /\ mkind m = mkind m'.
Proof. intros m m' R. destruct R. auto. Qed.

Lemma existsb_perm : forall {A} (f : A -> bool) l l', Permutation l l' -> existsb f l = existsb f l'.
Proof.
  intros A f l l' P. induction P; simpl; auto; try congruence. destruct (f x), (f y); auto.
Qed.

Lemma has_value_reorder : forall m m' n, reorder m m' -> has_value m n = has_value m' n.
Proof.
  intros m. meta_induction m. intros m' x R. inversion R as [n0 k0 cs0 cs' cs'' P F]; subst.
  destruct k as [| |dt nd]; [|destruct x; reflexivity|destruct x; reflexivity]. destruct x as [fs| |]; auto.
  cbn [has_value]. rewrite (existsb_perm _ _ _ P).
  assert (Hin : forall c, In c cs'' -> In c cs) by (intros c Hc; eapply Permutation_in; [symmetry; exact P|auto]).
  clear P R. induction F as [|c c' cs'' cs' R F IHF]; simpl; auto.
  rewrite IHF by (intros; apply Hin; simpl; auto). f_equal. destruct (reorder_name _ _ R) as (-> & _).
  destruct (alookup (mname c') fs); auto. apply IH; auto. apply Hin. simpl. auto.
Qed.

Lemma rmap_ext_in : forall {E A B} (f g : A -> result E B) l, (forall a, In a l -> f a = g a) -> rmap f l = rmap g l.
Proof.
  induction l as [|a l IH]; simpl; intros Hf; auto. rewrite (Hf a) by auto. destruct (g a); auto. rewrite IH; auto.
Qed.

Lemma pieces_keys : forall H nm fs cs x, In x (map fst (pieces H nm fs cs)) -> In x (map mname cs).
Proof.
  intros H nm fs cs x Hx. apply in_map_iff in Hx as ((y & r) & <- & Hin). apply in_pieces in Hin as (c & ch & Hc & _ & _ & _ & -> & _).
  simpl. apply in_map. auto.
Qed.
Lemma pieces_nodup : forall H nm fs cs, NoDup (map mname cs) -> NoDup (map fst (pieces H nm fs cs)).
Proof.
  intros H nm fs cs. induction cs as [|c cs IH]; simpl; intros N; [constructor|]. inversion N as [|? ? N1 N2]; subst.
  change (pieces H nm fs (c :: cs)) with
    ((if skipped nm (mname c) then [] else match alookup (mname c) fs with
       | Some ch => if has_value c ch then [(mname c, do b <- enc H c ch; Ok (H b))] else [] | None => [] end) ++ pieces H nm fs cs).
  specialize (IH N2). destruct (skipped nm (mname c)); auto. destruct (alookup (mname c) fs); auto. destruct (has_value c n); auto.
  simpl. constructor; auto. intros X. apply N1. eapply pieces_keys; eauto.
Qed.

Lemma enc_reorder : forall H m m' n, wf_meta m -> reorder m m' -> enc H m n = enc H m' n.
Proof.
  intros H m. meta_induction m. intros m' x Hw R. inversion R as [n0 k0 cs0 cs' cs'' P F]; subst.
  assert (Hp : forall fs, join_pieces (isort (pieces H n fs cs)) = join_pieces (isort (pieces H n fs cs'))).
  { intros fs. f_equal. apply sorted_perm_eq; try apply isort_sorted.
    - rewrite !isort_perm.
      assert (P1 : Permutation (pieces H n fs cs) (pieces H n fs cs'')) by (apply Permutation_flat_map; auto).
      rewrite P1. assert (Hin : forall c, In c cs'' -> In c cs) by (intros c Hc; eapply Permutation_in; [symmetry; exact P|auto]).
      assert (E : pieces H n fs cs'' = pieces H n fs cs'); [|rewrite E; auto].
      clear P P1 R. unfold pieces. induction F as [|c c' cs'' cs' R F IHF]; simpl; auto.
      rewrite IHF by (intros; apply Hin; simpl; auto). f_equal. destruct (reorder_name _ _ R) as (En & _). rewrite En.
      destruct (skipped n (mname c')); auto. destruct (alookup (mname c') fs); auto.
      rewrite (has_value_reorder _ _ _ R). destruct (has_value c' n0); auto. rewrite (IH c (Hin c (or_introl eq_refl)) c'); auto.
      eapply wf_child; eauto. apply Hin. simpl; auto.
    - eapply Permutation_NoDup; [apply Permutation_map; symmetry; apply isort_perm|]. apply pieces_nodup. eapply wf_names; eauto. }
  destruct k as [| |dt nd]; destruct x as [fs|els|v]; try reflexivity.
  - exact (Hp fs).
  - rewrite !enc_aos. destruct (to_bytes 8 (Z.of_nat (length els))); auto. cbn [rbind].
    rewrite (rmap_ext_in _ (fun e => do b <- join_pieces (isort (pieces H n (node_fields e) cs')); Ok (H b)) els); auto.
    intros e _. rewrite Hp. auto.
Qed.
