(** The heap of AliasModel behaves as AliasSpec says (C61). *)
From Verif Require Import Base AliasModel AliasSpec.
From Coq Require Import Lia.

Lemma holder_eqb_eq : forall x y, holder_eqb x y = true <-> x = y.
Proof. intros [n|n] [m|m]; cbn; split; intros H; try discriminate; try (apply Nat.eqb_eq in H; congruence); try (injection H as ->; apply Nat.eqb_refl). Qed.
Lemma is_refl : forall x, is x x = true.
Proof. intros x. now apply holder_eqb_eq. Qed.
Lemma is_spec : forall x y, (is x y = true /\ x = y) \/ (is x y = false /\ x <> y).
Proof. intros x y. destruct (is x y) eqn:E; [left; split; auto; now apply holder_eqb_eq|right; split; auto; intros ->; rewrite is_refl in E; discriminate]. Qed.
Lemma num_eqb_eq : forall a b, num_eqb a b = true <-> a = b.
Proof. intros [] []; cbn; split; intros H; auto; discriminate. Qed.
Lemma ty_eqb_eq : forall a b, ty_eqb a b = true <-> a = b.
Proof.
  intros [|t n] [|u m]; cbn; split; intros H; auto; try discriminate.
  - apply andb_prop in H. destruct H as [H1 H2]. apply num_eqb_eq in H1. apply Nat.eqb_eq in H2. congruence.
  - injection H as -> ->. rewrite (proj2 (num_eqb_eq u u) eq_refl). apply Nat.eqb_refl.
Qed.
Lemma nth_replace : forall {A} (l : list A) i j x d, i < length l -> nth j (replace_at i x l) d = if i =? j then x else nth j l d.
Proof. induction l as [|y l IH]; intros i j x d L; cbn in L; [lia|]. destruct i, j; cbn; auto. apply IH. lia. Qed.
Lemma replace_length : forall {A} (l : list A) i x, length (replace_at i x l) = length l.
Proof. induction l as [|y l IH]; intros [|i] x; cbn; auto. Qed.
Lemma replace_split : forall {A} (l1 : list A) y l2 x, replace_at (length l1) x (l1 ++ y :: l2) = l1 ++ x :: l2.
Proof. induction l1 as [|a l1 IH]; intros; cbn; auto. now rewrite IH. Qed.

Section Proofs.
Variable elt : Type.
Variable tyof : nat -> ty.
Variable str_of : Z -> str.
Variable cast : num -> num -> elt -> elt.
Variable items_of : num -> list nat -> list elt -> list item.
Variable array_of : list item -> num -> option (list nat * list elt).
Notation obj := (obj elt). Notation state := (state elt). Notation sstate := (sstate elt).
Notation show := (show elt tyof). Notation value := (value elt tyof). Notation default := (default elt tyof).
Notation env := (env elt). Notation heap := (heap elt). Notation hold := (hold elt). Notation alloc := (alloc elt). Notation content := (content elt). Notation write := (write elt).
Notation val := (val elt). Notation share := (share elt). Notation own := (own elt). Notation join := (join elt). Notation change := (change elt).

Definition together (st : state) (x y : holder) : Prop := x = y \/ exists r, env st x = Some r /\ env st y = Some r.
Record rel (st : state) (s : sstate) : Prop := {
  r_val : forall h, show st h = val s h;
  r_share : forall x y, share s x y = true <-> together st x y;
  r_wf : forall h r, env st h = Some r -> r < length (heap st) }.

Lemma content_alloc : forall st o r, r < length (heap st) -> content (fst (alloc st o)) r = content st r.
Proof. intros st o r L. unfold content, alloc, AliasModel.content, AliasModel.alloc. cbn. now apply app_nth1. Qed.
Lemma content_new : forall st o, content (fst (alloc st o)) (snd (alloc st o)) = o.
Proof. intros st o. unfold AliasModel.content, AliasModel.alloc. cbn. rewrite app_nth2 by lia. now rewrite Nat.sub_diag. Qed.
Lemma show_env : forall st st' h, env st' h = env st h -> (forall r, env st h = Some r -> content st' r = content st r) -> show st' h = show st h.
Proof. intros st st' h E C. unfold AliasModel.show. rewrite E. destruct (env st h) as [r|] eqn:R; auto. now rewrite C. Qed.
Lemma env_hold : forall st h r x, env (hold st h r) x = if is x h then r else env st x.
Proof. reflexivity. Qed.
Lemma content_hold : forall st h r x, content (hold st h r) x = content st x.
Proof. reflexivity. Qed.
Lemma rel_alloc : forall st s o, rel st s -> rel (fst (alloc st o)) s.
Proof.
  intros st s o [V S W]. split; auto.
  - intros h. rewrite <- V. apply show_env; auto. intros r R. apply content_alloc. eauto.
  - intros h r R. cbn in *. apply W in R. rewrite app_length. cbn. lia.
Qed.
(** a holder takes an object that g holds *)
Lemma rel_join : forall st s h g r, rel st s -> env st g = Some r -> rel (hold st h (Some r)) (join s h g).
Proof.
  intros st s h g r [V S W] G. split.
  - intros x. cbn [AliasSpec.join AliasSpec.val]. unfold AliasModel.show. rewrite env_hold. destruct (is_spec x h) as [(-> & ->)|(-> & N)]; rewrite <- V.
    + unfold AliasModel.show. rewrite G. reflexivity.
    + reflexivity.
  - intros x y. cbn [AliasSpec.join AliasSpec.share]. rewrite S. unfold together. rewrite !env_hold.
    destruct (is_spec x h) as [(-> & ->)|(-> & NX)]; destruct (is_spec y h) as [(-> & ->)|(-> & NY)].
    + split; intros _; [left; auto|left; auto].
    + split; [intros [<-|(q & E1 & E2)]; right; [exists r; auto|exists q; rewrite E2; split; congruence]|intros [->|(q & E1 & E2)]; [congruence|right; exists q; rewrite G; auto]].
    + split; [intros [->|(q & E1 & E2)]; right; [exists r; auto|exists q; split; congruence]|intros [->|(q & E1 & E2)]; [congruence|right; exists q; rewrite G; auto]].
    + tauto.
  - intros x q. rewrite env_hold. destruct (is x h); [intros [= <-]; eapply (W g); eauto|apply W].
Qed.
(** a holder takes a new object *)
Lemma rel_own : forall st s h r o, rel st s -> r < length (heap st) -> (forall x, env st x = Some r -> x = h) -> content st r = o -> rel (hold st h (Some r)) (own s h (Some o)).
Proof.
  intros st s h r o [V S W] L N C. split.
  - intros x. cbn [AliasSpec.own AliasSpec.val]. unfold AliasModel.show. rewrite env_hold. destruct (is_spec x h) as [(-> & ->)|(-> & NX)]; [rewrite content_hold; congruence|]. rewrite <- V. reflexivity.
  - intros x y. cbn [AliasSpec.own AliasSpec.share]. unfold together. rewrite !env_hold.
    destruct (is_spec x h) as [(E & ->)|(E & NX)]; rewrite E; destruct (is_spec y h) as [(E' & ->)|(E' & NY)]; rewrite E'; cbn [orb].
    + split; auto.
    + split; [intros I; left; now apply holder_eqb_eq|intros [->|(q & Q1 & Q2)]; [apply is_refl|]]. injection Q1 as <-. now apply N in Q2.
    + split; [intros I; left; now apply holder_eqb_eq|intros [->|(q & Q1 & Q2)]; [apply is_refl|]]. injection Q2 as <-. now apply N in Q1.
    + rewrite S. reflexivity.
  - intros x q. rewrite env_hold. destruct (is x h); [intros [= <-]; exact L|apply W].
Qed.
Lemma rel_new : forall st s h o, rel st s -> rel (hold (fst (alloc st o)) h (Some (snd (alloc st o)))) (own s h (Some o)).
Proof.
  intros st s h o R. pose proof (rel_alloc st s o R) as R'. apply rel_own; auto.
  - cbn. rewrite app_length. cbn. lia.
  - intros x E. cbn in E. apply (r_wf _ _ R) in E. lia.
  - apply content_new.
Qed.
(** the default of a node becomes its value *)
Lemma rel_value : forall st s n, rel st s -> rel (fst (value st n)) s /\ env (fst (value st n)) (HNode n) = Some (snd (value st n)) /\ val s (HNode n) = Some (content (fst (value st n)) (snd (value st n))) /\
  snd (value st n) < length (heap (fst (value st n))).
Proof.
  intros st s n R. unfold AliasModel.value. destruct (env st (HNode n)) as [r|] eqn:E.
  - cbn [fst snd]. split; auto. split; auto. split; [|eapply (r_wf _ _ R); eauto]. rewrite <- (r_val _ _ R). unfold AliasModel.show. now rewrite E.
  - set (x := AliasModel.alloc elt st (default n)). cbn [fst snd]. assert (L : snd x < length (heap (fst x))) by (cbn; rewrite app_length; cbn; lia).
    assert (DV : val s (HNode n) = Some (default n)) by (rewrite <- (r_val _ _ R); unfold AliasModel.show; now rewrite E).
    split; [|split; [rewrite env_hold, is_refl; reflexivity|split; [rewrite content_hold; unfold x; rewrite content_new; exact DV|exact L]]].
    pose proof (rel_new st s (HNode n) (default n) R) as [V S W]. split; [| |exact W].
    + intros h. rewrite V. cbn [AliasSpec.own AliasSpec.val]. destruct (is_spec h (HNode n)) as [(-> & ->)|(-> & N)]; auto.
    + intros x' y. change (share s x' y = true <-> together (hold (fst (alloc st (default n))) (HNode n) (Some (snd (alloc st (default n))))) x' y). rewrite <- S. cbn [AliasSpec.own AliasSpec.share]. assert (AL : forall z, share s (HNode n) z = true <-> HNode n = z). { intros z. rewrite (r_share _ _ R). unfold together. rewrite E. split; [intros [Q|(q & Q & _)]; auto; discriminate|auto]. }
      assert (AR : forall z, share s z (HNode n) = true <-> z = HNode n). { intros z. rewrite (r_share _ _ R). unfold together. rewrite E. split; [intros [Q|(q & _ & Q)]; auto; discriminate|auto]. }
      destruct (is_spec x' (HNode n)) as [(-> & ->)|(-> & NX)]; cbn [orb]; [rewrite AL; symmetry; apply holder_eqb_eq|].
      destruct (is_spec y (HNode n)) as [(-> & ->)|(-> & NY)]; cbn [orb]; [rewrite AR; symmetry; apply holder_eqb_eq|reflexivity].
Qed.
(** an object is changed in place *)
Lemma rel_change : forall st s h r o, rel st s -> env st h = Some r -> rel (write st r o) (change s h o).
Proof.
  intros st s h r o [V S W] E. pose proof (W h r E) as L. split.
  - intros x. cbn [AliasSpec.change AliasSpec.val]. unfold AliasModel.show. change (env (write st r o) x) with (env st x).
    destruct (share s h x) eqn:SH.
    + apply S in SH. assert (EX : env st x = Some r) by (destruct SH as [<-|(q & Q1 & Q2)]; congruence). rewrite EX. f_equal. unfold AliasModel.content, AliasModel.write. cbn. rewrite nth_replace by auto. now rewrite Nat.eqb_refl.
    + rewrite <- V. unfold AliasModel.show. destruct (env st x) as [q|] eqn:EX; auto. f_equal. unfold AliasModel.content, AliasModel.write. cbn. rewrite nth_replace by auto.
      destruct (r =? q) eqn:Q; auto. apply Nat.eqb_eq in Q. subst q. assert (share s h x = true) by (apply S; right; eauto). congruence.
  - exact S.
  - intros x q Q. cbn. rewrite replace_length. apply (W x). exact Q.
Qed.

(** ** Casts *)
Lemma cast_takes : forall st n r, exists k, takes elt str_of cast items_of array_of (tyof n) (content st r) k /\
  match cast_value elt tyof str_of cast items_of array_of st n r, k with
  | (st', Ok r'), AsIs _ => st' = st /\ r' = r
  | (st', Ok r'), New _ o => (st', r') = alloc st o
  | (st', Err e), Refused _ e' => e = e' /\ (st' = st \/ exists o, st' = fst (alloc st o))
  | _, _ => False
  end.
Proof.
  intros st n r. unfold cast_value. fold content. destruct (tyof n) as [|t nd] eqn:T; destruct (AliasModel.content elt st r) as [l|u sh d] eqn:C.
  - eexists. split; [constructor|reflexivity].
  - eexists. split; [constructor|reflexivity].
  - destruct (array_of l t) as [[sh d]|] eqn:A; [|eexists; split; [now apply takes_none|cbn; auto]]. destruct (length sh =? nd) eqn:N; cbn [fst snd].
    + apply Nat.eqb_eq in N. subst nd. eexists. split; [apply takes_array; eauto|reflexivity].
    + apply Nat.eqb_neq in N. eexists. split; [eapply takes_array_dim; eauto|]. cbn. eauto.
  - destruct (length sh =? nd) eqn:N.
    + apply Nat.eqb_eq in N. subst nd. destruct (num_eqb u t) eqn:U.
      * apply num_eqb_eq in U. subst u. exists (AsIs _). split; [constructor|cbn; auto].
      * eexists. split; [apply takes_cast; intros ->; rewrite (proj2 (num_eqb_eq u u) eq_refl) in U; discriminate|reflexivity].
    + apply Nat.eqb_neq in N. eexists. split; [apply takes_dim; auto|]. destruct (num_eqb u t); cbn; eauto.
Qed.
Lemma rel_assign : forall st s n g r st0, rel st s -> env st g = Some r -> exists s' e,
  sassign elt tyof str_of cast items_of array_of s n g s' e /\ snd (assign elt st0 n (cast_value elt tyof str_of cast items_of array_of st n r)) = e /\
  rel (fst (assign elt st0 n (cast_value elt tyof str_of cast items_of array_of st n r))) s'.
Proof.
  intros st s n g r st0 R G. assert (V : val s g = Some (content st r)) by (rewrite <- (r_val _ _ R); unfold AliasModel.show; now rewrite G).
  destruct (cast_takes st n r) as (k & T & X). unfold assign. destruct (cast_value elt tyof str_of cast items_of array_of st n r) as [st' [r'|e]]; destruct k as [|o|e']; try (now destruct X); cbn [fst snd].
  - destruct X as [-> ->]. eexists. eexists. split; [eapply sa_as_is; eauto|]. split; auto. now apply rel_join.
  - eexists. eexists. split; [eapply sa_new; eauto|]. split; auto. assert (E1 : st' = fst (alloc st o)) by (rewrite <- X; reflexivity). assert (E2 : r' = snd (alloc st o)) by (rewrite <- X; reflexivity). subst. now apply rel_new.
  - destruct X as [-> X]. eexists. eexists. split; [eapply sa_refused; eauto|]. split; auto. destruct X as [->|(o & ->)]; auto. now apply rel_alloc.
Qed.
End Proofs.
