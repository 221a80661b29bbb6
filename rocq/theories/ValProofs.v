(** Coordinates and validation only read: whatever they return does not depend on what was read before. *)
From Verif Require Import Base PathModel TreeModel TreeSpec TreeProofs TreeProofs2 TreeProofs4 ValModel.

(** ** Reads do not change what is seen *)
Lemma child_or_new_aset : forall c d fs x, mname d = mname c ->
  child_or_new d (aset (mname c) x fs) = x.
Proof. intros c d fs x E. unfold child_or_new. rewrite E, alookup_aset_same. reflexivity. Qed.
Lemma child_or_new_aset_ne : forall d k fs x, mname d <> k -> child_or_new d (aset k x fs) = child_or_new d fs.
Proof. intros d k fs x E. unfold child_or_new. rewrite alookup_aset_other; auto. Qed.

Lemma info_access : forall l m n p, info_at m (access m n l) p = info_at m n p.
Proof.
  unfold info_at. induction l as [|s l IH]; intros m n p.
  - simpl. destruct (mkind m) as [| |dt [|nd]] eqn:K; auto. destruct n as [|?|[v|]]; auto.
    destruct p as [|[c|i] p]; simpl; rewrite ?K; auto.
    unfold info_of, leaf_value. rewrite K. reflexivity.
  - destruct s as [c|i]; simpl.
    + destruct (mkind m) eqn:K; auto. destruct n as [fs|els|v]; auto.
      destruct (child_meta c (mchildren m)) as [d|] eqn:D; auto.
      destruct (child_meta_Some _ _ _ D) as (_ & Hn).
      destruct p as [|[e|j] p]; simpl; try (unfold info_of; rewrite ?K; reflexivity); rewrite ?K; auto.
      * destruct (child_meta e (mchildren m)) as [d'|] eqn:D'; auto.
        destruct (child_meta_Some _ _ _ D') as (_ & Hn'). destruct (list_eq_dec ascii_dec e c) as [->|Hne].
        -- assert (d' = d) by congruence. subst d'. unfold child_or_new. rewrite Hn.
           rewrite alookup_aset_same. rewrite IH. reflexivity.
        -- rewrite child_or_new_aset_ne by congruence. reflexivity.
    + destruct (mkind m) eqn:K; auto. destruct n as [fs|els|v]; auto.
      destruct (nth_error els i) as [e|] eqn:E; auto.
      destruct p as [|[c|j] p]; simpl; try (unfold info_of; rewrite ?K, ?list_set_length; reflexivity); rewrite ?K; auto.
      * rewrite nth_error_list_set. destruct (Nat.eqb_spec i j) as [->|Hij]; auto. rewrite E. rewrite IH. reflexivity.
Qed.

Lemma filled_access : forall l m n p, wf_meta m -> str_ok m -> conf m n ->
  filled_at m (access m n l) p = filled_at m n p.
Proof.
  unfold filled_at.
  assert (H0 : forall l m n, wf_meta m -> str_ok m -> conf m n -> has_value m (access m n l) = has_value m n).
  { intros l m n W S C. apply has_value_items; auto using access_conf. intros p o. apply access_item; auto. }
  induction l as [|s l IH]; intros m n p W S C.
  - destruct p as [|[c|i] p].
    + exact (H0 [] m n W S C).
    + simpl. destruct (mkind m) as [| |dt [|nd]] eqn:K; auto.
    + simpl. destruct (mkind m) as [| |dt [|nd]] eqn:K; auto.
  - destruct p as [|t p]; [exact (H0 (s :: l) m n W S C)|].
    destruct s as [c|i]; simpl.
    + destruct (mkind m) eqn:K; auto. destruct n as [fs|els|v]; auto.
      destruct (child_meta c (mchildren m)) as [d|] eqn:D; auto.
      destruct (child_meta_Some _ _ _ D) as (Hin & Hn).
      destruct t as [e|j]; simpl; rewrite ?K; auto.
      destruct (child_meta e (mchildren m)) as [d'|] eqn:D'; auto.
      destruct (child_meta_Some _ _ _ D') as (_ & Hn'). destruct (list_eq_dec ascii_dec e c) as [->|Hne].
      * assert (d' = d) by congruence. subst d'. unfold child_or_new. rewrite Hn.
        rewrite alookup_aset_same. apply IH.
        -- inversion W; subst. simpl in Hin. auto.
        -- inversion S; subst. simpl in Hin. auto.
        -- destruct m as [nm k cs]. simpl in K, Hin. subst k. inversion C; subst.
           destruct (alookup (mname d) fs) eqn:A; [eauto|apply new_node_conf].
      * rewrite child_or_new_aset_ne by congruence. reflexivity.
    + destruct (mkind m) eqn:K; auto. destruct n as [fs|els|v]; auto.
      destruct (nth_error els i) as [e|] eqn:E; auto.
      destruct t as [c|j]; simpl; rewrite ?K; auto.
      rewrite nth_error_list_set. destruct (Nat.eqb_spec i j) as [->|Hij]; auto. rewrite E. apply IH.
      * inversion W; subst. simpl in *. subst. constructor; auto. intros; discriminate.
      * inversion S; subst. simpl in *. subst. constructor; auto. intros; discriminate.
      * destruct m as [nm k cs]. simpl in K. subst k. inversion C; subst. simpl. eauto using nth_error_In.
Qed.

Fixpoint meta_ind' (P : meta -> Prop) (H : forall nm k cs, (forall c, In c cs -> P c) -> P (Meta nm k cs)) (m : meta) {struct m} : P m.
Proof.
  destruct m as [nm k cs]. apply H. revert cs. fix IH 1. intros [|x t] j; [intros []|]. intros [E|I].
  - exact (eq_ind x P (meta_ind' P H x) j E).
  - exact (IH t j I).
Qed.

(** ** Computations that only read *)
Create HintDb good.
Section Good.
Variable m : meta.
Hypothesis Hw : wf_meta m.
Hypothesis Hs : str_ok m.

Definition sim (n n' : node) : Prop :=
  (forall l, info_at m n l = info_at m n' l) /\ (forall l, filled_at m n l = filled_at m n' l).
Lemma sim_refl : forall n, sim n n. Proof. split; auto. Qed.
Lemma sim_sym : forall n n', sim n n' -> sim n' n. Proof. intros n n' (A & B). split; auto. Qed.
Lemma sim_trans : forall a b c, sim a b -> sim b c -> sim a c.
Proof. intros a b c (A & B) (C & D). split; intros; [rewrite A|rewrite B]; auto. Qed.
Lemma sim_access : forall n l, conf m n -> sim (access m n l) n.
Proof. intros n l C. split; intros p; [apply info_access|apply filled_access; auto]. Qed.
Lemma sim_reads : forall ls n, conf m n -> conf m (fold_left (access m) ls n) /\ sim (fold_left (access m) ls n) n.
Proof.
  induction ls as [|l ls IH]; intros n C; simpl; [split; auto using sim_refl|].
  destruct (IH (access m n l)) as (A & B); [apply access_conf; auto|]. split; auto.
  eapply sim_trans; [exact B|]. apply sim_access; auto.
Qed.

Definition good {E A} (c : M E A) : Prop := forall n, conf m n ->
  (exists ls, fst (c n) = fold_left (access m) ls n) /\
  (forall n', conf m n' -> sim n' n -> snd (c n') = snd (c n)).

Lemma good_conf : forall {E A} (c : M E A) n, good c -> conf m n -> conf m (fst (c n)) /\ sim (fst (c n)) n.
Proof. intros E A c n G C. destruct (G n C) as ((ls & ->) & _). apply sim_reads; auto. Qed.

Lemma good_ret : forall {E A} (a : A), good (ret (E := E) a).
Proof. intros E A a n C. split; [exists []; reflexivity|auto]. Qed.
Lemma good_fail : forall {E A} (e : E), good (fail (A := A) e).
Proof. intros E A e n C. split; [exists []; reflexivity|auto]. Qed.

(** the result of a sequence, all of it seen from the first tree *)
Lemma run_bind : forall {E A B} (c : M E A) (f : A -> M E B), good c -> (forall a, good (f a)) -> forall n, conf m n ->
  snd (bind c f n) = match snd (c n) with Ok a => snd (f a n) | Err e => Err e end.
Proof.
  intros E A B c f Gc Gf n C. unfold bind. destruct (good_conf c n Gc C) as (C1 & S1).
  destruct (c n) as [n1 [a|e]]; simpl in *; auto. destruct (Gf a n C) as (_ & H). apply H; auto.
Qed.
Lemma good_bind : forall {E A B} (c : M E A) (f : A -> M E B), good c -> (forall a, good (f a)) -> good (bind c f).
Proof.
  intros E A B c f Gc Gf n C. split.
  - unfold bind. destruct (Gc n C) as ((ls & L) & _). destruct (good_conf c n Gc C) as (C1 & _).
    destruct (c n) as [n1 [a|e]]; simpl in *; [|eauto].
    destruct (Gf a n1 C1) as ((ls' & L') & _). exists (ls ++ ls'). rewrite fold_left_app, <- L. auto.
  - intros n' C' S. rewrite !run_bind by auto. destruct (Gc n C) as (_ & H). rewrite (H n' C' S).
    destruct (snd (c n)); auto. destruct (Gf a n C) as (_ & H2). auto.
Qed.

Lemma good_if : forall {E A} (b : bool) (c d : M E A), good c -> good d -> good (if b then c else d).
Proof. intros. destruct b; auto. Qed.

Lemma run_mapM : forall {E A B} (f : A -> M E B) l n, (forall a, good (f a)) -> conf m n -> good (mapM f l) /\
  snd (mapM f l n) = (fix go (l : list A) : result E (list B) :=
     match l with [] => Ok [] | x :: t => match snd (f x n) with Ok y => match go t with Ok ys => Ok (y :: ys) | Err e => Err e end
                                          | Err e => Err e end end) l.
Proof.
  intros E A B f l n G C. assert (GM : forall l, good (mapM f l)).
  { clear - G Hw Hs. induction l as [|x t IH]; simpl; [apply good_ret|]. apply good_bind; auto with good. intros y.
    apply good_bind; auto with good. intros; apply good_ret. }
  split; auto. induction l as [|x t IH]; [reflexivity|]. simpl mapM.
  rewrite run_bind; auto; [|intros; apply good_bind; auto; intros; apply good_ret].
  destruct (snd (f x n)); auto. rewrite run_bind; auto; [|intros; apply good_ret]. rewrite IH. reflexivity.
Qed.
Lemma good_mapM : forall {E A B} (f : A -> M E B) l, (forall a, good (f a)) -> good (mapM f l).
Proof. intros E A B f l G n C. apply (run_mapM f l n G C). exact C. Qed.
Lemma good_iterM : forall {E A} (f : A -> M E unit) l, (forall a, In a l -> good (f a)) -> good (iterM f l).
Proof.
  intros E A f l. induction l as [|x t IH]; intros G; simpl; [apply good_ret|].
  apply good_bind; [apply G; left; auto|]. intros _. apply IH. intros a I; apply G; right; auto.
Qed.
Lemma run_iterM : forall {E A} (f : A -> M E unit) l n, (forall a, In a l -> good (f a)) -> conf m n ->
  (snd (iterM f l n) = Ok tt <-> forall a, In a l -> snd (f a n) = Ok tt).
Proof.
  intros E A f l n. induction l as [|x t IH]; intros G C; simpl iterM.
  - split; [intros _ a []|reflexivity].
  - rewrite run_bind; auto; [|apply G; left; auto|intros _; apply good_iterM; intros; apply G; right; auto].
    destruct (snd (f x n)) as [[]|e] eqn:F.
    + rewrite IH; auto; [|intros; apply G; right; auto]. split.
      * intros H a [<-|I]; auto.
      * intros H a I. apply H. right. auto.
    + split; [discriminate|]. intros H. rewrite <- F. apply H. left; auto.
Qed.

(** the functions of the model *)
Lemma good_touch : forall {E} l, good (touch m (E := E) l).
Proof. intros E l n C. split; [exists [l ++ [Elem 0]]; reflexivity|]. reflexivity. Qed.
Lemma good_view : forall {E} (e : E) l, good (view m e l).
Proof. intros E e l n C. split; [exists []; reflexivity|]. intros n' C' (S & _). unfold view. simpl. rewrite S. reflexivity. Qed.
Lemma run_read : forall l n, snd (read m l n) = match info_at m n l with Some (ILeaf _ v) => Ok v | _ => Err EOther end.
Proof. intros. unfold read. cbn. rewrite info_access. reflexivity. Qed.
Lemma good_read : forall l, good (read m l).
Proof.
  intros l n C. split; [exists [l]; reflexivity|]. intros n' C' (S & _). rewrite !run_read, S. reflexivity.
Qed.
Lemma good_filled : forall l, good (filled m l).
Proof. intros l n C. split; [exists []; reflexivity|]. intros n' C' (_ & S). unfold filled. cbn. rewrite S. reflexivity. Qed.

Ltac gd :=
  repeat (first
   [ solve [auto with good] | progress cbv zeta | apply good_ret | apply good_fail | apply good_touch | apply good_view | apply good_read | apply good_filled
   | apply good_bind; [|intros ?] | apply good_if | apply good_mapM; intros ? | assumption
   | match goal with |- good (match ?x with _ => _ end) => destruct x end ]).

Lemma good_getattr : forall l p, good (getattr_ m l p). Proof. intros. unfold getattr_. gd. Qed.
Lemma good_getitem : forall l z, good (getitem m l z). Proof. intros. unfold getitem. gd. Qed.
#[local] Hint Resolve good_getattr good_getitem : good.
Lemma good_as_int : forall v, good (as_int v). Proof. intros. unfold as_int. gd. Qed.

Lemma good_steps : forall nested from ix, (forall i, In i ix -> good (nested i)) ->
  forall ps i elt, good (goto_steps m nested from ix ps i elt).
Proof.
  intros nested from ix. induction ix as [|idx ix IH]; intros G ps i elt; [simpl; gd|].
  assert (G' : forall j, In j ix -> good (nested j)) by (intros; apply G; right; auto).
  assert (Gi : good (nested idx)) by (apply G; left; auto). specialize (IH G').
  destruct ps as [|p ps]; [simpl; gd|]. simpl.
  destruct idx; try apply good_fail;
    (match goal with |- good (if ?b then _ else _) => destruct b end; [apply IH|]); (apply good_bind; [auto with good|intros c]);
    try apply good_fail; try apply IH; auto with good.
  - apply good_bind; auto with good.
  - apply good_bind; auto with good. intros z. apply good_bind; auto with good.
Qed.

Fixpoint index_ind' (P : index -> Prop) (H0 : P INone) (H1 : forall s, P (IGen s)) (H2 : forall z, P (INum z))
  (H3 : forall a b, P (ISlice a b)) (H4 : forall ps ix, (forall i, In i ix -> P i) -> P (IPath ps ix)) (i : index) {struct i} : P i.
Proof.
  destruct i; auto. apply H4. revert indices. fix IH 1. intros [|x t] j; [intros []|]. intros [E|I].
  - exact (eq_ind x P (index_ind' P H0 H1 H2 H3 H4 x) j E).
  - exact (IH t j I).
Qed.
Lemma good_index : forall from i, good (goto_index m from i).
Proof.
  intros from i. induction i using index_ind'; simpl; try apply good_fail.
  apply good_bind; [apply good_steps; auto|]. intros q. apply good_bind; [apply good_read|intros v; apply good_as_int].
Qed.
Lemma good_goto : forall from p, good (goto m from p).
Proof. intros. unfold goto. apply good_steps. intros; apply good_index. Qed.
#[local] Hint Resolve good_index good_goto good_as_int : good.
Lemma good_time_mode : good (time_mode m). Proof. unfold time_mode. gd. Qed.
Lemma good_shape : forall l, good (shape m l). Proof. intros. unfold shape. gd. Qed.
Lemma good_len : forall l, good (len m l). Proof. intros. unfold len. gd. Qed.
Lemma good_len_value : forall l, good (len_value m l). Proof. intros. unfold len_value. gd. Qed.
#[local] Hint Resolve good_time_mode good_shape good_len good_len_value : good.
Variable at_ : list str -> attrs.
Lemma good_choose_path : forall c, good (choose_path m c). Proof. intros. unfold choose_path. gd. Qed.
Lemma good_own_data : forall l p k, good (own_data m l p k). Proof. intros. unfold own_data. gd. Qed.
Lemma good_alternative : forall l a, good (choose_alternative m l a). Proof. intros. unfold choose_alternative. gd. Qed.
Lemma good_reference : forall l d c, good (choose_reference m l d c). Proof. intros. unfold choose_reference. gd. Qed.
#[local] Hint Resolve good_choose_path good_own_data good_alternative good_reference : good.
Lemma good_lookup : forall l d, good (lookup m at_ l d). Proof. intros. unfold lookup. gd. Qed.
Lemma good_capture : forall {A} (c : M lexn A), good c -> good (capture c).
Proof.
  intros A c G n C. destruct (G n C) as (L & H). split.
  - unfold capture. destruct (c n); auto.
  - intros n' C' S. specialize (H n' C' S). unfold capture. destruct (c n), (c n'). simpl in *. subst. reflexivity.
Qed.
Lemma good_uncaught : forall {A} (c : M lexn A), good c -> good (uncaught c).
Proof.
  intros A c G n C. destruct (G n C) as (L & H). split.
  - unfold uncaught. destruct (c n); auto.
  - intros n' C' S. specialize (H n' C' S). unfold uncaught. destruct (c n), (c n'). simpl in *. subst. reflexivity.
Qed.
Lemma good_expected : forall r, good (expected m r). Proof. intros. unfold expected. gd. Qed.
#[local] Hint Resolve good_lookup good_capture good_uncaught good_expected : good.
Lemma good_check_coord : forall l d k, good (check_coord m at_ l d k).
Proof. intros. unfold check_coord. cbv zeta. gd. Qed.
Lemma good_check_same : forall l d k, good (check_same m at_ l d k).
Proof. intros. unfold check_same. cbv zeta. gd. Qed.
Lemma good_check_coords : forall l, good (check_coords m at_ l).
Proof.
  intros. unfold check_coords. apply good_bind; auto with good. intros s. apply good_bind.
  - apply good_iterM. intros; apply good_check_coord.
  - intros _. apply good_iterM. intros; apply good_check_same.
Qed.
Lemma good_check_dynamic : forall l, good (check_dynamic m at_ l).
Proof. intros. unfold check_dynamic. gd. Qed.
#[local] Hint Resolve good_check_coords good_check_dynamic : good.

Lemma good_validate_node : forall c l, good (validate_node m at_ c l).
Proof.
  intros c. induction c as [nm k cs IH] using meta_ind'. intros l.
  assert (B : forall l, good (iterM (fun d => dom f <- present_at m l d;
    if f then validate_node m at_ d (l ++ [Child (mname d)]) else ret tt) cs)).
  { intros l0. apply good_iterM. intros d I. apply good_bind; [apply good_filled|]. intros f. apply good_if; auto with good.
    apply good_ret. }
  simpl. destruct k.
  - apply good_bind; auto with good.
  - apply good_bind; auto with good. intros _. apply good_bind; [apply good_filled|]. intros f. apply good_if; [|apply good_ret].
    apply good_bind; auto with good. intros _. apply good_bind; [apply good_view|]. intros i. apply good_iterM. intros j _.
    apply good_bind; auto with good.
  - apply good_bind; auto with good. intros _. apply good_bind; [apply good_filled|]. intros f. destruct ndim; [apply good_ret|].
    apply good_if; auto with good. apply good_ret.
Qed.
Lemma good_validate : forall b, good (validate m at_ b).
Proof.
  intros. unfold validate. apply good_bind; auto with good. intros t. apply good_if; [apply good_fail|]. apply good_if; [apply good_fail|].
  apply good_iterM. intros d _. apply good_bind; [apply good_filled|]. intros f. apply good_if; [apply good_validate_node|apply good_ret].
Qed.
End Good.
