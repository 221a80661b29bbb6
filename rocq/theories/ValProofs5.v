(** validate accepts exactly the valid IDSs. *)
From Verif Require Import Base PathModel TreeModel TreeSpec TreeProofs TreeProofs2 TreeProofs4 ValModel ValSpec ValProofs ValProofs2 ValProofs3 ValProofs4.

Lemma vnode_item : forall l m n m' n', vnode_at m n l m' n' -> forall p o, item m' n' p o -> item m n (l ++ p) o.
Proof.
  intros l m n m' n' H. induction H; intros p o I; auto; simpl.
  - apply item_struct. exists c, ch, (l ++ p). specialize (IHvnode_at _ _ I). repeat split; auto.
    destruct H0 as [E|(E & ->)]; auto. destruct (item_new _ _ _ IHvnode_at).
  - apply item_aos. right. exists i, e, (l ++ p). repeat split; auto.
Qed.
Lemma vnode_nonempty : forall l m n m' n', vnode_at m n l m' n' -> nonempty m' n' -> nonempty m n.
Proof. intros l m n m' n' H N. apply nonempty_item in N. destruct N as (p & o & I). apply nonempty_item. eauto using vnode_item. Qed.
Lemma vnode_app : forall l m n m' n' l' m'' n'', vnode_at m n l m' n' -> vnode_at m' n' l' m'' n'' -> vnode_at m n (l ++ l') m'' n''.
Proof. intros l m n m' n' l' m'' n'' H. induction H; intros K; auto; simpl; econstructor; eauto. Qed.
Lemma vnode_split : forall l m n l' m'' n'', vnode_at m n (l ++ l') m'' n'' -> exists m' n', vnode_at m n l m' n' /\ vnode_at m' n' l' m'' n''.
Proof.
  induction l as [|s l IH]; simpl; intros m n l' m'' n'' H; [exists m, n; split; auto; constructor|].
  inversion H; subst.
  - destruct (IH _ _ _ _ _ ltac:(eassumption)) as (m1 & n1 & A & B). exists m1, n1. split; auto. econstructor; eauto.
  - destruct (IH _ _ _ _ _ ltac:(eassumption)) as (m1 & n1 & A & B). exists m1, n1. split; auto. econstructor; eauto.
Qed.
Lemma vnode_fun : forall l m n a b c d, wf_meta m -> vnode_at m n l a b -> vnode_at m n l c d -> a = c /\ b = d.
Proof. intros l m n a b c d W A B. apply look_vnode in A, B; auto. rewrite A in B. inversion B. auto. Qed.

Lemma has_empty_spec : forall vs, has_empty vs = true <-> exists v, In v vs /\ unset_float v.
Proof.
  intros vs. unfold has_empty, unset_float. rewrite existsb_exists. setoid_rewrite existsb_exists. tauto.
Qed.
Lemma truthy_spec : forall c, truthy (c_size c) = true <-> sized c.
Proof.
  intros c. unfold truthy, sized. destruct (c_size c) as [z|].
  - rewrite negb_true_iff, Z.eqb_neq. split; [eauto|intros (z' & [= <-] & N); auto].
  - split; [discriminate|intros (z & E & _); discriminate].
Qed.

Section Run.
Variable m : meta.
Variable at_ : list str -> attrs.
Variable n : node.
Hypothesis Hw : wf_meta m.
Hypothesis Hs : str_ok m.
Hypothesis Hc : conf m n.
Notation run := (run n).
Notation gd := (good m).
Let rb' : forall {E A B} (c : M E A) (f : A -> M E B), gd c -> (forall a, gd (f a)) ->
  run (bind c f) = match run c with Ok a => run (f a) | Err e => Err e end.
Proof. intros. apply (rb m n); auto. Qed.

Lemma run_capture : forall {A} (c : M lexn A), run (capture c) =
  match run c with Ok a => Ok (Some a) | Err ELookup | Err EIndex => Err VInvalid | Err EOther => Ok None end.
Proof. intros A c. unfold ValProofs2.run, capture. destruct (c n) as [n' [a|[]]]; reflexivity. Qed.
Lemma run_uncaught : forall {A} (c : M lexn A), run (uncaught c) = match run c with Ok a => Ok a | Err _ => Err VUncaught end.
Proof. intros A c. unfold ValProofs2.run, uncaught. destruct (c n) as [n' [a|e]]; reflexivity. Qed.

Lemma run_expected : forall r, run (expected m r) =
  match r with
  | CNode q => match run (shape m q) with Ok (k :: _) => Ok k | Ok [] => Err EIndex | Err e => Err e end
  | CRange k => Ok k | CData vs => Ok (length vs) end.
Proof.
  intros [q|k|vs]; try reflexivity. simpl expected. rewrite rb'; [|apply good_shape; auto|intros [|k s]; [apply good_fail|apply good_ret]; auto].
  destruct (run (shape m q)) as [[|k s]|e]; reflexivity.
Qed.

(** one dimension *)
Lemma run_check_coord : forall l dim k sh, dims_at m n l sh -> nth_error sh dim = Some k ->
  (run (check_coord m at_ l dim k) = Ok tt <-> dim_ok m at_ n l dim k (coord_at at_ l dim)).
Proof.
  intros l dim k sh D Nk. unfold check_coord. fold (coord_at at_ l dim). set (c := coord_at at_ l dim).
  cbv zeta. unfold has_validation, num_rules.
  destruct (c_refs c) as [|p t] eqn:R.
  - destruct (c_size c) as [z|] eqn:Z; cbn [length Nat.add Nat.ltb Nat.leb negb].
    + unfold has_alternatives, num_rules. rewrite R, Z. cbn [length Nat.add Nat.ltb Nat.leb negb]. unfold truthy.
      destruct (Z.eqb_spec z 0) as [->|N0]; cbn [negb andb].
      * split; [discriminate|]. intros [A B|A B|r A B]; rewrite ?R, ?Z in *; try congruence. inversion A. lia.
      * destruct (Z.eqb_spec (Z.of_nat k) z) as [<-|Nz]; cbn [negb andb].
        -- split; [|reflexivity]. intros _. apply do_size; [congruence|lia].
        -- split; [discriminate|]. intros [A B|A B|r A B]; rewrite ?R, ?Z in *; try congruence.
    + split; [|reflexivity]. intros _. apply do_free; auto.
  - assert (NB : (0 <? length (p :: t) + match c_size c with Some _ => 1 | None => 0 end) = true) by (apply Nat.ltb_lt; simpl; lia).
    rewrite NB. cbn [negb].
    assert (Rne : c_refs c <> []) by congruence.
    destruct (truthy (c_size c) && match c_size c with Some z => (Z.of_nat k =? z)%Z | None => false end) eqn:Eq.
    { split; [|reflexivity]. intros _. apply andb_true_iff in Eq. destruct Eq as (T & Eq). destruct (c_size c) as [z|] eqn:Z; [|discriminate].
      apply Z.eqb_eq in Eq. subst z. simpl in T. rewrite negb_true_iff, Z.eqb_neq in T. apply do_size; auto. lia. }
    assert (NotSize : ~ (c_size c = Some (Z.of_nat k) /\ k <> 0)).
    { intros (Z & N). rewrite Z in Eq. simpl in Eq. rewrite Z.eqb_refl, andb_true_r, negb_false_iff, Z.eqb_eq in Eq. lia. }
    assert (Alt : truthy (c_size c) && negb (has_alternatives c) = false).
    { unfold has_alternatives, num_rules. rewrite R. destruct (c_size c); [|reflexivity]. apply andb_false_iff. right.
      apply negb_false_iff, Nat.ltb_lt. simpl. lia. }
    rewrite Alt. clear Alt NB.
    assert (H : forall r, run (lookup m at_ l dim) = r <-> coordinate m at_ n l dim c r) by (intros r; apply run_lookup; eauto).
    assert (Ok_ : dim_ok m at_ n l dim k c <-> exists r, coordinate m at_ n l dim c r /\ accepts m n c k r).
    { split; [intros [A B|A B|r A B]; [congruence|destruct NotSize; auto|eauto]|]. intros (r & A & B). eapply do_coordinate; eauto. }
    rewrite Ok_. clear Ok_ NotSize Eq.
    rewrite rb'; [|apply good_capture, good_lookup; auto|].
    + rewrite run_capture. destruct (run (lookup m at_ l dim)) as [r|e] eqn:L; pose proof (proj1 (H _) eq_refl) as C.
      * assert (U : forall r', coordinate m at_ n l dim c r' -> r' = Ok r) by (intros r' K; symmetry; apply H; auto).
        assert (Ac : (exists r', coordinate m at_ n l dim c r' /\ accepts m n c k r') <-> accepts m n c k (Ok r)).
        { split; [intros (r' & K & A); apply U in K; subst; auto|eauto]. }
        rewrite Ac. clear Ac.
        rewrite rb'; [| |intros _; apply good_bind; auto; [apply good_capture, good_expected; auto|intros [e|]; [|apply good_ret; auto];
          apply good_if; [apply good_ret|destruct r; apply good_fail]; auto]].
        -- assert (Cap : forall e : option nat, gd (match e with None => ret tt | Some e => if k =? e then ret tt
                else match r with CNode _ => fail VInvalid | _ => fail VUncaught end end)).
           { intros [e|]; [|apply good_ret; auto]. apply good_if; [apply good_ret|destruct r; apply good_fail]; auto. }
           destruct r as [q|j|vs].
           ++ cbn [ret ValProofs2.run snd]. rewrite rb'; [|apply good_capture, good_expected; auto|auto].
              rewrite run_capture, run_expected.
              destruct (run (shape m q)) as [[|k0 s]|e] eqn:S.
              ** split; [discriminate|]. intros A. inversion A as [|? N|? s D'| |]; subst.
                 --- apply shape_ok in S; auto. destruct (N _ S).
                 --- apply shape_ok in S; auto. pose proof (dims_at_fun m n Hw Hc _ _ _ S D'). discriminate.
              ** apply shape_ok in S; auto. cbn. destruct (Nat.eqb_spec k k0) as [->|Ne]; cbn.
                 --- split; [intros _; eapply ac_node; eauto|reflexivity].
                 --- split; [discriminate|]. intros A. inversion A as [|? N|? s' D'| |]; subst; [destruct (N _ S)|].
                     pose proof (dims_at_fun m n Hw Hc _ _ _ S D'). congruence.
              ** pose proof S as S'. apply shape_err in S'; auto. destruct S' as (N & ->). cbn. split; [intros _; apply ac_struct; auto|reflexivity].
           ++ pose proof (truthy_spec c) as T. destruct (truthy (c_size c)).
              ** split; [discriminate|]. intros A. inversion A; subst. exfalso. intuition.
              ** cbn [ret ValProofs2.run snd]. rewrite rb'; [|apply good_capture, good_expected; auto|auto].
                 rewrite run_capture, run_expected. destruct (Nat.eqb_spec k j) as [->|Ne]; cbn.
                 --- split; [|reflexivity]. intros _. apply ac_range. intros K. apply T in K. discriminate.
                 --- split; [discriminate|]. intros A. inversion A; subst. congruence.
           ++ pose proof (truthy_spec c) as T. destruct (truthy (c_size c)).
              ** split; [discriminate|]. intros A. inversion A; subst. exfalso. intuition.
              ** pose proof (has_empty_spec vs) as HE. destruct (has_empty vs).
                 --- split; [destruct (one_dim vs); discriminate|]. intros A. inversion A as [| | | |? ? NE]; subst.
                     destruct (proj1 HE eq_refl) as (v & I & K). destruct (NE _ I K).
                 --- cbn [ret ValProofs2.run snd]. rewrite rb'; [|apply good_capture, good_expected; auto|auto].
                     rewrite run_capture, run_expected. destruct (Nat.eqb_spec k (length vs)) as [->|Ne]; cbn.
                     +++ split; [|reflexivity]. intros _. apply ac_values; auto.
                         *** intros K. apply T in K. discriminate.
                         *** intros v I K. assert (false = true) by (apply HE; eauto). discriminate.
                     +++ split; [discriminate|]. intros A. inversion A; subst. congruence.
        -- destruct r; [apply good_ret; auto|apply good_if; [apply good_fail|apply good_ret]; auto|].
           apply good_if; [apply good_fail; auto|]. apply good_if; [apply good_fail|apply good_ret]; auto.
      * assert (U : forall r', coordinate m at_ n l dim c r' -> r' = Err e) by (intros r' K; symmetry; apply H; auto).
        destruct e; cbn.
        -- split; [discriminate|]. intros (r & K & A). apply U in K. subst. inversion A.
        -- split; [discriminate|]. intros (r & K & A). apply U in K. subst. inversion A.
        -- split; [intros _; eexists; split; [eauto|constructor]|reflexivity].
    + intros [r|]; [|apply good_ret; auto]. apply good_bind; auto.
      * destruct r; [apply good_ret; auto|apply good_if; [apply good_fail|apply good_ret]; auto|].
        apply good_if; [apply good_fail; auto|]. apply good_if; [apply good_fail|apply good_ret]; auto.
      * intros _. apply good_bind; auto; [apply good_capture, good_expected; auto|]. intros [e|]; [|apply good_ret; auto].
        apply good_if; [apply good_ret|destruct r; apply good_fail]; auto.
Qed.

Lemma run_check_same : forall l dim k,
  (run (check_same m at_ l dim k) = Ok tt <-> same_ok m n l dim k (nth dim (a_same (at_ (loc_names l))) no_coord)).
Proof.
  intros l dim k. unfold check_same. set (c := nth dim (a_same (at_ (loc_names l))) no_coord). cbv zeta.
  unfold has_validation, num_rules. destruct (c_refs c) as [|p [|p2 t]] eqn:R.
  - destruct (c_size c) as [z|] eqn:Z; cbn [length Nat.add Nat.ltb Nat.leb negb].
    + split; [discriminate|]. intros [A B|p A B|p q sh A B]; congruence.
    + split; [|reflexivity]. intros _. apply sk_free; auto.
  - assert (NB : (0 <? length [p] + match c_size c with Some _ => 1 | None => 0 end) = true) by (apply Nat.ltb_lt; simpl; lia).
    rewrite NB. cbn [negb].
    assert (Gq : forall q, gd (bind (uncaught (shape m q)) (fun s => match nth_error s dim with
        | None => fail VUncaught | Some e => if k =? e then ret tt else fail VInvalid end))).
    { intros q. apply good_bind; auto; [apply good_uncaught, good_shape; auto|]. intros s. destruct (nth_error s dim); [|apply good_fail; auto].
      apply good_if; [apply good_ret|apply good_fail]; auto. }
    rewrite rb'; [|apply good_capture, good_goto; auto|intros [q|]; [apply Gq|apply good_ret; auto]].
    rewrite run_capture. destruct (run (goto m l p)) as [q|e] eqn:G.
    + assert (U : forall r', resolves m n l p r' -> r' = Ok q) by (intros r' K; apply run_goto in K; auto; congruence).
      apply run_goto in G; auto. rewrite rb'; [|apply good_uncaught, good_shape; auto|].
      * rewrite run_uncaught. destruct (run (shape m q)) as [s|e] eqn:S.
        -- apply shape_ok in S; auto. destruct (nth_error s dim) as [e|] eqn:N; cbn.
           ++ destruct (Nat.eqb_spec k e) as [->|Ne]; cbn.
              ** split; [|reflexivity]. intros _. eapply sk_same; eauto.
              ** split; [discriminate|]. intros [A B|p' A B|p' q' sh A B D N']; [congruence| |]; rewrite R in A; inversion A; subst p'; apply U in B; [discriminate|].
                 inversion B; subst. pose proof (dims_at_fun m n Hw Hc _ _ _ S D). congruence.
           ++ split; [discriminate|]. intros [A B|p' A B|p' q' sh A B D N']; [congruence| |]; rewrite R in A; inversion A; subst p'; apply U in B; [discriminate|].
              inversion B; subst. pose proof (dims_at_fun m n Hw Hc _ _ _ S D). congruence.
        -- apply shape_err in S; auto. destruct S as (S & _). split; [discriminate|].
           intros [A B|p' A B|p' q' sh A B D N']; [congruence| |]; rewrite R in A; inversion A; subst p'; apply U in B; [discriminate|].
           inversion B; subst. destruct (S _ D).
      * intros s. destruct (nth_error s dim); [|apply good_fail; auto]. apply good_if; [apply good_ret|apply good_fail]; auto.
    + assert (U : forall r', resolves m n l p r' -> r' = Err e) by (intros r' K; apply run_goto in K; auto; congruence).
      apply run_goto in G; auto. destruct e.
      * split; [discriminate|]. intros [A B|p' A B|p' q' sh A B D N']; [congruence| |]; rewrite R in A; inversion A; subst p'; apply U in B; discriminate.
      * split; [discriminate|]. intros [A B|p' A B|p' q' sh A B D N']; [congruence| |]; rewrite R in A; inversion A; subst p'; apply U in B; discriminate.
      * split; [|reflexivity]. intros _. eapply sk_ignored; eauto.
  - assert (NB : (0 <? length (p :: p2 :: t) + match c_size c with Some _ => 1 | None => 0 end) = true) by (apply Nat.ltb_lt; simpl; lia).
    rewrite NB. split; [discriminate|]. intros [A B|p' A B|p' q sh A B]; congruence.
Qed.

Definition coords_ok (l : loc) : Prop := forall sh dim k, dims_at m n l sh -> nth_error sh dim = Some k ->
  dim_ok m at_ n l dim k (coord_at at_ l dim) /\ same_ok m n l dim k (nth dim (a_same (at_ (loc_names l))) no_coord).

Lemma enum_In : forall {A} (l : list A) i x, In (i, x) (enum l) <-> nth_error l i = Some x.
Proof.
  intros A l. unfold enum. assert (H : forall s i x, In (i, x) (combine (seq s (length l)) l) <-> (s <= i /\ nth_error l (i - s) = Some x)).
  { induction l as [|y t IH]; intros s i x; simpl.
    - split; [tauto|]. intros (_ & H). destruct (i - s); discriminate.
    - rewrite IH. split.
      + intros [E|(L & H)]; [inversion E; subst; rewrite Nat.sub_diag; auto|].
        split; [lia|]. replace (i - s) with (S (i - S s)) by lia. auto.
      + intros (L & H). destruct (Nat.eq_dec i s) as [->|Ne].
        * rewrite Nat.sub_diag in H. simpl in H. left. congruence.
        * right. split; [lia|]. replace (i - s) with (S (i - S s)) in H by lia. auto. }
  intros i x. rewrite H, Nat.sub_0_r. split; [tauto|]. split; [lia|tauto].
Qed.

Lemma run_check_coords : forall l, (exists sh, dims_at m n l sh) -> (run (check_coords m at_ l) = Ok tt <-> coords_ok l).
Proof.
  intros l (sh & D). unfold check_coords.
  rewrite rb'; [|apply good_uncaught, good_shape; auto|intros; apply good_bind; auto; [|intros _]; apply good_iterM; auto; intros; [apply good_check_coord|apply good_check_same]; auto].
  rewrite run_uncaught, (proj2 (shape_ok m n Hw Hc l sh) D).
  rewrite rb'; [|apply good_iterM; auto; intros; apply good_check_coord; auto|intros _; apply good_iterM; auto; intros; apply good_check_same; auto].
  assert (X : run (iterM (fun d => check_coord m at_ l (fst d) (snd d)) (enum sh)) = Ok tt <->
    forall dim k, nth_error sh dim = Some k -> dim_ok m at_ n l dim k (coord_at at_ l dim)).
  { unfold ValProofs2.run. rewrite (run_iterM m); auto; [|intros; apply good_check_coord; auto]. split.
    - intros H dim k N. eapply run_check_coord; eauto. apply (H (dim, k)). apply enum_In; auto.
    - intros H [dim k] I. apply enum_In in I. eapply run_check_coord; eauto. }
  assert (Y : run (iterM (fun d => check_same m at_ l (fst d) (snd d)) (enum sh)) = Ok tt <->
    forall dim k, nth_error sh dim = Some k -> same_ok m n l dim k (nth dim (a_same (at_ (loc_names l))) no_coord)).
  { unfold ValProofs2.run. rewrite (run_iterM m); auto; [|intros; apply good_check_same; auto]. split.
    - intros H dim k N. eapply run_check_same; eauto. apply (H (dim, k)). apply enum_In; auto.
    - intros H [dim k] I. apply enum_In in I. eapply run_check_same; eauto. }
  unfold coords_ok. destruct (run (iterM (fun d => check_coord m at_ l (fst d) (snd d)) (enum sh))) as [[]|e].
  - rewrite Y. split.
    + intros H sh' dim k D' N. pose proof (dims_at_fun m n Hw Hc _ _ _ D D'). subst sh'. split; [apply X|]; auto.
    + intros H dim k N. apply (H sh); auto.
  - split; [discriminate|]. intros H. exfalso. assert (Err e = Ok tt) by (apply X; intros; apply (H sh); auto). discriminate.
Qed.

(** ** All nodes *)
Section Mode.
Variable t : Z.
Hypothesis Ht : mode m n t.
Definition fine (l : loc) : Prop := (a_dynamic (at_ (loc_names l)) = true -> t <> 2%Z) /\ coords_ok l.

Lemma run_filled : forall l m' n', vnode_at m n l m' n' -> (run (filled m l) = Ok true <-> nonempty m' n') /\
  (run (filled m l) = Ok true \/ run (filled m l) = Ok false).
Proof.
  intros l m' n' V. unfold ValProofs2.run, filled. cbn [snd]. unfold filled_at.
  destruct (vnode_conf _ _ _ _ _ V Hw Hc) as (_ & C'). pose proof (proj2 (look_vnode _ _ _ _ _ Hw) V) as L. rewrite L.
  rewrite <- has_value_nonempty by auto. destruct (has_value m' n'); split; auto; split; congruence.
Qed.
Lemma run_check_dynamic : forall l m' n', vnode_at m n l m' n' ->
  (run (check_dynamic m at_ l) = Ok tt <-> (nonempty m' n' -> a_dynamic (at_ (loc_names l)) = true -> t <> 2%Z)).
Proof.
  intros l m' n' V. unfold check_dynamic. destruct (a_dynamic (at_ (loc_names l))); [|split; [intros _ _ K; discriminate|reflexivity]].
  destruct (run_filled l m' n' V) as (F & FD).
  rewrite rb'; [|apply good_filled; auto|].
  - destruct FD as [E|E]; rewrite E in *.
    + assert (N : nonempty m' n') by (apply F; auto). rewrite rb'; [|apply good_uncaught, good_time_mode; auto|intros; apply good_if; [apply good_fail|apply good_ret]; auto].
      rewrite run_uncaught, (proj2 (mode_run m n Hw Hs Hc (Ok t))) by eauto.
      destruct (Z.eqb_spec t 2) as [->|Ne]; cbn.
      * split; [discriminate|]. intros H. destruct (H N eq_refl). reflexivity.
      * split; auto.
    + split; [|reflexivity]. intros _ N _. apply F in N. discriminate.
  - intros f. apply good_if; [|apply good_ret; auto]. apply good_bind; auto; [apply good_uncaught, good_time_mode; auto|].
    intros; apply good_if; [apply good_fail|apply good_ret]; auto.
Qed.

Definition all_fine (c : meta) (n' : node) (l : loc) : Prop :=
  forall l' m'' n'', vnode_at c n' l' m'' n'' -> nonempty m'' n'' -> fine (l ++ l').

Lemma vnode_child_inv : forall nm cs fs x l m' n', vnode_at (Meta nm KStruct cs) (NStruct fs) (x :: l) m' n' ->
  exists c, x = Child (mname c) /\ In c cs /\ vnode_at c (child_or_new c fs) l m' n'.
Proof.
  intros nm cs fs x l m' n' H. inversion H; subst. exists c. repeat split; auto. unfold child_or_new.
  match goal with X : _ \/ _ |- _ => destruct X as [E|(E & ->)]; rewrite E; auto end.
Qed.
Lemma vnode_child : forall nm cs fs c l m' n', In c cs -> vnode_at c (child_or_new c fs) l m' n' ->
  vnode_at (Meta nm KStruct cs) (NStruct fs) (Child (mname c) :: l) m' n'.
Proof. intros. econstructor; eauto. unfold child_or_new. destruct (alookup (mname c) fs); auto. Qed.

Lemma struct_no_dims : forall l nm cs n', vnode_at m n l (Meta nm KStruct cs) n' -> forall sh, ~ dims_at m n l sh.
Proof.
  intros l nm cs n' V sh [(k & (m1 & els & V1 & K & _) & _)|(v & (m1 & x & dt & nd & V1 & K & _) & _)];
    destruct (vnode_fun _ _ _ _ _ _ _ Hw V V1) as (<- & _); discriminate.
Qed.

(** children of a structure, given the claim for each of them *)
Lemma run_children : forall nm cs fs l,
  (forall c, In c cs -> forall n' l, vnode_at m n l c n' -> (run (validate_node m at_ c l) = Ok tt <-> all_fine c n' l)) ->
  vnode_at m n l (Meta nm KStruct cs) (NStruct fs) ->
  (run (iterM (fun d => dom f <- present_at m l d; if f then validate_node m at_ d (l ++ [Child (mname d)]) else ret tt) cs) = Ok tt <->
   forall c l' m'' n'', In c cs -> vnode_at c (child_or_new c fs) l' m'' n'' -> nonempty m'' n'' -> fine (l ++ Child (mname c) :: l')).
Proof.
  intros nm cs fs l IH V. unfold ValProofs2.run at 1.
  assert (Gd : forall d, gd (dom f <- present_at m l d; if f then validate_node m at_ d (l ++ [Child (mname d)]) else ret tt)).
  { intros d. apply good_bind; auto; [apply good_filled; auto|]. intros f. apply good_if; [apply good_validate_node|apply good_ret]; auto. }
  rewrite (run_iterM m); auto.
  assert (Each : forall d, In d cs -> (run (dom f <- present_at m l d; if f then validate_node m at_ d (l ++ [Child (mname d)]) else ret tt) = Ok tt <->
     forall l' m'' n'', vnode_at d (child_or_new d fs) l' m'' n'' -> nonempty m'' n'' -> fine (l ++ Child (mname d) :: l'))).
  { intros d Id. assert (Vd : vnode_at m n (l ++ [Child (mname d)]) d (child_or_new d fs)).
    { eapply vnode_app; eauto. apply vnode_child; auto. constructor. }
    rewrite rb'; [|apply good_filled; auto|intros f; apply good_if; [apply good_validate_node|apply good_ret]; auto].
    unfold present_at. destruct (run_filled _ _ _ Vd) as (F & [E|E]); rewrite E in *.
    - rewrite (IH d Id _ _ Vd). unfold all_fine. split.
      + intros H l' m'' n'' Vl Ne. specialize (H _ _ _ Vl Ne). rewrite <- app_assoc in H. exact H.
      + intros H l' m'' n'' Vl Ne. rewrite <- app_assoc. apply (H _ _ _ Vl Ne).
    - split; [|reflexivity]. intros _ l' m'' n'' Vl Ne. pose proof (vnode_nonempty _ _ _ _ _ Vl Ne) as K. apply F in K. discriminate. }
  split.
  - intros H c l' m'' n'' I Vl Ne. apply (proj1 (Each c I) (H c I) _ _ _ Vl Ne).
  - intros H d I. apply Each; auto. intros l' m'' n'' Vl Ne. eauto.
Qed.

Lemma run_validate_node : forall c n' l, vnode_at m n l c n' -> (run (validate_node m at_ c l) = Ok tt <-> all_fine c n' l).
Proof.
  intros c. induction c as [nm k cs IH] using meta_ind'. intros n' l V.
  destruct (vnode_conf _ _ _ _ _ V Hw Hc) as (W' & C').
  assert (Gi : forall l, gd (iterM (fun d => dom f <- present_at m l d; if f then validate_node m at_ d (l ++ [Child (mname d)]) else ret tt) cs)).
  { intros l0. apply good_iterM; auto. intros d _. apply good_bind; auto; [apply good_filled; auto|]. intros f. apply good_if; [apply good_validate_node|apply good_ret]; auto. }
  (* a structure node: own check, then the children *)
  assert (St : forall fs l, vnode_at m n l (Meta nm KStruct cs) (NStruct fs) ->
    (run (bind (check_dynamic m at_ l) (fun _ => iterM (fun d => dom f <- present_at m l d; if f then validate_node m at_ d (l ++ [Child (mname d)]) else ret tt) cs)) = Ok tt <->
     forall l' m'' n'', vnode_at (Meta nm KStruct cs) (NStruct fs) l' m'' n'' -> nonempty m'' n'' -> fine (l ++ l'))).
  { intros fs l0 V0. rewrite rb'; [|apply good_check_dynamic; auto|auto].
    pose proof (run_check_dynamic _ _ _ V0) as CD. destruct (run (check_dynamic m at_ l0)) as [[]|e].
    - rewrite (run_children nm cs fs l0 IH V0). split.
      + intros H [|x l'] m'' n'' Vl Ne.
        * inversion Vl; subst. rewrite app_nil_r. split; [apply CD; auto|]. intros sh dim kk D. destruct (struct_no_dims _ _ _ _ V0 _ D).
        * apply vnode_child_inv in Vl. destruct Vl as (c & -> & I & Vl). eauto.
      + intros H c l' m'' n'' I Vl Ne. eapply H; eauto. apply vnode_child; eauto.
    - split; [discriminate|]. intros H. exfalso. assert (Err e = Ok tt) by (apply CD; intros Ne Dy; pose proof (H [] _ _ (vna_here _ _) Ne) as (K & _); rewrite app_nil_r in K; auto).
      discriminate. }
  unfold all_fine. simpl validate_node. destruct k as [| |dt nd].
  - inversion C'; subst. apply St; auto.
  - inversion C' as [| | |? ? els Ce]; subst.
    assert (D : elems_at m n l (length els)) by (exists (Meta nm KAoS cs), els; auto).
    assert (Gel : forall j, gd (dom _ <- check_dynamic m at_ (l ++ [Elem j]); iterM (fun d => dom f <- present_at m (l ++ [Elem j]) d; if f then validate_node m at_ d ((l ++ [Elem j]) ++ [Child (mname d)]) else ret tt) cs)).
    { intros j. apply good_bind; auto. apply good_check_dynamic; auto. }
    assert (Giter : forall i, gd (iterM (fun j => dom _ <- check_dynamic m at_ (l ++ [Elem j]); iterM (fun d => dom f <- present_at m (l ++ [Elem j]) d; if f then validate_node m at_ d ((l ++ [Elem j]) ++ [Child (mname d)]) else ret tt) cs) (seq 0 match i with IAoS k => k | _ => 0 end)))
      by (intros; apply good_iterM; auto).
    rewrite rb'; [|apply good_check_dynamic; auto|].
    + pose proof (run_check_dynamic _ _ _ V) as CD. destruct (run (check_dynamic m at_ l)) as [[]|e].
      * rewrite rb'; [|apply good_filled; auto|].
        -- destruct (run_filled _ _ _ V) as (F & [E|E]); rewrite E in *.
           ++ assert (Ne : nonempty (Meta nm KAoS cs) (NAoS els)) by (apply F; auto).
              rewrite rb'; [|apply good_check_coords; auto|].
              ** pose proof (run_check_coords l (ex_intro _ _ (or_introl (ex_intro _ _ (conj D eq_refl))))) as CC.
                 destruct (run (check_coords m at_ l)) as [[]|e].
                 --- rewrite rb'; [|apply good_view; auto|auto]. rewrite run_view, (proj1 (info_elems m n Hw l _) D).
                     unfold ValProofs2.run at 1. rewrite (run_iterM m); auto. split.
                     +++ intros H [|x l'] m'' n'' Vl Ne'.
                         *** inversion Vl; subst. rewrite app_nil_r. split; [apply CD; auto|apply CC; auto].
                         *** inversion Vl; subst. match goal with X : nth_error els ?i = Some ?e |- _ => rename X into Ei; rename i into i0; rename e into e0 end.
                             pose proof (nth_error_In _ _ Ei) as Ie. pose proof (Ce _ Ie) as Cee. inversion Cee; subst.
                             assert (Vi : vnode_at m n (l ++ [Elem i0]) (Meta nm KStruct cs) (NStruct fs)).
                             { eapply vnode_app; eauto. econstructor; eauto. constructor. }
                             assert (Ii : In i0 (seq 0 (length els))) by (apply in_seq; split; [lia|]; apply nth_error_Some; congruence).
                             pose proof (proj1 (St fs _ Vi) (H i0 Ii)) as Q. change (Elem i0 :: l') with ([Elem i0] ++ l'). rewrite app_assoc. eauto.
                     +++ intros H j Ij. apply in_seq in Ij. destruct (nth_error els j) as [e0|] eqn:Ej; [|apply nth_error_None in Ej; lia].
                         pose proof (Ce _ (nth_error_In _ _ Ej)) as Cee. inversion Cee; subst.
                         assert (Vi : vnode_at m n (l ++ [Elem j]) (Meta nm KStruct cs) (NStruct fs)).
                         { eapply vnode_app; eauto. econstructor; eauto. constructor. }
                         apply (St fs _ Vi). intros l' m'' n'' Vl Ne'. rewrite <- app_assoc. apply (H (Elem j :: l') m'' n''); auto.
                         econstructor; eauto.
                 --- split; [discriminate|]. intros H. exfalso.
                     assert (Err e = Ok tt) by (apply CC; pose proof (H [] _ _ (vna_here _ _) Ne) as (_ & K); rewrite app_nil_r in K; auto). discriminate.
              ** intros _. apply good_bind; auto. apply good_view; auto.
           ++ split; [|reflexivity]. intros _ l' m'' n'' Vl Ne. pose proof (vnode_nonempty _ _ _ _ _ Vl Ne) as K. apply F in K. discriminate.
        -- intros f. apply good_if; [|apply good_ret; auto]. apply good_bind; auto; [apply good_check_coords; auto|]. intros _. apply good_bind; auto. apply good_view; auto.
      * split; [discriminate|]. intros H. exfalso.
        assert (Err e = Ok tt) by (apply CD; intros Ne Dy; pose proof (H [] _ _ (vna_here _ _) Ne) as (K & _); rewrite app_nil_r in K; auto). discriminate.
    + intros _. apply good_bind; auto; [apply good_filled; auto|]. intros f. apply good_if; [|apply good_ret; auto].
      apply good_bind; auto; [apply good_check_coords; auto|]. intros _. apply good_bind; auto. apply good_view; auto.
  - assert (Only : (forall l' m'' n'', vnode_at (Meta nm (KLeaf dt nd) cs) n' l' m'' n'' -> nonempty m'' n'' -> fine (l ++ l')) <->
      (nonempty (Meta nm (KLeaf dt nd) cs) n' -> fine l)).
    { split; [intros H Ne; rewrite <- (app_nil_r l); eapply H; eauto; constructor|].
      intros H l' m'' n'' Vl Ne. inversion Vl; subst. rewrite app_nil_r. auto. }
    rewrite Only. clear Only.
    assert (Dm : exists v, value_at m n l v).
    { inversion C'; subst; eexists; eexists _, _, _, _; (split; [eassumption|split; reflexivity]). }
    destruct Dm as (v & Dv).
    assert (Gf : forall f : bool, gd (match nd with O => ret tt | S _ => if f then check_coords m at_ l else ret tt end)).
    { intros f. destruct nd; [apply good_ret; auto|]. apply good_if; [apply good_check_coords|apply good_ret]; auto. }
    rewrite rb'; [|apply good_check_dynamic; auto|intros _; apply good_bind; auto; apply good_filled; auto].
    pose proof (run_check_dynamic _ _ _ V) as CD. destruct (run (check_dynamic m at_ l)) as [[]|e].
    + rewrite rb'; [|apply good_filled; auto|auto].
      destruct (run_filled _ _ _ V) as (F & [E|E]); rewrite E in *.
      * assert (Ne : nonempty (Meta nm (KLeaf dt nd) cs) n') by (apply F; auto).
        destruct nd as [|nd].
        -- split; [|reflexivity]. intros _ _. split; [apply CD; auto|]. intros sh dim kk D N.
           assert (sh = []).
           { destruct D as [(k' & K & _)|(w & Kw & ->)].
             - destruct K as (m1 & els & V1 & K & _). destruct (vnode_fun _ _ _ _ _ _ _ Hw V V1) as (<- & _). discriminate.
             - destruct Kw as (m1 & x & dt1 & nd1 & V1 & K & ->). destruct (vnode_fun _ _ _ _ _ _ _ Hw V V1) as (<- & ->).
               simpl in K. inversion K; subst. destruct x as [w|]; [|destruct dt1; reflexivity]. inversion C'; subst.
               match goal with X : val_ok _ _ _ |- _ => inversion X; subst; auto end; match goal with X : length ?s = 0 |- _ => destruct s; [auto|discriminate] end. }
           subst. destruct dim; discriminate.
        -- rewrite run_check_coords by (eexists; right; exists v; split; eauto). split; [intros H _; split; auto; apply CD; auto|].
           intros H. apply H; auto.
      * assert (X : run (match nd with O => ret tt | S _ => if false then check_coords m at_ l else ret tt end) = Ok tt) by (destruct nd; reflexivity).
        rewrite X. split; [|reflexivity]. intros _ Ne. apply F in Ne. discriminate.
    + split; [discriminate|]. intros H. exfalso. assert (Err e = Ok tt) by (apply CD; intros Ne Dy; apply (H Ne); auto). discriminate.
Qed.
End Mode.

Hypothesis Hroot : mkind m = KStruct.
Theorem run_validate : forall const, run (validate m at_ const) = Ok tt <-> valid m at_ n const.
Proof.
  intros const. unfold validate, valid.
  assert (Gi : gd (iterM (fun d => dom f <- present_at m [] d; if f then validate_node m at_ d [Child (mname d)] else ret tt) (mchildren m))).
  { apply good_iterM; auto. intros d _. apply good_bind; auto; [apply good_filled; auto|]. intros f. apply good_if; [apply good_validate_node|apply good_ret]; auto. }
  rewrite rb'; [|apply good_uncaught, good_time_mode; auto|].
  - rewrite run_uncaught. destruct (proj1 (mode_run m n Hw Hs Hc _) eq_refl) as [(t & Mt & ->)|(Mt & ->)].
    + assert (Ut : forall t', mode m n t' -> t' = t) by (intros t' K; eapply mode_fun; eauto).
      assert (Ex : existsb (Z.eqb t) [0; 1; 2]%Z = true <-> (t = 0 \/ t = 1 \/ t = 2)%Z).
      { cbn. rewrite !orb_true_iff, !Z.eqb_eq. intuition discriminate. }
      destruct (existsb (Z.eqb t) [0; 1; 2]%Z); cbn [negb].
      * pose proof (proj1 Ex eq_refl) as T3. destruct (const && negb (t =? 2)%Z) eqn:Cn.
        -- apply andb_true_iff in Cn. destruct Cn as (-> & N2). rewrite negb_true_iff, Z.eqb_neq in N2.
           split; [discriminate|]. intros (t' & K & _ & C2 & _). rewrite (Ut _ K) in C2. destruct N2; auto.
        -- assert (Cok : const = true -> t = 2%Z).
           { intros ->. simpl in Cn. rewrite negb_false_iff, Z.eqb_eq in Cn. auto. }
           assert (Sh : exists nm cs fs, m = Meta nm KStruct cs /\ n = NStruct fs).
           { clear - Hc Hroot. destruct m as [nm k cs]. simpl in Hroot. subst k. inversion Hc; subst. eauto. }
           destruct Sh as (nm & cs & fs & Em & En).
           assert (Cs : mchildren m = cs) by (rewrite Em; reflexivity). rewrite Cs in *.
           assert (V0 : vnode_at m n [] (Meta nm KStruct cs) (NStruct fs)) by (rewrite Em, En; constructor).
           pose proof (run_children t nm cs fs [] (fun c _ n' l V => run_validate_node t Mt c n' l V) V0) as RC.
           cbn [app] in RC. rewrite RC. clear RC. split.
           ++ intros H. exists t. split; auto. split; auto. split; auto. intros l Nl (m' & n' & Vl & Ne).
              destruct l as [|x l]; [congruence|]. rewrite Em, En in Vl. apply vnode_child_inv in Vl. destruct Vl as (c & -> & I & Vl).
              apply (H c l m' n' I Vl Ne).
           ++ intros (t' & K & _ & _ & H) c l' m'' n'' I Vl Ne. rewrite (Ut _ K) in H.
              apply (H (Child (mname c) :: l')); [discriminate|]. exists m'', n''. split; auto. rewrite Em, En. apply vnode_child; auto.
      * split; [discriminate|]. intros (t' & K & T3 & _). rewrite (Ut _ K) in T3. apply Ex in T3. discriminate.
    + split; [discriminate|]. intros (t & K & _). destruct (Mt _ K).
  - intros t. apply good_if; [apply good_fail; auto|]. apply good_if; [apply good_fail; auto|auto].
Qed.
End Run.
