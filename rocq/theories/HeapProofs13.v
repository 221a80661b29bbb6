(** Deep copies are independent; every node of a history has contents. *)
From Coq Require Import Permutation.
From Verif Require Import Base TreeModel TreeSpec TreeProofs TreeProofs4 PathModel HeapModel HeapSpec HeapProofs HeapProofs2 HeapProofs3 HeapProofs4
  HeapProofs5 HeapProofs6 HeapProofs7 HeapProofs8 HeapProofs9 HeapProofs12.

Definition none : nat -> Prop := fun _ => False.
Section WithCast.
Variable cast : dtype -> nat -> value -> result exn value.

Lemma exists_acc : forall h x, exists_in h x -> acc_hnd none none h x.
Proof. intros h [x|b] H; split; auto. Qed.
Lemma op_all_impl : forall (A B : hnd -> Prop), (forall x, A x -> B x) -> forall o, op_all A o -> op_all B o.
Proof.
  intros A B H. assert (Ha : forall a, arg_all A a -> arg_all B a) by (intros [v|r]; simpl; auto).
  intros o Ho. destruct o; simpl in *; auto; destruct Ho; split; auto. eapply Forall_impl; eauto.
Qed.
Lemma history_good : forall h, history cast h -> good true none none h.
Proof.
  intros h H. induction H as [|h o _ IH _ Ho].
  - assert (G : forall x, get {| h_objs := []; h_bufs := [] |} x = None) by (intros [|x]; reflexivity).
    constructor.
    + intros c s z S. inversion S; subst; rewrite G in *; discriminate.
    + intros x b B. unfold body_of in B. rewrite G in B. discriminate.
    + intros _ x p B. unfold parent in B. rewrite G in B. discriminate.
    + intros z [].
    + intros z [].
  - destruct (exec cast h o) as (h1, r) eqn:E.
    assert (N : nav_op true o) by (destruct o; simpl; auto; left; auto).
    destruct (exec_frame true none none cast h o h1 r IH N (op_all_impl _ _ (exists_acc h) o Ho) E) as (F & _). exact (fr_good _ _ _ _ _ F).
Qed.

End WithCast.

Lemma copy_split : forall par f h x h' me y, good true none none h -> x < nobj h -> (par = true -> parent h x = None) ->
  deepcopy f h empty_memo x = Some (h', me, y) ->
  nobj h <= y < nobj h' /\ nbuf h <= nbuf h' /\ (forall z, z < nobj h -> get h' z = get h z) /\ (exists l, h_bufs h' = h_bufs h ++ l) /\
  good par (fun z => nobj h <= z < nobj h') (fun b => nbuf h <= b < nbuf h') h' /\
  good par (fun z => z < nobj h) (fun b => b < nbuf h) h'.
Proof.
  intros par f h x h' me y G Lx Hpx E.
  assert (M : memo_in (nobj h) (nbuf h) h empty_memo) by (split; intros v (k & [])).
  pose proof (deepcopy_ext _ _ _ _ _ _ _ _ _ (le_n _) (le_n _) M E) as (X & Hy & Hy2 & Hp & Hpy).
  pose proof (e_len _ _ _ _ _ _ X) as L. pose proof (ext_lenb _ _ _ _ _ _ X) as Lb.
  assert (Old : forall z, z < nobj h -> get h' z = get h z) by (exact (e_old _ _ _ _ _ _ X)).
  assert (Hy3 : nobj h <= y) by (destruct Hy2 as [|(k & [])]; auto).
  assert (S1 : forall c s z, slot h' c s z -> z < nobj h' /\ (nobj h <= c <-> nobj h <= z)).
  { intros c s z Sl. apply slot_iff in Sl as (b & B & I). destruct (Nat.lt_ge_cases c (nobj h)) as [Lc|Lc].
    - unfold body_of in B. rewrite Old in B by auto. assert (Sl : slot h c s z) by (apply slot_iff; exists b; auto).
      destruct (gd_slot _ _ _ _ G _ _ _ Sl). split; lia.
    - apply get_body_of in B as (ob & Gc & <-). destruct (e_new _ _ _ _ _ _ X _ _ Lc Gc) as (_ & H & _). destruct (H _ _ I) as (Lz & [Lz'|(k & [])]).
      split; lia. }
  assert (S2 : forall z b, body_of h' z = Some (BPrim (Some (SBuf b))) -> b < nbuf h' /\ (nobj h <= z <-> nbuf h <= b)).
  { intros z b B. destruct (Nat.lt_ge_cases z (nobj h)) as [Lc|Lc].
    - unfold body_of in B. rewrite Old in B by auto. destruct (gd_buf _ _ _ _ G z b B). split; lia.
    - apply get_body_of in B as (ob & Gc & Bb). destruct (e_new _ _ _ _ _ _ X _ _ Lc Gc) as (_ & _ & H & _). specialize (H b Bb). split; lia. }
  assert (S3 : par = true -> forall z p, parent h' z = Some p -> z < nobj h' /\ p < nobj h' /\ (nobj h <= z <-> nobj h <= p)).
  { intros Hpar z p Pz. assert (Lz : z < nobj h') by (unfold parent in Pz; destruct (get h' z) eqn:Gz; [eapply get_lt; eauto|discriminate]).
    split; auto. destruct (Nat.lt_ge_cases z (nobj h)) as [Lc|Lc].
    - unfold parent in Pz. rewrite Old in Pz by auto. destruct (gd_par _ _ _ _ G eq_refl z p Pz). split; lia.
    - destruct (Nat.eq_dec z y) as [->|Nz].
      + rewrite (Hpy Lc), (Hpx Hpar) in Pz. discriminate.
      + destruct (Hp z (conj Lc Lz) (not_eq_sym Nz)) as (q & Pq & Lq). rewrite Pq in Pz. inversion Pz; subst q. split; lia. }
  split; [lia|]. split; auto. split; auto. split; [exact (e_bufs _ _ _ _ _ _ X)|]. split.
  - constructor; auto; try (intros z Hz; lia).
    + intros c s z Sl. pose proof (S1 _ _ _ Sl). pose proof (slot_lt _ _ _ _ Sl). split; lia.
    + intros z b B. pose proof (S2 _ _ B). pose proof (body_lt _ _ _ B). split; lia.
    + intros Hpar z p Pz. pose proof (S3 Hpar _ _ Pz). split; lia.
  - constructor; auto; try (intros z Hz; lia).
    + intros c s z Sl. pose proof (S1 _ _ _ Sl). pose proof (slot_lt _ _ _ _ Sl). split; lia.
    + intros z b B. pose proof (S2 _ _ B). pose proof (body_lt _ _ _ B). split; lia.
    + intros Hpar z p Pz. pose proof (S3 Hpar _ _ Pz). split; lia.
Qed.

Lemma protected_reach : forall par P Q h x z, good par P Q h -> P x -> reach h x z -> P z.
Proof. intros par P Q h x z G Px R. induction R as [|x y z (s & S) R IH]; auto. apply IH. apply (gd_slot _ _ _ _ G _ _ _ S). auto. Qed.

(** ** Existence of contents *)
Section Exists.
Variable h : heap.
Hypothesis T : tidy h.
Lemma nodup_bound : forall l, NoDup l -> (forall x, In x l -> x < nobj h) -> length l <= nobj h.
Proof.
  intros l N B. rewrite <- (seq_length (nobj h) 0). apply NoDup_incl_length; auto. intros x I. apply in_seq. specialize (B x I). lia.
Qed.
Lemma contained_wf : forall k vs x, NoDup (x :: vs) -> (forall v, In v (x :: vs) -> v < nobj h /\ reach h v x) -> nobj h <= length vs + k ->
  Acc (fun a b => contained h b a) x.
Proof.
  induction k as [|k IH]; intros vs x N H L; constructor; intros y C.
  - pose proof (nodup_bound _ N (fun v I => proj1 (H v I))) as X. simpl in X. lia.
  - apply (IH (x :: vs)).
    + constructor; auto. intros I. apply (t_acyclic _ T x y C). apply H. auto.
    + intros v [<-|I].
      * destruct C as (s & C). split; [exact (t_exists _ T _ _ _ C)|constructor].
      * destruct (H v I) as (L1 & R). split; auto. eapply reach_trans; [exact R|]. econstructor; [exact C|constructor].
    + simpl. lia.
Qed.
Lemma contained_acc : forall x, x < nobj h -> Acc (fun a b => contained h b a) x.
Proof.
  intros x L. apply (contained_wf (nobj h) []); [repeat constructor; auto| |simpl; lia]. intros v [<-|[]]. split; auto. constructor.
Qed.
Lemma abs_exists : (forall x b, body_of h x = Some (BPrim (Some (SBuf b))) -> b < nbuf h) -> forall x, x < nobj h -> exists n, abs h x n.
Proof.
  intros Hb x L. pose proof (contained_acc x L) as A. revert L. induction A as [x _ IH]. intros L. destruct (get_some h x L) as (ob & G).
  assert (Ch : forall s y, slot h x s y -> exists n, abs h y n).
  { intros s y S. apply IH; [exists s; auto|exact (t_exists _ T _ _ _ S)]. }
  destruct (o_body ob) as [fs|els|[[v|b]|]] eqn:B.
  - assert (X : forall l, (forall k y, In (k, y) l -> In (k, y) fs) -> exists ns, abs_fs h l ns).
    { induction l as [|(k, y) l IHl]; intros Hl; [exists []; constructor|]. destruct (Ch (Child k) y) as (n & An).
      - econstructor; eauto. apply Hl. now left.
      - destruct IHl as (ns & Ans); [intros k' y' I; apply Hl; now right|]. exists ((k, n) :: ns). constructor; auto. }
    destruct (X fs) as (ns & Ans); auto. exists (NStruct ns). econstructor; eauto.
  - assert (X : forall l, (forall y, In y l -> In y els) -> exists ns, abs_els h l ns).
    { induction l as [|y l IHl]; intros Hl; [exists []; constructor|]. assert (I : In y els) by (apply Hl; now left).
      apply In_nth_error in I as (i & I). destruct (Ch (Elem i) y) as (n & An); [econstructor; eauto|].
      destruct IHl as (ns & Ans); [intros y' I'; apply Hl; now right|]. exists (n :: ns). constructor; auto. }
    destruct (X els) as (ns & Ans); auto. exists (NAoS ns). econstructor; eauto.
  - exists (NLeaf (Some v)). eapply abs_imm; eauto.
  - assert (Lb : b < nbuf h) by (apply (Hb x); rewrite (body_of_get _ _ _ G); now rewrite B).
    destruct (nth_error (h_bufs h) b) as [v|] eqn:N; [|apply nth_error_None in N; lia]. exists (NLeaf (Some v)). eapply abs_buf; eauto.
  - exists (NLeaf None). eapply abs_unset; eauto.
Qed.
End Exists.
