(* C40: the cache of MDSplus models under all interleavings, failures and
   crashes of any number of processes. *)

From Coq Require Import List Arith Bool Lia.
Require Import Verif.MdsModel.
Import ListNotations.

(* ------------------------------------------------------------------ *)
(* Specification                                                       *)

(* the five components are there, none of them partly written *)
Definition complete (l : files) : Prop := forall f, f < 5 -> In (f, true) l.

(* process p is dealing with the failure of its own attempt *)
Definition failing (s : state) (p : nat) : Prop :=
  match p_pc (procs s p) with
  | RmOpen | RmFiles _ _ | RmDir => True
  | _ => False
  end.

(* an execution during which no process clears up after a failure *)
Fixpoint quiet (T : nat) (x g : bool) (s : state) (t : list (nat * choice)) : Prop :=
  match t with
  | [] => True
  | (p, c) :: t' => ~ failing s p /\ quiet T x g (step T x g s p c) t'
  end.

(* nothing in the cache, and nothing in any temporary directory, is partly
   written: true of the state before anything has happened *)
Definition clean_start (s : state) : Prop :=
  (forall f w, In (f, w) (dfiles s) -> w = true) /\
  forall p, procs s p = start.

(* ------------------------------------------------------------------ *)
(* Proofs                                                              *)

Lemma has_In : forall f l, has f l = true -> exists w, In (f, w) l.
Proof.
  intros f l H. unfold has in H. apply existsb_exists in H.
  destruct H as [[g w] [Hi He]]. cbn in He. apply Nat.eqb_eq in He. subst.
  eauto.
Qed.

Lemma In_has : forall f w l, In (f, w) l -> has f l = true.
Proof.
  intros f w l H. unfold has. apply existsb_exists. exists (f, w). split; [easy|].
  cbn. apply Nat.eqb_refl.
Qed.

Lemma In_rm_file : forall f l e, In e (rm_file f l) -> In e l /\ fst e <> f.
Proof.
  intros f l e H. unfold rm_file in H. apply filter_In in H. destruct H as [H1 H2].
  split; [easy|]. apply negb_true_iff, Nat.eqb_neq in H2. easy.
Qed.

Lemma rm_file_keeps : forall f l e, In e l -> fst e <> f -> In e (rm_file f l).
Proof.
  intros. unfold rm_file. apply filter_In. split; [easy|].
  apply negb_true_iff, Nat.eqb_neq. easy.
Qed.

Lemma In_write : forall f w l e, In e (write f w l) -> e = (f, w) \/ In e l.
Proof.
  intros f w l e [H|H]; [left; congruence|].
  apply In_rm_file in H. right. apply H.
Qed.

Lemma rename_keeps : forall s l e, In e (dfiles s) -> In e (dfiles (rename_onto s l)).
Proof.
  intros s l e H. unfold dfiles, rename_onto in *.
  destruct (d s) as [[i [|y r]]|] eqn:E; cbn; try rewrite E; easy.
Qed.

Lemma rename_procs : forall s l, procs (rename_onto s l) = procs s.
Proof.
  intros. unfold rename_onto. destruct (d s) as [[i [|y r]]|]; easy.
Qed.

Lemma dfiles_set_pc : forall s p c, dfiles (set_pc s p c) = dfiles s.
Proof. easy. Qed.

Lemma upd_same : forall g p x, upd g p x p = x.
Proof. intros. unfold upd. now rewrite Nat.eqb_refl. Qed.

Lemma upd_other : forall g p x q, q <> p -> upd g p x q = g q.
Proof. intros. unfold upd. apply Nat.eqb_neq in H. now rewrite H. Qed.

Lemma pc_set_pc : forall s p c, p_pc (procs (set_pc s p c) p) = c.
Proof. intros. unfold set_pc. cbn. now rewrite upd_same. Qed.

(* case analysis over the step function *)
Ltac brk :=
  repeat match goal with
  | H : context[match ?x with _ => _ end] |- _ => destruct x eqn:?
  | |- context[match ?x with _ => _ end] => destruct x eqn:?
  end.

Section P.

Variable T : nat.
Variable x g : bool.
Local Notation stp := (step T x g).
Local Notation rn := (run T x g).

(* a step of a process that is not clearing up removes nothing *)
Lemma step_keeps : forall s p c e,
  ~ failing s p -> In e (dfiles s) -> In e (dfiles (stp s p c)).
Proof.
  intros s p c e Hf Hi. unfold failing in Hf. unfold step.
  destruct (p_pc (procs s p)) eqn:E; try (exfalso; now apply Hf);
  destruct c; try exact Hi; brk; try exact Hi;
  try (rewrite dfiles_set_pc; now apply rename_keeps);
  try (unfold dfiles in Hi; rewrite Heqo in Hi; easy).
Qed.

Lemma quiet_keeps : forall t s e,
  quiet T x g s t -> In e (dfiles s) -> In e (dfiles (rn s t)).
Proof.
  induction t as [|[p c] t IH]; cbn; intros s e Hq Hi; [easy|].
  destruct Hq as [Hf Hq]. apply IH; [easy|]. now apply step_keeps.
Qed.

(* a step of p leaves the others where they are *)
Lemma step_other : forall s p c q, q <> p -> procs (stp s p c) q = procs s q.
Proof.
  intros s p c q N. unfold step.
  destruct (p_pc (procs s p)); destruct c; try easy; brk; try easy;
  unfold set_pc, set_d; cbn; rewrite ?rename_procs; try now rewrite upd_other; easy.
Qed.

(* what a process knows about the cache while nothing is removed *)
Definition knows (s : state) (p : nat) : Prop :=
  match p_pc (procs s p) with
  | If1M k | WaitM _ k | FinalM k =>
      k < 5 /\ forall f, f < k -> exists w, In (f, w) (dfiles s)
  | Returned => forall f, f < 5 -> exists w, In (f, w) (dfiles s)
  | _ => True
  end.

Lemma knows_mono : forall s s' p,
  procs s' p = procs s p -> (forall e, In e (dfiles s) -> In e (dfiles s')) ->
  knows s p -> knows s' p.
Proof.
  intros s s' p Hp Hi Hk. unfold knows in *. rewrite Hp.
  destruct (p_pc (procs s p)); try easy;
  try (destruct Hk as [Hk1 Hk2]; split; [easy|]; intros f Hf;
       destruct (Hk2 f Hf) as [w Hw]; eauto).
  intros f Hf. destruct (Hk f Hf) as [w Hw]; eauto.
Qed.

Lemma knows_wait : forall s p n, knows (set_pc s p (wait_from T n)) p.
Proof.
  intros. unfold knows. rewrite pc_set_pc. unfold wait_from.
  destruct (n <? T); [|easy]. split; [lia|]. intros; lia.
Qed.

Lemma knows_exists : forall s p k next no,
  (forall j, next j = If1M j \/ (exists n, next j = WaitM n j) \/ next j = FinalM j) ->
  (k < 5 /\ forall f, f < k -> exists w, In (f, w) (dfiles s)) ->
  (forall s', s' = set_pc s p no -> knows s' p) ->
  knows (set_pc s p (exists_step s k next Returned no)) p.
Proof.
  intros s p k next no Hn [Hk Hf] Hno. unfold exists_step.
  destruct (has k (dfiles s)) eqn:E; [|now apply Hno].
  assert (A : forall f, f < S k -> exists w, In (f, w) (dfiles s)).
  { intros f L. destruct (Nat.eq_dec f k) as [->|N]; [now apply has_In|]. apply Hf. lia. }
  unfold n_components.
  destruct (S k =? 5) eqn:E5; unfold knows; rewrite pc_set_pc, dfiles_set_pc.
  - apply Nat.eqb_eq in E5. rewrite <- E5. exact A.
  - apply Nat.eqb_neq in E5.
    destruct (Hn (S k)) as [->|[[n ->]| ->]]; (split; [lia|exact A]).
Qed.

Lemma knows_true : forall s p c,
  match c with If1M _ | WaitM _ _ | FinalM _ | Returned => False | _ => True end ->
  knows (set_pc s p c) p.
Proof. intros. unfold knows. rewrite pc_set_pc. destruct c; easy. Qed.

Lemma knows_zero : forall s p c,
  c = If1M 0 \/ (exists n, c = WaitM n 0) \/ c = FinalM 0 -> knows (set_pc s p c) p.
Proof.
  intros s p c H. unfold knows. rewrite pc_set_pc.
  destruct H as [->|[[n ->]| ->]]; (split; [lia|intros; lia]).
Qed.

Lemma knows_exists_other : forall s p k next yes no,
  (forall j, match next j with If1M _ | WaitM _ _ | FinalM _ | Returned => False | _ => True end) ->
  match yes with If1M _ | WaitM _ _ | FinalM _ | Returned => False | _ => True end ->
  (forall s', s' = set_pc s p no -> knows s' p) ->
  knows (set_pc s p (exists_step s k next yes no)) p.
Proof.
  intros s p k next yes no Hn Hy Hno. unfold exists_step.
  destruct (has k (dfiles s)); [|now apply Hno].
  destruct (S k =? n_components); apply knows_true; [easy|apply Hn].
Qed.

Lemma step_knows : forall s p c, ~ failing s p -> knows s p -> knows (stp s p c) p.
Proof.
  intros s p c Hf Hk. unfold failing in Hf. unfold knows in Hk.
  unfold step. destruct (p_pc (procs s p)) eqn:E; try (exfalso; now apply Hf);
  destruct c;
  try (unfold knows; rewrite E; exact Hk);
  try (apply knows_true; easy).
  - destruct (d s); [apply knows_zero; auto|now apply knows_true].
  - apply knows_exists; [auto|easy|]. intros s' ->. now apply knows_true.
  - destruct (d s); now apply knows_true.
  - apply knows_exists_other; [easy|easy|]. intros s' ->. apply knows_wait.
  - destruct (d s); now apply knows_true.
  - apply knows_exists_other; [easy|easy|]. intros s' ->. now apply knows_true.
  - apply knows_exists; [eauto|easy|]. intros s' ->. apply knows_wait.
  - destruct (d s) as [[i l]|]; [destruct (1 <? length l)|]; now apply knows_true.
  - apply knows_exists_other; [easy|easy|]. intros s' ->. now apply knows_true.
  - destruct (d s); now apply knows_true.
  - destruct (_ && _); [now apply knows_true|]. unfold knows. now rewrite E.
  - unfold knows. cbn. now rewrite upd_same.
  - destruct (_ && _); [now apply knows_true|]. unfold knows. now rewrite E.
  - destruct (f =? done_txt); unfold knows; [now rewrite E|cbn; now rewrite upd_same].
  - unfold knows. cbn. now rewrite upd_same.
  - destruct x; [now apply knows_true|apply knows_zero; auto].
  - destruct todo as [|[f w] todo]; [now apply knows_true|].
    unfold knows. cbn. now rewrite upd_same.
  - destruct todo as [|[f w] todo]; now apply knows_true.
  - destruct todo as [|[f' w'] todo]; unfold knows; now rewrite E.
  - destruct todo as [|[f' w'] todo]; unfold knows; now rewrite E.
  - apply knows_zero; auto.
  - apply knows_exists; [auto|easy|]. intros s' ->. now apply knows_true.
Qed.

Lemma quiet_knows : forall t s p, quiet T x g s t -> knows s p -> knows (rn s t) p.
Proof.
  induction t as [|[q c] t IH]; cbn; intros s p Hq Hk; [easy|].
  destruct Hq as [Hf Hq]. apply IH; [easy|].
  destruct (Nat.eq_dec p q) as [->|N]; [now apply step_knows|].
  apply knows_mono with (s := s); [now apply step_other| |easy].
  intros e He. now apply step_keeps.
Qed.

(* nothing partly written is ever published *)
Definition whole (l : files) : Prop := forall f w, In (f, w) l -> w = true.

(* of a process: what it will still publish is whole *)
Definition ok (q : proc) : Prop :=
  match p_pc q with
  | Touch | Replace => whole (p_tmp q) /\ whole (p_tmp2 q)
  | CopyTree l => whole l /\ whole (p_tmp2 q)
  | RmSrc | FinalM _ | RmOpen | RmFiles _ _ | RmDir | Returned | Raised _ => True
  | _ => whole (p_tmp2 q)
  end.

Definition clean (s : state) : Prop :=
  whole (dfiles s) /\ forall p, ok (procs s p).

Lemma whole_nil : whole []. Proof. intros f w []. Qed.

Lemma whole_write : forall f l, whole l -> whole (write f true l).
Proof.
  intros f l H f' w' Hi. apply In_write in Hi. destruct Hi as [Hi|Hi]; [congruence|].
  eapply H, Hi.
Qed.

Lemma whole_rm : forall f l, whole l -> whole (rm_file f l).
Proof. intros f l H f' w' Hi. apply In_rm_file in Hi. eapply H, Hi. Qed.

Lemma all_whole_spec : forall l, all_whole l = true -> whole l.
Proof.
  intros l H f w Hi. unfold all_whole in H. rewrite forallb_forall in H.
  now apply (H (f, w)).
Qed.

Lemma whole_rename : forall s l, whole (dfiles s) -> whole l -> whole (dfiles (rename_onto s l)).
Proof.
  intros s l Hs Hl. unfold dfiles, rename_onto in *.
  destruct (d s) as [[i [|y r]]|] eqn:E; cbn; try rewrite E; easy.
Qed.

Lemma exists_step_cases : forall s k next yes no,
  exists_step s k next yes no = next (S k) \/
  exists_step s k next yes no = yes \/ exists_step s k next yes no = no.
Proof.
  intros. unfold exists_step. destruct (has k (dfiles s)); [|auto].
  destruct (S k =? n_components); auto.
Qed.

Lemma step_whole : forall s p c, clean s -> whole (dfiles (stp s p c)).
Proof.
  intros s p c [Hw Hp]. specialize (Hp p). unfold ok in Hp. unfold step.
  destruct (p_pc (procs s p)) eqn:E; destruct c; try exact Hw;
  try (destruct todo as [|a todo]); brk; try exact Hw;
  try (rewrite dfiles_set_pc; now apply whole_rename);
  try exact whole_nil.
  all: unfold dfiles in Hw |- *; cbn; rewrite Heqo0 in Hw; now apply whole_rm.
Qed.

Lemma ok_set : forall s p c, ok (MkProc c (p_tmp (procs s p)) (p_tmp2 (procs s p))) ->
  ok (procs (set_pc s p c) p).
Proof. intros. unfold set_pc. cbn. now rewrite upd_same. Qed.

Lemma ok_exists : forall s p k next yes no,
  ok (MkProc (next (S k)) (p_tmp (procs s p)) (p_tmp2 (procs s p))) ->
  ok (MkProc yes (p_tmp (procs s p)) (p_tmp2 (procs s p))) ->
  ok (MkProc no (p_tmp (procs s p)) (p_tmp2 (procs s p))) ->
  ok (procs (set_pc s p (exists_step s k next yes no)) p).
Proof.
  intros. apply ok_set.
  destruct (exists_step_cases s k next yes no) as [W|[W|W]]; rewrite W; easy.
Qed.

Lemma ok_wait : forall n t t2, whole t2 -> ok (MkProc (wait_from T n) t t2).
Proof. intros. unfold wait_from. destruct (n <? T); easy. Qed.

Lemma step_clean : forall s p c, clean s -> clean (stp s p c).
Proof.
  intros s p c H. split; [now apply step_whole|].
  destruct H as [Hw Hp]. intros q.
  destruct (Nat.eq_dec q p) as [->|N].
  2:{ rewrite step_other by easy. apply Hp. }
  specialize (Hp p). pose proof Hp as Hp0. unfold ok in Hp0. unfold step.
  destruct (p_pc (procs s p)) eqn:E; destruct c; try exact Hp;
  try (apply ok_set; exact I); try (apply ok_set; exact Hp0);
  try (apply ok_exists; try apply ok_wait; try exact I; exact Hp0).
  - destruct (d s); now apply ok_set.
  - destruct (d s); now apply ok_set.
  - destruct (d s); now apply ok_set.
  - destruct (d s) as [[i l]|]; [destruct (1 <? length l)|]; now apply ok_set.
  - destruct (d s); [now apply ok_set|]. unfold set_pc. cbn. now rewrite upd_same.
  - destruct (_ && _); [now apply ok_set|exact Hp].
  - cbn. now rewrite upd_same.
  - destruct (all_whole (p_tmp (procs s p))) eqn:Ea; [|exact Hp].
    cbn [andb]. destruct (_ || _); [|exact Hp]. apply ok_set. cbn.
    split; [now apply all_whole_spec|easy].
  - destruct (f =? done_txt); [exact Hp|]. cbn. now rewrite upd_same.
  - cbn. rewrite upd_same. cbn. split; [now apply whole_write|easy].
  - destruct x; [now apply ok_set|]. unfold set_pc. cbn. now rewrite upd_same.
  - destruct todo as [|[f w] todo]; [now apply ok_set|].
    cbn. rewrite upd_same. cbn. destruct Hp0 as [H1 H2].
    assert (w = true) by (apply (H1 f w); now left). subst w.
    split; [|now apply whole_write]. intros a b Hab. apply (H1 a b). now right.
  - destruct todo as [|[f w] todo]; now apply ok_set.
  - destruct todo as [|[f' w'] todo]; exact Hp.
  - destruct todo as [|[f' w'] todo]; exact Hp.
  - destruct (d s) as [[i l]|]; now apply ok_set.
  - destruct todo; [now apply ok_set|exact Hp].
  - destruct todo; now apply ok_set.
  - destruct todo; exact Hp.
  - destruct todo; [destruct n; exact Hp|].
    destruct (nth_error _ _); [|exact Hp]. destruct (d s) as [[j l]|]; [|now apply ok_set].
    destruct (_ && _); [|now apply ok_set]. unfold set_pc. cbn. now rewrite upd_same.
  - destruct (d s) as [[j [|e l]]|]; now apply ok_set.
Qed.

Lemma run_clean : forall t s, clean s -> clean (rn s t).
Proof.
  induction t as [|[p c] t IH]; cbn; intros; [easy|]. apply IH. now apply step_clean.
Qed.

Lemma clean_start_clean : forall s, clean_start s -> clean s.
Proof.
  intros s [H1 H2]. split; [exact H1|]. intros p. rewrite H2. cbn. apply whole_nil.
Qed.

Lemma run_app : forall t1 s t2, rn s (t1 ++ t2) = rn (rn s t1) t2.
Proof. induction t1 as [|[p c] t1 IH]; cbn; intros; [easy|apply IH]. Qed.

(* with tools that write everything they should: what is published is complete *)
Definition all5 (l : files) : Prop := forall f, f < 5 -> has f l = true.

Lemma has_write : forall f f' w l, has f l = true -> has f (write f' w l) = true.
Proof.
  intros f f' w l H. apply has_In in H. destruct H as [w' H].
  destruct (Nat.eq_dec f f') as [->|N].
  - apply In_has with (w := w). now left.
  - apply In_has with (w := w'). right. now apply rm_file_keeps.
Qed.

Lemma has_write_same : forall f w l, has f (write f w l) = true.
Proof. intros. apply In_has with (w := w). now left. Qed.

Definition ready (q : proc) : Prop :=
  match p_pc q with
  | Touch => forall f, f < 4 -> has f (p_tmp q) = true
  | Replace => all5 (p_tmp q)
  | CopyTree l => forall f, f < 5 -> has f l = true \/ has f (p_tmp2 q) = true
  | Replace2 => all5 (p_tmp2 q)
  | _ => True
  end.

Definition atomic (s : state) : Prop :=
  (dfiles s = [] \/ all5 (dfiles s)) /\ forall p, ready (procs s p).

Lemma ready_set : forall s p c, ready (MkProc c (p_tmp (procs s p)) (p_tmp2 (procs s p))) ->
  ready (procs (set_pc s p c) p).
Proof. intros. unfold set_pc. cbn. now rewrite upd_same. Qed.

Lemma ready_exists : forall s p k next yes no,
  ready (MkProc (next (S k)) (p_tmp (procs s p)) (p_tmp2 (procs s p))) ->
  ready (MkProc yes (p_tmp (procs s p)) (p_tmp2 (procs s p))) ->
  ready (MkProc no (p_tmp (procs s p)) (p_tmp2 (procs s p))) ->
  ready (procs (set_pc s p (exists_step s k next yes no)) p).
Proof.
  intros. apply ready_set.
  destruct (exists_step_cases s k next yes no) as [W|[W|W]]; rewrite W; easy.
Qed.

Lemma ready_wait : forall n t t2, ready (MkProc (wait_from T n) t t2).
Proof. intros. unfold wait_from. destruct (n <? T); easy. Qed.

Lemma rename_atomic : forall s l,
  (dfiles s = [] \/ all5 (dfiles s)) -> all5 l ->
  dfiles (rename_onto s l) = [] \/ all5 (dfiles (rename_onto s l)).
Proof.
  intros s l H Hl. unfold rename_onto, dfiles in *.
  destruct (d s) as [[i [|y r]]|] eqn:E; cbn; try rewrite E; auto.
Qed.

End P.

Lemma step_atomic : forall T x s p c,
  ~ failing s p -> atomic s -> atomic (step T x true s p c).
Proof.
  intros T x s p c Hf [Ha Hp]. split.
  - specialize (Hp p). unfold ready in Hp. unfold failing in Hf. unfold step.
    destruct (p_pc (procs s p)) eqn:E; try (exfalso; now apply Hf);
    destruct c; try exact Ha;
    try (destruct todo as [|[f0 w0] todo]); brk; try exact Ha;
    try (rewrite dfiles_set_pc; now apply rename_atomic);
    try (now left).
  - intros q. destruct (Nat.eq_dec q p) as [->|N].
    2:{ rewrite step_other by easy. apply Hp. }
    specialize (Hp p). pose proof Hp as Hp0. unfold ready in Hp0. unfold failing in Hf.
    unfold step.
    destruct (p_pc (procs s p)) eqn:E; try (exfalso; now apply Hf);
    destruct c; try exact Hp;
    try (apply ready_set; exact I);
    try (apply ready_exists; try apply ready_wait; exact I).
    + destruct (d s); now apply ready_set.
    + destruct (d s); now apply ready_set.
    + destruct (d s); now apply ready_set.
    + destruct (d s) as [[i l]|]; [destruct (1 <? length l)|]; now apply ready_set.
    + destruct (d s); now apply ready_set.
    + destruct (_ && _); [now apply ready_set|exact Hp].
    + cbn. now rewrite upd_same.
    + destruct (all_whole _); [|exact Hp]. cbn [andb negb orb].
      destruct (forallb _ (seq 0 4)) eqn:Es; [|exact Hp]. apply ready_set.
      intros f L. rewrite forallb_forall in Es. apply Es. apply in_seq. cbn. lia.
    + destruct (f =? done_txt); [exact Hp|]. cbn. now rewrite upd_same.
    + cbn. rewrite upd_same. intros f L. cbn [p_tmp].
      destruct (Nat.eq_dec f 4) as [->|N]; [apply has_write_same|].
      apply has_write, Hp0. lia.
    + destruct x; [apply ready_set; cbn; intros f L; left; now apply Hp0|].
      now apply ready_set.
    + destruct todo as [|[f w] todo].
      * apply ready_set. intros f L. destruct (Hp0 f L) as [H|H]; [discriminate|exact H].
      * cbn. rewrite upd_same. intros f' L. cbn [p_tmp2].
        destruct (Hp0 f' L) as [H|H]; [|right; now apply has_write].
        destruct (Nat.eq_dec f' f) as [->|N]; [right; apply has_write_same|].
        left. cbn in H. apply Nat.eqb_neq in N. rewrite Nat.eqb_sym in N.
        unfold has. rewrite N in H. exact H.
    + destruct todo as [|[f w] todo]; now apply ready_set.
    + destruct todo as [|[f' w'] todo]; exact Hp.
    + destruct todo as [|[f' w'] todo]; exact Hp.
Qed.

Lemma run_atomic : forall T x t s,
  quiet T x true s t -> atomic s -> atomic (run T x true s t).
Proof.
  induction t as [|[p c] t IH]; cbn; intros s Hq Ha; [easy|].
  destruct Hq as [Hf Hq]. apply IH; [easy|]. now apply step_atomic.
Qed.

(* ------------------------------------------------------------------ *)
(* Theorems                                                            *)

(* C40, first part, for executions without failures during the call: whatever
   happened before (t0: any interleaving, failures and crashes included), if no
   process clears up after a failure from the moment process p enters the call
   until it returns, then at that moment the directory holds the five whole
   components; and it keeps them as long as no process clears up. *)
Theorem C40_complete_partial : forall T x g s0 t0 t p t',
  clean_start s0 ->
  let s := run T x g s0 t0 in
  p_pc (procs s p) = If1Dir ->
  quiet T x g s t ->
  p_pc (procs (run T x g s t) p) = Returned ->
  complete (dfiles (run T x g s t)) /\
  (quiet T x g (run T x g s t) t' ->
   complete (dfiles (run T x g s (t ++ t')))).
Proof.
  intros T x g s0 t0 t p t' H0 s Hs Hq Hr.
  assert (Hc : complete (dfiles (run T x g s t))).
  { assert (K : knows (run T x g s t) p).
    { apply quiet_knows; [easy|]. unfold knows. now rewrite Hs. }
    unfold knows in K. rewrite Hr in K.
    intros f L. destruct (K f L) as [w Hw].
    assert (W : clean (run T x g s t)).
    { unfold s. rewrite <- run_app. apply run_clean. now apply clean_start_clean. }
    destruct W as [W _]. rewrite <- (W f w Hw). exact Hw. }
  split; [exact Hc|].
  intros Hq' f L. rewrite run_app. apply quiet_keeps; [easy|]. now apply Hc.
Qed.

(* No interleaving, failure or crash ever makes a partly written component
   visible in the cache. *)
Theorem C40_never_partly_written : forall T x g s0 t f w,
  clean_start s0 -> In (f, w) (dfiles (run T x g s0 t)) -> w = true.
Proof.
  intros T x g s0 t f w H0 Hi.
  destruct (run_clean T x g t s0 (clean_start_clean s0 H0)) as [W _].
  now apply (W f w).
Qed.

(* Only a process whose own attempt failed removes anything. *)
Theorem C40_who_removes : forall T x g s p c e,
  In e (dfiles s) -> ~ In e (dfiles (step T x g s p c)) -> failing s p.
Proof.
  intros T x g s p c e Hi Hn.
  assert (D : failing s p \/ ~ failing s p).
  { unfold failing. destruct (p_pc (procs s p)); auto. }
  destruct D as [D|D]; [easy|]. exfalso. apply Hn. now apply step_keeps.
Qed.

(* ... and an attempt fails only when one of its own calls fails or it has
   found the directory incomplete after publishing. *)
Theorem C40_why_failing : forall T x g s p c q,
  ~ failing s q -> failing (step T x g s p c) q ->
  q = p /\
  (c = Fail \/
   exists k, p_pc (procs s p) = FinalM k /\ has k (dfiles s) = false).
Proof.
  intros T x g s p c q Hn Hf.
  destruct (Nat.eq_dec q p) as [->|N].
  2:{ exfalso. apply Hn. unfold failing in *. now rewrite step_other in Hf by easy. }
  split; [easy|]. unfold failing in Hn, Hf.
  unfold step in Hf.
  destruct (p_pc (procs s p)) eqn:E; try (exfalso; now apply Hn);
  destruct c; try (now left); try (exfalso; now rewrite E in Hf);
  try (rewrite pc_set_pc in Hf; contradiction);
  try (cbn in Hf; rewrite upd_same in Hf; contradiction);
  try (destruct (d s) as [[i l]|]; try destruct (1 <? length l);
       rewrite ?pc_set_pc in Hf; contradiction);
  try (destruct (d s) as [[i l]|]; cbn in Hf; rewrite upd_same in Hf; contradiction);
  try (match goal with Hf : context[if ?b then _ else _] |- _ => destruct b end;
       try (rewrite E in Hf); cbn in Hf; rewrite ?upd_same in Hf; contradiction);
  try (destruct todo as [|[f0 w0] todo]; rewrite ?E in Hf; cbn in Hf;
       rewrite ?upd_same in Hf; contradiction);
  rewrite pc_set_pc in Hf; unfold exists_step, wait_from in Hf;
  destruct (has k (dfiles s)) eqn:Eh;
  try (destruct (S k =? n_components); contradiction);
  try (match goal with Hf : context[if ?b then _ else _] |- _ => destruct b end; contradiction);
  try contradiction.
  right. eauto.
Qed.

(* Publication is atomic: with tools that write what they should, and no
   failures, every process sees at any time nothing or the complete model. *)
Theorem C40_all_or_nothing : forall T x t s0,
  (forall p, procs s0 p = start) ->
  (dfiles s0 = [] \/ complete (dfiles s0)) ->
  (forall f w, In (f, w) (dfiles s0) -> w = true) ->
  quiet T x true s0 t ->
  dfiles (run T x true s0 t) = [] \/ complete (dfiles (run T x true s0 t)).
Proof.
  intros T x t s0 Hs Hd Hw Hq.
  assert (A : atomic (run T x true s0 t)).
  { apply run_atomic; [easy|]. split.
    - destruct Hd as [Hd|Hd]; [now left|]. right. intros f L.
      apply In_has with (w := true). now apply Hd.
    - intros p. rewrite Hs. exact I. }
  destruct A as [[A|A] _]; [now left|]. right. intros f L.
  destruct (has_In _ _ (A f L)) as [w Hi].
  assert (E : w = true)
    by (eapply C40_never_partly_written; [split; [exact Hw|exact Hs]|exact Hi]).
  now rewrite E in Hi.
Qed.

(* ------------------------------------------------------------------ *)
(* Executions                                                          *)

Definition gos (p n : nat) : list (nat * choice) := repeat (p, Go) n.

(* process p generates the model, from the moment it has the directory *)
Definition generate (p : nat) : list (nat * choice) :=
  [(p, Write 0 true); (p, Go); (p, Write 1 false); (p, Write 1 true);
   (p, Write 2 true); (p, Write 3 true); (p, Go); (p, Go)].

(* process 0 finds nothing and starts to generate; process 1 waits for it,
   gives up and starts as well; process 0 finishes *)
Definition two : list (nat * choice) :=
  gos 0 5 ++ gos 1 4 ++ gos 1 3 ++ generate 0 ++ gos 0 6.

Example C40_hypotheses : forall t, t = gos 0 5 ++ gos 1 3 ++ generate 0 ++ gos 0 6 ->
  clean_start fresh /\ p_pc (procs (run 1 false true fresh []) 0) = If1Dir /\
  quiet 1 false true fresh t /\
  p_pc (procs (run 1 false true fresh t) 0) = Returned /\
  length (dfiles (run 1 false true fresh t)) = 5.
Proof.
  intros t ->.
  assert (forall p, procs fresh p = start) by easy.
  split; [split; easy|]. split; [easy|]. split; [|split; vm_compute; reflexivity].
  vm_compute. intuition.
Qed.

(* Finding: the second half of C40 is false.  Process 1 timed out waiting for
   process 0 (a slow machine); after process 0 has published the model, the
   attempt of process 1 fails (java out of memory, say) and its except clause
   removes the complete model of process 0. *)
Theorem C40_complete_model_removed_refuted :
  exists T t p c,
    let s := run T false true fresh t in
    p_pc (procs s 0) = Returned /\ complete (dfiles s) /\
    p <> 0 /\ ~ complete (dfiles (step T false true s p c)).
Proof.
  exists 1, (two ++ [(1, Fail); (1, Go)]), 1, (Pick 0).
  split; [reflexivity|]. split; [|split; [easy|]].
  - intros f L. vm_compute. do 5 (destruct f as [|f]; [tauto|]). lia.
  - intros H. specialize (H 4 ltac:(lia)). vm_compute in H.
    repeat destruct H as [H|H]; congruence.
Qed.

(* Finding: the first half is false under the same failure: a third process
   sees the components one by one while process 1 removes them, and returns a
   directory that is no longer complete. *)
Theorem C40_incomplete_returned_refuted :
  exists T t p,
    let s := run T false true fresh t in
    p_pc (procs s p) = Returned /\ ~ complete (dfiles s).
Proof.
  exists 1, (two ++ gos 2 5 ++ [(1, Fail); (1, Go); (1, Pick 1)] ++ gos 2 1), 2.
  split; [reflexivity|].
  intros H. specialize (H 3 ltac:(lia)). vm_compute in H.
  repeat destruct H as [H|H]; congruence.
Qed.

(* Finding: across file systems, a failure to remove the temporary copy after
   publication makes the process remove the model it has just published, with
   no other process involved. *)
Theorem C40_own_model_removed_refuted :
  exists T t,
    let s := run T true true fresh t in
    complete (dfiles s) /\ ~ complete (dfiles (step T true true s 0 (Pick 0))) /\
    (forall p c, In (p, c) t -> p = 0).
Proof.
  exists 1, (gos 0 5 ++ generate 0 ++ gos 0 8 ++ [(0, Fail); (0, Go)]).
  split; [|split].
  - intros f L. vm_compute. do 5 (destruct f as [|f]; [tauto|]). lia.
  - intros H. pose proof (H 0 ltac:(lia)) as H0. pose proof (H 4 ltac:(lia)) as H4.
    vm_compute in H0, H4.
    repeat destruct H0 as [H0|H0]; repeat destruct H4 as [H4|H4]; congruence.
  - intros p c H. cbn in H. repeat (destruct H as [H|H]; [now inversion H|]). easy.
Qed.

(* Finding: "Programmer error, this case should never be true" does happen,
   without any failure: the directory appears between the tests. *)
Theorem C40_programmer_error_refuted :
  exists T t p,
    quiet T false true fresh t /\
    p_pc (procs (run T false true fresh t) p) = Raised ProgrammerError.
Proof.
  exists 1, (gos 1 2 ++ gos 0 5 ++ gos 1 1), 1.
  split; [|reflexivity]. vm_compute. intuition.
Qed.

Print Assumptions C40_complete_partial.
Print Assumptions C40_never_partly_written.
Print Assumptions C40_who_removes.
Print Assumptions C40_why_failing.
Print Assumptions C40_all_or_nothing.
Print Assumptions C40_complete_model_removed_refuted.
Print Assumptions C40_incomplete_returned_refuted.
Print Assumptions C40_own_model_removed_refuted.
Print Assumptions C40_programmer_error_refuted.
