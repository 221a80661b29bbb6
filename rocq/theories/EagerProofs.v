(** Proofs for EagerModel. *)
From Verif Require Import Base TreeModel TreeSpec TreeProofs VmapModel EagerModel EagerSpec.
From Verif Require PrimModel StoreModel.
Import StoreModel (place, pos, top, below, locate, omitted, ctx_path, is_mode).

Lemma arun_app : forall a b F, arun F (a ++ b) = match arun F a with Some F1 => arun F1 b | None => None end.
Proof. induction a as [|e a IH]; intros b F; simpl; auto. destruct (astep F e); auto. Qed.
Lemma drun_app : forall a b d F F1, arun F a = Some F1 -> drun d F (a ++ b) = drun (drun d F a) F1 b.
Proof.
  induction a as [|e a IH]; intros b d F F1 H; simpl in *.
  - injection H as <-. auto.
  - destruct (astep F e) as [F2|]; [|discriminate]. now apply IH.
Qed.
Lemma written_app : forall a b F F1, arun F a = Some F1 -> written_all F (a ++ b) = written_all F a ++ written_all F1 b.
Proof.
  induction a as [|e a IH]; intros b F F1 H; simpl in *.
  - injection H as <-. auto.
  - destruct (astep F e) as [F2|]; [|discriminate]. rewrite (IH _ _ _ H). now rewrite app_assoc.
Qed.
Lemma dset_same : forall d p, dset d p (d p) p = d p.
Proof. intros. unfold dset. now rewrite str_eqb_refl. Qed.
Lemma dset_id : forall d p q, dset d p (d p) q = d q.
Proof. intros. unfold dset. destruct (str_eqb p q) eqn:E; auto. apply str_eqb_eq in E. now subst. Qed.
Lemma dset_other : forall d p s q, p <> q -> dset d p s q = d q.
Proof. intros. unfold dset. destruct (str_eqb p q) eqn:E; auto. apply str_eqb_eq in E. congruence. Qed.
(** [drun] depends on the database pointwise *)
Lemma dstep_ext : forall d d' F e, (forall p, d p = d' p) -> forall p, dstep d F e p = dstep d' F e p.
Proof.
  intros d d' F [q r] H p. unfold dstep. cbn [fst snd]. destruct (r_ok r); auto.
  destruct q; unfold dset; rewrite !H; auto.
Qed.
Lemma drun_ext : forall l d d' F, (forall p, d p = d' p) -> forall p, drun d F l p = drun d' F l p.
Proof.
  induction l as [|e l IH]; intros d d' F H p; simpl; auto. destruct (astep F e); auto. apply IH. apply dstep_ext; auto.
Qed.

Definition error_of (q : request) : exn := match q with QWrite _ _ _ => BadArguments | _ => Own StoreModel.Lowlevel end.
(** errors that do not come from a call *)
Definition inner (e : exn) : Prop := e <> Own StoreModel.Lowlevel /\ e <> BadArguments.
(** either no call failed, or nothing but ending contexts follows the failed call, which is reported *)
Definition halted {A} (l : list ev) (r : result exn A) : Prop :=
  (forallb fine l = true /\ forall e, r = Err e -> inner e) \/
  exists a q rp b, l = a ++ (q, rp) :: b /\ forallb fine a = true /\ fine (q, rp) = false /\ forallb is_end b = true /\ r = Err (error_of q).

Lemma ends_fine : forall l, forallb is_end l = true -> forallb fine l = true.
Proof. induction l as [|e l IH]; simpl; intros H; auto. apply andb_true_iff in H as [H1 H2]. unfold fine at 1. rewrite H1, IH; auto. Qed.
Lemma halted_seq : forall A B l1 (a : A) l2 (r : result exn B), halted l1 (Ok a) -> halted l2 r -> halted (l1 ++ l2) r.
Proof.
  intros A B l1 a l2 r [[F1 _]|(x & q & rp & b & _ & _ & _ & _ & E)] H2; [|discriminate].
  destruct H2 as [[F2 N]|(x & q & rp & b & -> & Fx & Fq & Eb & Er)].
  - left. rewrite forallb_app, F1, F2. auto.
  - right. exists (l1 ++ x), q, rp, b. rewrite <- app_assoc. repeat split; auto. rewrite forallb_app. apply andb_true_iff. auto.
Qed.
Lemma halted_err : forall A B l e, halted l (Err e : result exn A) -> halted l (Err e : result exn B).
Proof.
  intros A B l e [[F N]|(x & q & rp & b & -> & Fx & Fq & Eb & Er)].
  - left. split; auto. intros e' E. injection E as <-. auto.
  - right. exists x, q, rp, b. repeat split; auto. congruence.
Qed.
Lemma halted_end : forall A l c rp (r : result exn A), halted l r -> halted (l ++ [(QEnd c, rp)]) r.
Proof.
  intros A l c rp r [[F N]|(x & q & rq & b & -> & Fx & Fq & Eb & Er)].
  - left. rewrite forallb_app, F. auto.
  - right. exists x, q, rq, (b ++ [(QEnd c, rp)]). split; [now rewrite <- app_assoc|]. split; [exact Fx|]. split; [exact Fq|]. split; [|exact Er].
    rewrite forallb_app. apply andb_true_iff. split; [exact Eb|reflexivity].
Qed.
Lemma halted_nil : forall A (a : A), halted [] (Ok a).
Proof. left. split; auto. discriminate. Qed.
Lemma halted_map : forall A B l (a : A) (b : B), halted l (Ok a) -> halted l (Ok b).
Proof. intros A B l a b [[F N]|(x & q & rp & c & _ & _ & _ & _ & E)]; [|discriminate]. left. split; auto. discriminate. Qed.

Section Tri.
Variable answer : list ev -> request -> reply.
Local Notation M := (EagerModel.M).

(** What a computation started with trace [t] and open contexts [F] does. *)
Definition tri {A} (F : list frame) (t : list ev) (x : M A) (P : list ev -> list frame -> result exn A -> Prop) : Prop :=
  exists l F', fst (x t) = t ++ l /\ arun F l = Some F' /\ halted l (snd (x t)) /\ P l F' (snd (x t)).

Lemma tri_weak : forall A F t (x : M A) (P Q : list ev -> list frame -> result exn A -> Prop),
  tri F t x P -> (forall l F' r, arun F l = Some F' -> halted l r -> P l F' r -> Q l F' r) -> tri F t x Q.
Proof. intros A F t x P Q (l & F' & E & R & H & p) W. exists l, F'. auto. Qed.
Lemma tri_ret : forall A F t (a : A) (P : list ev -> list frame -> result exn A -> Prop), P [] F (Ok a) -> tri F t (ret a) P.
Proof. intros A F t a P H. exists [], F. cbn. rewrite app_nil_r. repeat split; auto. apply halted_nil. Qed.
Lemma tri_fail : forall A F t e (P : list ev -> list frame -> result exn A -> Prop), inner e -> P [] F (Err e) -> tri F t (fail e) P.
Proof. intros A F t e P I H. exists [], F. cbn. rewrite app_nil_r. repeat split; auto. left. split; auto. intros e' E. now injection E as <-. Qed.
Lemma tri_bind : forall A B F t (x : M A) (f : A -> M B) (P : list ev -> list frame -> result exn A -> Prop) (Q : list ev -> list frame -> result exn B -> Prop),
  tri F t x P ->
  (forall l F' a, P l F' (Ok a) -> arun F l = Some F' -> forallb fine l = true -> tri F' (t ++ l) (f a) (fun l2 F2 r => Q (l ++ l2) F2 r)) ->
  (forall l F' e, P l F' (Err e) -> arun F l = Some F' -> halted l (Err e : result exn A) -> Q l F' (Err e)) ->
  tri F t (mbind x f) Q.
Proof.
  intros A B F t x f P Q (l & F1 & E & R & H & p) K1 K2. unfold tri, mbind. destruct (x t) as [t1 [a|e]]; cbn [fst snd] in *; subst t1.
  - destruct (K1 l F1 a p R) as (l2 & F2 & E2 & R2 & H2 & q).
    { destruct H as [[? _]|(x' & q & rp & c & _ & _ & _ & _ & X)]; [auto|discriminate]. }
    exists (l ++ l2), F2. rewrite app_assoc, arun_app, R. repeat split; auto. eapply halted_seq; eauto.
  - exists l, F1. repeat split; auto. eapply halted_err; eauto.
Qed.
Lemma tri_call : forall F t q (P : list ev -> list frame -> result exn reply -> Prop) F', let r := answer t q in
  (forall rp, is_end (q, rp) = false) -> astep F (q, r) = Some F' -> P [(q, r)] F' (if r_ok r then Ok r else Err (error_of q)) ->
  tri F t (call answer (error_of q) q) P.
Proof.
  intros F t q P F' r Ne St p. exists [(q, r)], F'. unfold call. cbn [fst snd]. repeat split; auto.
  - cbn [arun]. fold r. now rewrite St.
  - fold r. destruct (r_ok r) eqn:O.
    + left. split; [|discriminate]. cbn. unfold fine. cbn [snd]. rewrite O, orb_true_r. auto.
    + right. exists [], q, r, []. repeat split; auto. unfold fine. cbn [snd]. now rewrite O, Ne.
Qed.
Lemma tri_with : forall A F t (begin : cid -> request) (body : cid -> reply -> M A) (P : list ev -> list frame -> result exn A -> Prop) f,
  let c := S (length t) in let r := answer t (begin c) in
  (forall rp, is_end (begin c, rp) = false) -> error_of (begin c) = lowlevel -> fid f = c ->
  astep F (begin c, r) = Some (if r_ok r then f :: F else F) ->
  (r_ok r = false -> P [(begin c, r)] F (Err lowlevel)) ->
  (r_ok r = true -> tri (f :: F) (t ++ [(begin c, r)]) (body c r) (fun l F' x => exists f', F' = f' :: F /\ fid f' = c /\
     forall rE, P ((begin c, r) :: l ++ [(QEnd c, rE)]) F x)) ->
  tri F t (with_ctx answer begin body) P.
Proof.
  intros A F t begin body P f c r Ne Eo Ef St No Yes. unfold tri, with_ctx. fold c. unfold call. fold r.
  destruct (r_ok r) eqn:O.
  - destruct (Yes eq_refl) as (l & F' & E & R & H & f' & -> & Ec & p). destruct (body c r (t ++ [(begin c, r)])) as [t1 x]. cbn [fst snd] in *. subst t1.
    unfold end_action. eexists ((begin c, r) :: l ++ [(QEnd c, _)]), F. rewrite <- !app_assoc. cbn [app]. repeat split.
    + cbn [arun]. rewrite St, arun_app, R. cbn [arun astep]. now rewrite Ec, Nat.eqb_refl.
    + change (halted ([(begin c, r)] ++ (l ++ [(QEnd c, answer (t ++ [(begin c, r)] ++ l) (QEnd c))])) x).
      apply (halted_seq _ _ _ tt); [|apply halted_end; exact H]. left. split; [|discriminate]. cbn. unfold fine. cbn [snd]. now rewrite O, orb_true_r.
    + apply p.
  - exists [(begin c, r)], F. cbn [fst snd]. repeat split; auto.
    + cbn [arun]. now rewrite St.
    + right. exists [], (begin c), r, []. repeat split; auto.
      * unfold fine. cbn [snd]. now rewrite O, Ne.
      * now rewrite Eo.
Qed.
End Tri.
