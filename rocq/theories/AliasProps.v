(** C61: changes in place. *)
From Verif Require Import Base AliasModel AliasSpec AliasProofs AliasProofs2.
From Coq Require Import Lia.

(** the holders that an operation names *)
Definition names {elt} (o : op elt) : list holder :=
  match o with
  | Make _ a _ => [HVar a] | Same _ a b => [HVar a; HVar b] | Get _ a n => [HVar a; HNode n] | Load _ n _ => [HNode n]
  | Set_ _ n (FromNode _ m) => [HNode n; HNode m] | Set_ _ n (FromVar _ a) => [HNode n; HVar a] | Set_ _ n (FromNew _ _) => [HNode n]
  | Extend _ n _ => [HNode n] | SetItem _ n _ _ => [HNode n] | Mutate _ h _ => [h]
  | AliasModel.Copy _ ns => map (fun p => HNode (fst p)) ns ++ map (fun p => HNode (snd p)) ns
  end.
(** contents that fit a type: the kind of object; and with the right number of dimensions, and strings only *)
Definition kind_of {elt} (t : ty) (o : obj elt) : Prop := match t, o with TStr, OList _ _ => True | TNum t _, OArr _ u _ _ => u = t | _, _ => False end.
Definition fits {elt} (t : ty) (o : obj elt) : Prop :=
  match t, o with
  | TStr, OList _ l => forall i, In i l -> exists s, i = IStr s
  | TNum t nd, OArr _ u sh _ => u = t /\ length sh = nd
  | _, _ => False
  end.
Definition load_ok {elt} (P : ty -> obj elt -> Prop) (tyof : nat -> ty) (o : op elt) : Prop := match o with Load _ n c => P (tyof n) c | _ => True end.
Definition tame {elt} (o : op elt) : Prop := match o with Mutate _ _ _ => False | _ => True end.

Section Props.
Variable elt : Type.
Variable tyof : nat -> ty.
Variable lazy : nat -> bool.
Variable str_of : Z -> str.
Variable cast : num -> num -> elt -> elt.
Variable items_of : num -> list nat -> list elt -> list item.
Variable array_of : list item -> num -> option (list nat * list elt).
Notation run := (run elt tyof lazy str_of cast items_of array_of). Notation sruns := (sruns elt tyof lazy str_of cast items_of array_of).
Notation sstep := (sstep elt tyof lazy str_of cast items_of array_of).
Notation show := (show elt tyof). Notation start := (start elt). Notation sstart := (sstart elt tyof).
Notation val := (val elt). Notation share := (share elt).

(** C61: after any sequence of operations, every node and every variable shows what the specification without objects says, and the same
    operations were refused *)
Theorem C61_refines : forall l, Forall (copy_ok elt tyof) l ->
  exists s es, sruns sstart l s es /\ snd (run start l) = es /\ forall h, show (fst (run start l)) h = val s h.
Proof.
  intros l F. destruct (rel_run elt tyof lazy str_of cast items_of array_of l start sstart (rel_start elt tyof) F) as (s & es & S & E & R). exists s, es. split; auto. split; auto. apply (r_val _ _ _ _ R).
Qed.
(** ... and the specification leaves no choice *)
Lemma takes_fun : forall t o k1 k2, takes elt str_of cast items_of array_of t o k1 -> takes elt str_of cast items_of array_of t o k2 -> k1 = k2.
Proof. intros t o k1 k2 H1 H2. inversion H1; subst; inversion H2; subst; try reflexivity; try congruence; exfalso; congruence. Qed.
Lemma sassign_fun : forall s n g s1 e1 s2 e2, sassign elt tyof str_of cast items_of array_of s n g s1 e1 -> sassign elt tyof str_of cast items_of array_of s n g s2 e2 -> s1 = s2 /\ e1 = e2.
Proof.
  intros s n g s1 e1 s2 e2 H1 H2. inversion H1 as [o V T|o o' V T|o e V T]; subst; inversion H2 as [o2 V2 T2|o2 o2' V2 T2|o2 e2' V2 T2]; subst; rewrite V in V2; injection V2 as <-; pose proof (takes_fun _ _ _ _ T T2) as Q; try discriminate Q; try (injection Q as <-); auto.
Qed.
Lemma sstep_fun : forall s o s1 e1 s2 e2, sstep s o s1 e1 -> sstep s o s2 e2 -> s1 = s2 /\ e1 = e2.
Proof.
  intros s o s1 e1 s2 e2 H1 H2. inversion H1; subst; inversion H2; subst; try (split; reflexivity); try (exfalso; congruence);
    try (eapply sassign_fun; eassumption);
    try (match goal with A : takes _ _ _ _ _ _ _ _, B : takes _ _ _ _ _ _ _ _ |- _ => pose proof (takes_fun _ _ _ _ A B) as Q; try discriminate Q; try (injection Q as <-); auto end; fail);
    try (match goal with A : AliasSpec.sassign _ _ _ _ _ _ _ _ _ _ _, B : AliasSpec.val _ _ _ = None |- _ => inversion A; congruence end);
    try (match goal with A : AliasSpec.val _ _ _ = Some _, B : AliasSpec.val _ _ _ = Some _ |- _ => rewrite A in B; injection B as Q; subst; auto; try congruence end).
  - apply app_eq_app in Q. destruct Q as (m & [[-> Q]|[-> Q]]); rewrite app_length in *; destruct m as [|z m]; cbn in *; try lia; rewrite ?app_nil_r; injection Q as <- <-; auto.
  - exfalso. rewrite app_length in *. cbn in *. lia.
  - exfalso. rewrite app_length in *. cbn in *. lia.
  - exfalso. match goal with A : forall p, In p ns -> _, B : In ?p ns |- _ => specialize (A p B); congruence end.
  - exfalso. match goal with A : forall p, In p ns -> _, B : In ?p ns |- _ => specialize (A p B); congruence end.
Qed.
Theorem C61_unique : forall l s s1 e1 s2 e2, sruns s l s1 e1 -> sruns s l s2 e2 -> s1 = s2 /\ e1 = e2.
Proof.
  induction l as [|o l IH]; intros s s1 e1 s2 e2 H1 H2; inversion H1; subst; inversion H2; subst; auto.
  match goal with A : AliasSpec.sstep _ _ _ _ _ _ _ _ _ ?x _, B : AliasSpec.sstep _ _ _ _ _ _ _ _ _ ?y _ |- _ => destruct (sstep_fun _ _ _ _ _ _ A B) as [-> ->] end.
  match goal with A : AliasSpec.sruns _ _ _ _ _ _ _ _ l _ _, B : AliasSpec.sruns _ _ _ _ _ _ _ _ l _ _ |- _ => destruct (IH _ _ _ _ _ A B) as [-> ->] end. auto.
Qed.

(** ** Independence *)
Definition apart (A : holder -> bool) (s : sstate elt) : Prop := forall x y, A x = true -> A y = false -> share s x y = false /\ share s y x = false.
Lemma apart_own : forall A s h o, apart A s -> A h = true -> apart A (own elt s h o) /\ forall y, A y = false -> val (own elt s h o) y = val s y.
Proof.
  intros A s h o AP AH. split.
  - intros x y X Y. cbn. destruct (is_spec x h) as [(E & ->)|(E & NX)]; rewrite ?E; cbn [orb].
    + destruct (is_spec h y) as [(_ & ->)|(E1 & _)]; [congruence|]. destruct (is_spec y h) as [(_ & ->)|(E2 & _)]; [congruence|]. rewrite E1, E2. cbn. auto.
    + destruct (is_spec y h) as [(_ & ->)|(E2 & _)]; [congruence|]. rewrite E2. cbn. now apply AP.
  - intros y Y. cbn. destruct (is_spec y h) as [(_ & ->)|(-> & _)]; [congruence|reflexivity].
Qed.
Lemma apart_join : forall A s h g, apart A s -> A h = true -> A g = true -> apart A (join elt s h g) /\ forall y, A y = false -> val (join elt s h g) y = val s y.
Proof.
  intros A s h g AP AH AG. split.
  - intros x y X Y. cbn. destruct (is_spec y h) as [(_ & ->)|(-> & _)]; [congruence|]. destruct (is_spec x h) as [(-> & ->)|(-> & NX)]; now apply AP.
  - intros y Y. cbn. destruct (is_spec y h) as [(_ & ->)|(-> & _)]; [congruence|reflexivity].
Qed.
Lemma apart_change : forall A s h o, apart A s -> A h = true -> apart A (change elt s h o) /\ forall y, A y = false -> val (change elt s h o) y = val s y.
Proof. intros A s h o AP AH. split; [exact AP|]. intros y Y. cbn. now rewrite (proj1 (AP h y AH Y)). Qed.
Lemma apart_copied : forall A s ns, apart A s -> (forall h, In h (map (fun p => HNode (fst p)) ns ++ map (fun p => HNode (snd p)) ns) -> A h = true) ->
  apart A (copied elt s ns) /\ forall y, A y = false -> val (copied elt s ns) y = val s y.
Proof.
  intros A s ns AP H. assert (O : forall y, A y = false -> original ns y = None).
  { intros y Y. destruct (original ns y) as [z|] eqn:E; auto. destruct (original_In _ _ _ E) as (n & n' & I & -> & ->). rewrite H in Y; [discriminate|]. apply in_or_app. right. apply List.in_map_iff. exists (n, n'). auto. }
  split; [|intros y Y; cbn; now rewrite (O y Y)]. intros x y X Y. cbn. rewrite (O y Y). destruct (original ns x) as [x0|]; auto. 
Qed.
Lemma apart_step : forall A s o s' e, apart A s -> (forall h, In h (names o) -> A h = true) -> sstep s o s' e -> apart A s' /\ forall y, A y = false -> val s' y = val s y.
Proof.
  intros A s o s' e AP H S.
  assert (SA : forall n g s' e, A (HNode n) = true -> A g = true -> sassign elt tyof str_of cast items_of array_of s n g s' e -> apart A s' /\ forall y, A y = false -> val s' y = val s y).
  { intros n g s0 e0 H1 H2 Q. destruct Q; [now apply apart_join|now apply apart_own|auto]. }
  destruct S; cbn [names] in H; auto; try (apply apart_own; auto; apply H; cbn; tauto); try (apply apart_join; auto; apply H; cbn; tauto); try (apply apart_change; auto; apply H; cbn; tauto);
    try (eapply SA; [| |eassumption]; apply H; cbn; tauto).
  now apply apart_copied.
Qed.
Lemma apart_runs : forall A l s s' es, apart A s -> (forall o h, In o l -> In h (names o) -> A h = true) -> sruns s l s' es -> apart A s' /\ forall y, A y = false -> val s' y = val s y.
Proof.
  intros A. induction l as [|o l IH]; intros s s' es AP H R; inversion R as [|? ? s1 e ? ? ? S R2]; subst; auto.
  destruct (apart_step A s o s1 e AP) as [AP1 V1]; auto; [intros h I; apply (H o); auto; left; auto|]. destruct (IH s1 s' es0 AP1) as [AP2 V2]; auto; [intros o' h I; apply H; right; auto|]. split; auto. intros y Y. rewrite V2, V1; auto.
Qed.
Lemma run_app : forall l1 l2 st, fst (run st (l1 ++ l2)) = fst (run (fst (run st l1)) l2).
Proof. induction l1 as [|o l1 IH]; intros l2 st; auto. cbn [app AliasModel.run fst]. apply IH. Qed.
Lemma sruns_app : forall l1 l2 s s1 s2 e1 e2, sruns s l1 s1 e1 -> sruns s1 l2 s2 e2 -> sruns s (l1 ++ l2) s2 (e1 ++ e2).
Proof. intros l1 l2 s s1 s2 e1 e2 H. induction H; intros H2; cbn [app]; auto. econstructor; eauto. Qed.
Lemma run_split : forall l1 l2 s e1, Forall (copy_ok elt tyof) (l1 ++ l2) -> sruns sstart l1 s e1 ->
  exists s' e2, sruns s l2 s' e2 /\ (forall h, show (fst (run start l1)) h = val s h) /\ (forall h, show (fst (run start (l1 ++ l2))) h = val s' h).
Proof.
  intros l1 l2 s e1 F S. apply Forall_app in F. destruct F as [F1 F2]. destruct (rel_run elt tyof lazy str_of cast items_of array_of l1 start sstart (rel_start elt tyof) F1) as (s0 & es & S0 & E & R).
  destruct (C61_unique _ _ _ _ _ _ S S0) as [<- <-]. destruct (rel_run elt tyof lazy str_of cast items_of array_of l2 _ s R F2) as (s2 & e2 & S2 & E2 & R2). exists s2, e2. split; auto. split; [apply (r_val _ _ _ _ R)|]. rewrite run_app. apply (r_val _ _ _ _ R2).
Qed.
(** C61: operations on nodes and variables that share with nothing else change nothing else *)
Theorem C61_independent : forall A l1 l2 s es, Forall (copy_ok elt tyof) (l1 ++ l2) -> sruns sstart l1 s es -> apart A s -> (forall o h, In o l2 -> In h (names o) -> A h = true) ->
  forall y, A y = false -> show (fst (run start (l1 ++ l2))) y = show (fst (run start l1)) y.
Proof.
  intros A l1 l2 s es F S AP H y Y. destruct (run_split l1 l2 s es F S) as (s' & e2 & S2 & V1 & V2). rewrite V1, V2. eapply apart_runs; eauto.
Qed.
(** C61: a deep copy shows what the original shows; what is done with the original afterwards never changes the copy, what is done with the
    copy never changes anything else *)
Theorem C61_copy : forall l1 ns l2, Forall (copy_ok elt tyof) (l1 ++ AliasModel.Copy elt ns :: l2) -> (forall p, In p ns -> lazy (fst p) = false) ->
  let copy h := exists p, In p ns /\ h = HNode (snd p) in
  (forall p, In p ns -> show (fst (run start (l1 ++ [AliasModel.Copy elt ns]))) (HNode (snd p)) = show (fst (run start l1)) (HNode (fst p))) /\
  (forall h, ~ copy h -> show (fst (run start (l1 ++ [AliasModel.Copy elt ns]))) h = show (fst (run start l1)) h) /\
  ((forall o h, In o l2 -> In h (names o) -> ~ copy h) -> forall p, In p ns -> show (fst (run start (l1 ++ AliasModel.Copy elt ns :: l2))) (HNode (snd p)) = show (fst (run start l1)) (HNode (fst p))) /\
  ((forall o h, In o l2 -> In h (names o) -> copy h) -> forall h, ~ copy h -> show (fst (run start (l1 ++ AliasModel.Copy elt ns :: l2))) h = show (fst (run start l1)) h).
Proof.
  intros l1 ns l2 F LZ copy. assert (F' : Forall (copy_ok elt tyof) ((l1 ++ [AliasModel.Copy elt ns]) ++ l2)) by (rewrite <- app_assoc; exact F).
  pose proof F' as F1. apply Forall_app in F1. destruct F1 as [F1 F2]. pose proof F1 as F0. apply Forall_app in F0. destruct F0 as [F0 FC]. inversion FC as [|? ? CO _]; subst. destruct CO as (NF & ND & DJ & TY).
  destruct (C61_refines l1 F0) as (s & es & S & _ & V). destruct (run_split l1 [AliasModel.Copy elt ns] s es F1 S) as (s1 & e1 & S1 & _ & V1).
  assert (s1 = copied elt s ns). { inversion S1 as [|? ? s0 e ? ? ? Q1 Q2]; subst. inversion Q2; subst. inversion Q1; subst; auto. exfalso. match goal with B : In ?p ns |- _ => rewrite (LZ p B) in *; discriminate end. } subst s1.
  assert (O1 : forall p, In p ns -> original ns (HNode (snd p)) = Some (HNode (fst p))).
  { clear - ND. induction ns as [|[n n'] ns IH]; intros p I; [destruct I|]. rewrite original_cons. cbn in ND. inversion ND as [|? ? N1 N2]; subst. destruct I as [<-|I]; cbn [fst snd]; [now rewrite is_refl|].
    destruct (is_spec (HNode (snd p)) (HNode n')) as [(_ & E)|(-> & _)]; [injection E as E; exfalso; apply N1; rewrite <- E; now apply List.in_map|]. now apply IH. }
  assert (O2 : forall h, ~ copy h -> original ns h = None) by (intros h N; destruct (original ns h) as [y|] eqn:O; auto; destruct (original_In _ _ _ O) as (n & n' & I & -> & ->); exfalso; apply N; exists (n, n'); auto).
  assert (C1 : forall p, In p ns -> show (fst (run start (l1 ++ [AliasModel.Copy elt ns]))) (HNode (snd p)) = show (fst (run start l1)) (HNode (fst p))) by (intros p I; rewrite V1, V; cbn [AliasSpec.copied AliasSpec.val]; now rewrite (O1 p I)).
  assert (C2 : forall h, ~ copy h -> show (fst (run start (l1 ++ [AliasModel.Copy elt ns]))) h = show (fst (run start l1)) h) by (intros h N; rewrite V1, V; cbn [AliasSpec.copied AliasSpec.val]; now rewrite (O2 h N)).
  pose proof (sruns_app _ _ _ _ _ _ _ S S1) as SC.
  set (isc := fun h => match original ns h with Some _ => true | None => false end).
  assert (IC : forall h, isc h = true <-> copy h). { intros h. unfold isc. split; [destruct (original ns h) as [y|] eqn:O; [|discriminate]; intros _; destruct (original_In _ _ _ O) as (n & n' & I & -> & ->); exists (n, n'); auto|intros (p & I & ->); now rewrite (O1 p I)]. }
  assert (AP : apart isc (copied elt s ns)). { intros x y X Y. unfold isc in *. cbn. destruct (original ns x); [|discriminate]. destruct (original ns y); [discriminate|]. auto. }
  assert (AP' : apart (fun h => negb (isc h)) (copied elt s ns)). { intros x y X Y. destruct (AP y x) as [Q1 Q2]; [destruct (isc y); auto; discriminate|destruct (isc x); auto; discriminate|auto]. }
  replace (l1 ++ AliasModel.Copy elt ns :: l2) with ((l1 ++ [AliasModel.Copy elt ns]) ++ l2) by (now rewrite <- app_assoc).
  split; auto. split; auto. split.
  - intros H p I. rewrite <- C1 by auto. apply (C61_independent (fun h => negb (isc h)) _ l2 _ _ F' SC AP').
    + intros o h I1 I2. destruct (isc h) eqn:Q; auto. apply IC in Q. destruct (H o h I1 I2 Q).
    + assert (isc (HNode (snd p)) = true) as -> by (apply IC; exists p; auto). reflexivity.
  - intros H h N. rewrite <- C2 by auto. apply (C61_independent isc _ l2 _ _ F' SC AP).
    + intros o x I1 I2. apply IC. eapply H; eauto.
    + destruct (isc h) eqn:Q; auto. apply IC in Q. destruct (N Q).
Qed.

(** ** Types *)
Definition all_nodes (P : ty -> obj elt -> Prop) (s : sstate elt) : Prop := forall n, exists o, val s (HNode n) = Some o /\ P (tyof n) o.
Lemma nodes_own : forall P s h o, all_nodes P s -> (forall n, h = HNode n -> P (tyof n) o) -> all_nodes P (own elt s h (Some o)).
Proof. intros P s h o H Q n. cbn [AliasSpec.own AliasSpec.val]. destruct (is_spec (HNode n) h) as [(-> & <-)|(-> & _)]; [exists o; auto|apply H]. Qed.
Lemma nodes_join : forall P s h g, all_nodes P s -> (forall n, h = HNode n -> exists o, val s g = Some o /\ P (tyof n) o) -> all_nodes P (join elt s h g).
Proof. intros P s h g H Q n. cbn [AliasSpec.join AliasSpec.val]. destruct (is_spec (HNode n) h) as [(-> & E)|(-> & _)]; [apply Q; auto|apply H]. Qed.
Lemma nodes_change : forall P s h o0 o, all_nodes P s -> (forall x y, share s x y = true -> val s x = val s y) -> val s h = Some o0 -> (forall t, P t o0 -> P t o) -> all_nodes P (change elt s h o).
Proof.
  intros P s h o0 o H C V Q n. cbn [AliasSpec.change AliasSpec.val]. destruct (share s h (HNode n)) eqn:S; [|apply H]. exists o. split; auto. apply Q. destruct (H n) as (o' & V' & P'). apply C in S. congruence.
Qed.
Lemma takes_fits : forall t o o', takes elt str_of cast items_of array_of t o (New elt o') -> fits t o'.
Proof.
  intros t o o' H. inversion H; subst; cbn; auto; intros i I; apply List.in_map_iff in I; destruct I as (x & <- & _); destruct x; cbn; eauto.
Qed.
Lemma takes_as_is : forall t o, takes elt str_of cast items_of array_of t o (AsIs elt) -> fits t o.
Proof. intros t o H. inversion H; subst; cbn; auto. Qed.
Lemma fits_kind : forall t (o : obj elt), fits t o -> kind_of t o.
Proof. intros [|t nd] [l|u sh d]; cbn; tauto. Qed.
Lemma text_all : forall l i, In i (map (text str_of) l) -> exists s, i = IStr s.
Proof. intros l i I. apply List.in_map_iff in I. destruct I as (x & <- & _). destruct x; cbn; eauto. Qed.
Lemma nodes_step : forall (P : ty -> obj elt -> Prop) s o s' e, (forall t o, fits t o -> P t o) ->
  (forall t l l', P t (OList elt l) -> (forall i, In i l' -> In i l \/ exists s, i = IStr s) -> P t (OList elt l')) ->
  (forall h o', o = Mutate elt h o' -> forall t o0, same_kind elt o0 o' = true -> P t o0 -> P t o') ->
  all_nodes P s -> (forall x y, share s x y = true -> val s x = val s y) -> load_ok P tyof o -> copy_ok elt tyof o -> sstep s o s' e -> all_nodes P s'.
Proof.
  intros P s o s' e PF PL PM H C LO CO S.
  assert (SA : forall n g s' e, sassign elt tyof str_of cast items_of array_of s n g s' e -> all_nodes P s').
  { intros n g s0 e0 Q. destruct Q as [o0 V T|o0 o1 V T|]; auto.
    - apply nodes_join; auto. intros m [= <-]. exists o0. split; auto. apply PF. now apply takes_as_is.
    - apply nodes_own; auto. intros m [= <-]. apply PF. eapply takes_fits; eauto. }
  destruct S; auto; try (eapply SA; eassumption).
  - apply nodes_own; auto. intros m [= <-]. exact LO.
  - apply nodes_join; auto. intros n0 [= <-]. destruct (H m) as (o0 & V & Q). exists o0. split; auto. congruence.
  - apply nodes_own; auto. intros m [= <-]. apply PF. now apply takes_as_is.
  - apply nodes_own; auto. intros m [= <-]. apply PF. eapply takes_fits; eauto.
  - eapply nodes_change; eauto. intros t Q. eapply PL; eauto. intros i I. apply in_app_or in I. destruct I as [I|I]; auto. right. eapply text_all; eauto.
  - eapply nodes_change; eauto. intros t Q. eapply PL; eauto. intros j I. apply in_app_or in I. destruct I as [I|[<-|I]]; [left; apply in_or_app; auto|right; destruct x; cbn; eauto|left; apply in_or_app; right; right; auto].
  - eapply nodes_change; eauto.
  - intros n. cbn [AliasSpec.copied AliasSpec.val]. destruct (original ns (HNode n)) as [y|] eqn:O; [|apply H]. destruct (original_In _ _ _ O) as (m & m' & I & E & ->). injection E as ->. destruct CO as (_ & _ & _ & TY). pose proof (TY _ I) as T. cbn in T. rewrite T. apply H.
Qed.
Lemma rel_coherent : forall st s, rel elt tyof st s -> forall x y, share s x y = true -> val s x = val s y.
Proof.
  intros st s R x y S. apply (r_share _ _ _ _ R) in S. destruct S as [->|(r & E1 & E2)]; auto. rewrite <- !(r_val _ _ _ _ R). unfold AliasModel.show. now rewrite E1, E2.
Qed.
Lemma nodes_run : forall (P : ty -> obj elt -> Prop) l st s, (forall t o, fits t o -> P t o) ->
  (forall t l l', P t (OList elt l) -> (forall i, In i l' -> In i l \/ exists s, i = IStr s) -> P t (OList elt l')) ->
  (forall h o', In (Mutate elt h o') l -> forall t o0, same_kind elt o0 o' = true -> P t o0 -> P t o') ->
  rel elt tyof st s -> all_nodes P s -> Forall (load_ok P tyof) l -> Forall (copy_ok elt tyof) l -> forall n, exists o, show (fst (run st l)) (HNode n) = Some o /\ P (tyof n) o.
Proof.
  intros P. induction l as [|o l IH]; intros st s PF PL PM R H L C n; cbn [AliasModel.run fst].
  - rewrite (r_val _ _ _ _ R). apply H.
  - inversion L; subst. inversion C; subst. destruct (rel_step elt tyof lazy str_of cast items_of array_of st s o R) as (s1 & e & S & _ & R1); auto. apply (IH _ s1); auto; [intros h o' I; apply (PM h o'); right; auto|].
    eapply (nodes_step P s o); eauto; [intros h o' ->; apply (PM h o'); left; auto|]. now apply (rel_coherent st).
Qed.
Lemma start_fits : forall P : ty -> obj elt -> Prop, (forall t o, fits t o -> P t o) -> all_nodes P sstart.
Proof. intros P PF n. cbn. eexists. split; [reflexivity|]. apply PF. destruct (tyof n); cbn; [intros i []|split; auto; apply repeat_length]. Qed.
(** C61: whatever is done, a node of strings holds a list and a node of numbers an array of its own type; *)
Theorem C61_kinds : forall l, Forall (load_ok kind_of tyof) l -> Forall (copy_ok elt tyof) l -> forall n, exists o, show (fst (run start l)) (HNode n) = Some o /\ kind_of (tyof n) o.
Proof.
  intros l L C. apply (nodes_run kind_of l start sstart); auto.
  - apply fits_kind.
  - intros h o' _ [|t nd] [l0|u sh d] E; destruct o' as [l1|u' sh' d']; cbn in *; try tauto; try discriminate. apply num_eqb_eq in E. congruence.
  - apply rel_start.
  - apply start_fits. apply fits_kind.
Qed.
(** and as long as the objects are changed through the node itself only, the list holds strings and the array has the right number of dimensions *)
Theorem C61_fits : forall l, Forall (load_ok fits tyof) l -> Forall (copy_ok elt tyof) l -> Forall tame l -> forall n, exists o, show (fst (run start l)) (HNode n) = Some o /\ fits (tyof n) o.
Proof.
  intros l L C T. apply (nodes_run fits l start sstart); auto.
  - intros [|t nd] l0 l'; cbn; try tauto. intros H1 H2 i I. destruct (H2 i I); auto.
  - intros h o' I. rewrite Forall_forall in T. destruct (T _ I).
  - apply rel_start.
  - apply start_fits. auto.
Qed.
End Props.
Print Assumptions C61_refines.
Print Assumptions C61_unique.
Print Assumptions C61_independent.
Print Assumptions C61_copy.
Print Assumptions C61_kinds.
Print Assumptions C61_fits.
