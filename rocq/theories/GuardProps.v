(** C50: metadata stays read-only, as long as no two threads build metadata at the same time. *)
From Verif Require Import Base DataTypeModel MetaModel MetaSpec GuardModel.
From Verif Require MetaProps.

(** ** Calls one after another *)
Lemma complete_build : forall n f r k, complete (2 + (n + k)) None (Building f n r) = (Some f, Done (of_definition r)).
Proof. induction n as [|n IH]; intros f r k; [destruct k; reflexivity|]. change (2 + (S n + k)) with (S (2 + (n + k))). cbn [complete step lookup]. apply IH. Qed.
Lemma call_guarded : forall j, call_once (Some Refuse) j = (Some Refuse, Done (of_definition (gives j))).
Proof. intros j. unfold call_once. change (5 + sets j) with (S (S (3 + sets j))). cbn [complete step lookup]. replace (3 + sets j) with (2 + (sets j + 1)) by lia. apply complete_build. Qed.
(** Whatever definitions are used in a program, also wrong ones: each call gives what its definition gives, and afterwards an
    attribute cannot be assigned. *)
Theorem C50_sequential : forall js, call_all (Some Refuse) js = (Some Refuse, map (fun j => Done (of_definition (gives j))) js).
Proof. induction js as [|j js IH]; [reflexivity|]. cbn [call_all map]. rewrite call_guarded, IH. reflexivity. Qed.
Print Assumptions C50_sequential.

(** ** Threads that do not build at the same time *)
Definition waiting (c : call) : Prop := match c with Start _ | Done _ => True | _ => False end.
(** steps of which a call starts only while no other one is under way *)
Inductive exclusive : slot * list call -> slot * list call -> Prop :=
| ex_none : forall w, exclusive w w
| ex_more : forall w s a c b s' c', exclusive w (s, a ++ c :: b) -> (forall j, c = Start j -> forall d, In d (a ++ b) -> waiting d) -> step s c = Some (s', c') ->
    exclusive w (s', a ++ c' :: b).
(** what is known about a call and the class during such steps *)
Definition fits (r : result me_exn mtree) (c : call) : Prop :=
  match c with Start j | Saved Refuse j => gives j = r | Building Refuse _ r' => r' = r | Restore Refuse o | Done o => o = of_definition r | _ => False end.
Definition slot_fits (s : slot) (c : call) : Prop := match c with Building _ _ _ | Restore _ _ => s = None | _ => s = Some Refuse end.
Definition invariant (rs : list (result me_exn mtree)) (s : slot) (cs : list call) : Prop :=
  Forall2 fits rs cs /\
  ((Forall waiting cs /\ s = Some Refuse) \/ exists a c b, cs = a ++ c :: b /\ Forall waiting (a ++ b) /\ ~ waiting c /\ slot_fits s c).
Lemma active_pick : forall (a b a' b' : list call) c c', a ++ c :: b = a' ++ c' :: b' -> Forall waiting (a' ++ b') -> ~ waiting c -> a = a' /\ c = c' /\ b = b'.
Proof.
  induction a as [|d a IH]; intros b a' b' c c' E W N; destruct a' as [|d' a']; cbn in E; injection E as E1 E2.
  - auto.
  - exfalso. subst d'. cbn in W. inversion W; subst. contradiction.
  - exfalso. subst. cbn [app] in W. rewrite Forall_forall in W. apply N, W, in_or_app. right. left. reflexivity.
  - subst d'. cbn [app] in W. inversion W; subst. destruct (IH _ _ _ _ _ E2 H2 N) as (-> & -> & ->). auto.
Qed.
Lemma F2_mid : forall {A B} (R : A -> B -> Prop) rs a c b, Forall2 R rs (a ++ c :: b) -> exists r1 r r2, rs = r1 ++ r :: r2 /\ Forall2 R r1 a /\ R r c /\ Forall2 R r2 b.
Proof.
  intros A B R rs a c b F. apply Forall2_app_inv_r in F. destruct F as (r1 & r' & F1 & F2 & ->). inversion F2 as [|r ? r2 ? ? F3]; subst. exists r1, r, r2. auto.
Qed.
Lemma invariant_kept : forall rs w w', exclusive w w' -> forall s cs s' cs', w = (s, cs) -> w' = (s', cs') -> invariant rs s cs -> invariant rs s' cs'.
Proof.
  intros rs w w' X. induction X as [w|w t a c b t' c' X IH G ST]; intros s cs s' cs' E1 E2 I; [congruence|]. injection E2 as <- <-.
  specialize (IH _ _ _ _ E1 eq_refl I). clear I X E1. destruct IH as (F & H). destruct (F2_mid _ _ _ _ _ F) as (r1 & r & r2 & -> & F1 & FC & F3).
  assert (NEW : forall d, fits r d -> Forall2 fits (r1 ++ r :: r2) (a ++ d :: b)) by (intros d FD; apply Forall2_app; [assumption|constructor; assumption]).
  assert (HERE : (waiting c /\ (exists j, c = Start j) /\ t = Some Refuse /\ Forall waiting (a ++ b)) \/ (~ waiting c /\ Forall waiting (a ++ b) /\ slot_fits t c)).
  { destruct H as [(W & ->)|(a' & d & b' & E & W & ND & SF)].
    - left. assert (WC : waiting c) by (rewrite Forall_forall in W; apply W, in_or_app; right; left; reflexivity). split; [assumption|].
      split; [destruct c; try contradiction; [eauto|discriminate]|]. split; [reflexivity|]. apply Forall_app in W. destruct W as (W1 & W2). inversion W2; subst. apply Forall_app. auto.
    - right. destruct c as [j|f j|f n r0|f o|o].
      + exfalso. specialize (G j eq_refl). apply ND. destruct (in_app_or a b d) as [].
        * assert (X : In d (a ++ Start j :: b)) by (rewrite E; apply in_or_app; right; left; reflexivity). apply in_app_or in X. destruct X as [X|[X|X]]; [apply in_or_app; auto|subst d; exfalso; apply ND; exact Logic.I|apply in_or_app; auto].
        * apply G, in_or_app. auto.
        * apply G, in_or_app. auto.
      + destruct (active_pick _ _ _ _ _ _ E W) as (-> & <- & ->); auto.
      + destruct (active_pick _ _ _ _ _ _ E W) as (-> & <- & ->); auto.
      + destruct (active_pick _ _ _ _ _ _ E W) as (-> & <- & ->); auto.
      + discriminate. }
  destruct HERE as [(WC & (j & ->) & -> & W)|(NC & W & SF)].
  - cbn [step lookup] in ST. injection ST as <- <-. split; [apply NEW; exact FC|]. right. exists a, (Saved Refuse j), b. repeat split; auto.
  - destruct c as [j|f j|f n r0|f o|o]; try (exfalso; apply NC; exact Logic.I); cbn [slot_fits] in SF; subst t; cbn [step lookup] in ST.
    + injection ST as <- <-. destruct f; [|contradiction]. split; [apply NEW; exact FC|]. right. exists a, (Building Refuse (sets j) (gives j)), b. repeat split; auto.
    + destruct f; [|contradiction]. destruct n as [|n]; injection ST as <- <-; cbn [fits] in FC; subst r0.
      * split; [apply NEW; reflexivity|]. right. exists a, (Restore Refuse (of_definition r)), b. repeat split; auto.
      * split; [apply NEW; reflexivity|]. right. exists a, (Building Refuse n r), b. repeat split; auto.
    + destruct f; [|contradiction]. injection ST as <- <-. split; [apply NEW; exact FC|]. left. split; [|reflexivity]. apply Forall_app in W. destruct W. apply Forall_app. split; [assumption|]. constructor; [exact Logic.I|assumption].
Qed.
(** Any number of calls in any number of threads: if they do not overlap, each one gives what its definition gives, and attributes can be
    assigned only while one of them is building. *)
Theorem C50_exclusive : forall js s cs, exclusive (Some Refuse, map Start js) (s, cs) ->
  (forall i o, nth_error cs i = Some (Done o) -> exists j, nth_error js i = Some j /\ o = of_definition (gives j)) /\
  (lookup s = Assign -> exists c, In c cs /\ match c with Building _ _ _ | Restore _ _ => True | _ => False end).
Proof.
  intros js s cs X.
  assert (I : invariant (map gives js) s cs).
  { apply (invariant_kept _ _ _ X _ _ _ _ eq_refl eq_refl). clear. split.
    - induction js; cbn; constructor; auto. reflexivity.
    - left. split; [|reflexivity]. rewrite Forall_forall. intros c I. apply in_map_iff in I. destruct I as (j & <- & _). exact Logic.I. }
  destruct I as (F & H). split.
  - clear - F. intros i o E. revert js cs F E. induction i as [|i IH]; intros [|j js] cs F E; inversion F as [|? ? ? ? F1 F2]; subst; try discriminate; cbn in E |- *.
    + injection E as ->. exists j. auto.
    + eapply IH; eauto.
  - intros A. destruct H as [(_ & ->)|(a & c & b & -> & _ & N & SF)]; [discriminate|]. exists c. split; [apply in_or_app; right; left; reflexivity|].
    destruct c as [j|f j|f n r0|f o|o]; cbn [slot_fits] in SF; auto; subst s; discriminate.
Qed.
Print Assumptions C50_exclusive.

(** ** Threads that build at the same time *)
Definition mx_job (n : nat) : job := {| sets := n; gives := toplevel_metadata MetaProps.mx_old |}.
Fixpoint schedule (s : slot) (c d : call) (l : list bool) : slot * list call :=
  match l with
  | [] => (s, [c; d])
  | true :: l => match step s c with Some (s', c') => schedule s' c' d l | None => (s, [c; d]) end
  | false :: l => match step s d with Some (s', d') => schedule s' c d' l | None => (s, [c; d]) end
  end.
Lemma moves_trans : forall a b c, moves b c -> moves a b -> moves a c.
Proof. intros a b c M. induction M as [|w w' w'' M IH S]; intros N; auto. econstructor; [apply IH; assumption|exact S]. Qed.
Lemma schedule_moves : forall l s c d, moves (s, [c; d]) (schedule s c d l).
Proof.
  induction l as [|[] l IH]; intros s c d; cbn [schedule]; [constructor| |].
  - destruct (step s c) as [[s' c']|] eqn:E; [|constructor]. eapply moves_trans; [apply IH|]. econstructor; [constructor|]. apply (move_one s [] c [d] s' c' E).
  - destruct (step s d) as [[s' d']|] eqn:E; [|constructor]. eapply moves_trans; [apply IH|]. econstructor; [constructor|]. apply (move_one s [c] d [] s' d' E).
Qed.
(** Two threads that build metadata of correct definitions: after both ended normally, every attribute of all metadata can be assigned. *)
Theorem C50_threads_refuted : exists j1 j2 s c1 c2, (exists t, gives j1 = Ok t) /\ (exists t, gives j2 = Ok t) /\ moves (Some Refuse, [Start j1; Start j2]) (s, [c1; c2]) /\
  c1 = Done (of_definition (gives j1)) /\ c2 = Done (of_definition (gives j2)) /\ lookup s = Assign.
Proof.
  destruct MetaProps.C49_example_definition as (_ & _ & B & _).
  exists (mx_job 2), (mx_job 1). eexists _, _, _. split; [eexists; exact B|]. split; [eexists; exact B|]. split; [|split; [|split]].
  - apply (schedule_moves [true; true; false; true; true; true; true; false; false; false; false] (Some Refuse) (Start (mx_job 2)) (Start (mx_job 1))).
  - reflexivity.
  - reflexivity.
  - reflexivity.
Qed.
Print Assumptions C50_threads_refuted.
(** A correct definition can be refused. *)
Theorem C50_spurious_error_refuted : exists j1 j2 s c1, (exists t, gives j1 = Ok t) /\ (exists t, gives j2 = Ok t) /\ moves (Some Refuse, [Start j1; Start j2]) (s, [c1; Done NoAttribute]).
Proof.
  destruct MetaProps.C49_example_definition as (_ & _ & B & _).
  exists (mx_job 1), (mx_job 2). eexists _, _. split; [eexists; exact B|]. split; [eexists; exact B|].
  apply (schedule_moves [true; true; false; false] (Some Refuse) (Start (mx_job 1)) (Start (mx_job 2))).
Qed.
Print Assumptions C50_spurious_error_refuted.

(** What holds for all interleavings: taking the guard away works like a lock.  A call gives what its definition gives or fails with
    AttributeError, and never because of the guard; at most one call builds at a time. *)
Definition builds (c : call) : Prop := match c with Building _ _ _ | Restore _ _ => True | _ => False end.
Definition sound (r : result me_exn mtree) (c : call) : Prop :=
  match c with Start j | Saved _ j => gives j = r | Building _ _ r' => r' = r | Restore _ o => o = of_definition r | Done o => o = of_definition r \/ o = NoAttribute end.
Definition locked (s : slot) (cs : list call) : Prop :=
  (s <> None /\ Forall (fun c => ~ builds c) cs) \/ (s = None /\ exists a c b, cs = a ++ c :: b /\ builds c /\ Forall (fun c => ~ builds c) (a ++ b)).
Lemma builds_pick : forall (a b a' b' : list call) c c', a ++ c :: b = a' ++ c' :: b' -> Forall (fun c => ~ builds c) (a' ++ b') -> builds c -> a = a' /\ c = c' /\ b = b'.
Proof.
  induction a as [|d a IH]; intros b a' b' c c' E W N; destruct a' as [|d' a']; cbn in E; injection E as E1 E2.
  - auto.
  - exfalso. subst d'. cbn in W. inversion W; subst. contradiction.
  - exfalso. subst. cbn [app] in W. rewrite Forall_forall in W. apply (W c); [|assumption]. apply in_or_app. right. left. reflexivity.
  - subst d'. cbn [app] in W. inversion W as [|? ? W1 W2]; subst. destruct (IH _ _ _ _ _ E2 W2 N) as (-> & -> & ->). auto.
Qed.
Lemma not_building : forall s a c b, locked s (a ++ c :: b) -> ~ builds c -> forall d, ~ builds d -> locked s (a ++ d :: b).
Proof.
  intros s a c b L NC d ND. destruct L as [(NS & F)|(ES & a' & x & b' & E & BX & F)].
  - left. split; [assumption|]. apply Forall_app in F. destruct F as (F1 & F2). inversion F2; subst. apply Forall_app. split; [assumption|]. constructor; assumption.
  - right. split; [assumption|]. clear ES s. revert a' E F. induction a as [|y a IH]; intros [|y' a'] E F; cbn in E; injection E as E1 E2.
    + exfalso. apply NC. congruence.
    + subst. exists (d :: a'), x, b'. split; [reflexivity|]. split; [assumption|]. cbn [app] in F |- *. inversion F; subst. constructor; assumption.
    + subst. exists [], x, (a ++ d :: b). split; [reflexivity|]. split; [assumption|]. cbn [app] in *. apply Forall_app in F. destruct F as (F1 & F2). inversion F2; subst. apply Forall_app. split; [assumption|]. constructor; assumption.
    + subst y'. cbn [app] in F. inversion F as [|? ? F1 F2]; subst. destruct (IH _ E2 F2) as (a2 & x2 & b2 & E3 & B3 & F3). exists (y :: a2), x2, b2. cbn [app]. rewrite E3. split; [reflexivity|]. split; [assumption|]. constructor; assumption.
Qed.
Lemma building_alone : forall s a c b, locked s (a ++ c :: b) -> builds c -> s = None /\ Forall (fun d => ~ builds d) (a ++ b).
Proof.
  intros s a c b L BC. destruct L as [(_ & F)|(-> & a' & x & b' & E & BX & F)].
  - exfalso. rewrite Forall_forall in F. apply (F c); [|assumption]. apply in_or_app. right. left. reflexivity.
  - split; [reflexivity|]. destruct (builds_pick _ _ _ _ _ _ E F BC) as (-> & _ & ->). assumption.
Qed.
Lemma locked_kept : forall rs w w', moves w w' -> forall s cs s' cs', w = (s, cs) -> w' = (s', cs') -> Forall2 sound rs cs -> locked s cs -> Forall2 sound rs cs' /\ locked s' cs'.
Proof.
  intros rs w w' M. induction M as [w|w w1 w2 M IH S]; intros s cs s' cs' E1 E2 F L; [split; congruence|].
  destruct S as [t a c b t' c' ST]. injection E2 as <- <-. destruct (IH _ _ _ _ E1 eq_refl F L) as (F' & L'). clear IH M E1 F L.
  destruct (F2_mid _ _ _ _ _ F') as (r1 & r & r2 & -> & F1 & FC & F3).
  assert (NEW : forall d, sound r d -> Forall2 sound (r1 ++ r :: r2) (a ++ d :: b)) by (intros d FD; apply Forall2_app; [assumption|constructor; assumption]).
  destruct c as [j|f j|f n r0|f o|o]; cbn [step] in ST; cbn [sound] in FC.
  - injection ST as <- <-. split; [apply NEW; exact FC|]. eapply not_building; [exact L'| |]; cbn; tauto.
  - destruct t as [g|]; injection ST as <- <-.
    + split; [apply NEW; exact FC|]. right. split; [reflexivity|]. exists a, (Building f (sets j) (gives j)), b. split; [reflexivity|]. split; [exact I|].
      destruct L' as [(_ & F)|(X & _)]; [|discriminate]. apply Forall_app in F. destruct F as (X1 & X2). inversion X2; subst. apply Forall_app. auto.
    + split; [apply NEW; right; reflexivity|]. eapply not_building; [exact L'| |]; cbn; tauto.
  - destruct (building_alone _ _ _ _ L' I) as (-> & F). cbn [lookup] in ST. destruct n as [|n]; injection ST as <- <-; (split; [apply NEW; cbn [sound]; congruence|]); right; (split; [reflexivity|]); eexists a, _, b;
      (split; [reflexivity|]); (split; [exact I|assumption]).
  - destruct (building_alone _ _ _ _ L' I) as (-> & F). injection ST as <- <-. split; [apply NEW; left; exact FC|]. left. split; [discriminate|]. apply Forall_app in F. destruct F. apply Forall_app. split; [assumption|]. constructor; [cbn; tauto|assumption].
  - discriminate.
Qed.
Theorem C50_any_interleaving : forall js s cs, moves (Some Refuse, map Start js) (s, cs) ->
  (forall i o, nth_error cs i = Some (Done o) -> exists j, nth_error js i = Some j /\ (o = of_definition (gives j) \/ o = NoAttribute)) /\
  (s = None <-> exists a c b, cs = a ++ c :: b /\ builds c) /\
  (forall a c b d e, cs = a ++ c :: b ++ d :: e -> builds c -> ~ builds d).
Proof.
  intros js s cs M.
  assert (I : Forall2 sound (map gives js) cs /\ locked s cs).
  { apply (locked_kept _ _ _ M _ _ _ _ eq_refl eq_refl).
    - clear. induction js; cbn; constructor; auto. reflexivity.
    - left. split; [discriminate|]. rewrite Forall_forall. intros c I. apply in_map_iff in I. destruct I as (j & <- & _). cbn. tauto. }
  destruct I as (F & L). split; [|split].
  - clear - F. intros i o E. revert js cs F E. induction i as [|i IH]; intros [|j js] cs F E; inversion F as [|? ? ? ? F1 F2]; subst; try discriminate; cbn in E |- *.
    + injection E as ->. exists j. split; [reflexivity|exact F1].
    + eapply IH; eauto.
  - split.
    + intros ->. destruct L as [(X & _)|(_ & a & c & b & -> & B & _)]; [contradiction|]. exists a, c, b. auto.
    + intros (a & c & b & -> & B). apply (building_alone _ _ _ _ L B).
  - intros a c b d e -> BC BD. destruct (building_alone _ _ _ _ L BC) as (_ & X). rewrite Forall_forall in X. apply (X d); [|assumption]. apply in_or_app. right. apply in_or_app. right. left. reflexivity.
Qed.
Print Assumptions C50_any_interleaving.
(** Once all metadata can be assigned, that does not end. *)
Definition saved_assign (c : call) : Prop := match c with Start _ | Done _ => True | Saved f _ | Building f _ _ | Restore f _ => f = Assign end.
Theorem C50_permanent : forall js s cs, moves (Some Assign, map Start js) (s, cs) -> lookup s = Assign.
Proof.
  intros js s cs M.
  assert (X : forall w w', moves w w' -> (lookup (fst w) = Assign /\ Forall saved_assign (snd w)) -> lookup (fst w') = Assign /\ Forall saved_assign (snd w')).
  { intros w w' MV. induction MV as [|w w1 w2 MV IH S]; intros H; auto. destruct (IH H) as (H1 & H2). destruct S as [t a c b t' c' ST]. cbn [fst snd] in *.
    apply Forall_app in H2. destruct H2 as (H2 & H3). inversion H3 as [|? ? H4 H5]; subst.
    assert (Y : lookup t' = Assign /\ saved_assign c').
    { destruct c as [j|f j|f n r0|f o|o]; cbn [step saved_assign] in *; try discriminate.
      - injection ST as <- <-. auto.
      - destruct t; injection ST as <- <-; cbn; auto.
      - destruct n as [|n]; [injection ST as <- <-; auto|]. destruct (lookup t) eqn:LT; [discriminate|]; injection ST as <- <-; auto.
      - injection ST as <- <-. subst f. cbn. auto. }
    destruct Y. split; [assumption|]. apply Forall_app. auto. }
  destruct (X _ _ M) as (Y & _); [|exact Y]. split; [reflexivity|]. cbn [snd]. rewrite Forall_forall. intros c I. apply in_map_iff in I. destruct I as (j & <- & _). exact Logic.I.
Qed.
Print Assumptions C50_permanent.

(** ** Examples *)
(** two threads, one after the other; and two that overlap *)
Example C50_example_exclusive : exists s, exclusive (Some Refuse, map Start [mx_job 1; mx_job 0]) (s, [Done (of_definition (toplevel_metadata MetaProps.mx_old)); Building Refuse 0 (toplevel_metadata MetaProps.mx_old)]) /\ lookup s = Assign.
Proof.
  exists None. split; [|reflexivity]. cbn [map].
  assert (P : forall w s a c b s' c', exclusive w (s, a ++ c :: b) -> (forall d, In d (a ++ b) -> waiting d) -> step s c = Some (s', c') -> exclusive w (s', a ++ c' :: b)) by (intros; econstructor; eauto).
  assert (W : forall j d, In d [Start j] -> waiting d) by (intros j d [<-|[]]; exact I). assert (W' : forall o d, In d [Done o] -> waiting d) by (intros o d [<-|[]]; exact I).
  set (o := of_definition (toplevel_metadata MetaProps.mx_old)).
  apply (P _ (Some Refuse) [Done o] (Saved Refuse (mx_job 0)) [] None _); [|apply W'|reflexivity]. apply (P _ (Some Refuse) [Done o] (Start (mx_job 0)) [] (Some Refuse) _); [|apply W'|reflexivity].
  apply (P _ None [] (Restore Refuse o) [Start (mx_job 0)] (Some Refuse) _); [|apply W|reflexivity]. apply (P _ None [] (Building Refuse 0 (gives (mx_job 1))) [Start (mx_job 0)] None _); [|apply W|reflexivity].
  apply (P _ None [] (Building Refuse 1 (gives (mx_job 1))) [Start (mx_job 0)] None _); [|apply W|reflexivity].
  apply (P _ (Some Refuse) [] (Saved Refuse (mx_job 1)) [Start (mx_job 0)] None _); [|apply W|reflexivity]. apply (P _ (Some Refuse) [] (Start (mx_job 1)) [Start (mx_job 0)] (Some Refuse) _); [|apply W|reflexivity]. constructor.
Qed.
Example C50_example_sequential : exists e, call_all (Some Refuse) [mx_job 3; {| sets := 1; gives := toplevel_metadata (Xml (strs "IDS") [] []) |}; mx_job 2] =
  (Some Refuse, [Done (Built MetaProps.mx_told); Done (Wrong e); Done (Built MetaProps.mx_told)]).
Proof. eexists. vm_compute. reflexivity. Qed.
