(** C55: the definition that a factory has, and the map that a read uses. *)
From Verif Require Import Base TreeModel VersionModel VersionSpec VersionProofs.
From Verif Require VmapModel EndModel.

(** ** Factories *)
Section Factories.
Variable bundled : list (str * xml).
Variable idsdef : str -> str.
Hypothesis ND : NoDup (akeys bundled).
Hypothesis NE : ~ released bundled [].
Hypothesis IE : forall p, idsdef p <> [].
Notation run := (run bundled idsdef).
Notation wants := (wants bundled idsdef).
Notation contains := (contains bundled).

Lemma run_asked : forall l w s o0 o s', cache_ok (asked bundled idsdef o0) s -> run w s l = (o, s') ->
  forall o1 w1 v p f o2, o = o1 ++ (w1, v, p, Ok f) :: o2 ->
  exists k, select bundled idsdef w1 v p = Ok k /\ asked bundled idsdef (o0 ++ o1 ++ [(w1, v, p, Ok f)]) k (f_xml f) /\ version_of (f_xml f) v = Ok (f_version f).
Proof.
  induction l as [|[w'|v0 p0] l IH]; intros w s o0 o s' C R o1 w1 v p f o2 E; cbn [VersionModel.run] in R.
  - inversion R; subst. destruct o1; discriminate.
  - eapply IH; eauto.
  - destruct (make bundled idsdef w v0 p0 s) as [r s1] eqn:M. destruct (run w s1 l) as [o' s2] eqn:R2. injection R as RO RS. rewrite <- RO in E. clear RO RS o s'.
    set (here := o0 ++ [(w, v0, p0, r)]).
    assert (C' : cache_ok (asked bundled idsdef here) s). { intros k x I. destruct (C k x I) as (w2 & v2 & p2 & r2 & I2 & X). exists w2, v2, p2, r2. split; auto. apply in_or_app. now left. }
    assert (L : forall k x, select bundled idsdef w v0 p0 = Ok k -> load bundled w k = Ok x -> asked bundled idsdef here k x). { intros k x A B. exists w, v0, p0, r. split; auto. apply in_or_app. right. now left. }
    destruct (make_ok bundled idsdef (asked bundled idsdef here) w v0 p0 s r s1 C' L M) as (C1 & F & _).
    destruct o1 as [|y o1]; cbn [app] in *.
    + injection E as E1 E2 E3 E4 E5. subst w v0 p0 r. destruct (F f eq_refl) as (k & A & B & V & _). exists k. auto.
    + injection E as E1 EO. subst y. destruct (IH w s1 here o' s2 C1 R2 o1 w1 v p f o2 EO) as (k & A & B & V). exists k. split; auto. split; auto.
      unfold here in B. rewrite <- app_assoc in B. exact B.
Qed.
(** Whatever happens to the environment and the files: a factory has the definition that its arguments and the environment ask for at the moment
    it is made.  If this is a file, then its contents are those at this moment, or at an earlier moment when the same definition was asked for. *)
Theorem C55_definition : forall w l o s, run w fresh l = (o, s) -> forall o1 w1 v p f o2, o = o1 ++ (w1, v, p, Ok f) :: o2 ->
  exists g, wants w1 v p g /\ reports v (f_xml f) (f_version f) /\
  exists w0 v0 p0 r0, In (w0, v0, p0, r0) (o1 ++ [(w1, v, p, Ok f)]) /\ wants w0 v0 p0 g /\ contains w0 g (f_xml f).
Proof.
  intros w l o s R o1 w1 v p f o2 E. assert (C : cache_ok (asked bundled idsdef []) fresh) by (intros k x []).
  destruct (run_asked l w fresh [] o s C R o1 w1 v p f o2 E) as (k & A & (w0 & v0 & p0 & r0 & I & S0 & L) & V).
  exists (origin_of k). split; [apply select_wants; auto|]. split; [apply version_reports; auto|]. exists w0, v0, p0, r0. split; [exact I|]. split; [apply select_wants; auto|].
  apply (proj1 (proj1 (load_contains bundled ND w0 k (f_xml f)) L)).
Qed.

(** If files do not change, then a factory can be made exactly if the definition exists and has the requested version, and it has this definition. *)
Definition same_files (w : world) (l : list event) : Prop := forall w' p, In (ESet w') l -> w_file w' p = w_file w p.
Lemma load_same : forall w w' k, (forall p, w_file w' p = w_file w p) -> load bundled w' k = load bundled w k.
Proof. intros w w' k E. unfold load. destruct (truthy (snd k)); auto. destruct (snd k); auto. rewrite E. reflexivity. Qed.
Lemma run_same : forall l w s o s' w0, (forall p, w_file w p = w_file w0 p) -> same_files w0 l -> cache_ok (fun k x => load bundled w0 k = Ok x) s -> run w s l = (o, s') ->
  forall w1 v p r, In (w1, v, p, r) o ->
  forall x u, (exists f, r = Ok f /\ f_xml f = x /\ f_version f = u) <-> exists g, wants w1 v p g /\ contains w1 g x /\ reports v x u.
Proof.
  induction l as [|[w'|v0 p0] l IH]; intros w s o s' w0 EW SF C R w1 v p r I x u; cbn [VersionModel.run] in R.
  - inversion R; subst. destruct I.
  - apply (IH w' s o s' w0) with (w1 := w1) (v := v) (p := p); auto; [intros q; apply SF; now left|]. intros w2 q I2. apply SF. now right.
  - destruct (make bundled idsdef w v0 p0 s) as [r0 s1] eqn:M. destruct (run w s1 l) as [o' s2] eqn:R2. injection R as RO RS. rewrite <- RO in I. clear RO RS o s'.
    destruct (make_ok bundled idsdef (fun k x => load bundled w0 k = Ok x) w v0 p0 s r0 s1 C) as (C1 & F & T & _); auto.
    { intros k y _ L. rewrite <- (load_same w0 w k EW). exact L. }
    destruct I as [E|I].
    + injection E as E1 E2 E3 E4. subst w v0 p0 r0. split.
      * intros (f & -> & <- & <-). destruct (F f eq_refl) as (k & A & B & V & _). exists (origin_of k). split; [apply select_wants; auto|]. split; [|apply version_reports; auto].
        rewrite <- (load_same w0 w1 k EW) in B. apply (proj1 (proj1 (load_contains bundled ND w1 k (f_xml f)) B)).
      * intros (g & W & CT & RP). destruct (select_total bundled idsdef NE IE w1 v p g W) as (k & SE & EG). subst g.
        assert (LD : load bundled w1 k = Ok x). { apply load_contains; auto. split; auto. apply (select_some bundled idsdef w1 v p k SE). }
        destruct (T k x u SE LD) as (f & ->); [|apply version_reports; auto|].
        { intros y Y. rewrite <- (load_same w0 w1 k EW) in Y. congruence. }
        destruct (F f eq_refl) as (k' & A & B & V & _). assert (k' = k) by congruence. subst k'. rewrite <- (load_same w0 w1 k EW) in B.
        exists f. split; auto. assert (EX : f_xml f = x) by congruence. split; auto. rewrite EX in V. apply version_reports in RP. congruence.
    + apply (IH w s1 o' s2 w0) with (w1 := w1) (v := v) (p := p); auto. intros w2 q I2. apply SF. now right.
Qed.
Theorem C55_exact : forall w l o s, run w fresh l = (o, s) -> same_files w l -> forall w1 v p r, In (w1, v, p, r) o ->
  forall x u, (exists f, r = Ok f /\ f_xml f = x /\ f_version f = u) <-> exists g, wants w1 v p g /\ contains w1 g x /\ reports v x u.
Proof. intros w l o s R SF. apply (run_same l w fresh o s w); auto. intros k x []. Qed.
End Factories.
Print Assumptions C55_definition.
Print Assumptions C55_exact.
