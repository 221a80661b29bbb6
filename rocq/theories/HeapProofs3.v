(** Navigation: a general lemma about [goto]; growth of heaps; the invariant under all operations except deep copy. *)
From Verif Require Import Base TreeModel TreeProofs4 PathModel HeapModel HeapSpec HeapProofs HeapProofs2.

Section IndexInd.
  Variable P : index -> Prop.
  Hypothesis H1 : P INone.
  Hypothesis H2 : forall s, P (IGen s).
  Hypothesis H3 : forall z, P (INum z).
  Hypothesis H4 : forall a b, P (ISlice a b).
  Hypothesis H5 : forall ps ix, Forall P ix -> P (IPath ps ix).
  Fixpoint index_ind' (i : index) : P i :=
    match i with
    | INone => H1
    | IGen s => H2 s
    | INum z => H3 z
    | ISlice a b => H4 a b
    | IPath ps ix => H5 ps ix ((fix go (l : list index) : Forall P l :=
        match l with [] => Forall_nil _ | x :: t => Forall_cons x (index_ind' x) (go t) end) ix)
    end.
End IndexInd.


(** no index is a path *)
Definition flat (ix : list index) : Prop := forall i, In i ix -> match i with IPath _ _ => False | _ => True end.

Lemma getitem_same : forall h c z h1 r, aos_getitem h c z = (h1, r) -> h1 = h.
Proof. intros h c z h1 r E. pose proof (fst_getitem h c z) as X. rewrite E in X. auto. Qed.

Section GotoGen.
  (** [R]: how the heap may change *)
  Variable R : heap -> heap -> Prop.
  Hypothesis R_refl : forall h, R h h.
  Hypothesis R_trans : forall a b c, R a b -> R b c -> R a c.
  (** [P]: nodes that may be visited *)
  Record closed_under (P : heap -> oid -> Prop) : Prop := {
    cu_stable : forall h h' x, R h h' -> P h x -> P h' x;
    cu_attr : forall h e k h1 r, P h e -> getattr h e k = (h1, r) -> R h h1 /\ forall c, r = Ok c -> P h1 c;
    cu_item : forall h c z h1 r, P h c -> aos_getitem h c z = (h1, r) -> forall e, r = Ok e -> P h1 e;
    cu_value : forall h q h1 r, P h q -> prim_value h q = (h1, r) -> R h h1 }.
  Definition up_closed (P : heap -> oid -> Prop) : Prop := forall h x y, P h x -> dd_parent h x = Some y -> P h y.

  Lemma up_ancestor : forall P, up_closed P -> forall k h x y, P h x -> dd_ancestor k h x = Some y -> P h y.
  Proof.
    intros P U. induction k as [|k IH]; simpl; intros h x y Hx E; [inversion E; subst; auto|].
    destruct (dd_parent h x) as [p|] eqn:D; [|discriminate]. eapply IH; [|exact E]. eapply U; eauto.
  Qed.
  Lemma node_int_R : forall P, closed_under P -> forall h q h1 r, P h q -> node_int h q = (h1, r) -> R h h1.
  Proof.
    intros P C h q h1 r Hq. unfold node_int. destruct (get h q) as [qo|]; [|intros E; inversion E; auto].
    destruct (o_body qo).
    - destruct (getattr h q (strs "value")) as (h2, c) eqn:E2. intros E. inversion E; subst. apply (cu_attr _ C _ _ _ _ _ Hq E2).
    - intros E; inversion E; auto.
    - destruct (prim_value h q) as (h2, c) eqn:E2. intros E. inversion E; subst. apply (cu_value _ C _ _ _ _ Hq E2).
  Qed.

  (** [P]: nodes on the way; [F]: what is known about the starting node; without a current node, [P] must be closed upwards *)
  Lemma loop_gen : forall (P : heap -> oid -> Prop) (F : heap -> Prop) nested from fp ix, closed_under P ->
    (forall h h', R h h' -> F h -> F h') ->
    (flat ix \/ forall q h h1 r, In q ix -> F h -> nested q h = (h1, r) ->
       R h h1 /\ forall y, r = Ok y -> forall h2 v, node_int h1 y = (h2, v) -> R h1 h2) ->
    forall ps i elt h h' r, F h -> (forall e, elt = Some e -> P h e) -> (elt = None -> up_closed P /\ forall h, F h -> P h from) ->
    goto_loop nested from fp ix ps i elt h = (h', r) -> R h h' /\ forall x, r = Ok x -> P h' x.
  Proof.
    intros P F nested from fp ix C Fs.
    induction ix as [|idx ix IH]; intros HN ps i elt h h' r Hf He Hu E.
    - assert (X : match elt with Some e => (h, Ok e) | None => (h, ancestor_or_error (length fp - i) h from) end = (h', r)).
      { destruct ps; exact E. } clear E. destruct elt as [e|]; inversion X; subst; split; auto.
      + intros x Y. inversion Y; subst. auto.
      + unfold ancestor_or_error. intros x Y. destruct (dd_ancestor _ _ _) eqn:D; inversion Y; subst. destruct (Hu eq_refl) as (Hu1 & Hu2). eapply up_ancestor; eauto.
    - assert (HN' : flat ix \/ forall q h h1 r, In q ix -> F h -> nested q h = (h1, r) ->
         R h h1 /\ forall y, r = Ok y -> forall h2 v, node_int h1 y = (h2, v) -> R h1 h2).
      { destruct HN as [Fl|HN]; [left; intros q Hq; apply Fl; simpl; auto|right; intros; eapply HN; simpl; eauto]. }
      specialize (IH HN'). destruct ps as [|part ps].
      { cbn in E. destruct elt as [e|]; inversion E; subst; split; auto.
        + intros x Y. inversion Y; subst. auto.
        + unfold ancestor_or_error. intros x Y. destruct (dd_ancestor _ _ _) eqn:D; inversion Y; subst. destruct (Hu eq_refl) as (Hu1 & Hu2). eapply up_ancestor; eauto. }
      change (match idx with
        | ISlice _ _ => (h, Err ENotImplemented)
        | _ =>
          if match elt, nth_error fp i with None, Some q => str_eqb part q | _, _ => false end
          then goto_loop nested from fp ix ps (S i) None h
          else
            match match elt with Some e => Ok e | None => ancestor_or_error (length fp - i) h from end with
            | Err e => (h, Err e)
            | Ok e =>
              let (h1, r) := getattr h e part in
              match r with
              | Err x => (h1, Err x)
              | Ok c =>
                match idx with
                | INone => goto_loop nested from fp ix ps (S i) (Some c) h1
                | INum z => let (h2, r2) := aos_getitem h1 c z in
                            match r2 with Ok c2 => goto_loop nested from fp ix ps (S i) (Some c2) h2 | Err x => (h2, Err x) end
                | IPath _ _ =>
                  let (h2, rq) := nested idx h1 in
                  match rq with
                  | Err x => (h2, Err x)
                  | Ok q =>
                    let (h3, rv) := node_int h2 q in
                    match rv with
                    | Err x => (h3, Err x)
                    | Ok z => let (h4, r4) := aos_getitem h3 c (z - 1) in
                              match r4 with Ok c2 => goto_loop nested from fp ix ps (S i) (Some c2) h4 | Err x => (h4, Err x) end
                    end
                  end
                | _ => (h1, Err EValue)
                end
              end
            end
        end = (h', r)) in E.
      set (same := match elt, nth_error fp i with None, Some q => str_eqb part q | _, _ => false end) in E.
      assert (Esame : same = true -> elt = None) by (unfold same; destruct elt; [discriminate|auto]).
      set (st := match elt with Some e => Ok e | None => ancestor_or_error (length fp - i) h from end) in E.
      assert (Est : forall e, st = Ok e -> P h e).
      { unfold st. intros e Ee. destruct elt as [e'|]; [inversion Ee; subst; auto|]. unfold ancestor_or_error in Ee.
        destruct (dd_ancestor _ _ _) eqn:D; inversion Ee; subst. destruct (Hu eq_refl) as (Hu1 & Hu2). eapply up_ancestor; eauto. }
      clearbody same st.
      assert (Fin : forall h1 h2 elt', R h h1 -> F h1 -> (forall e, elt' = Some e -> P h1 e) -> (elt' = None -> elt = None) ->
                goto_loop nested from fp ix ps (S i) elt' h1 = (h', r) -> h2 = h' -> R h h' /\ forall x, r = Ok x -> P h' x).
      { intros h1 h2 elt' R1 Pf Pe Pn X _. destruct (IH ps (S i) elt' h1 h' r Pf Pe) as (Ra & Rb); auto. split; eauto. }
      destruct idx as [|s|z|a b|ps' ix']; try (inversion E; subst; split; [auto|discriminate]; fail).
      all: destruct same; [eapply Fin; [apply R_refl|exact Hf| |auto|exact E|reflexivity]; discriminate|].
      all: destruct st as [e|x]; [|inversion E; subst; split; [auto|discriminate]].
      all: specialize (Est e eq_refl); destruct (getattr h e part) as (h1, rc) eqn:Eg;
           destruct (cu_attr _ C _ _ _ _ _ Est Eg) as (R1 & Sc);
           (destruct rc as [c|x]; [|inversion E; subst; split; [auto|discriminate]]);
           specialize (Sc c eq_refl); pose proof (Fs _ _ R1 Hf) as Hf1.
      + eapply Fin; [exact R1|exact Hf1| | |exact E|reflexivity]; [intros w Y; inversion Y; subst; auto|discriminate].
      + inversion E; subst; split; auto; discriminate.
      + destruct (aos_getitem h1 c z) as (h2, r2) eqn:E2. pose proof (getitem_same _ _ _ _ _ E2); subst h2.
        destruct r2 as [c2|x]; [|inversion E; subst; split; auto; discriminate].
        pose proof (cu_item _ C _ _ _ _ _ Sc E2 c2 eq_refl) as S2'.
        eapply Fin; [exact R1|exact Hf1| | |exact E|reflexivity]; [intros w Y; inversion Y; subst; auto|discriminate].
      + destruct HN as [Fl|HN]; [elim (Fl (IPath ps' ix')); simpl; auto|].
        destruct (nested (IPath ps' ix') h1) as (h2, rq) eqn:Eq.
        destruct (HN _ _ _ _ (or_introl eq_refl) Hf1 Eq) as (R2 & Sq). pose proof (Fs _ _ R2 Hf1) as Hf2.
        destruct rq as [q|x]; [|inversion E; subst; split; [eapply R_trans; eauto|discriminate]].
        destruct (node_int h2 q) as (h3, rv) eqn:Ei. pose proof (Sq q eq_refl _ _ Ei) as R3.
        pose proof (Fs _ _ R3 Hf2) as Hf3.
        destruct rv as [z|x]; [|inversion E; subst; split; [eauto|discriminate]].
        destruct (aos_getitem h3 c (z - 1)) as (h4, r4) eqn:E4. pose proof (getitem_same _ _ _ _ _ E4); subst h4.
        destruct r4 as [c2|x]; [|inversion E; subst; split; [eauto|discriminate]].
        assert (Sc3 : P h3 c) by (eapply (cu_stable _ C); [exact R3|]; eapply (cu_stable _ C); eauto).
        pose proof (cu_item _ C _ _ _ _ _ Sc3 E4 c2 eq_refl) as S2'.
        eapply Fin; [|exact Hf3| | |exact E|reflexivity]; [eauto|intros w Y; inversion Y; subst; auto|discriminate].
  Qed.

  (** with nodes closed upwards: everything *)
  Lemma goto_up : forall P, closed_under P -> up_closed P -> forall p h from fr h' r, P h from -> goto p h from fr = (h', r) ->
    R h h' /\ forall x, r = Ok x -> P h' x.
  Proof.
    intros P C U p. induction p as [|s|z|a b|ps ix IH] using index_ind'; intros h from fr h' r Hf E; cbn [goto] in E;
      try (inversion E; subst; split; [auto|discriminate]).
    destruct (get h from) as [fo|]; [|inversion E; subst; split; [auto|discriminate]].
    eapply (loop_gen P (fun h => P h from)); [exact C|intros; eapply cu_stable; eauto| |exact Hf| |intros _; split; [exact U|intros ? Y; exact Y]|exact E].
    - right. intros q h1 h2 r1 Hq Hf1 E1. rewrite Forall_forall in IH. destruct (IH q Hq _ _ _ _ _ Hf1 E1) as (R1 & P1).
      split; auto. intros y Ey h3 v Ei. eapply node_int_R; eauto.
    - intros e X. destruct fr; inversion X; subst; auto.
  Qed.
  (** from a node downwards; index paths may visit other nodes *)
  Lemma goto_down : forall P P', closed_under P -> closed_under P' -> up_closed P' -> (forall h x, P h x -> P' h x) ->
    forall p h from h' r, P h from -> goto p h from false = (h', r) -> R h h' /\ forall x, r = Ok x -> P h' x.
  Proof.
    intros P P' C C' U' S p h from h' r Hf E. destruct p as [|s|z|a b|ps ix]; cbn [goto] in E;
      try (inversion E; subst; split; [auto|discriminate]).
    destruct (get h from) as [fo|]; [|inversion E; subst; split; [auto|discriminate]].
    eapply (loop_gen P (fun h => P h from)) with (elt := Some from); [exact C|intros; eapply cu_stable; eauto| |exact Hf| |intros X; discriminate X|exact E].
    - right. intros q h1 h2 r1 Hq Hf1 E1. destruct (goto_up P' C' U' _ _ _ _ _ _ (S _ _ Hf1) E1) as (R1 & P1).
      split; auto. intros y Ey h3 v Ei. eapply node_int_R; [exact C'| |exact Ei]. auto.
    - intros e X. inversion X; subst; auto.
  Qed.
  Lemma goto_flat : forall P, closed_under P -> forall ps ix h from h' r, flat ix -> P h from ->
    goto (IPath ps ix) h from false = (h', r) -> R h h' /\ forall x, r = Ok x -> P h' x.
  Proof.
    intros P C ps ix h from h' r F Hf E. cbn [goto] in E.
    destruct (get h from) as [fo|]; [|inversion E; subst; split; [auto|discriminate]].
    eapply (loop_gen P (fun h => P h from)) with (elt := Some from); [exact C|intros; eapply cu_stable; eauto|left; exact F|exact Hf| |intros X; discriminate X|exact E]. intros e X. inversion X; subst; auto.
  Qed.
End GotoGen.
