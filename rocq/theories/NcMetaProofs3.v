(** Proofs for C36, part 3: merging alternatives, resolving pending dimensions, prepending the dimensions of arrays of structures. *)
From Verif Require Import Base TreeModel TreeSpec TreeProofs NcMetaModel NcMetaSpec NcMetaProofs NcMetaProofs2.
From Coq Require Import Lia ListDec.

(** ** lists *)
Lemma set_nth_length : forall A (l : list A) i x, length (set_nth i x l) = length l.
Proof. induction l as [|y t IH]; intros [|i] x; cbn; auto. Qed.
Lemma nth_error_set_nth : forall A (l : list A) i x j, nth_error (set_nth i x l) j = if Nat.eq_dec j i then match nth_error l j with Some _ => Some x | None => None end else nth_error l j.
Proof.
  induction l as [|y t IH]; intros [|i] x [|j]; cbn [set_nth nth_error]; auto; try (destruct (Nat.eq_dec 0 0); congruence); try (destruct (Nat.eq_dec _ _); auto; congruence).
  rewrite IH. destruct (Nat.eq_dec j i), (Nat.eq_dec (S j) (S i)); auto; congruence.
Qed.
Definition lens (u : list (path * list (option str))) (p : path) : option nat := option_map (@length _) (pget p u).
Lemma slot_some_lens : forall u x o, slot u x = Some o -> exists n, lens u (fst x) = Some n /\ snd x < n.
Proof.
  intros u x o H. unfold slot, lens in *. destruct (pget (fst x) u) as [l|]; [|discriminate]. exists (length l). split; auto. apply nth_error_Some. congruence.
Qed.
Lemma lens_slot : forall u x n, lens u (fst x) = Some n -> snd x < n -> exists o, slot u x = Some o.
Proof.
  intros u x n H L. unfold slot, lens in *. destruct (pget (fst x) u) as [l|]; [|discriminate]. cbn in H. inversion H; subst. apply nth_error_Some in L.
  destruct (nth_error l (snd x)); [eauto|congruence].
Qed.
Lemma dset_old_keys : forall K V dec (k : K) (v : V) l, In k (map fst l) -> map fst (dset dec k v l) = map fst l.
Proof.
  induction l as [|[k' w] t IH]; intros I; [destruct I|]. cbn [map fst] in I. cbn [dset]. destruct (dec k k') as [->|D]; [reflexivity|]. cbn [map fst]. f_equal. apply IH. destruct I; [congruence|auto].
Qed.
Lemma pget_key : forall V (l : list (path * V)) k v, pget k l = Some v -> In k (map fst l).
Proof. intros V l k v H. apply dget_In in H. now apply (List.in_map fst) in H. Qed.
Lemma pset_keys_old : forall V (l : list (path * V)) k v w, pget k l = Some w -> map fst (pset k v l) = map fst l.
Proof. intros V l k v w H. apply dset_old_keys. eapply pget_key; eauto. Qed.

Section Three.
Variable at_ : path -> nattr.
Variable m : meta.
Hypothesis W : wf_meta m.
Notation in_ids := (in_ids m).
Notation shares := (shares at_ m).
Notation own_dim := (own_dim at_ m).
Notation alternative := (alternative at_ m).
Notation takes := (takes at_ m).
Notation named_dim := (named_dim at_ m).
Notation reaches := (reaches at_ m).

(** ** nodes and dimensions are determined by their paths *)
Lemma nodup_map_inj : forall A B (f : A -> B) l x y, NoDup (map f l) -> In x l -> In y l -> f x = f y -> x = y.
Proof.
  induction l as [|a t IH]; intros x y ND X Y E; [destruct X|]. cbn in ND. inversion ND as [|? ? NI ND']; subst.
  destruct X as [->|X], Y as [->|Y]; auto.
  - exfalso. apply NI. rewrite E. now apply List.in_map.
  - exfalso. apply NI. rewrite <- E. now apply List.in_map.
Qed.
Lemma in_ids_fun : forall p c a n c' a' n', in_ids p c a n -> in_ids p c' a' n' -> c = c' /\ a = a' /\ n = n'.
Proof.
  intros p c a n c' a' n' H H'.
  assert (E : (p, c, a, n) = (p, c', a', n')).
  { apply (nodup_map_inj _ _ vp (visits m [] None 0)); auto; [now apply visits_nodup| |]; apply visits_In; assumption. }
  inversion E; auto.
Qed.
Lemma error_bar_fun : forall p q q', error_bar p q -> error_bar p q' -> q = q'.
Proof. intros p q q' H H'. apply error_of_spec in H. apply error_of_spec in H'. congruence. Qed.
Lemma shares_fun : forall x y y', shares x y -> shares x y' -> y = y'.
Proof.
  intros x y y' H H'. inversion H; subst; inversion H'; subst;
    repeat match goal with H1 : in_ids ?p ?c ?a ?n, H2 : in_ids ?p ?c' ?a' ?n' |- _ =>
      match c with c' => fail 1 | _ => destruct (in_ids_fun _ _ _ _ _ _ _ H1 H2) as (? & ? & ?); subst; clear H2 end end;
    try congruence; try (exfalso; match goal with E : error_bar ?p ?q, N : forall b, ~ error_bar ?p b |- _ => exact (N _ E) end).
  f_equal. eapply error_bar_fun; eauto.
Qed.
Lemma own_not_shares : forall x d y, own_dim x d -> shares x y -> False.
Proof.
  intros x d y H H'. inversion H; subst; inversion H'; subst; try congruence;
    try (match goal with E : error_bar ?p ?q, N : forall b, ~ error_bar ?p b |- _ => exact (N _ E) end).
Qed.
Lemma own_dim_fun : forall x d d', own_dim x d -> own_dim x d' -> d = d'.
Proof.
  intros x d d' H H'. inversion H; subst; inversion H'; subst; try congruence;
    repeat match goal with H1 : in_ids ?p ?c ?a ?n, H2 : in_ids ?p ?c' ?a' ?n' |- _ =>
      match c with c' => fail 1 | _ => destruct (in_ids_fun _ _ _ _ _ _ _ H1 H2) as (? & ? & ?); subst; clear H2 end end.
  - match goal with A : _ \/ _ |- _ => destruct A; [contradiction|lia] end.
  - match goal with A : _ \/ _ |- _ => destruct A; [contradiction|lia] end.
Qed.
Notation axis_ok := (axis_ok m).
Lemma own_ok : forall x d, own_dim x d -> axis_ok x.
Proof. intros x d H. inversion H; subst; unfold NcMetaSpec.axis_ok; cbn [fst snd]; eauto 6. Qed.
Lemma shares_ok : forall x y, shares x y -> axis_ok x.
Proof. intros x y H. inversion H; subst; unfold NcMetaSpec.axis_ok; cbn [fst snd]; eauto 6. Qed.
Lemma takes_ok : forall x y, takes x y -> axis_ok x.
Proof. intros x y [H|((d & H) & _)]; [eapply shares_ok|eapply own_ok]; eauto. Qed.

(** ** what is known after parsing and while merging; [done]: pairs (alternative, main) that have been merged *)
Record minv (s0 : ncs) (done : list (path * path)) (s : ncs) : Prop := {
  m_keys : map fst (ut s) = map fst (ut s0);
  m_lens : forall p, lens (ut s) p = lens (ut s0) p;
  m_own : forall x d, slot (ut s) x = Some (Some d) -> own_dim x d /\ aget x (pend s) = None /\ sget d (dimc s) <> None;
  m_none : forall x, slot (ut s) x = Some None -> exists y, takes x y /\ aget x (pend s) = Some y;
  m_pend : forall x y, aget x (pend s) = Some y -> slot (ut s) x = Some None;
  m_done : forall q mm, In (q, mm) done -> aget (q, 0) (pend s) = Some (mm, 0);
  m_nodup : NoDup (map fst (pend s));
  m_aos : aosm s = aosm s0 }.

Lemma inv_minv : forall V s, inv at_ m V s -> minv s [] s.
Proof.
  intros V s I. constructor; auto.
  - apply (i_own _ _ _ _ I).
  - intros x H. destruct (i_none _ _ _ _ I _ H) as (y & S & P). exists y. split; auto. now left.
  - apply (i_pend _ _ _ _ I).
  - intros q mm [].
  - apply (i_nodup _ _ _ _ I).
Qed.

Lemma merge_path_inv : forall s0 p al done s s', minv s0 done s -> (forall a, In a al -> alternative a p) ->
  merge_path p al s = Ok s' -> minv s0 (done ++ map (fun a => (a, p)) al) s'.
Proof.
  intros s0 p al. induction al as [|a t IH]; intros done s s' I A H; cbn [merge_path] in H.
  - inversion H; subst. cbn. now rewrite app_nil_r.
  - assert (At : forall b, In b t -> alternative b p) by (intros; apply A; now right).
    replace (done ++ map (fun a => (a, p)) (a :: t)) with ((done ++ [(a, p)]) ++ map (fun a => (a, p)) t) by (cbn [map]; now rewrite <- app_assoc).
    destruct (pget a (ut s)) as [[|[d|] [|o o']]|] eqn:E; try discriminate.
    + apply (IH (done ++ [(a, p)]) (set_pend (a, 0) (p, 0) (set_ut a [None] s)) s'); auto. clear H IH.
      assert (Sa : slot (ut s) (a, 0) = Some (Some d)) by (unfold slot; cbn [fst snd]; rewrite E; reflexivity).
      destruct (m_own _ _ _ I _ _ Sa) as (Oa & Pa & Da).
      assert (Sl : forall x, slot (pset a [None] (ut s)) x = if axis_dec x (a, 0) then Some None else slot (ut s) x).
      { intros [q i]. rewrite slot_pset. cbn [fst snd]. destruct (path_dec q a) as [->|Nq].
        - destruct i as [|i]; cbn [nth_error].
          + destruct (axis_dec (a, 0) (a, 0)); congruence.
          + destruct (axis_dec (a, S i) (a, 0)) as [Q|Q]; [inversion Q|]. unfold slot. cbn [fst snd]. rewrite E. destruct i; reflexivity.
        - destruct (axis_dec (q, i) (a, 0)) as [Q|Q]; auto. inversion Q; subst. contradiction. }
      constructor; cbn [set_pend set_ut ut pend dimc aosm alts npaths].
      * rewrite (pset_keys_old _ _ _ _ _ E). apply (m_keys _ _ _ I).
      * intros q. rewrite <- (m_lens _ _ _ I q). unfold lens. rewrite pget_pset. destruct (path_dec q a) as [->|]; auto. now rewrite E.
      * intros x d' H. rewrite Sl in H. destruct (axis_dec x (a, 0)) as [->|N]; [discriminate|]. rewrite aget_other by auto. now apply (m_own _ _ _ I).
      * intros x H. rewrite Sl in H. destruct (axis_dec x (a, 0)) as [->|N].
        -- exists (p, 0). split; [|apply aget_same]. right. cbn [fst snd]. split; eauto. split; auto. split; auto. apply A. now left.
        -- rewrite aget_other by auto. now apply (m_none _ _ _ I).
      * intros x y H. rewrite Sl. destruct (axis_dec x (a, 0)) as [->|N]; auto. rewrite aget_other in H by auto. eapply (m_pend _ _ _ I); eauto.
      * intros q mm H. apply in_app_or in H. destruct H as [H|[H|[]]].
        -- pose proof (m_done _ _ _ I _ _ H) as Q. destruct (axis_dec (q, 0) (a, 0)) as [X|X]; [|now rewrite aget_other].
           rewrite X in Q. congruence.
        -- inversion H; subst. apply aget_same.
      * apply dset_nodup. apply (m_nodup _ _ _ I).
      * apply (m_aos _ _ _ I).
    + destruct (aget (a, 0) (pend s)) as [x|] eqn:P; [|discriminate]. destruct (axis_dec x (p, 0)) as [->|]; [|discriminate].
      apply (IH (done ++ [(a, p)]) s s'); auto. destruct I. constructor; auto.
      intros q mm Q. apply in_app_or in Q. destruct Q as [Q|[Q|[]]]; auto. inversion Q; subst. exact P.
Qed.

Lemma merge_one_inv : forall s0 p al done s s', minv s0 done s -> (forall a, In a al -> alternative a p) ->
  merge_one p al s = Ok s' -> minv s0 (done ++ map (fun a => (a, p)) al) s'.
Proof.
  intros s0 p al done s s' I A H. unfold merge_one in H. destruct (pget p (ut s)) as [[|o [|o' t]]|]; try discriminate.
  destruct (merge_path p al s) as [s1|e] eqn:M; [|discriminate]. cbn [rbind] in H.
  apply (merge_path_inv s0 p al done s s1 I A) in M. destruct (pget p (ut s1)) as [[|[d|] t]|]; try discriminate.
  destruct (sget d (dimc s1)) as [l|] eqn:Sd; [|discriminate]. inversion H; subst s'. destruct M. constructor; cbn [set_dimc ut pend dimc aosm]; auto.
  intros x d' X. destruct (m_own0 _ _ X) as (X1 & X2 & X3). split; auto. split; auto. now apply sget_keeps.
Qed.

Definition pairs (l : list (path * list path)) : list (path * path) := flat_map (fun e => map (fun a => (a, fst e)) (snd e)) l.
Lemma merge_alternatives_inv : forall s0 l done s s', minv s0 done s -> (forall p al a, In (p, al) l -> In a al -> alternative a p) ->
  merge_alternatives l s = Ok s' -> minv s0 (done ++ pairs l) s'.
Proof.
  intros s0 l. induction l as [|[p al] t IH]; intros done s s' I A H; cbn [merge_alternatives] in H.
  - inversion H; subst. cbn. now rewrite app_nil_r.
  - destruct (merge_one p al s) as [s1|e] eqn:M; [|discriminate]. cbn [rbind] in H. cbn [pairs flat_map fst snd]. rewrite app_assoc.
    apply (IH _ s1); auto; [|intros; eapply A; eauto; now right].
    eapply merge_one_inv; eauto. intros a Ia. eapply A; eauto. now left.
Qed.

(** after merging *)
Record ready (s0 s : ncs) : Prop := {
  r_keys : map fst (ut s) = map fst (ut s0);
  r_lens : forall p, lens (ut s) p = lens (ut s0) p;
  r_named : forall x d, slot (ut s) x = Some (Some d) -> named_dim x d /\ sget d (dimc s) <> None;
  r_none : forall x, slot (ut s) x = Some None -> exists y, takes x y /\ aget x (pend s) = Some y;
  r_pend : forall x y, aget x (pend s) = Some y -> slot (ut s) x = Some None /\ takes x y;
  r_fun : forall x y y', takes x y -> takes x y' -> y = y';
  r_nodup : NoDup (map fst (pend s));
  r_aos : aosm s = aosm s0 }.

Lemma In_pairs : forall l q mm, NoDup (map fst l) -> In (q, mm) (pairs l) <-> exists al, pget mm l = Some al /\ In q al.
Proof.
  intros l q mm ND. unfold pairs. rewrite in_flat_map. split.
  - intros ([p al] & I & H). cbn [fst snd] in H. apply in_map_iff in H. destruct H as (a & E & H). inversion E; subst. exists al. split; auto. now apply In_dget.
  - intros (al & G & H). exists (mm, al). split; [eapply dget_In; eauto|]. cbn [fst snd]. apply in_map_iff. eauto.
Qed.

Lemma merged_ready : forall s0 s, inv at_ m (visits m [] None 0) s0 -> merge_alternatives (alts s0) s0 = Ok s -> ready s0 s.
Proof.
  intros s0 s I H.
  assert (AL : forall q mm, alternative q mm <-> In (q, mm) (pairs (alts s0))).
  { intros q mm. rewrite (In_pairs _ _ _ (i_altn _ _ _ _ I)). rewrite alternative_by.
    assert (X : In q (altl s0 mm) <-> exists al, pget mm (alts s0) = Some al /\ In q al).
    { unfold altl. destruct (pget mm (alts s0)) as [l|]; split; [eauto|intros (al & E & J); inversion E; subst; auto|intros []|intros (al & E & _); discriminate]. }
    rewrite <- X, (i_alts _ _ _ _ I). split; intros (v & Sv & B); exists v; split; auto; apply visits_In; auto. }
  apply (merge_alternatives_inv s0 _ [] s0) in H; [|eapply inv_minv; eauto|].
  2:{ intros p al a J1 J2. apply AL. apply In_pairs; [apply (i_altn _ _ _ _ I)|]. exists al. split; auto. apply In_dget; auto. apply (i_altn _ _ _ _ I). }
  cbn [app] in H.
  assert (TP : forall x y, takes x y -> aget x (pend s) = Some y).
  { intros x y T. assert (OK := takes_ok _ _ T). destruct OK as (c & a & n & IN & L).
    assert (LN : exists k, lens (ut s) (fst x) = Some k /\ snd x < k).
    { rewrite (m_lens _ _ _ H). assert (In (fst x, c, a, n) (visits m [] None 0)) by (apply visits_In; exact IN).
      destruct (i_len _ _ _ _ I _ H0) as (l & G & Ll).
      - unfold entryb. cbn [vc fst snd]. destruct (mkind c) eqn:K; [unfold ndim in L; rewrite K in L; lia| |]; apply Bool.orb_true_iff; left; apply Nat.ltb_lt; cbn [vc fst snd]; lia.
      - unfold lens. cbn [vp vc fst snd] in G, Ll. rewrite G. exists (length l). split; auto. lia. }
    destruct LN as (k & LN & Lk). destruct (lens_slot _ _ _ LN Lk) as (o & So). destruct T as [T|((d & O) & X0 & Y0 & A)].
    - destruct o as [d|].
      + destruct (m_own _ _ _ H _ _ So) as (O & _). exfalso. eapply own_not_shares; eauto.
      + destruct (m_none _ _ _ H _ So) as (y' & T' & P). destruct T' as [T'|((d & O) & _)]; [|exfalso; eapply own_not_shares; eauto].
        assert (y = y') by (eapply shares_fun; eauto). congruence.
    - apply AL in A. apply (m_done _ _ _ H) in A. destruct x as [q i], y as [q' j]. cbn [fst snd] in *. subst. exact A. }
  constructor.
  - apply (m_keys _ _ _ H).
  - apply (m_lens _ _ _ H).
  - intros x d Q. destruct (m_own _ _ _ H _ _ Q) as (O & P & D). split; auto. apply nd_own; auto. intros y T. apply TP in T. congruence.
  - apply (m_none _ _ _ H).
  - intros x y P. pose proof (m_pend _ _ _ H _ _ P) as Q. split; auto. destruct (m_none _ _ _ H _ Q) as (y' & T & P'). congruence.
  - intros x y y' T T'. apply TP in T. apply TP in T'. congruence.
  - apply (m_nodup _ _ _ H).
  - apply (m_aos _ _ _ H).
Qed.

(** ** resolving *)
Record rinv (s : ncs) (items : list (axis * axis)) (u : list (path * list (option str))) : Prop := {
  v_keys : map fst u = map fst (ut s);
  v_lens : forall p, lens u p = lens (ut s) p;
  v_named : forall x d, slot u x = Some (Some d) -> named_dim x d /\ sget d (dimc s) <> None;
  v_none : forall x, slot u x = Some None -> exists y, In (x, y) items;
  v_items : forall x y, In (x, y) items -> takes x y /\ slot u x = Some None;
  v_nodup : NoDup (map fst items) }.
Lemma ready_rinv : forall s0 s, ready s0 s -> rinv s (pend s) (ut s).
Proof.
  intros s0 s R. constructor; auto.
  - apply (r_named _ _ R).
  - intros x Q. destruct (r_none _ _ R _ Q) as (y & _ & P). exists y. eapply dget_In; eauto.
  - intros x y Q. apply In_dget with (dec := axis_dec) in Q; [|apply (r_nodup _ _ R)]. apply (r_pend _ _ R) in Q. tauto.
  - apply (r_nodup _ _ R).
Qed.

Lemma slot_set : forall u k nm l x, pget (fst k) u = Some l -> slot u k <> None ->
  slot (pset (fst k) (set_nth (snd k) (Some nm) l) u) x = if axis_dec x k then Some (Some nm) else slot u x.
Proof.
  intros u [p i] nm l [q j] E N. cbn [fst snd] in *. rewrite slot_pset. cbn [fst snd]. unfold slot in *. cbn [fst snd] in *. rewrite E in N. destruct (path_dec q p) as [->|Nq].
  - rewrite E, nth_error_set_nth. destruct (Nat.eq_dec j i) as [->|Nj].
    + destruct (nth_error l i); [|congruence]. destruct (axis_dec (p, i) (p, i)); congruence.
    + destruct (axis_dec (p, j) (p, i)) as [Q|Q]; auto. inversion Q; contradiction.
  - destruct (axis_dec (q, j) (p, i)) as [Q|Q]; auto. inversion Q; contradiction.
Qed.

Lemma rinv_step : forall s kept k x t u nm l, rinv s (kept ++ (k, x) :: t) u -> slot u x = Some (Some nm) -> pget (fst k) u = Some l ->
  rinv s (kept ++ t) (pset (fst k) (set_nth (snd k) (Some nm) l) u).
Proof.
  intros s kept k x t u nm l R Sx G.
  assert (Ik : In (k, x) (kept ++ (k, x) :: t)) by (apply in_or_app; right; now left).
  destruct (v_items _ _ _ R _ _ Ik) as (Tk & Sk).
  assert (SS : forall y, slot (pset (fst k) (set_nth (snd k) (Some nm) l) u) y = if axis_dec y k then Some (Some nm) else slot u y) by (intros; apply slot_set; auto; congruence).
  pose proof (v_nodup _ _ _ R) as ND. rewrite map_app in ND. cbn [map fst] in ND.
  constructor.
  - rewrite (pset_keys_old _ _ _ _ _ G). apply (v_keys _ _ _ R).
  - intros q. rewrite <- (v_lens _ _ _ R q). unfold lens. rewrite pget_pset. destruct (path_dec q (fst k)) as [->|]; auto. rewrite G. cbn. now rewrite set_nth_length.
  - intros y d Q. rewrite SS in Q. destruct (axis_dec y k) as [->|N]; [|now apply (v_named _ _ _ R)]. inversion Q; subst d.
    destruct (v_named _ _ _ R _ _ Sx) as (A & B). split; auto. eapply nd_takes; eauto.
  - intros y Q. rewrite SS in Q. destruct (axis_dec y k) as [->|N]; [discriminate|]. destruct (v_none _ _ _ R _ Q) as (z & Z). exists z.
    apply in_app_or in Z. apply in_or_app. destruct Z as [Z|[Z|Z]]; auto. inversion Z; subst; contradiction.
  - intros y z Z. assert (Z' : In (y, z) (kept ++ (k, x) :: t)) by (apply in_app_or in Z; apply in_or_app; cbn; tauto).
    destruct (v_items _ _ _ R _ _ Z') as (A & B). split; auto. rewrite SS. destruct (axis_dec y k) as [->|N]; auto.
    exfalso. apply NoDup_remove_2 in ND. apply ND. rewrite <- map_app. apply (List.in_map fst) in Z. exact Z.
  - rewrite map_app. apply NoDup_remove_1 in ND. exact ND.
Qed.

Lemma resolve_round_inv : forall s items kept u u' rest, rinv s (kept ++ items) u -> resolve_round items u = Ok (u', rest) -> rinv s (kept ++ rest) u'.
Proof.
  intros s items. induction items as [|[k x] t IH]; intros kept u u' rest R H; cbn [resolve_round] in H; [inversion H; subst; auto|].
  destruct (pget (fst x) u) as [l|] eqn:G; [|discriminate]. destruct (nth_error l (snd x)) as [[nm|]|] eqn:E; [| |discriminate].
  - destruct (pget (fst k) u) as [lk|] eqn:Gk; [|discriminate]. apply (IH kept _ _ _) in H; auto. eapply rinv_step; eauto. unfold slot. now rewrite G.
  - destruct (resolve_round t u) as [[u1 r1]|e] eqn:RR; [|discriminate]. cbn [rbind fst snd] in H. inversion H; subst.
    replace (kept ++ (k, x) :: r1) with ((kept ++ [(k, x)]) ++ r1) by now rewrite <- app_assoc. eapply IH; eauto. now rewrite <- app_assoc.
Qed.
Lemma resolve_pending_inv : forall s fuel items u u', rinv s items u -> resolve_pending fuel items u = Ok u' -> rinv s [] u'.
Proof.
  intros s fuel. induction fuel as [|fuel IH]; intros items u u' R H; [discriminate|]. cbn [resolve_pending] in H.
  destruct (resolve_round items u) as [[u1 r1]|e] eqn:RR; [|discriminate]. cbn [rbind fst snd] in H.
  apply (resolve_round_inv s items [] u u1 r1) in RR; auto. cbn [app] in RR. destruct r1 as [|i r1]; [inversion H; subst; auto|]. eapply IH; eauto.
Qed.

Lemma named_not_circular : forall s0 s x d, ready s0 s -> named_dim x d -> ~ reaches x x.
Proof.
  intros s0 s x d R H. induction H as [x d O N|x y d T H IH]; intros Q.
  - inversion Q; subst; eapply N; eauto.
  - apply IH. assert (tail : forall a b, reaches a b -> forall c, takes b c -> reaches a c).
    { induction 1; intros; [eapply rc_more; eauto; now apply rc_one|eapply rc_more; eauto]. }
    inversion Q; subst.
    + assert (y = x) by (eapply (r_fun _ _ R); eauto). subst. now apply rc_one.
    + assert (y0 = y) by (eapply (r_fun _ _ R); eauto). subst. eapply tail; eauto.
Qed.

(** ** tensorizing *)
Lemma tensorize_inv : forall s items dims coords dims' coords', NoDup (map fst items) -> (forall p, In p (map fst items) -> pget p dims = None) ->
  tensorize at_ m items s dims coords = Ok (dims', coords') ->
  (forall p, ~ In p (map fst items) -> pget p dims' = pget p dims) /\
  (forall p own, In (p, own) items -> exists ad, pget p dims' = Some (ad ++ map dim_name own) /\
     match pget p (aosm s) with None => ad = [] | Some q => pget q dims' = Some ad end).
Proof.
  intros s items. induction items as [|[p own] t IH]; intros dims coords dims' coords' ND DJ H; cbn [tensorize] in H.
  - inversion H; subst. split; auto. intros p own [].
  - cbn [map fst] in ND. inversion ND as [|? ? NI ND']; subst.
    destruct (match pget p (aosm s) with None => Ok ([], []) | Some q => match pget q dims with None => Err KeyErr | Some d => Ok (d, match pget q coords with Some l => l | None => [] end) end end) as [a|e] eqn:Ea; [|discriminate].
    cbn [rbind] in H. destruct (meta_at m p) as [c|]; [|discriminate]. destruct (own_coordinates at_ p 0 own (dimc s)) as [oc|e]; [|discriminate]. cbn [rbind] in H. cbv zeta in H.
    apply IH in H; auto.
    2:{ intros q Q. rewrite pget_other; [apply DJ; now right|]. intros ->. contradiction. }
    destruct H as (H1 & H2). split.
    + intros q Q. cbn [map fst In] in Q. rewrite H1 by tauto. apply pget_other. intros ->. tauto.
    + intros q o [E|Q]; [|now apply H2]. inversion E; subst q o. exists (fst a). split; [rewrite H1 by auto; apply pget_same|].
      destruct (pget p (aosm s)) as [q|]; [|inversion Ea; reflexivity]. destruct (pget q dims) as [d|] eqn:G; [|discriminate]. inversion Ea; subst a. cbn [fst].
      assert (Nq : ~ In q (map fst ((p, own) :: t))) by (intros Q; apply DJ in Q; congruence). cbn [map fst In] in Nq.
      rewrite H1 by tauto. rewrite pget_other; [exact G|]. intros ->. tauto.
Qed.
End Three.
