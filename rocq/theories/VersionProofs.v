From Verif Require Import Base TreeModel VersionModel VersionSpec.
From Verif Require VmapModel EndModel.

Lemma truthy_false : forall o, truthy o = false <-> empty o.
Proof. intros [[|a s]|]; simpl; unfold empty; split; intros H; auto; try discriminate; destruct H; discriminate. Qed.
Lemma truthy_true : forall o, truthy o = true <-> exists v, o = Some v /\ v <> [].
Proof. intros [[|a s]|]; simpl; split; intros H; try discriminate; try (destruct H as (v & E & N); congruence); eauto. exists (a :: s). split; auto. discriminate. Qed.
Lemma opt_eqb_eq : forall a b, opt_eqb a b = true <-> a = b.
Proof. intros [x|] [y|]; simpl; split; intros H; try discriminate; auto. - apply str_eqb_eq in H. congruence. - apply str_eqb_eq. congruence. Qed.
Lemma key_eqb_eq : forall a b, key_eqb a b = true <-> a = b.
Proof.
  intros [a1 a2] [b1 b2]. unfold key_eqb. simpl. rewrite Bool.andb_true_iff, !opt_eqb_eq. split; [intros [-> ->]; auto|]. intros E. split; congruence.
Qed.
Lemma known_released : forall b v, known b v = true <-> released b v.
Proof.
  intros b v. unfold known, released. rewrite existsb_exists. split.
  - intros (u & I & E). apply str_eqb_eq in E. subst u. unfold akeys in I. apply List.in_map_iff in I as ((u & x) & E & I). simpl in E. subst. eauto.
  - intros (x & I). exists v. split; [|apply str_eqb_refl]. unfold akeys. apply List.in_map_iff. exists (v, x). auto.
Qed.

Section Factory.
Variable bundled : list (str * xml).
Variable idsdef : str -> str.
Hypothesis ND : NoDup (akeys bundled).
Hypothesis NE : ~ released bundled [].
Hypothesis IE : forall p, idsdef p <> [].

(** the origin that a key of the cache stands for *)
Definition origin_of (k : key) : origin := if truthy (snd k) then InFile (match snd k with Some p => p | None => [] end) else Package (match fst k with Some v => v | None => [] end).
Lemma select_wants : forall w v p k, select bundled idsdef w v p = Ok k -> wants bundled idsdef w v p (origin_of k).
Proof.
  intros w v p k H. unfold select in H. destruct (truthy v) eqn:TV; destruct (truthy p) eqn:TP; cbn [andb negb] in H; try discriminate.
  - cbn [fst snd] in H. rewrite TV in H. cbn [negb andb] in H. inversion H; subst k. unfold origin_of. cbn [fst snd]. rewrite TP. apply truthy_true in TV as (u & -> & N). apply truthy_false in TP. now constructor.
  - cbn [fst snd] in H. rewrite TV, TP in H. cbn [negb andb] in H. inversion H; subst k. unfold origin_of. cbn [fst snd]. rewrite TP. apply truthy_true in TP as (u & -> & N). apply truthy_false in TV. now constructor.
  - apply truthy_false in TV as EV. apply truthy_false in TP as EP.
    assert (LAST : forall y, snd y = p -> negb (truthy (fst y)) && negb (truthy (snd y)) = true ->
              (forall iv, w_version w = Some iv -> ~ released bundled iv /\ forall pre, w_prefix w = Some pre -> w_file w (idsdef pre) = Missing) ->
              match rev bundled with (u, _) :: _ => Ok (Some u, snd y) | [] => Err VNone end = Ok k -> wants bundled idsdef w v p (origin_of k)).
    { intros y EY _ C Q. destruct (rev bundled) as [|[u x] r] eqn:R; [discriminate|]. inversion Q; subst k. unfold origin_of. cbn [fst snd]. rewrite EY, TP.
      apply (wants_latest bundled idsdef w v p (rev r) u x EV EP C). rewrite <- (rev_involutive bundled), R. reflexivity. }
    destruct (w_version w) as [iv|] eqn:WV.
    + destruct (known bundled iv) eqn:KN.
      * apply known_released in KN. cbn [fst snd] in H. destruct (truthy (Some iv)) eqn:T; [|exfalso; destruct iv; [exact (NE KN)|discriminate]].
        cbn [negb andb] in H. inversion H; subst k. unfold origin_of. cbn [fst snd]. rewrite TP. eapply wants_env; eauto.
      * assert (NR : ~ released bundled iv) by (intros R; apply known_released in R; congruence).
        destruct (w_prefix w) as [pre|] eqn:WP.
        -- destruct (w_file w (idsdef pre)) eqn:WF.
           ++ cbn [fst snd] in H. apply (LAST (v, p)); auto; [cbn [fst snd]; rewrite TV, TP; reflexivity|intros u E; inversion E; subst; split; auto; intros q E2; congruence|].
              rewrite TV, TP in H. exact H.
           ++ assert (T : truthy (Some (idsdef pre)) = true) by (apply truthy_true; eauto). cbn [fst snd] in H. rewrite T, TV in H. cbn [negb andb] in H. inversion H; subst k.
              unfold origin_of. cbn [fst snd]. rewrite T. eapply wants_prefix; eauto. congruence.
           ++ assert (T : truthy (Some (idsdef pre)) = true) by (apply truthy_true; eauto). cbn [fst snd] in H. rewrite T, TV in H. cbn [negb andb] in H. inversion H; subst k.
              unfold origin_of. cbn [fst snd]. rewrite T. eapply wants_prefix; eauto. congruence.
        -- cbn [fst snd] in H. apply (LAST (v, p)); auto; [cbn [fst snd]; rewrite TV, TP; reflexivity|intros u E; inversion E; subst; split; auto; congruence|].
           rewrite TV, TP in H. exact H.
    + cbn [fst snd] in H. apply (LAST (v, p)); auto; [cbn [fst snd]; rewrite TV, TP; reflexivity|intros u E; discriminate|]. rewrite TV, TP in H. exact H.
Qed.
Lemma select_total : forall w v p g, wants bundled idsdef w v p g -> exists k, select bundled idsdef w v p = Ok k /\ origin_of k = g.
Proof.
  intros w v p g A. unfold select. destruct A as [v p N E|v p N E|v p iv EV EP WV R|v p iv pre EV EP WV R WP WF|v p l lv x EV EP C B].
  - assert (TV : truthy (Some v) = true) by (apply truthy_true; eauto). assert (TP : truthy p = false) by (apply truthy_false; auto). rewrite TV, TP. cbn [andb negb fst snd]. rewrite TV. cbn [andb negb].
    eexists. split; [reflexivity|]. unfold origin_of. cbn [fst snd]. rewrite TP. reflexivity.
  - assert (TP : truthy (Some p) = true) by (apply truthy_true; eauto). assert (TV : truthy v = false) by (apply truthy_false; auto). rewrite TV, TP. cbn [andb negb fst snd]. rewrite TV, TP. cbn [andb negb].
    eexists. split; [reflexivity|]. unfold origin_of. cbn [fst snd]. rewrite TP. reflexivity.
  - apply truthy_false in EV as TV. apply truthy_false in EP as TP. rewrite TV, TP. cbn [andb negb]. rewrite WV. assert (K : known bundled iv = true) by (apply known_released; auto). rewrite K. cbn [fst snd].
    destruct (truthy (Some iv)) eqn:T; [|exfalso; destruct iv; [exact (NE R)|discriminate]]. cbn [andb negb].
    eexists. split; [reflexivity|]. unfold origin_of. cbn [fst snd]. rewrite TP. reflexivity.
  - apply truthy_false in EV as TV. apply truthy_false in EP as TP. rewrite TV, TP. cbn [andb negb]. rewrite WV. destruct (known bundled iv) eqn:K; [exfalso; apply R; apply known_released; auto|].
    rewrite WP. assert (T : truthy (Some (idsdef pre)) = true) by (apply truthy_true; eauto).
    destruct (w_file w (idsdef pre)); [congruence| |]; cbn [fst snd]; rewrite T, TV; cbn [andb negb]; (eexists; split; [reflexivity|]; unfold origin_of; cbn [fst snd]; rewrite T; reflexivity).
  - apply truthy_false in EV as TV. apply truthy_false in EP as TP. rewrite TV, TP. cbn [andb negb].
    assert (L : exists k, match rev bundled with (u, _) :: _ => Ok (Some u, p) | [] => Err VNone end = Ok k /\ origin_of k = Package lv).
    { rewrite B, rev_app_distr. cbn [rev app]. eexists. split; [reflexivity|]. unfold origin_of. cbn [fst snd]. rewrite TP. reflexivity. }
    destruct (w_version w) as [iv|] eqn:WV.
    + destruct (C iv eq_refl) as (NR & PM). destruct (known bundled iv) eqn:K; [exfalso; apply NR; apply known_released; auto|].
      destruct (w_prefix w) as [pre|] eqn:WP; [rewrite (PM pre eq_refl)|]; cbn [fst snd]; rewrite TV, TP; exact L.
    + cbn [fst snd]. rewrite TV, TP. exact L.
Qed.

Lemma load_contains : forall w k x, load bundled w k = Ok x <-> contains bundled w (origin_of k) x /\ (truthy (snd k) = false -> fst k <> None).
Proof.
  intros w [v p] x. unfold load, origin_of. cbn [fst snd]. destruct (truthy p) eqn:T.
  - apply truthy_true in T as (q & -> & N). cbn. destruct (w_file w q); split; intros H; try discriminate; try (destruct H; discriminate); [|destruct H as (H & _); congruence].
    split; [congruence|discriminate].
  - destruct v as [v|]; cbn.
    + split.
      * intros H. destruct (alookup v bundled) as [y|] eqn:A; [|discriminate]. inversion H; subst y. split; [|discriminate]. apply alookup_In in A. exact A.
      * intros (H & _). rewrite (alookup_NoDup_In _ _ _ ND H). reflexivity.
    + split; [discriminate|]. intros (_ & H). exfalso. now apply H.
Qed.
Lemma select_some : forall w v p k, select bundled idsdef w v p = Ok k -> truthy (snd k) = false -> fst k <> None.
Proof.
  intros w v p k H T E. unfold select in H. destruct (truthy v && truthy p); [discriminate|]. cbv zeta in H.
  match type of H with (if negb (truthy (fst ?r)) && _ then _ else _) = _ => set (y := r) in * end.
  destruct (negb (truthy (fst y)) && negb (truthy (snd y))) eqn:B.
  - destruct (rev bundled) as [|[u x] r]; [discriminate|]. inversion H; subst k. discriminate E.
  - inversion H; subst k. rewrite E, T in B. discriminate B.
Qed.

(** what is in the cache was loaded when the same definition was asked for *)
Definition asked (o : list (world * option str * option str * result vexn factory)) (k : key) (x : xml) : Prop :=
  exists w v p r, In (w, v, p, r) o /\ select bundled idsdef w v p = Ok k /\ load bundled w k = Ok x.
Definition cache_ok (P : key -> xml -> Prop) (s : mem) : Prop := forall k x, In (k, x) (m_cache s) -> P k x.
Lemma cache_get_In : forall c k x, cache_get c k = Some x -> In (k, x) c.
Proof.
  induction c as [|[k' y] c IH]; intros k x H; [discriminate|]. cbn in H. destruct (key_eqb k' k) eqn:E; [|right; auto]. apply key_eqb_eq in E. left. congruence.
Qed.
Lemma cached_load_ok : forall (P : key -> xml -> Prop) w k s r s', cache_ok P s -> (forall x, load bundled w k = Ok x -> P k x) -> cached_load bundled w k s = (r, s') ->
  cache_ok P s' /\ (forall x, r = Ok x -> P k x) /\ (forall e, r = Err e -> load bundled w k = Err e).
Proof.
  intros P w k s r s' C L H. unfold cached_load in H. destruct (cache_get (m_cache s) k) as [x|] eqn:G.
  - inversion H; subst. apply cache_get_In in G. split; [|split; [intros y E; inversion E; subst; auto|discriminate]].
    intros k' y [E|I]; [inversion E; subst; auto|]. unfold cache_drop in I. apply filter_In in I as (I & _). auto.
  - destruct (load bundled w k) as [x|e] eqn:LD; inversion H; subst.
    + split; [|split; [intros y E; inversion E; subst; auto|discriminate]]. intros k' y I. cbn [m_cache] in I. assert (I2 : In (k', y) ((k, x) :: m_cache s)) by (rewrite <- (firstn_skipn 8 ((k, x) :: m_cache s)); apply in_or_app; now left). clear I; rename I2 into I. destruct I as [E|I]; [inversion E; subst; auto|auto].
    + split; [auto|split; [discriminate|auto]].
Qed.
Lemma version_reports : forall x v u, version_of x v = Ok u <-> reports v x u.
Proof.
  intros x v u. unfold version_of, reports. destruct (truthy v) eqn:T.
  - apply truthy_true in T as (q & -> & N). cbn [andb]. destruct (x_version x) as [y|] eqn:X.
    + destruct (opt_eqb (Some q) (Some y)) eqn:E; cbn [negb].
      * apply opt_eqb_eq in E. inversion E; subst y. split.
        -- intros H. inversion H; subst. split; [now left|]. intros z Z _. congruence.
        -- intros ([H|[(H & _)|(H & _)]] & _); congruence.
      * split; [discriminate|]. intros ([H|[(H & _)|(H & _)]] & C); try discriminate. specialize (C q eq_refl N). exfalso.
        assert (opt_eqb (Some q) (Some y) = true) by (apply opt_eqb_eq; congruence). congruence.
    + assert (E : opt_eqb (Some q) (Some q) = true) by now apply opt_eqb_eq. rewrite E. cbn [negb]. split.
      * intros H. inversion H; subst. split; [right; left; auto|]. intros z Z _. congruence.
      * intros ([H|[(_ & H & _)|(_ & [H|H] & _)]] & _); congruence.
  - apply truthy_false in T. cbn [andb]. assert (NV : forall z, v = Some z -> z <> [] -> False) by (intros z Z N; destruct T as [T|T]; congruence).
    destruct (x_version x) as [y|] eqn:X.
    + split; [intros H; inversion H; subst; split; [now left|]; intros z Z N; exfalso; eauto|]. intros ([H|[(H & _)|(H & _)]] & _); congruence.
    + split; [intros H; inversion H; subst; split; [right; right; auto|]; intros z Z N; exfalso; eauto|]. intros ([H|[(_ & H & N)|(_ & _ & ->)]] & _); [congruence|exfalso; eauto|reflexivity].
Qed.
(** one factory *)
Lemma make_ok : forall (P : key -> xml -> Prop) w v p s r s', cache_ok P s -> (forall k x, select bundled idsdef w v p = Ok k -> load bundled w k = Ok x -> P k x) ->
  make bundled idsdef w v p s = (r, s') ->
  cache_ok P s' /\ (forall f, r = Ok f -> exists k, select bundled idsdef w v p = Ok k /\ P k (f_xml f) /\ version_of (f_xml f) v = Ok (f_version f) /\ f_path f = p /\ f_obj f = m_next s) /\
  (forall k x u, select bundled idsdef w v p = Ok k -> load bundled w k = Ok x -> (forall y, P k y -> y = x) -> version_of x v = Ok u -> exists f, r = Ok f) /\
  m_next s <= m_next s' /\ (forall f, r = Ok f -> m_next s' = S (m_next s)).
Proof.
  clear ND NE IE. intros P w v p s r s' C L H. unfold make, dd_etree in H. destruct (select bundled idsdef w v p) as [k|e] eqn:SE.
  2:{ inversion H; subst. split; [auto|]. split; [discriminate|]. split; [discriminate|]. split; [lia|discriminate]. }
  destruct (cached_load bundled w k s) as [r1 s1] eqn:CL. assert (N1 : m_next s1 = m_next s).
  { unfold cached_load in CL. destruct (cache_get (m_cache s) k); [inversion CL; reflexivity|]. destruct (load bundled w k); inversion CL; subst; reflexivity. }
  destruct (cached_load_ok P w k s r1 s1 C (fun x => L k x eq_refl) CL) as (C1 & R1 & E1). destruct r1 as [x|e].
  - specialize (R1 x eq_refl). destruct (version_of x v) as [u|e] eqn:V.
    + inversion H; subst. cbn [f_xml f_version f_path f_obj m_next m_cache]. split; [exact C1|]. split; [intros f E; inversion E; subst; cbn; exists k; auto|]. split; [eauto|]. split; [lia|intros f _; lia].
    + inversion H; subst. split; [exact C1|]. split; [discriminate|]. split; [|split; [lia|discriminate]]. intros k' y u E LD U VE. inversion E; subst k'. rewrite (U x R1) in V. congruence.
  - inversion H; subst. split; [exact C1|]. split; [discriminate|]. split; [|split; [lia|discriminate]]. intros k' y u E LD U VE. inversion E; subst k'. rewrite (E1 e eq_refl) in LD. discriminate.
Qed.
End Factory.
