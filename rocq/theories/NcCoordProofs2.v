(** Proofs for C53, part 2: all quantities, alternatives, and the lists of coordinates. *)
From Verif Require Import Base TreeModel TreeSpec TreeProofs NcMetaModel NcMetaSpec NcMetaProofs NcMetaProofs2 NcMetaProofs3 NcMetaProofs4 NcMetaProps NcCoordSpec NcCoordProofs.
From Coq Require Import Lia.

Section C.
Variable at_ : path -> nattr.
Variable m : meta.
Hypothesis W : wf_meta m.
Notation in_ids := (in_ids m).
Notation own_dim := (own_dim at_ m).
Notation alternative := (alternative at_ m).
Notation time_axis := (time_axis at_ m).
Notation made_with := (made_with at_ m).
Notation cinv := (cinv at_ m).
Notation listed := (listed at_).

Lemma parse_one_cinv : forall V s v s', cinv (axes_of V) (listed V) s -> ~ In (vp v) (map vp V) -> seen m v ->
  parse_one at_ (vc v) (vp v) (va v) (vl v) s = Ok s' -> cinv (axes_of (V ++ [v])) (listed (V ++ [v])) s'.
Proof.
  intros V s v s' I NV Sv H. unfold parse_one in H. cbv zeta in H.
  assert (SK : ndim (vc v) = 0 -> forall t, time_dims t = time_dims s -> dimc t = dimc s -> cinv (axes_of (V ++ [v])) (listed (V ++ [v])) t).
  { intros Z t T D. apply (cinv_ext at_ m (axes_of V) _ (listed V) _ _); [eapply cinv_frame; eauto| |].
    - intros x d O. rewrite axes_app. split; auto. intros [X|(_ & X)]; auto. lia.
    - intros x d k O. rewrite listed_app. split; auto. intros [X|(_ & X & _)]; auto. lia. }
  set (s2 := match va v with Some q => set_aos (vp v) q (add_path (vp v) s) | None => add_path (vp v) s end) in *.
  assert (T2 : time_dims s2 = time_dims s /\ dimc s2 = dimc s) by (unfold s2; destruct (va v); auto). destruct T2 as (T2 & D2).
  assert (ND : 0 < ndim (vc v) -> parse_dimensions at_ (vc v) (vp v) (vl v) s2 = Ok s' -> cinv (axes_of (V ++ [v])) (listed (V ++ [v])) s').
  { intros Z X. apply (parse_dimensions_cinv at_ m W V s2 v s'); auto. eapply cinv_frame; eauto. }
  destruct (mkind (vc v)) as [| |dt nd] eqn:K.
  - inversion H; subst s'. apply SK; auto. unfold ndim. rewrite K. reflexivity.
  - apply ND; [unfold ndim; rewrite K; lia|]. unfold ndim in H at 1. rewrite K in H. exact H.
  - destruct (0 <? ndim (vc v)) eqn:Z; [apply ND; [apply Nat.ltb_lt; exact Z|exact H]|]. apply Nat.ltb_ge in Z. inversion H; subst s'. apply SK; [lia| |]; destruct (va v); cbn; auto.
Qed.
Lemma parse_all_cinv : forall vs V s s', cinv (axes_of V) (listed V) s -> NoDup (map vp (V ++ vs)) -> (forall v, In v vs -> seen m v) ->
  parse_all at_ vs s = Ok s' -> cinv (axes_of (V ++ vs)) (listed (V ++ vs)) s'.
Proof.
  induction vs as [|v t IH]; intros V s s' I ND Sv H; cbn in H; [inversion H; subst; now rewrite app_nil_r|].
  destruct (parse_one at_ (vc v) (vp v) (va v) (vl v) s) as [s1|e] eqn:P; [|discriminate]. cbn [rbind] in H.
  assert (I1 : cinv (axes_of (V ++ [v])) (listed (V ++ [v])) s1).
  { eapply parse_one_cinv; eauto; [|apply Sv; now left]. rewrite map_app in ND. cbn [map] in ND. apply NoDup_remove_2 in ND. rewrite in_app_iff in ND. tauto. }
  replace (V ++ v :: t) with ((V ++ [v]) ++ t) by now rewrite <- app_assoc. apply (IH _ s1); auto.
  - now rewrite <- app_assoc.
  - intros w Hw. apply Sv. now right.
Qed.
Lemma parse_cinv : forall s, parse at_ m [] None 0 nc0 = Ok s -> cinv (axis_ok m) (listed (visits m [] None 0)) s.
Proof.
  intros s H. rewrite parse_visits in H. apply (parse_all_cinv (visits m [] None 0) [] nc0 s) in H.
  - cbn [app] in H. eapply cinv_ext; [exact H| |intros; tauto]. intros x d O. split; intros _; [eapply own_ok; eauto|].
    destruct (own_ok _ _ _ _ O) as (c & a & n & IN & L). exists (fst x, c, a, n). split; [apply visits_In; exact IN|]. auto.
  - constructor.
    + intros d. cbn. split; [tauto|]. intros (x & (v & [] & _) & _).
    + intros d l k X. discriminate.
    + intros _ x d (v & [] & _).
  - cbn [app]. now apply visits_nodup.
  - intros v V. apply visits_In in V. exact V.
Qed.

(** ** Alternatives *)
Definition alts_of (l : list (path * list path)) (x : axis) (k : str) : Prop := exists p al q, In (p, al) l /\ In q al /\ x = (p, 0) /\ k = dotted q.
Lemma merge_path_times : forall p al s s', merge_path p al s = Ok s' -> time_dims s' = time_dims s /\ dimc s' = dimc s.
Proof.
  intros p al. induction al as [|a t IH]; intros s s' H; cbn [merge_path] in H; [inversion H; auto|].
  destruct (pget a (ut s)) as [[|[d|] [|]]|]; try discriminate.
  - apply IH in H as (A & B). rewrite A, B. auto.
  - destruct (aget (a, 0) (pend s)) as [x|]; [|discriminate]. destruct (axis_dec x (p, 0)); [|discriminate]. auto.
Qed.
Lemma merge_one_cinv : forall s0 p al done s s' Q, minv at_ m s0 done s -> (forall a, In a al -> alternative a p) -> cinv (axis_ok m) Q s -> merge_one p al s = Ok s' ->
  cinv (axis_ok m) (more Q (p, 0) (map dotted al)) s' /\ lens (ut s0) p = Some 1.
Proof.
  intros s0 p al done s s' Q I A C H. unfold merge_one in H. destruct (pget p (ut s)) as [[|o [|o' t]]|] eqn:G; try discriminate.
  destruct (merge_path p al s) as [s1|e] eqn:M; [|discriminate]. cbn [rbind] in H. destruct (merge_path_times _ _ _ _ M) as (T & D).
  apply (merge_path_inv at_ m s0 p al done s s1 I A) in M. destruct (pget p (ut s1)) as [[|[d|] t]|] eqn:G1; try discriminate.
  destruct (sget d (dimc s1)) as [l|] eqn:Sd; [|discriminate]. inversion H; subst s'. split.
  - destruct (m_own _ _ _ _ _ M (p, 0) d) as (O & _); [unfold slot; cbn [fst snd]; rewrite G1; reflexivity|].
    apply cinv_more with (l := l); auto.
    + eapply cinv_frame; eauto.
    + eapply own_ok; eauto.
    + intros k. apply add_missing_In.
  - rewrite <- (m_lens _ _ _ _ _ I p). unfold lens. rewrite G. reflexivity.
Qed.
Lemma merge_alternatives_cinv : forall s0 l done s s' Q, minv at_ m s0 done s -> (forall p al a, In (p, al) l -> In a al -> alternative a p) -> cinv (axis_ok m) Q s ->
  merge_alternatives l s = Ok s' -> cinv (axis_ok m) (fun x k => Q x k \/ alts_of l x k) s' /\ forall p al, In (p, al) l -> lens (ut s0) p = Some 1.
Proof.
  intros s0 l. induction l as [|[p al] t IH]; intros done s s' Q I A C H; cbn [merge_alternatives] in H.
  - inversion H; subst. split; [|intros p al []]. eapply cinv_ext; [exact C|intros; tauto|]. intros x d k O. split; auto. intros [X|(p & al & q & [] & _)]; auto.
  - destruct (merge_one p al s) as [s1|e] eqn:M; [|discriminate]. cbn [rbind] in H.
    assert (A1 : forall a, In a al -> alternative a p) by (intros a Ia; eapply A; eauto; now left).
    destruct (merge_one_cinv s0 p al done s s1 Q I A1 C M) as (C1 & L1).
    pose proof (merge_one_inv at_ m s0 p al done s s1 I A1 M) as I1.
    destruct (IH _ s1 s' (more Q (p, 0) (map dotted al)) I1) as (C2 & L2); auto; [intros; eapply A; eauto; now right|]. split.
    + eapply cinv_ext; [exact C2|intros; tauto|]. intros x d k O. unfold more. split.
      * intros [[X|(-> & X)]|(p' & al' & q & X & Y)]; auto; right.
        -- apply in_map_iff in X as (q & <- & X). exists p, al, q. split; [left; reflexivity|]. auto.
        -- exists p', al', q. split; [right; exact X|]. exact Y.
      * intros [X|(p' & al' & q & [X|X] & Y & -> & ->)]; auto.
        -- injection X as <- <-. left. right. split; auto. apply List.in_map. exact Y.
        -- right. exists p', al', q. auto.
    + intros p' al' [X|X]; [injection X as <- <-; exact L1|eauto].
Qed.

(** what is known when the dimensions are resolved *)
Record known (s : ncs) : Prop := {
  k_time : forall d, In d (time_dims s) <-> time_name at_ m d;
  k_sound : forall d l k, sget d (dimc s) = Some l -> In k l -> exists x, own_dim x d /\ coordinate at_ m x k;
  k_complete : one_owner at_ m -> forall x d l k, own_dim x d -> sget d (dimc s) = Some l -> coordinate at_ m x k -> In k l }.
Lemma merged_known : forall s0 s, parse at_ m [] None 0 nc0 = Ok s0 -> merge_alternatives (alts s0) s0 = Ok s -> known s.
Proof.
  intros s0 s P M. pose proof (parse_inv at_ m s0 W P) as I. pose proof (parse_cinv s0 P) as C.
  assert (AL : forall q mm, alternative q mm <-> exists al, In (mm, al) (alts s0) /\ In q al).
  { intros q mm. rewrite alternative_by.
    assert (X : In q (altl s0 mm) <-> exists al, In (mm, al) (alts s0) /\ In q al).
    { unfold altl. destruct (pget mm (alts s0)) as [l|] eqn:G; split.
      - intros J. exists l. split; auto. eapply dget_In; eauto.
      - intros (al & J1 & J2). apply (In_dget _ _ path_dec) in J1; [|apply (i_altn _ _ _ _ I)]. unfold pget in G. congruence.
      - intros [].
      - intros (al & J1 & J2). apply (In_dget _ _ path_dec) in J1; [|apply (i_altn _ _ _ _ I)]. unfold pget in G. congruence. }
    rewrite <- X, (i_alts _ _ _ _ I). split; intros (v & Sv & B); exists v; split; auto; apply visits_In; auto. }
  destruct (merge_alternatives_cinv s0 (alts s0) [] s0 s (listed (visits m [] None 0))) as (C2 & L2); auto.
  { eapply inv_minv; eauto. }
  { intros p al a J1 J2. apply AL. eauto. }
  assert (EQ : forall x d k, own_dim x d -> (listed (visits m [] None 0) x k \/ alts_of (alts s0) x k <-> snd x = 0 /\ exists q, alternative q (fst x) /\ k = dotted q)).
  { intros x d k O. split.
    - intros [(v & q & Iv & E1 & E2 & E3 & E4 & ->)|(p & al & q & J1 & J2 & -> & ->)].
      + assert (A : alternative q (fst x)).
        { apply alternative_by. exists v. split; [apply visits_In; exact Iv|]. split; auto. right. rewrite E1. split; auto. split; auto. lia. }
        split; [|eauto]. destruct (proj1 (AL _ _) A) as (al & J1 & J2). pose proof (L2 _ _ J1) as LL. unfold lens in LL.
        assert (EN : entryb v = true).
        { unfold entryb. assert (Z : 0 < ndim (vc v)) by lia. destruct (mkind (vc v)) eqn:K; [unfold ndim in Z; rewrite K in Z; lia| |]; apply Bool.orb_true_iff; left; apply Nat.ltb_lt; exact Z. }
        destruct (i_len _ _ _ _ I v Iv EN) as (l & G & Ll). rewrite E1, G in LL. cbn in LL. injection LL as LL. lia.
      + split; auto. exists q. split; auto. apply AL. eauto.
    - intros (Z & q & A & ->). right. apply AL in A as (al & J1 & J2). exists (fst x), al, q. split; auto. split; auto. split; auto. destruct x; cbn in *; congruence. }
  constructor.
  - intros d. rewrite (c_time _ _ _ _ _ C2). unfold time_name. split; intros (x & X); exists x; [tauto|]. split; [eapply own_ok; apply X|exact X].
  - intros d l k G K. destruct (c_sound _ _ _ _ _ C2 d l k G K) as (x & _ & O & X). exists x. split; auto. destruct X as [X|X]; [left; exact X|right]. eapply EQ; eauto.
  - intros OO x d l k O G K. destruct (c_complete _ _ _ _ _ C2 OO x d (own_ok _ _ _ _ O) O) as (l' & G' & H). rewrite G in G'. injection G' as <-. apply H.
    destruct K as [K|K]; [left; exact K|right]. eapply EQ; eauto.
Qed.

(** ** Lists of coordinates *)
Definition cget (l : list (path * list str)) (p : path) : list str := match pget p l with Some x => x | None => [] end.
Lemma tensorize_coords : forall s items dims coords dims' coords', NoDup (map fst items) -> (forall p, In p (map fst items) -> pget p dims = None /\ pget p coords = None) ->
  tensorize at_ m items s dims coords = Ok (dims', coords') ->
  (forall p, ~ In p (map fst items) -> pget p coords' = pget p coords) /\
  (forall p own, In (p, own) items -> exists c oc, meta_at m p = Some c /\ own_coordinates at_ p 0 own (dimc s) = Ok oc /\
     cget coords' p = (match pget p (aosm s) with None => [] | Some q => cget coords' q end) ++ oc ++ (if is_aos c then label_coordinates p c else [])).
Proof.
  intros s items. induction items as [|[p own] t IH]; intros dims coords dims' coords' ND DJ H; cbn [tensorize] in H.
  - inversion H; subst. split; auto. intros p own [].
  - cbn [map fst] in ND. inversion ND as [|? ? NI ND']; subst.
    destruct (match pget p (aosm s) with None => Ok ([], []) | Some q => match pget q dims with None => Err KeyErr | Some d => Ok (d, match pget q coords with Some l => l | None => [] end) end end) as [a|e] eqn:Ea; [|discriminate].
    cbn [rbind] in H. destruct (meta_at m p) as [c|] eqn:Mc; [|discriminate]. destruct (own_coordinates at_ p 0 own (dimc s)) as [oc|e] eqn:OC; [|discriminate]. cbn [rbind] in H. cbv zeta in H.
    set (cl := snd a ++ oc ++ (if is_aos c then label_coordinates p c else [])) in *.
    assert (KO : forall q, q <> p -> pget q (match cl with [] => coords | _ :: _ => pset p cl coords end) = pget q coords) by (intros q N; destruct cl; [reflexivity|apply pget_other; exact N]).
    assert (KS : pget p coords = None -> cget (match cl with [] => coords | _ :: _ => pset p cl coords end) p = cl).
    { intros N. unfold cget. destruct cl; [rewrite N; reflexivity|rewrite pget_same; reflexivity]. }
    apply IH in H; auto.
    2:{ intros q Q. assert (q <> p) by (intros ->; contradiction). rewrite pget_other by auto. rewrite KO by auto. apply DJ. now right. }
    destruct H as (H1 & H2). split.
    + intros q Q. cbn [map fst In] in Q. rewrite H1 by tauto. apply KO. intros ->. tauto.
    + intros q o [E|Q]; [|now apply H2]. inversion E; subst q o. exists c, oc. split; auto. split; auto. unfold cget at 1. rewrite H1 by auto.
      fold (cget (match cl with [] => coords | _ :: _ => pset p cl coords end) p). rewrite KS by (apply DJ; left; reflexivity). unfold cl. f_equal.
      destruct (pget p (aosm s)) as [q|]; [|inversion Ea; reflexivity]. destruct (pget q dims) as [d|] eqn:G; [|discriminate]. inversion Ea; subst a. cbn [snd].
      assert (Nq : ~ In q (map fst ((p, own) :: t))) by (intros Q; apply DJ in Q as (Q & _); congruence). cbn [map fst In] in Nq.
      unfold cget. rewrite H1 by tauto. rewrite KO; [reflexivity|]. intros ->. tauto.
Qed.
Lemma own_coordinates_spec : forall p dc own i oc, own_coordinates at_ p i own dc = Ok oc -> exists ls, length ls = length own /\ oc = concat ls /\
  forall k l, nth_error ls k = Some l -> (n_refs (at_ p) (i + k) = [] -> l = []) /\ (n_refs (at_ p) (i + k) <> [] -> exists d, nth_error own k = Some (Some d) /\ sget d dc = Some l).
Proof.
  intros p dc own. induction own as [|o t IH]; intros i oc H; cbn [own_coordinates] in H.
  - inversion H; subst. exists []. split; auto. split; auto. intros [|k]; discriminate.
  - destruct (n_refs (at_ p) i) as [|r rs] eqn:R.
    + destruct (IH (S i) oc H) as (ls & L & E & SP). exists ([] :: ls). split; [cbn; auto|]. split; [exact E|]. intros [|k] l X; cbn [nth_error] in *.
      * injection X as <-. rewrite Nat.add_0_r, R. split; [auto|congruence].
      * replace (i + S k) with (S i + k) by lia. apply SP. exact X.
    + destruct (match o with Some d => sget d dc | None => None end) as [l0|] eqn:G; [|discriminate]. destruct (own_coordinates at_ p (S i) t dc) as [oc'|e] eqn:O; [|discriminate]. cbn [rbind] in H. inversion H; subst oc.
      destruct (IH (S i) oc' O) as (ls & L & E & SP). exists (l0 :: ls). split; [cbn; auto|]. split; [cbn [concat]; congruence|]. intros [|k] l X; cbn [nth_error] in *.
      * injection X as <-. rewrite Nat.add_0_r, R. split; [congruence|]. intros _. destruct o as [d|]; [|discriminate]. eauto.
      * replace (i + S k) with (S i + k) by lia. apply SP. exact X.
Qed.
End C.
