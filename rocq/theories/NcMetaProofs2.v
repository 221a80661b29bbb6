(** Proofs for C36, part 2: what parsing the coordinates of the data dictionary records. *)
From Verif Require Import Base TreeModel TreeSpec TreeProofs NcMetaModel NcMetaSpec NcMetaProofs.
From Coq Require Import Lia.

Definition slot (u : list (path * list (option str))) (x : axis) : option (option str) :=
  match pget (fst x) u with Some l => nth_error l (snd x) | None => None end.
Definition altl (s : ncs) (p : path) : list path := match pget p (alts s) with Some l => l | None => [] end.
Definition entryb (v : visit) : bool :=
  match mkind (vc v) with KStruct => false | _ => (0 <? ndim (vc v)) || is_some (va v) end.

Lemma seq_nth_error : forall n a k, k < n -> nth_error (seq a n) k = Some (a + k).
Proof. induction n as [|n IH]; intros a [|k] H; cbn; try lia; [f_equal; lia|]. rewrite IH by lia. f_equal; lia. Qed.

Section Parse2.
Variable at_ : path -> nattr.
Variable m : meta.
Notation in_ids := (in_ids m).
Notation shares := (shares at_ m).
Notation own_dim := (own_dim at_ m).
Notation alternative := (alternative at_ m).

Definition seen (v : visit) : Prop := in_ids (vp v) (vc v) (va v) (vl v).
Definition alt_dim (p : path) (i : nat) (q main : path) : Prop :=
  exists others, n_refs (at_ p) i = main :: others /\ ~ inside p main /\ In q others.
Definition alt_by (v : visit) (q main : path) : Prop :=
  error_of (vp v) = None /\
  ((exists i, i < ndim (vc v) /\ alt_dim (vp v) i q main) \/ (main = vp v /\ 0 < ndim (vc v) /\ In q (n_alts (at_ main)))).
Lemma alternative_by : forall q main, alternative q main <-> exists v, seen v /\ alt_by v q main.
Proof.
  intros q main. split.
  - intros H. destruct H.
    + exists (p, c, a, n). split; [assumption|]. cbn. split; [now apply error_of_none|]. left. exists i. split; auto. exists others; auto.
    + exists (main, c, a, n). split; [assumption|]. cbn. split; [now apply error_of_none|]. right. auto.
  - intros ([[[p c] a] n] & S & E & H). cbn in *. pose proof (proj1 (error_of_none p) E) as E0; clear E; rename E0 into E. destruct H as [(i & L & o & R & NI & I)|(-> & L & I)].
    + eapply al_or; eauto.
    + eapply al_listed; eauto.
Qed.

Lemma handle_spec : forall main others s,
  let r := handle_alternatives (main :: others) s in
  fst r = main /\ ut (snd r) = ut s /\ pend (snd r) = pend s /\ dimc (snd r) = dimc s /\ aosm (snd r) = aosm s /\ npaths (snd r) = npaths s /\
  (forall q mm, In q (altl (snd r) mm) <-> In q (altl s mm) \/ (mm = main /\ In q others)) /\
  (NoDup (map fst (alts s)) -> NoDup (map fst (alts (snd r)))).
Proof.
  intros main others s. cbn [handle_alternatives]. cbv zeta. destruct others as [|o t].
  - cbn [fst snd]. repeat (split; auto). intros [H|(_ & [])]; auto.
  - unfold altl. destruct (pget main (alts s)) as [l|] eqn:E; cbn [fst snd set_alts ut pend dimc aosm npaths alts].
    + do 6 (split; [reflexivity|]). split; [|intros; now apply dset_nodup]. intros q mm. rewrite pget_pset. destruct (path_dec mm main) as [->|N].
      * rewrite E, in_app_iff. tauto.
      * tauto.
    + do 6 (split; [reflexivity|]). split; [|intros; now apply dset_nodup]. intros q mm. rewrite pget_pset. destruct (path_dec mm main) as [->|N].
      * rewrite E. cbn [In]. tauto.
      * tauto.
Qed.

Definition same_frame (s s' : ncs) : Prop :=
  ut s' = ut s /\ aosm s' = aosm s /\ npaths s' = npaths s /\ (forall d, sget d (dimc s) <> None -> sget d (dimc s') <> None) /\
  (NoDup (map fst (alts s)) -> NoDup (map fst (alts s'))).
Lemma same_frame_trans : forall a b c, same_frame a b -> same_frame b c -> same_frame a c.
Proof. intros a b c (A1 & A2 & A3 & A4 & A5) (B1 & B2 & B3 & B4 & B5). unfold same_frame. rewrite B1, B2, B3. auto 10. Qed.

Lemma new_dim_frame : forall d t co s, same_frame s (new_dim d t co s) /\ pend (new_dim d t co s) = pend s /\ alts (new_dim d t co s) = alts s /\ sget d (dimc (new_dim d t co s)) <> None.
Proof.
  intros d t co s. unfold new_dim, same_frame. destruct t; cbn [set_dimc set_time ut pend dimc alts aosm npaths].
  - split; [repeat (split; auto); intros; now apply sget_keeps|]. split; auto. split; auto. rewrite sget_sset. destruct (str_dec d d); congruence.
  - split; [repeat (split; auto); intros; now apply sget_keeps|]. split; auto. split; auto. rewrite sget_sset. destruct (str_dec d d); congruence.
Qed.

Lemma inside_dec : forall p q, is_ancestor p q = false -> ~ inside p q.
Proof. intros p q H I. apply is_ancestor_spec in I. congruence. Qed.

Lemma parse_dim_spec : forall c p a n i s o s', in_ids p c a n -> i < ndim c -> error_of p = None ->
  parse_dim at_ c p n i s = Ok (o, s') ->
  same_frame s s' /\
  match o with
  | Some d => own_dim (p, i) d /\ sget d (dimc s') <> None /\ pend s' = pend s
  | None => exists y, shares (p, i) y /\ pend s' = axset (p, i) y (pend s)
  end /\
  (forall q mm, In q (altl s' mm) <-> In q (altl s mm) \/ alt_dim p i q mm).
Proof.
  intros c p a n i s o s' I L E H. pose proof (proj1 (error_of_none p) E) as E0; clear E; rename E0 into E. unfold parse_dim in H. cbv zeta in H. destruct (n_refs (at_ p) i) as [|r0 rs] eqn:R.
  - assert (NA : forall q mm, ~ alt_dim p i q mm) by (intros q mm (o' & R' & _); congruence).
    destruct (n_same (at_ p) i) as [|r [|r' t]] eqn:SA; [|clear NA|discriminate].
    + destruct (negb (n + ndim c =? 1) || is_aos c) eqn:B.
      * destruct (nth_error ["i"; "j"; "k"; "l"; "m"; "n"]%char i) as [x|] eqn:X; [|discriminate].
        match type of H with Ok (Some ?d, new_dim _ ?t ?co _) = _ => destruct (new_dim_frame d t co s) as (F & P & A & D); remember (new_dim d t co s) as nd0 eqn:End; clear End end.
        injection H as Ho Hs; subst o s'. split; [exact F|]. split.
        { split; [|split; [exact D|exact P]]. eapply od_letter; eauto. apply Bool.orb_true_iff in B. destruct B as [B|B].
          - right. apply Bool.negb_true_iff, Nat.eqb_neq in B. exact B.
          - left. unfold is_aos in B. destruct (mkind c); congruence. }
        { intros q mm. unfold altl. rewrite A. split; [auto|]. intros [Q|Q]; [auto|]. now apply NA in Q. }
      * match type of H with Ok (Some ?d, new_dim _ ?t ?co _) = _ => destruct (new_dim_frame d t co s) as (F & P & A & D); remember (new_dim d t co s) as nd0 eqn:End; clear End end.
        injection H as Ho Hs; subst o s'. split; [exact F|]. apply Bool.orb_false_iff in B. destruct B as [B1 B2]. apply Bool.negb_false_iff, Nat.eqb_eq in B1. split.
        { split; [|split; [exact D|exact P]]. assert (i = 0) by lia. subst i. assert (n = 0) by lia. subst n. eapply od_plain; eauto; try lia.
          unfold is_aos in B2. destruct (mkind c); congruence. }
        { intros q mm. unfold altl. rewrite A. split; [auto|]. intros [Q|Q]; [auto|]. now apply NA in Q. }
    + inversion H; subst. destruct (handle_spec r [] s) as (H1 & H2 & H3 & H4 & H5 & H6 & H7 & H8).
      cbn [handle_alternatives fst snd] in *. split.
      { unfold same_frame, set_pend. cbn. auto 10. }
      split; [exists (r, i); split; [eapply sh_same_as; eauto|reflexivity]|].
      intros q mm. unfold altl, set_pend. cbn [alts]. split; [auto|]. intros [Q|(o' & R' & _)]; [auto|congruence].
  - destruct (is_ancestor p r0) eqn:AN.
    + match type of H with Ok (Some ?d, new_dim _ ?t ?co _) = _ => destruct (new_dim_frame d t co s) as (F & P & A & D); remember (new_dim d t co s) as nd0 eqn:End; clear End end.
      injection H as Ho Hs; subst o s'. split; [exact F|]. apply is_ancestor_spec in AN. split; [split; [|split; [exact D|exact P]]; eapply od_inside; eauto|].
      intros q mm. unfold altl. rewrite A. split; [auto|]. intros [Q|(o' & R' & NI & _)]; [auto|]. rewrite R in R'. inversion R'; subst. contradiction.
    + apply inside_dec in AN. destruct (handle_spec r0 rs s) as (H1 & H2 & H3 & H4 & H5 & H6 & H7 & H8).
      remember (handle_alternatives (r0 :: rs) s) as x eqn:Ex. clear Ex. cbv zeta in H. rewrite H1 in H. inversion H; subst. split.
      { unfold same_frame, set_pend. cbn. rewrite H2, H4, H5, H6. auto 10. }
      split.
      { exists (fst x, 0). split; [eapply sh_coordinate; eauto|]. cbn [set_pend pend]. now rewrite H3. }
      intros q mm. unfold altl at 1, set_pend. cbn [alts]. fold (altl (snd x) mm). rewrite H7. split.
      * intros [Q|(-> & Q)]; [auto|]. right. exists rs. auto.
      * intros [Q|(o' & R' & NI & Q)]; [auto|]. rewrite R in R'. inversion R'; subst. auto.
Qed.

Lemma parse_dims_spec : forall c p a n is s os s', in_ids p c a n -> (forall i, In i is -> i < ndim c) -> NoDup is -> error_of p = None ->
  parse_dims at_ c p n is s = Ok (os, s') ->
  (forall i, In i is -> aget (p, i) (pend s) = None) ->
  same_frame s s' /\ length os = length is /\
  (forall k i o, nth_error is k = Some i -> nth_error os k = Some o ->
     match o with
     | Some d => own_dim (p, i) d /\ sget d (dimc s') <> None /\ aget (p, i) (pend s') = None
     | None => exists y, shares (p, i) y /\ aget (p, i) (pend s') = Some y
     end) /\
  (forall x, ~ (fst x = p /\ In (snd x) is) -> aget x (pend s') = aget x (pend s)) /\
  (NoDup (map fst (pend s)) -> NoDup (map fst (pend s'))) /\
  (forall q mm, In q (altl s' mm) <-> In q (altl s mm) \/ exists i, In i is /\ alt_dim p i q mm).
Proof.
  intros c p a n is. induction is as [|i t IH]; intros s os s' I L ND E H PN.
  - cbn in H. inversion H; subst. split; [unfold same_frame; auto|]. split; auto. split; [intros k; destruct k; discriminate|].
    split; auto. split; auto. intros q mm. split; [auto|]. intros [Q|(i & [] & _)]; auto.
  - cbn [parse_dims] in H. destruct (parse_dim at_ c p n i s) as [[o s1]|e] eqn:P; [|discriminate]. cbn [rbind fst snd] in H.
    destruct (parse_dims at_ c p n t s1) as [[os' s2]|e] eqn:P2; [|discriminate]. cbn [rbind fst snd] in H. inversion H; subst os s2. clear H.
    inversion ND as [|? ? NI ND']; subst.
    destruct (parse_dim_spec c p a n i s o s1) as (F1 & O1 & A1); auto; [apply L; now left|].
    assert (PN1 : forall x, x <> (p, i) -> aget x (pend s1) = aget x (pend s)).
    { intros x N. destruct o; [destruct O1 as (_ & _ & ->); auto|]. destruct O1 as (y & _ & ->). now apply aget_other. }
    destruct (IH s1 os' s') as (F2 & L2 & O2 & X2 & N2 & A2); auto; [intros; apply L; now right| |].
    { intros j J. rewrite PN1; [apply PN; now right|]. intros Q. inversion Q; subst. contradiction. }
    assert (X0 : aget (p, i) (pend s') = aget (p, i) (pend s1)) by (apply X2; cbn; tauto).
    split; [eapply same_frame_trans; eauto|]. split; [cbn; lia|]. split.
    { intros [|k] j o' J O'; cbn [nth_error] in J, O'; [|eapply O2; eauto]. inversion J; inversion O'; subst j o'. rewrite X0. destruct o as [d|].
      - destruct O1 as (O1 & D1 & ->). split; auto. split; [now apply F2|]. apply PN. now left.
      - destruct O1 as (y & O1 & ->). exists y. split; auto. apply aget_same. }
    split; [|split].
    + intros x N. rewrite X2; [|intros (? & ?); apply N; split; auto; now right]. apply PN1. intros ->. apply N. cbn. auto.
    + intros Q. apply N2. destruct o; [destruct O1 as (_ & _ & ->); auto|]. destruct O1 as (y & _ & ->). now apply dset_nodup.
    + intros q mm. rewrite A2, A1. split.
      * intros [[Q|Q]|(j & J & Q)]; [auto| |]; right; [exists i; cbn; auto|exists j; cbn; auto].
      * intros [Q|(j & [<-|J] & Q)]; auto. right. eauto.
Qed.

Record inv (V : list visit) (s : ncs) : Prop := {
  i_keys : map fst (ut s) = map vp (filter entryb V);
  i_len : forall v, In v V -> entryb v = true -> exists l, pget (vp v) (ut s) = Some l /\ length l = ndim (vc v);
  i_own : forall x d, slot (ut s) x = Some (Some d) -> own_dim x d /\ aget x (pend s) = None /\ sget d (dimc s) <> None;
  i_none : forall x, slot (ut s) x = Some None -> exists y, shares x y /\ aget x (pend s) = Some y;
  i_pend : forall x y, aget x (pend s) = Some y -> slot (ut s) x = Some None;
  i_nodup : NoDup (map fst (pend s));
  i_alts : forall q mm, In q (altl s mm) <-> exists v, In v V /\ alt_by v q mm;
  i_altn : NoDup (map fst (alts s));
  i_aos : forall v, In v V -> pget (vp v) (aosm s) = va v;
  i_aos0 : forall q, ~ In q (map vp V) -> pget q (aosm s) = None;
  i_paths : npaths s = map vp V }.

Lemma inv0 : inv [] nc0.
Proof.
  constructor; cbn; auto; try (intros; discriminate || contradiction); try constructor; try contradiction; try (intros (v & [] & _)).
Qed.

Lemma dset_new_keys : forall K V dec (k : K) (v : V) l, ~ In k (map fst l) -> dset dec k v l = l ++ [(k, v)].
Proof.
  induction l as [|[k' w] t IH]; intros N; cbn in *; auto. destruct (dec k k') as [->|D]; [tauto|]. rewrite IH by tauto. reflexivity.
Qed.
Lemma pget_none : forall V (l : list (path * V)) k, ~ In k (map fst l) -> pget k l = None.
Proof.
  induction l as [|[k' w] t IH]; intros k N; auto. cbn [map fst In] in N. unfold pget in *. cbn [dget]. destruct (path_dec k k') as [->|D]; [tauto|]. apply IH. tauto.
Qed.
Lemma slot_pset : forall u p l x, slot (pset p l u) x = if path_dec (fst x) p then nth_error l (snd x) else slot u x.
Proof. intros. unfold slot. rewrite pget_pset. destruct (path_dec (fst x) p); auto. Qed.

(** storing the dimensions of one quantity *)
Lemma inv_store : forall V s v s' os, inv V s -> ~ In (vp v) (map vp V) -> seen v -> entryb v = true ->
  length os = ndim (vc v) ->
  ut s' = pset (vp v) os (ut s) ->
  (forall i d, nth_error os i = Some (Some d) -> own_dim (vp v, i) d /\ aget (vp v, i) (pend s') = None /\ sget d (dimc s') <> None) ->
  (forall i, nth_error os i = Some None -> exists y, shares (vp v, i) y /\ aget (vp v, i) (pend s') = Some y) ->
  (forall x, fst x <> vp v \/ ndim (vc v) <= snd x -> aget x (pend s') = aget x (pend s)) ->
  NoDup (map fst (pend s')) ->
  (forall d, sget d (dimc s) <> None -> sget d (dimc s') <> None) ->
  (forall q mm, In q (altl s' mm) <-> In q (altl s mm) \/ alt_by v q mm) ->
  NoDup (map fst (alts s')) ->
  aosm s' = match va v with Some q => pset (vp v) q (aosm s) | None => aosm s end ->
  npaths s' = npaths s ++ [vp v] ->
  inv (V ++ [v]) s'.
Proof.
  intros V s v s' os I NV Sv En Ln U O N F ND D A AN AO P. 
  assert (NU : ~ In (vp v) (map fst (ut s))).
  { rewrite (i_keys _ _ I). intros Q. apply NV. apply in_map_iff in Q. destruct Q as (w & E & Q). rewrite <- E. apply List.in_map. apply filter_In in Q. tauto. }
  assert (PV : forall i, aget (vp v, i) (pend s) = None).
  { intros i. destruct (aget (vp v, i) (pend s)) as [y|] eqn:E; auto. apply (i_pend _ _ I) in E. unfold slot in E. cbn [fst snd] in E. rewrite pget_none in E by auto. discriminate. }
  constructor.
  - rewrite U. unfold pset. rewrite dset_new_keys by auto. rewrite map_app, filter_app, map_app, (i_keys _ _ I). cbn [filter]. rewrite En. reflexivity.
  - intros w W E. apply in_app_or in W. destruct W as [W|[<-|[]]].
    + rewrite U, pget_other; [now apply (i_len _ _ I)|]. intros Q. apply NV. rewrite <- Q. now apply List.in_map.
    + rewrite U, pget_same. eauto.
  - intros [q i] d E. rewrite U, slot_pset in E. cbn [fst snd] in E. destruct (path_dec q (vp v)) as [->|Nq]; [now apply O|].
    destruct (i_own _ _ I _ _ E) as (X & Y & Z). rewrite F by (cbn; auto). auto.
  - intros [q i] E. rewrite U, slot_pset in E. cbn [fst snd] in E. destruct (path_dec q (vp v)) as [->|Nq]; [now apply N|].
    destruct (i_none _ _ I _ E) as (y & X & Y). exists y. rewrite F by (cbn; auto). auto.
  - intros [q i] y E. rewrite U, slot_pset. cbn [fst snd]. destruct (path_dec q (vp v)) as [->|Nq].
    + destruct (nth_error os i) as [[d|]|] eqn:Eo; auto.
      * destruct (O _ _ Eo) as (_ & X & _). congruence.
      * rewrite F in E; [rewrite PV in E; discriminate|]. right. cbn. apply nth_error_None in Eo. lia.
    + rewrite F in E by (cbn; auto). eapply (i_pend _ _ I); eauto.
  - exact ND.
  - intros q mm. rewrite A, (i_alts _ _ I). split.
    + intros [(w & W & Q)|Q]; [exists w|exists v]; rewrite in_app_iff; cbn; auto.
    + intros (w & W & Q). apply in_app_or in W. destruct W as [W|[<-|[]]]; eauto.
  - exact AN.
  - intros w W. rewrite AO. apply in_app_or in W. destruct W as [W|[<-|[]]].
    + assert (NE : vp w <> vp v) by (intros Q; apply NV; rewrite <- Q; now apply List.in_map).
      destruct (va v); [rewrite pget_other by auto|]; now apply (i_aos _ _ I).
    + destruct (va v); [apply pget_same|]. now apply (i_aos0 _ _ I).
  - intros q Q. rewrite AO. rewrite map_app, in_app_iff in Q. cbn in Q.
    destruct (va v); [rewrite pget_other by (intros E; apply Q; auto)|]; apply (i_aos0 _ _ I); tauto.
  - rewrite P, (i_paths _ _ I), map_app. reflexivity.
Qed.
(** a node without dimensions *)
Lemma inv_skip : forall V s v s', inv V s -> ~ In (vp v) (map vp V) -> entryb v = false -> ndim (vc v) = 0 ->
  ut s' = ut s -> pend s' = pend s -> dimc s' = dimc s -> alts s' = alts s ->
  aosm s' = match va v with Some q => pset (vp v) q (aosm s) | None => aosm s end ->
  npaths s' = npaths s ++ [vp v] ->
  inv (V ++ [v]) s'.
Proof.
  intros V s v s' I NV En Z U PE D A AO P. constructor.
  - rewrite U, filter_app, map_app, (i_keys _ _ I). cbn [filter]. rewrite En. cbn. now rewrite app_nil_r.
  - intros w W E. apply in_app_or in W. destruct W as [W|[<-|[]]]; [|congruence]. rewrite U. now apply (i_len _ _ I).
  - rewrite U, PE, D. apply (i_own _ _ I).
  - rewrite U, PE. apply (i_none _ _ I).
  - rewrite U, PE. apply (i_pend _ _ I).
  - rewrite PE. apply (i_nodup _ _ I).
  - intros q mm. unfold altl. rewrite A. fold (altl s mm). rewrite (i_alts _ _ I). split.
    + intros (w & W & Q). exists w. rewrite in_app_iff. auto.
    + intros (w & W & Q). apply in_app_or in W. destruct W as [W|[<-|[]]]; eauto. destruct Q as (_ & [(i & L & _)|(_ & L & _)]); lia.
  - rewrite A. apply (i_altn _ _ I).
  - intros w W. rewrite AO. apply in_app_or in W. destruct W as [W|[<-|[]]].
    + assert (NE : vp w <> vp v) by (intros Q; apply NV; rewrite <- Q; now apply List.in_map).
      destruct (va v); [rewrite pget_other by auto|]; now apply (i_aos _ _ I).
    + destruct (va v); [apply pget_same|]. now apply (i_aos0 _ _ I).
  - intros q Q. rewrite AO. rewrite map_app, in_app_iff in Q. cbn in Q.
    destruct (va v); [rewrite pget_other by (intros E; apply Q; auto)|]; apply (i_aos0 _ _ I); tauto.
  - rewrite P, (i_paths _ _ I), map_app. reflexivity.
Qed.

Lemma set_pends_spec : forall p q is s, let s' := set_pends p q is s in
  ut s' = ut s /\ dimc s' = dimc s /\ alts s' = alts s /\ aosm s' = aosm s /\ npaths s' = npaths s /\
  (forall x, aget x (pend s') = if path_dec (fst x) p then if in_dec Nat.eq_dec (snd x) is then Some (q, snd x) else aget x (pend s) else aget x (pend s)) /\
  (NoDup (map fst (pend s)) -> NoDup (map fst (pend s'))).
Proof.
  intros p q is. induction is as [|i t IH]; intros s; cbv zeta.
  - cbn [set_pends]. do 5 (split; [reflexivity|]). split; auto. intros x. destruct (path_dec (fst x) p); auto.
  - cbn [set_pends]. destruct (IH (set_pend (p, i) (q, i) s)) as (H1 & H2 & H3 & H4 & H5 & H6 & H7). rewrite H1, H2, H3, H4, H5.
    do 5 (split; [reflexivity|]). split.
    + intros [r j]. rewrite H6. cbn [fst snd set_pend pend]. rewrite !aget_axset. destruct (path_dec r p) as [->|N].
      * destruct (in_dec Nat.eq_dec j t) as [J|J], (in_dec Nat.eq_dec j (i :: t)) as [J'|J']; auto.
        -- exfalso. apply J'. now right.
        -- destruct J' as [E|J']; [|contradiction]. subst j. match goal with |- context [axis_dec ?a ?b] => destruct (axis_dec a b) as [Q|Q] end; [reflexivity|exfalso; apply Q; reflexivity].
        -- destruct (axis_dec (p, j) (p, i)) as [Q|Q]; auto. inversion Q; subst. exfalso. apply J'. now left.
      * destruct (axis_dec (r, j) (p, i)) as [Q|Q]; auto. inversion Q; subst. contradiction.
    + intros ND. apply H7. cbn [set_pend pend]. now apply dset_nodup.
Qed.

Lemma parse_dimensions_inv : forall V s v s1 s', inv V s -> ~ In (vp v) (map vp V) -> seen v -> entryb v = true -> 0 < ndim (vc v) ->
  s1 = match va v with Some q => set_aos (vp v) q (add_path (vp v) s) | None => add_path (vp v) s end ->
  parse_dimensions at_ (vc v) (vp v) (vl v) s1 = Ok s' -> inv (V ++ [v]) s'.
Proof.
  intros V s v s1 s' I NV Sv En L Es H.
  assert (U1 : ut s1 = ut s) by (subst s1; destruct (va v); reflexivity).
  assert (P1 : pend s1 = pend s) by (subst s1; destruct (va v); reflexivity).
  assert (D1 : dimc s1 = dimc s) by (subst s1; destruct (va v); reflexivity).
  assert (A1 : alts s1 = alts s) by (subst s1; destruct (va v); reflexivity).
  assert (O1 : aosm s1 = match va v with Some q => pset (vp v) q (aosm s) | None => aosm s end) by (subst s1; destruct (va v); reflexivity).
  assert (N1 : npaths s1 = npaths s ++ [vp v]) by (subst s1; destruct (va v); reflexivity). clear Es.
  assert (NU : ~ In (vp v) (map fst (ut s))).
  { rewrite (i_keys _ _ I). intros Q. apply NV. apply in_map_iff in Q. destruct Q as (w & E & Q). rewrite <- E. apply List.in_map. apply filter_In in Q. tauto. }
  assert (PV : forall i, aget (vp v, i) (pend s) = None).
  { intros i. destruct (aget (vp v, i) (pend s)) as [y|] eqn:E; auto. apply (i_pend _ _ I) in E. unfold slot in E. cbn [fst snd] in E. rewrite pget_none in E by auto. discriminate. }
  unfold parse_dimensions in H. destruct (error_of (vp v)) as [q|] eqn:Er.
  - inversion H as [Hs]. clear H. destruct (set_pends_spec (vp v) q (seq 0 (ndim (vc v))) (set_ut (vp v) (repeat None (ndim (vc v))) s1)) as (H1 & H2 & H3 & H4 & H5 & H6 & H7).
    rewrite Hs in *. cbn [set_ut ut dimc alts aosm npaths pend] in *. 
    apply (inv_store V s v s' (repeat None (ndim (vc v)))); auto.
    + apply repeat_length.
    + congruence.
    + intros i d Q. apply nth_error_In in Q. apply repeat_spec in Q. discriminate.
    + intros i Q. assert (Li : i < ndim (vc v)) by (rewrite <- (repeat_length (@None str) (ndim (vc v))); apply nth_error_Some; congruence).
      exists (q, i). split; [apply (sh_error at_ m (vp v) (vc v) (va v) (vl v) q i Sv Li); now apply error_of_spec|]. rewrite H6. cbn [fst snd]. destruct (path_dec (vp v) (vp v)); [|congruence].
      destruct (in_dec Nat.eq_dec i (seq 0 (ndim (vc v)))) as [J|J]; auto. exfalso. apply J. apply in_seq. lia.
    + intros x X. rewrite H6, P1. destruct (path_dec (fst x) (vp v)) as [E|]; auto. destruct X as [X|X]; [contradiction|].
      destruct (in_dec Nat.eq_dec (snd x) (seq 0 (ndim (vc v)))) as [J|J]; auto. apply in_seq in J. lia.
    + apply H7. rewrite P1. apply (i_nodup _ _ I).
    + intros d. now rewrite H2, D1.
    + intros q' mm. unfold altl. rewrite H3, A1. split; auto. intros [Q|(Q & _)]; auto. congruence.
    + rewrite H3, A1. apply (i_altn _ _ I).
    + congruence.
    + congruence.
  - destruct (parse_dims at_ (vc v) (vp v) (vl v) (seq 0 (ndim (vc v))) s1) as [[os s2]|e] eqn:P; [|discriminate]. cbn [rbind fst snd] in H.
    destruct (parse_dims_spec (vc v) (vp v) (va v) (vl v) (seq 0 (ndim (vc v))) s1 os s2) as ((F1 & F2 & F3 & F4 & F5) & L2 & O2 & X2 & ND2 & A2); auto.
    { intros i J. apply in_seq in J. lia. }
    { apply seq_NoDup. }
    { intros i _. rewrite P1. apply PV. }
    rewrite seq_length in L2.
    assert (OS : forall i o, nth_error os i = Some o -> match o with Some d => own_dim (vp v, i) d /\ sget d (dimc s2) <> None /\ aget (vp v, i) (pend s2) = None | None => exists y, shares (vp v, i) y /\ aget (vp v, i) (pend s2) = Some y end).
    { intros i o Q. apply (O2 i i o); auto. assert (i < length os) by (apply nth_error_Some; congruence). rewrite seq_nth_error by lia. reflexivity. }
    assert (FR : forall x, fst x <> vp v \/ ndim (vc v) <= snd x -> aget x (pend s2) = aget x (pend s)).
    { intros x X. rewrite X2, P1; auto. intros (E1 & E2). apply in_seq in E2. destruct X; [contradiction|lia]. }
    assert (ND2' : NoDup (map fst (pend s2))) by (apply ND2; rewrite P1; apply (i_nodup _ _ I)).
    assert (AN2 : NoDup (map fst (alts s2))) by (apply F5; rewrite A1; apply (i_altn _ _ I)).
    assert (AL : forall q mm, In q (altl s2 mm) <-> In q (altl s mm) \/ exists i, i < ndim (vc v) /\ alt_dim (vp v) i q mm).
    { intros q mm. rewrite A2. assert (AE : altl s1 mm = altl s mm) by (unfold altl; now rewrite A1). rewrite AE. split; intros [Q|(i & J & Q)]; auto; right; exists i; split; auto; [apply in_seq in J; lia|apply in_seq; lia]. }
    destruct (n_alts (at_ (vp v))) as [|a0 at0] eqn:NA.
    + inversion H; subst s'. apply (inv_store V s v _ os); auto; cbn [set_ut ut dimc alts aosm npaths pend]; try congruence.
      * intros i d Q. apply OS in Q. tauto.
      * intros i Q. apply OS in Q. exact Q.
      * intros d Q. apply F4. now rewrite D1.
      * intros q mm. match goal with |- In q (altl ?t mm) <-> _ => change (altl t mm) with (altl s2 mm) end. rewrite AL. unfold alt_by. rewrite NA || idtac. split.
        -- intros [Q|Q]; auto.
        -- intros [Q|(_ & [Q|(-> & _ & Q)])]; auto. rewrite NA in Q. destruct Q.
    + remember (a0 :: at0) as al eqn:Eal.
      match type of H with context [set_alts (vp v) ?l s2] => remember l as nl eqn:Enl end.
      destruct (last os None) as [d|]; [|discriminate]. cbn [set_alts dimc] in H. destruct (sget d (dimc s2)) as [l|] eqn:Sd; [|discriminate].
      inversion H; subst s'. apply (inv_store V s v _ os); auto; cbn [set_ut set_dimc set_alts ut dimc alts aosm npaths pend]; try congruence.
      * intros i d' Q. apply OS in Q. destruct Q as (Q1 & Q2 & Q3). split; auto. split; auto. now apply sget_keeps.
      * intros i Q. apply OS in Q. exact Q.
      * intros d' Q. apply sget_keeps. apply F4. now rewrite D1.
      * intros q mm. match goal with |- In q (altl ?t mm) <-> _ => change (altl t mm) with (match pget mm (pset (vp v) nl (alts s2)) with Some l0 => l0 | None => [] end) end. rewrite pget_pset. unfold alt_by. destruct (path_dec mm (vp v)) as [->|N].
        -- assert (Q : In q nl <-> In q (altl s2 (vp v)) \/ In q al).
           { rewrite Enl. unfold altl. destruct (pget (vp v) (alts s2)); [rewrite in_app_iff; tauto|cbn [In]; tauto]. }
           rewrite Q, AL, NA. split; [intros [[?|?]|?]; auto 6|intros [?|(_ & [?|(_ & _ & ?)])]; auto].
        -- fold (altl s2 mm). rewrite AL. split; [intros [Q|Q]; auto|intros [Q|(_ & [Q|(Q & _)])]; auto]. contradiction.
      * now apply dset_nodup.
Qed.

Lemma parse_one_inv : forall V s v s', inv V s -> ~ In (vp v) (map vp V) -> seen v ->
  parse_one at_ (vc v) (vp v) (va v) (vl v) s = Ok s' -> inv (V ++ [v]) s'.
Proof.
  intros V s v s' I NV Sv H. unfold parse_one in H. cbv zeta in H.
  assert (K : mkind (vc v) = KStruct \/ mkind (vc v) <> KStruct) by (destruct (mkind (vc v)); [left|right|right]; congruence).
  destruct K as [K|K].
  - rewrite K in H. inversion H; subst s'. apply (inv_skip V s v); auto; try (destruct (va v); reflexivity); unfold entryb, ndim; now rewrite K.
  - assert (E : (if 0 <? ndim (vc v) then parse_dimensions at_ (vc v) (vp v) (vl v) (match va v with Some q => set_aos (vp v) q (add_path (vp v) s) | None => add_path (vp v) s end)
       else Ok (match va v with Some _ => set_ut (vp v) [] (match va v with Some q => set_aos (vp v) q (add_path (vp v) s) | None => add_path (vp v) s end)
                | None => match va v with Some q => set_aos (vp v) q (add_path (vp v) s) | None => add_path (vp v) s end end)) = Ok s').
    { rewrite <- H. destruct (mkind (vc v)); [congruence| |]; reflexivity. }
    clear H. assert (EB : entryb v = (0 <? ndim (vc v)) || is_some (va v)) by (unfold entryb; destruct (mkind (vc v)); congruence).
    destruct (0 <? ndim (vc v)) eqn:Z.
    + apply Nat.ltb_lt in Z. eapply parse_dimensions_inv; eauto.
    + apply Nat.ltb_ge in Z. inversion E; subst s'. clear E. destruct (va v) as [q|] eqn:VA.
      * apply (inv_store V s v _ []); auto; cbn [set_ut set_aos add_path ut dimc alts aosm npaths pend length]; auto; try lia.
        -- intros i d Q. destruct i; discriminate.
        -- intros i Q. destruct i; discriminate.
        -- apply (i_nodup _ _ I).
        -- intros q' mm. unfold altl. cbn [alts]. split; auto. intros [Q|(_ & [(i & L & _)|(_ & L & _)])]; auto; lia.
        -- apply (i_altn _ _ I).
        -- now rewrite VA.
      * apply (inv_skip V s v); auto; [lia|]. now rewrite VA.
Qed.

Lemma parse_all_inv : forall vs V s s', inv V s -> NoDup (map vp (V ++ vs)) -> (forall v, In v vs -> seen v) ->
  parse_all at_ vs s = Ok s' -> inv (V ++ vs) s'.
Proof.
  induction vs as [|v t IH]; intros V s s' I ND Sv H; cbn in H; [inversion H; subst; now rewrite app_nil_r|].
  destruct (parse_one at_ (vc v) (vp v) (va v) (vl v) s) as [s1|e] eqn:P; [|discriminate]. cbn [rbind] in H.
  assert (I1 : inv (V ++ [v]) s1).
  { eapply parse_one_inv; eauto; [|apply Sv; now left]. rewrite map_app in ND. cbn [map] in ND. apply NoDup_remove_2 in ND. rewrite in_app_iff in ND. tauto. }
  replace (V ++ v :: t) with ((V ++ [v]) ++ t) by now rewrite <- app_assoc. apply (IH _ s1); auto.
  - now rewrite <- app_assoc.
  - intros w W. apply Sv. now right.
Qed.

Theorem parse_inv : forall s, wf_meta m -> parse at_ m [] None 0 nc0 = Ok s -> inv (visits m [] None 0) s.
Proof.
  intros s W H. rewrite parse_visits in H. apply (parse_all_inv (visits m [] None 0) [] nc0 s); auto.
  - apply inv0.
  - cbn [app]. now apply visits_nodup.
  - intros v V. apply visits_In in V. exact V.
Qed.
End Parse2.
