(** Facts about the netCDF dimensions used for files. *)
From Verif Require Import Base TreeModel TreeSpec TreeProofs ValProofs StoreProofs2 NcMetaModel NcMetaSpec NcMetaProofs NcMetaProofs2 NcMetaProofs3 NcMetaProofs4 NcMetaProps NcFileModel NcFileSpec NcFileProofs NcFileProofs2 NcFileProofs3.
From Coq Require Import Lia.

Lemma merge_path_paths : forall p al s s', merge_path p al s = Ok s' -> npaths s' = npaths s.
Proof.
  induction al as [|a al IH]; intros s s' H; cbn [merge_path] in H; [inversion H; auto|].
  destruct (pget a (ut s)) as [[|[d|] [|]]|]; try discriminate.
  - apply IH in H. exact H.
  - destruct (aget (a, 0) (pend s)) as [x|]; [|discriminate]. destruct (axis_dec x (p, 0)); [|discriminate]. apply IH in H. exact H.
Qed.
Lemma merge_one_paths : forall p al s s', merge_one p al s = Ok s' -> npaths s' = npaths s.
Proof.
  intros p al s s' H. unfold merge_one in H. destruct (pget p (ut s)) as [[|x [|]]|]; try discriminate.
  destruct (merge_path p al s) as [s1|e] eqn:M; [|discriminate]. cbn [rbind] in H. apply merge_path_paths in M.
  destruct (pget p (ut s1)) as [[|[d|] l]|]; try discriminate. destruct (sget d (dimc s1)) as [l'|]; [|discriminate]. inversion H; subst. exact M.
Qed.
Lemma merge_paths : forall l s s', merge_alternatives l s = Ok s' -> npaths s' = npaths s.
Proof.
  induction l as [|[p al] l IH]; intros s s' H; cbn [merge_alternatives] in H; [inversion H; auto|].
  destruct (merge_one p al s) as [s1|e] eqn:M; [|discriminate]. cbn [rbind] in H. apply merge_one_paths in M. apply IH in H. congruence.
Qed.
Lemma tensorize_coords : forall at_ m s items dims coords dims' coords', tensorize at_ m items s dims coords = Ok (dims', coords') ->
  forall p, ~ In p (map fst items) -> pget p coords = None -> pget p coords' = None.
Proof.
  intros at_ m s. induction items as [|[q own] t IH]; intros dims coords dims' coords' H p N C; cbn [tensorize] in H; [inversion H; subst; auto|].
  destruct (match pget q (aosm s) with None => Ok ([], []) | Some q' => match pget q' dims with None => Err KeyErr | Some d => Ok (d, match pget q' coords with Some l => l | None => [] end) end end) as [a|e]; [|discriminate].
  cbn [rbind] in H. destruct (meta_at m q) as [c|]; [|discriminate]. destruct (own_coordinates at_ q 0 own (dimc s)) as [oc|e]; [|discriminate]. cbn [rbind] in H. cbv zeta in H.
  apply (IH _ _ _ _ H); [intros Q; apply N; now right|].
  destruct (snd a ++ oc ++ (if is_aos c then label_coordinates q c else [])); auto. rewrite pget_other; auto. intros ->. apply N. now left.
Qed.

Lemma clean_below : forall m names parent lv, (forall p c a n, below m names parent lv p c a n -> name_ok (mname c)) -> wf_meta m -> clean m.
Proof.
  induction m as [nm k cs IH] using meta_ind'. intros names parent lv H W. inversion W as [? ? ? ND WC LF]; subst. constructor. intros c I. split.
  - assert (N : name_ok (mname c)) by (eapply H; now constructor). destruct N as (x & t & E & D & _). exact D.
  - destruct (mkind c) as [| |dt nd] eqn:Kc.
    + apply (IH c I (names ++ [mname c]) parent lv); auto. intros p d a n B. eapply H. eapply bl_struct; eauto.
    + apply (IH c I (names ++ [mname c]) (Some (names ++ [mname c])) (S lv)); auto. intros p d a n B. eapply H. eapply bl_aos; eauto.
    + specialize (WC c I). destruct c as [cn ck cc]. cbn in Kc. subst ck. inversion WC as [? ? ? ? ? L]; subst. rewrite (L _ _ eq_refl). constructor. intros d [].
Qed.

Lemma below_path : forall m names parent lv p c a n, below m names parent lv p c a n -> exists nm t, p = names ++ nm :: t /\ In nm (map mname (mchildren m)).
Proof.
  intros m names parent lv p c a n B. induction B as [nm k cs names parent lv c I|nm k cs names parent lv c p c' a n I K B IH|nm k cs names parent lv c p c' a n I K B IH].
  - exists (mname c), []. split; auto. cbn. now apply List.in_map.
  - destruct IH as (x & t & -> & _). exists (mname c), (x :: t). split; [now rewrite <- app_assoc|]. cbn. now apply List.in_map.
  - destruct IH as (x & t & -> & _). exists (mname c), (x :: t). split; [now rewrite <- app_assoc|]. cbn. now apply List.in_map.
Qed.
Lemma dotted_head : forall x s t, exists u, dotted ((x :: s) :: t) = x :: u.
Proof. intros x s [|y t]; cbn; eauto. Qed.

(** a location in the dictionary *)
Lemma meta_at_below : forall p m names parent lv c, wf_meta m -> p <> [] -> meta_at m p = Some c -> exists a n, below m names parent lv (names ++ p) c a n.
Proof.
  induction p as [|nm p IH]; intros [mn mk cs] names parent lv c W NE M; [congruence|]. cbn [meta_at mchildren] in M.
  destruct (List.find (fun d => str_eqb (mname d) nm) cs) as [d|] eqn:F; [|discriminate]. apply find_some in F. destruct F as [I E]. apply str_eqb_eq in E. subst nm.
  inversion W as [? ? ? ND WC LF]; subst. destruct p as [|nm2 p].
  - cbn in M. inversion M; subst. exists parent, lv. now constructor.
  - destruct (mkind d) as [| |dt nd] eqn:Kd.
    + destruct (IH d (names ++ [mname d]) parent lv c (WC d I)) as (a & n & B); auto; [discriminate|]. exists a, n. rewrite <- app_assoc in B. eapply bl_struct; eauto.
    + destruct (IH d (names ++ [mname d]) (Some (names ++ [mname d])) (S lv) c (WC d I)) as (a & n & B); auto; [discriminate|]. exists a, n. rewrite <- app_assoc in B. eapply bl_aos; eauto.
    + specialize (WC d I). destruct d as [dn dk dc]. cbn in Kd. subst dk. inversion WC as [? ? ? ? ? L]; subst. cbn [meta_at mchildren] in M. rewrite (L _ _ eq_refl) in M. discriminate.
Qed.

Section Meta.
Variable at_ : path -> nattr.
Variable fuel : nat.
Variable m : meta.
Variable r : ncmeta.
Hypothesis W : wf_meta m.
Hypothesis R : nc_metadata at_ fuel m = Ok r.
Hypothesis NO : names_ok m.
Hypothesis SD : small_dims m.

Lemma dims_shape : forall h p c a n, in_ids m p c a n -> mkind c <> KStruct ->
  exists own, length own = ndim c /\ get_dimensions r h p = (match a with Some q => get_dimensions r h q | None => [] end) ++ own.
Proof.
  intros h p c a n I K. destruct (C36_dimensions at_ fuel m r h p c a n W R I K) as (own & L & E & _). exists (map (rename_time r h) own). rewrite map_length. auto.
Qed.
Lemma dims_length : forall h p c a n, in_ids m p c a n -> mkind c <> KStruct -> length (get_dimensions r h p) = n + ndim c.
Proof. intros. eapply C36_rank; eauto. Qed.

Lemma nc_facts : (forall p c a n, in_ids m p c a n -> pget p (nc_aos r) = a) /\ nc_paths r = map vp (visits m [] None 0) /\
  (forall p c a n, in_ids m p c a n -> entryb (p, c, a, n) = false -> pget p (nc_coords r) = None).
Proof.
  pose proof R as H. unfold nc_metadata in H.
  destruct (parse at_ m [] None 0 nc0) as [s0|e] eqn:P; [|discriminate]. cbn [rbind] in H. apply (parse_inv at_ m s0 W) in P.
  destruct (merge_alternatives (alts s0) s0) as [s|e] eqn:M; [|discriminate]. cbn [rbind] in H. pose proof (merge_paths _ _ _ M) as MP. apply (merged_ready at_ m W s0 s) in M; auto.
  destruct (resolve_pending fuel (pend s) (ut s)) as [u|e] eqn:RP; [|discriminate]. cbn [rbind] in H.
  apply (resolve_pending_inv at_ m s) in RP; [|eapply ready_rinv; eauto].
  destruct (tensorize at_ m u s [] []) as [[d co]|e] eqn:T; [|discriminate]. cbn [rbind fst snd] in H. inversion H; subst r; cbn [nc_aos nc_paths nc_coords].
  split; [|split].
  - intros p c a n I. rewrite (r_aos _ _ _ _ M). assert (Hv : In (p, c, a, n) (visits m [] None 0)) by (apply visits_In; exact I). exact (i_aos _ _ _ _ P _ Hv).
  - rewrite MP. apply (i_paths _ _ _ _ P).
  - intros p c a n I E. apply (tensorize_coords _ _ _ _ _ _ _ _ T); auto. rewrite (v_keys _ _ _ _ _ RP), (r_keys _ _ _ _ M).
    apply (entry_not at_ m s0 p P). intros c' a' n' I'. destruct (in_ids_fun m W _ _ _ _ _ _ _ I I') as (<- & <- & <-). exact E.
Qed.
Lemma aos_at_path : forall p c a n, in_ids m p c a n -> pget p (nc_aos r) = a. Proof. apply nc_facts. Qed.
Lemma paths_in : forall p, In p (nc_paths r) <-> exists c a n, in_ids m p c a n.
Proof.
  intros p. destruct nc_facts as (_ & -> & _). split.
  - intros H. apply in_map_iff in H. destruct H as ([[[q c] a] n] & <- & I). apply visits_In in I. exists c, a, n. exact I.
  - intros (c & a & n & I). change p with (vp (p, c, a, n)). apply List.in_map. apply visits_In. exact I.
Qed.
Lemma paths_nodup : NoDup (nc_paths r).
Proof. destruct nc_facts as (_ & -> & _). now apply visits_nodup. Qed.
Lemma no_coordinates : forall h p c a n, in_ids m p c a n -> entryb (p, c, a, n) = false -> get_coordinates r h p = [].
Proof. intros h p c a n I E. destruct nc_facts as (_ & _ & F). unfold get_coordinates. now rewrite (F p c a n I E). Qed.

Lemma clean_m : clean m. Proof. apply (clean_below m [] None 0); [exact NO|exact W]. Qed.
Lemma path_nodot : forall p c a n, in_ids m p c a n -> p <> [] /\ Forall nodot p.
Proof.
  intros p c a n I. assert (X : forall m names parent lv p c a n, below m names parent lv p c a n -> clean m -> exists t, p = names ++ t /\ t <> [] /\ Forall nodot t).
  { clear. intros m names parent lv p c a n B. induction B as [nm k cs names parent lv c I|nm k cs names parent lv c p c' a n I K B IH|nm k cs names parent lv c p c' a n I K B IH]; intros CL;
    inversion CL as [? ? ? CC]; subst; destruct (CC c I) as [N1 N2].
    - exists [mname c]. split; auto. split; [discriminate|]. constructor; auto.
    - destruct (IH N2) as (t & -> & T1 & T2). exists (mname c :: t). split; [now rewrite <- app_assoc|]. split; [discriminate|constructor; auto].
    - destruct (IH N2) as (t & -> & T1 & T2). exists (mname c :: t). split; [now rewrite <- app_assoc|]. split; [discriminate|constructor; auto]. }
  destruct (X _ _ _ _ _ _ _ _ I clean_m) as (t & -> & T1 & T2). auto.
Qed.
Lemma var_path : forall p c a n, in_ids m p c a n -> split_on "."%char (dotted p) = p.
Proof. intros p c a n I. destruct (path_nodot p c a n I). now apply split_dotted. Qed.
Lemma dotted_path_inj : forall p c a n q c' a' n', in_ids m p c a n -> in_ids m q c' a' n' -> dotted p = dotted q -> p = q.
Proof. intros p c a n q c' a' n' I J E. rewrite <- (var_path p c a n I), <- (var_path q c' a' n' J). now rewrite E. Qed.

Lemma own_dim_head : forall x d, own_dim at_ m x d -> exists y u, d = y :: u /\ (nat_of_ascii y < 48 \/ 57 < nat_of_ascii y).
Proof.
  assert (X : forall p c a n, in_ids m p c a n -> exists y s t, p = (y :: s) :: t /\ (nat_of_ascii y < 48 \/ 57 < nat_of_ascii y)).
  { intros p c a n I. destruct (below_path _ _ _ _ _ _ _ _ I) as (nm & t & -> & Q). apply in_map_iff in Q. destruct Q as (d & <- & J). cbn [app].
    assert (B : in_ids m ([] ++ [mname d]) d None 0). { destruct m as [mn mk cs]. constructor. exact J. }
    destruct (NO _ _ _ _ B) as (y & s & E & _ & Y). exists y, s, t. rewrite E. auto. }
  intros x d O. destruct O as [p c a n q others i I L NE RF (nm & t & ->)|p c a I L NE RF SA K N1|p c a n i x I L NE RF SA K LE];
  destruct (X _ _ _ _ I) as (y & s & u & -> & Y).
  - destruct (dotted_head y s (u ++ nm :: t)) as [w E]. exists y, w. split; [exact E|exact Y].
  - destruct (dotted_head y s u) as [w E]. exists y, w. split; [exact E|exact Y].
  - destruct (dotted_head y s u) as [w E]. exists y, (w ++ [":"%char; x]). split; [exact (f_equal (fun s => s ++ [":"%char; x]) E)|exact Y].
Qed.
Lemma named_dim_head : forall x d, named_dim at_ m x d -> exists y u, d = y :: u /\ (nat_of_ascii y < 48 \/ 57 < nat_of_ascii y).
Proof. intros x d N. induction N as [x d O _|x y d T N IH]; auto. eapply own_dim_head; eauto. Qed.
Lemma head_not_pseudo : forall y u nd, (nat_of_ascii y < 48 \/ 57 < nat_of_ascii y) -> nd <= 6 -> y :: u <> pseudo nd.
Proof.
  intros y u nd Y L E. unfold pseudo, digit in E. inversion E; subst y. rewrite nat_ascii_embedding in Y by lia. lia.
Qed.
Lemma dims_not_pseudo : forall h p d nd, In d (get_dimensions r h p) -> nd <= 6 -> d <> pseudo nd.
Proof.
  intros h p d nd I L. destruct (pget p (nc_dims r)) as [l|] eqn:G; [|unfold get_dimensions in I; rewrite G in I; destruct I].
  assert (X : forall d0, In d0 l -> exists y u, d0 = y :: u /\ (nat_of_ascii y < 48 \/ 57 < nat_of_ascii y)).
  { assert (E : exists c a n, in_ids m p c a n /\ entryb (p, c, a, n) = true).
    { destruct (in_dec path_dec p (map vp (filter entryb (visits m [] None 0)))) as [Q|Q].
      - apply in_map_iff in Q. destruct Q as ([[[q c] a] n] & <- & Q). apply filter_In in Q. destruct Q as [Q E]. apply visits_In in Q. exists c, a, n. auto.
      - exfalso. rewrite (dims_none at_ m W fuel r R p) in G; [discriminate|]. intros c a n IN. destruct (entryb (p, c, a, n)) eqn:E; auto. exfalso. apply Q. change p with (vp (p, c, a, n)). apply List.in_map.
        apply filter_In. split; auto. apply visits_In. exact IN. }
    destruct E as (c & a & n & IN & E). clear I. revert p c a l G IN E. induction n as [n IH] using lt_wf_ind. intros p c a l G IN E d0 I.
    destruct (NcMetaProps.dims_of at_ m W fuel r R p c a n IN E) as (ad & own & D & LL & N & A). rewrite D in G. inversion G; subst l. apply in_app_or in I. destruct I as [I|I].
    - destruct a as [q|]; [|subst ad; destruct I]. destruct (below_parent _ _ _ _ _ _ _ _ IN) as [[? ?]|(q' & dq & b & lv & E1 & E2 & E3 & E4)]; [discriminate|]. inversion E1; subst q'.
      apply (IH lv ltac:(lia) q dq b ad A E4); auto. unfold entryb. cbn [vc va fst snd]. rewrite E3. unfold ndim. rewrite E3. reflexivity.
    - apply In_nth_error in I. destruct I as [i I]. apply N in I. eapply named_dim_head; eauto. }
  assert (T : forall d0, In d0 l -> d0 <> pseudo nd) by (intros d0 J; destruct (X d0 J) as (y & u & -> & Y); now apply head_not_pseudo).
  rewrite (get_dimensions_some r h p l G) in I. apply in_map_iff in I. destruct I as (d0 & <- & J). unfold rename_time. destruct h; [|auto]. destruct (in_dec str_dec d0 (nc_time r)); [|auto].
  intros E. unfold pseudo in E. apply (f_equal (@length ascii)) in E. cbn in E. discriminate.
Qed.
End Meta.
