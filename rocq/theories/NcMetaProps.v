(** * C36: netCDF dimension names.

    For every node, the netCDF dimensions are those of its nearest enclosing array of structures followed by one dimension per own
    dimension; resolving shared coordinates terminates for every dictionary without circular references and fails (instead of looping)
    for those with circular references. *)
From Verif Require Import Base TreeModel TreeSpec TreeProofs TreeCheck NcMetaModel NcMetaSpec NcMetaProofs NcMetaProofs2 NcMetaProofs3 NcMetaProofs4.
From Coq Require Import Lia.

(** number of dimensions of all quantities of an IDS *)
Definition all_axes (m : meta) : list axis := flat_map (fun v => map (fun i => (vp v, i)) (seq 0 (ndim (vc v)))) (visits m [] None 0).
Definition rename_time (r : ncmeta) (h : bool) (d : str) : str := if h then (if in_dec str_dec d (nc_time r) then strs "time" else d) else d.

Section Run.
Variable at_ : path -> nattr.
Variable m : meta.
Hypothesis W : wf_meta m.

Lemma nc_run : forall fuel r, nc_metadata at_ fuel m = Ok r -> exists s0 s u co,
  inv at_ m (visits m [] None 0) s0 /\ ready at_ m s0 s /\ rinv at_ m s [] u /\ tensorize at_ m u s [] [] = Ok (nc_dims r, co).
Proof.
  intros fuel r H. unfold nc_metadata in H.
  destruct (parse at_ m [] None 0 nc0) as [s0|e] eqn:P; [|discriminate]. cbn [rbind] in H. apply (parse_inv at_ m s0 W) in P.
  destruct (merge_alternatives (alts s0) s0) as [s|e] eqn:M; [|discriminate]. cbn [rbind] in H. apply (merged_ready at_ m W s0 s) in M; auto.
  destruct (resolve_pending fuel (pend s) (ut s)) as [u|e] eqn:R; [|discriminate]. cbn [rbind] in H.
  apply (resolve_pending_inv at_ m s) in R; [|eapply ready_rinv; eauto].
  destruct (tensorize at_ m u s [] []) as [[d co]|e] eqn:T; [|discriminate]. cbn [rbind fst snd] in H. inversion H; subst r. exists s0, s, u, co. auto.
Qed.

Lemma entry_lens : forall s0 p c a n, inv at_ m (visits m [] None 0) s0 -> in_ids m p c a n -> entryb (p, c, a, n) = true -> lens (ut s0) p = Some (ndim c).
Proof.
  intros s0 p c a n I IN E. assert (Hv : In (p, c, a, n) (visits m [] None 0)) by (apply visits_In; exact IN).
  destruct (i_len _ _ _ _ I _ Hv E) as (l & G & L). unfold lens. cbn [vp vc fst snd] in G, L. rewrite G. cbn. now rewrite L.
Qed.
Lemma entry_not : forall s0 p, inv at_ m (visits m [] None 0) s0 -> (forall c a n, in_ids m p c a n -> entryb (p, c, a, n) = false) -> ~ In p (map fst (ut s0)).
Proof.
  intros s0 p I N Q. rewrite (i_keys _ _ _ _ I) in Q. apply in_map_iff in Q. destruct Q as ([[[q c] a] n] & E & Q). cbn in E. subst q. apply filter_In in Q. destruct Q as [Q E].
  apply visits_In in Q. cbn in Q. rewrite (N _ _ _ Q) in E. discriminate.
Qed.

Lemma keys_nodup : forall s0, inv at_ m (visits m [] None 0) s0 -> NoDup (map fst (ut s0)).
Proof.
  intros s0 I. rewrite (i_keys _ _ _ _ I). pose proof (visits_nodup m [] None 0 W) as ND. induction (visits m [] None 0) as [|v t IH]; [constructor|].
  cbn [map] in ND. inversion ND as [|? ? NI ND']; subst. cbn [filter].
  assert (X : NoDup (map vp (filter entryb t))).
  { clear - ND'. induction t as [|v t IH]; [constructor|]. cbn [map] in ND'. inversion ND' as [|? ? NI ND2]; subst. cbn [filter]. destruct (entryb v); [|auto]. cbn [map]. constructor; [|auto].
    intros Q. apply NI. apply in_map_iff in Q. destruct Q as (w & E & Q). rewrite <- E. apply List.in_map. apply filter_In in Q. tauto. }
  destruct (entryb v); [|exact X]. cbn [map]. constructor; [|exact X]. intros Q. apply NI. apply in_map_iff in Q. destruct Q as (w & E & Q). rewrite <- E. apply List.in_map. apply filter_In in Q. tauto.
Qed.

Lemma dims_of : forall fuel r, nc_metadata at_ fuel m = Ok r ->
  forall p c a n, in_ids m p c a n -> entryb (p, c, a, n) = true ->
  exists ad own, pget p (nc_dims r) = Some (ad ++ own) /\ length own = ndim c /\ (forall i d, nth_error own i = Some d -> named_dim at_ m (p, i) d) /\
    match a with Some q => pget q (nc_dims r) = Some ad | None => ad = [] end.
Proof.
  intros fuel r H p c a n IN E. destruct (nc_run fuel r H) as (s0 & s & u & co & I & R & RV & T).
  assert (KU : map fst u = map fst (ut s0)) by (rewrite (v_keys _ _ _ _ _ RV); apply (r_keys _ _ _ _ R)).
  destruct (tensorize_inv at_ m s u [] [] (nc_dims r) co) as (T1 & T2); auto.
  { rewrite KU. now apply keys_nodup. }
  pose proof (entry_lens s0 p c a n I IN E) as L. rewrite <- (r_lens _ _ _ _ R), <- (v_lens _ _ _ _ _ RV) in L. unfold lens in L.
  destruct (pget p u) as [l|] eqn:G; [|discriminate]. cbn in L. inversion L as [Ll]. clear L.
  destruct (T2 p l) as (ad & D & A); [eapply dget_In; eauto|].
  exists ad, (map dim_name l). split; [exact D|]. split; [now rewrite map_length|]. split.
  - intros i d Q. rewrite nth_error_map in Q. destruct (nth_error l i) as [o|] eqn:Eo; [|discriminate]. cbn in Q. inversion Q; subst d.
    assert (Sl : slot u (p, i) = Some o) by (unfold slot; cbn [fst snd]; rewrite G; exact Eo). destruct o as [d|].
    + cbn [dim_name]. apply (v_named _ _ _ _ _ RV) in Sl. tauto.
    + apply (v_none _ _ _ _ _ RV) in Sl. destruct Sl as (y & []).
  - assert (Hv : In (p, c, a, n) (visits m [] None 0)) by (apply visits_In; exact IN). pose proof (i_aos _ _ _ _ I _ Hv) as Ao. cbn [vp va fst snd] in Ao.
    rewrite (r_aos _ _ _ _ R), Ao in A. exact A.
Qed.
Lemma dims_none : forall fuel r, nc_metadata at_ fuel m = Ok r ->
  forall p, (forall c a n, in_ids m p c a n -> entryb (p, c, a, n) = false) -> pget p (nc_dims r) = None.
Proof.
  intros fuel r H p N. destruct (nc_run fuel r H) as (s0 & s & u & co & I & R & RV & T).
  assert (KU : map fst u = map fst (ut s0)) by (rewrite (v_keys _ _ _ _ _ RV); apply (r_keys _ _ _ _ R)).
  destruct (tensorize_inv at_ m s u [] [] (nc_dims r) co) as (T1 & T2); auto.
  { rewrite KU. now apply keys_nodup. }
  rewrite T1; [reflexivity|]. rewrite KU. now apply entry_not.
Qed.
End Run.

Lemma get_dimensions_some : forall r h p l, pget p (nc_dims r) = Some l -> get_dimensions r h p = map (rename_time r h) l.
Proof.
  intros r h p l H. unfold get_dimensions. rewrite H. destruct h; cbn [rename_time]; [reflexivity|]. symmetry. apply map_id.
Qed.

(** ** the dimensions of every quantity *)
Theorem C36_dimensions : forall at_ fuel m r h p c a n,
  wf_meta m -> nc_metadata at_ fuel m = Ok r -> in_ids m p c a n -> mkind c <> KStruct ->
  exists own, length own = ndim c /\
    get_dimensions r h p = (match a with Some q => get_dimensions r h q | None => [] end) ++ map (rename_time r h) own /\
    forall i d, nth_error own i = Some d -> named_dim at_ m (p, i) d.
Proof.
  intros at_ fuel m r h p c a n W H IN K. destruct (entryb (p, c, a, n)) eqn:E.
  - destruct (dims_of at_ m W fuel r H p c a n IN E) as (ad & own & D & L & N & A). exists own. split; auto. split; auto.
    rewrite (get_dimensions_some r h p _ D), map_app. f_equal. destruct a as [q|]; [|now subst ad]. symmetry. now apply get_dimensions_some.
  - assert (Z : ndim c = 0 /\ a = None).
    { unfold entryb in E. cbn [vc va fst snd] in E. assert (E' : (0 <? ndim c) || is_some a = false) by (destruct (mkind c); [congruence|exact E|exact E]).
      apply Bool.orb_false_iff in E'. destruct E' as [E1 E2]. apply Nat.ltb_ge in E1. split; [lia|]. destruct a; [discriminate|reflexivity]. }
    destruct Z as [Z ->]. exists []. split; auto. split; [|intros i d Q; destruct i; discriminate]. cbn [app map].
    unfold get_dimensions. rewrite (dims_none at_ m W fuel r H p); auto. intros c' a' n' IN'. destruct (in_ids_fun m W _ _ _ _ _ _ _ IN IN') as (<- & <- & <-). exact E.
Qed.
Print Assumptions C36_dimensions.

(** nothing else has dimensions *)
Theorem C36_no_dimensions : forall at_ fuel m r h p,
  wf_meta m -> nc_metadata at_ fuel m = Ok r -> (forall c a n, in_ids m p c a n -> mkind c = KStruct) -> get_dimensions r h p = [].
Proof.
  intros at_ fuel m r h p W H N. unfold get_dimensions. rewrite (dims_none at_ m W fuel r H p); auto. intros c a n IN. unfold entryb. cbn [vc fst snd]. now rewrite (N _ _ _ IN).
Qed.
Print Assumptions C36_no_dimensions.

(** number of dimensions: one for every array of structures around it and its own *)
Lemma below_parent : forall k names parent lv p c a n, below k names parent lv p c a n ->
  (a = parent /\ n = lv) \/ exists q d b l, a = Some q /\ n = S l /\ mkind d = KAoS /\ below k names parent lv q d b l.
Proof.
  induction 1; auto.
  - destruct IHbelow as [[-> ->]|(q & d & b & l & E1 & E2 & E3 & E4)]; auto. right. exists q, d, b, l. repeat (split; auto). eapply bl_struct; eauto.
  - destruct IHbelow as [[-> ->]|(q & d & b & l & E1 & E2 & E3 & E4)]; right.
    + exists (names ++ [mname c]), c, parent, lv. repeat (split; auto). now constructor.
    + exists q, d, b, l. repeat (split; auto). eapply bl_aos; eauto.
Qed.
Theorem C36_rank : forall at_ fuel m r h p c a n,
  wf_meta m -> nc_metadata at_ fuel m = Ok r -> in_ids m p c a n -> mkind c <> KStruct -> length (get_dimensions r h p) = n + ndim c.
Proof.
  intros at_ fuel m r h p c a n W H. revert p c a. induction n as [n IH] using lt_wf_ind. intros p c a IN K.
  destruct (C36_dimensions at_ fuel m r h p c a n W H IN K) as (own & L & E & _). rewrite E, app_length, map_length, L.
  destruct (below_parent _ _ _ _ _ _ _ _ IN) as [[-> ->]|(q & d & b & l & -> & -> & Kd & Q)]; [reflexivity|].
  rewrite (IH l ltac:(lia) q d b Q) by congruence. unfold ndim at 1. rewrite Kd. lia.
Qed.
Print Assumptions C36_rank.

(** ** circular references *)
Theorem C36_circular : forall at_ fuel m x, wf_meta m -> reaches at_ m x x -> forall r, nc_metadata at_ fuel m <> Ok r.
Proof.
  intros at_ fuel m x W C r H. destruct (nc_run at_ m W fuel r H) as (s0 & s & u & co & I & R & RV & T).
  assert (OK : axis_ok m x) by (inversion C; subst; eapply takes_ok; eauto).
  destruct OK as (c & a & n & IN & L).
  assert (E : entryb (fst x, c, a, n) = true).
  { unfold entryb. cbn [vc va fst snd]. destruct (mkind c) as [| |ty nd] eqn:K; [unfold ndim in L; rewrite K in L; lia| |]; apply Bool.orb_true_iff; left; apply Nat.ltb_lt; lia. }
  pose proof (entry_lens at_ m s0 (fst x) c a n I IN E) as Le. rewrite <- (r_lens _ _ _ _ R), <- (v_lens _ _ _ _ _ RV) in Le.
  destruct (lens_slot _ _ _ Le L) as (o & So). destruct o as [d|].
  - apply (v_named _ _ _ _ _ RV) in So. destruct So as [N _]. eapply named_not_circular; eauto.
  - apply (v_none _ _ _ _ _ RV) in So. destruct So as (y & []).
Qed.
Print Assumptions C36_circular.

Lemma alts_given : forall at_ m V s, inv at_ m V s -> forall q al, In (q, al) (alts s) -> pget q (alts s) = Some al.
Proof. intros at_ m V s I q al Q. apply In_dget; auto. apply (i_altn _ _ _ _ I). Qed.

Lemma parse_alts_nonempty : forall at_ vs s s', parse_all at_ vs s = Ok s' -> (forall q al, In (q, al) (alts s) -> al <> []) -> forall q al, In (q, al) (alts s') -> al <> [].
Proof.
  intros at_.
  assert (HS : forall V (l : list (path * V)) k v q w, In (q, w) (pset k v l) -> (q = k /\ w = v) \/ In (q, w) l).
  { induction l as [|[k' v'] t IH]; intros k v q w Q; cbn in Q.
    - destruct Q as [Q|[]]. inversion Q; auto.
    - destruct (path_dec k k') as [->|N]; cbn in Q; destruct Q as [Q|Q]; [inversion Q; subst; auto|right; now right|right; left; auto|].
      destruct (IH _ _ _ _ Q) as [X|X]; auto. right. now right. }
  assert (HA : forall refs s, refs <> [] -> (forall q al, In (q, al) (alts s) -> al <> []) -> forall q al, In (q, al) (alts (snd (handle_alternatives refs s))) -> al <> []).
  { intros refs s NE N q al Q. destruct refs as [|mm [|o t]]; [congruence|exact (N _ _ Q)|]. cbn [handle_alternatives] in Q.
    destruct (pget mm (alts s)) as [l|]; cbn [snd set_alts alts] in Q; apply HS in Q; destruct Q as [[-> ->]|Q]; eauto; [|discriminate]. intros E. apply app_eq_nil in E. destruct E; discriminate. }
  assert (PD : forall c p n i s x, parse_dim at_ c p n i s = Ok x -> (forall q al, In (q, al) (alts s) -> al <> []) -> forall q al, In (q, al) (alts (snd x)) -> al <> []).
  { intros c p n i s x H N q al Q. unfold parse_dim in H. cbv zeta in H. destruct (n_refs (at_ p) i) as [|r0 rs] eqn:Er.
    - destruct (n_same (at_ p) i) as [|r1 [|r2 t]]; [|inversion H; subst x; eauto|discriminate].
      destruct (negb (n + ndim c =? 1) || is_aos c).
      + destruct (nth_error ["i"; "j"; "k"; "l"; "m"; "n"]%char i); [|discriminate]. inversion H; subst x. cbn [snd] in Q. rewrite (proj1 (proj2 (proj2 (new_dim_frame _ _ _ _)))) in Q; exact (N _ _ Q).
      + inversion H; subst x. cbn [snd] in Q. rewrite (proj1 (proj2 (proj2 (new_dim_frame _ _ _ _)))) in Q; exact (N _ _ Q).
    - destruct (is_ancestor p r0).
      + inversion H; subst x. cbn [snd] in Q. rewrite (proj1 (proj2 (proj2 (new_dim_frame _ _ _ _)))) in Q; exact (N _ _ Q).
      + inversion H; subst x. cbn [snd] in Q. cbn [set_pend alts] in Q. exact (HA (r0 :: rs) s ltac:(discriminate) N q al Q). }
  assert (PDS : forall c p n is s x, parse_dims at_ c p n is s = Ok x -> (forall q al, In (q, al) (alts s) -> al <> []) -> forall q al, In (q, al) (alts (snd x)) -> al <> []).
  { intros c p n is. induction is as [|i t IH]; intros s x H N; cbn [parse_dims] in H; [inversion H; subst; exact N|].
    destruct (parse_dim at_ c p n i s) as [y|e] eqn:E; [|discriminate]. cbn [rbind] in H. destruct (parse_dims at_ c p n t (snd y)) as [z|e] eqn:E2; [|discriminate]. cbn [rbind] in H.
    inversion H; subst x. cbn [snd]. eapply IH; eauto. }
  assert (SP : forall p q is s, alts (set_pends p q is s) = alts s) by (intros p q is; induction is as [|i t IH]; intros s; cbn [set_pends]; auto; rewrite IH; reflexivity).
  assert (PDI : forall c p n s s', parse_dimensions at_ c p n s = Ok s' -> (forall q al, In (q, al) (alts s) -> al <> []) -> forall q al, In (q, al) (alts s') -> al <> []).
  { intros c p n s s' H N q al Q. unfold parse_dimensions in H. destruct (error_of p); [inversion H; subst s'; rewrite SP in Q; eauto|].
    destruct (parse_dims at_ c p n (seq 0 (ndim c)) s) as [x|e] eqn:E; [|discriminate]. cbn [rbind] in H. pose proof (PDS _ _ _ _ _ _ E N) as N2.
    destruct (n_alts (at_ p)) as [|a0 t]; [inversion H; subst s'; eauto|]. cbv zeta in H. destruct (last (fst x) None) as [d|]; [|discriminate].
    cbn [set_alts dimc] in H. destruct (sget d (dimc (snd x))) as [l|]; [|discriminate]. inversion H; subst s'. cbn [set_ut set_dimc alts] in Q. apply HS in Q. destruct Q as [[-> ->]|Q]; eauto.
    destruct (pget p (alts (snd x))); [intros X; apply app_eq_nil in X; destruct X|]; discriminate. }
  intros vs. induction vs as [|v t IH]; intros s s' H N; cbn [parse_all] in H; [inversion H; subst; exact N|].
  destruct (parse_one at_ (vc v) (vp v) (va v) (vl v) s) as [s1|e] eqn:E; [|discriminate]. cbn [rbind] in H. eapply IH; [exact H|].
  assert (A2 : forall s2, s2 = match va v with Some q => set_aos (vp v) q (add_path (vp v) s) | None => add_path (vp v) s end -> alts s2 = alts s) by (intros s2 ->; destruct (va v); reflexivity).
  unfold parse_one in E. cbv zeta in E.
  assert (D : parse_dimensions at_ (vc v) (vp v) (vl v) (match va v with Some q => set_aos (vp v) q (add_path (vp v) s) | None => add_path (vp v) s end) = Ok s1 \/ alts s1 = alts s).
  { destruct (mkind (vc v)) as [| |ty nd]; [right; inversion E; now apply A2| |]; (destruct (0 <? ndim (vc v)); [now left|right; inversion E; destruct (va v); reflexivity]). }
  destruct D as [D|D]; [|now rewrite D]. eapply PDI; [exact D|]. rewrite (A2 _ eq_refl). exact N.
Qed.

(** with sensible references: the steps before resolving succeed *)
Lemma before_resolving : forall at_ m, wf_meta m -> good_references at_ m -> exists s0 s,
  parse at_ m [] None 0 nc0 = Ok s0 /\ merge_alternatives (alts s0) s0 = Ok s /\ inv at_ m (visits m [] None 0) s0 /\ ready at_ m s0 s.
Proof.
  intros at_ m W G. destruct (parse_ok at_ m W G) as (s0 & P). pose proof (parse_inv at_ m s0 W P) as I.
  assert (NE : forall q al, In (q, al) (alts s0) -> al <> []) by (rewrite parse_visits in P; apply (parse_alts_nonempty at_ _ _ _ P); intros q al []).
  destruct (merge_ok at_ m W G s0 (alts s0) [] s0 I) as (s & M).
  - eapply inv_minv; eauto.
  - intros p al J. split; [eapply NE; eauto|]. intros a Ia. apply alternative_by.
    assert (X : In a (altl s0 p)) by (unfold altl; rewrite (alts_given _ _ _ _ I _ _ J); exact Ia).
    apply (i_alts _ _ _ _ I) in X. destruct X as (v & V & B). exists v. split; auto. apply visits_In in V. exact V.
  - exists s0, s. split; auto. split; auto. split; auto. now apply merged_ready.
Qed.

Lemma pending_bound : forall at_ m s0 s, ready at_ m s0 s -> length (pend s) <= length (all_axes m).
Proof.
  intros at_ m s0 s R. rewrite <- (map_length fst (pend s)). apply NoDup_incl_length; [apply (r_nodup _ _ _ _ R)|].
  intros x X. apply in_map_iff in X. destruct X as ([x' y] & E & X). cbn in E. subst x'. apply In_dget with (dec := axis_dec) in X; [|apply (r_nodup _ _ _ _ R)].
  apply (r_pend _ _ _ _ R) in X. destruct X as [_ T]. apply takes_ok in T. destruct T as (c & a & n & IN & L).
  unfold all_axes. apply in_flat_map. exists (fst x, c, a, n). split; [apply visits_In; exact IN|]. cbn [vp vc fst snd]. apply in_map_iff. exists (snd x). split; [destruct x; reflexivity|]. apply in_seq. lia.
Qed.

Theorem C36_terminates : forall at_ fuel m, wf_meta m -> good_references at_ m -> no_circles at_ m -> length (all_axes m) < fuel ->
  exists r, nc_metadata at_ fuel m = Ok r.
Proof.
  intros at_ fuel m W G NC L. destruct (before_resolving at_ m W G) as (s0 & s & P & M & I & R).
  destruct (resolve_ok at_ m G s0 s I (r_lens _ _ _ _ R) NC fuel (pend s) (ut s)) as (u & U).
  { eapply ready_rinv; eauto. }
  { pose proof (pending_bound _ _ _ _ R). lia. }
  unfold nc_metadata. rewrite P. cbn [rbind]. rewrite M. cbn [rbind]. rewrite U. cbn [rbind].
  assert (RV := resolve_pending_inv at_ m s fuel _ _ _ (ready_rinv _ _ _ _ R) U).
  destruct (tensorize_ok at_ m W s (visits m [] None 0) u [] [] []) as (t & T).
  - rewrite (v_keys _ _ _ _ _ RV), (r_keys _ _ _ _ R). apply (i_keys _ _ _ _ I).
  - apply visits_ordered. exact Logic.I.
  - intros q [].
  - intros v V. split; [apply visits_In in V; exact V|]. rewrite (r_aos _ _ _ _ R). now apply (i_aos _ _ _ _ I).
  - intros p own o J Jo. assert (Gp : pget p u = Some own).
    { apply In_dget; auto. rewrite (v_keys _ _ _ _ _ RV), (r_keys _ _ _ _ R). eapply keys_nodup; eauto. }
    apply In_nth_error in Jo. destruct Jo as (i & Jo). assert (Sl : slot u (p, i) = Some o) by (unfold slot; cbn [fst snd]; rewrite Gp; exact Jo). destruct o as [d|].
    + apply (v_named _ _ _ _ _ RV) in Sl. exists d. tauto.
    + apply (v_none _ _ _ _ _ RV) in Sl. destruct Sl as (y & []).
  - rewrite T. cbn [rbind]. eauto.
Qed.
Print Assumptions C36_terminates.

(** with circular references and otherwise sensible ones, the error is the one for circular references *)
Theorem C36_circular_error : forall at_ fuel m x, wf_meta m -> good_references at_ m -> reaches at_ m x x -> nc_metadata at_ fuel m = Err Circular.
Proof.
  intros at_ fuel m x W G C. destruct (before_resolving at_ m W G) as (s0 & s & P & M & I & R).
  pose proof (C36_circular at_ fuel m x W C) as N. unfold nc_metadata in *. rewrite P in *. cbn [rbind] in *. rewrite M in *. cbn [rbind] in *.
  destruct (resolve_or_circular at_ m G s0 s I (r_lens _ _ _ _ R) fuel (pend s) (ut s) (ready_rinv _ _ _ _ R)) as [(u & U)|U]; [|rewrite U; reflexivity].
  exfalso. rewrite U in N. cbn [rbind] in N.
  (* a result of resolving has names for all dimensions *)
  assert (RV := resolve_pending_inv at_ m s fuel _ _ _ (ready_rinv _ _ _ _ R) U).
  assert (OK : axis_ok m x) by (inversion C; subst; eapply takes_ok; eauto).
  destruct (axis_lens at_ m s0 x I OK) as (c & a & n & _ & Le & L). rewrite <- (r_lens _ _ _ _ R), <- (v_lens _ _ _ _ _ RV) in Le.
  destruct (lens_slot _ _ _ Le L) as (o & So). destruct o as [d|].
  - apply (v_named _ _ _ _ _ RV) in So. destruct So as [Nd _]. eapply named_not_circular; eauto.
  - apply (v_none _ _ _ _ _ RV) in So. destruct So as (y & []).
Qed.
Print Assumptions C36_circular_error.

(** ** A check for the hypotheses *)
Section Check.
Variable at_ : path -> nattr.
Variable m : meta.
Hypothesis W : wf_meta m.
Definition vs := visits m [] None 0.
Definition node (p : path) : option visit := List.find (fun v => if path_dec (vp v) p then true else false) vs.
Definition sharef (p : path) (i : nat) : option axis :=
  match error_of p with
  | Some q => Some (q, i)
  | None => match n_refs (at_ p) i with
            | q :: _ => if is_ancestor p q then None else Some (q, 0)
            | [] => match n_same (at_ p) i with q :: _ => Some (q, i) | [] => None end
            end
  end.
Definition axis_okb (x : axis) : bool := match node (fst x) with Some v => snd x <? ndim (vc v) | None => false end.
Definition one_db (p : path) : bool := match node p with Some v => ndim (vc v) =? 1 | None => false end.
Definition ownb (x : axis) : bool := axis_okb x && (snd x <? 6) && match sharef (fst x) (snd x) with None => true | Some _ => false end.
Definition alt_pairs : list (path * path) :=
  flat_map (fun v => match error_of (vp v) with
                     | Some _ => []
                     | None => flat_map (fun i => match n_refs (at_ (vp v)) i with
                                                  | mm :: others => if is_ancestor (vp v) mm then [] else map (fun q => (q, mm)) others
                                                  | [] => []
                                                  end) (seq 0 (ndim (vc v)))
                               ++ (if 0 <? ndim (vc v) then map (fun q => (q, vp v)) (n_alts (at_ (vp v))) else [])
                     end) vs.
Definition good_node (v : visit) : bool :=
  (ndim (vc v) <=? 6) &&
  forallb (fun i => (length (n_same (at_ (vp v)) i) <=? 1) && match sharef (vp v) i with Some y => axis_okb y | None => true end) (seq 0 (ndim (vc v))) &&
  (match error_of (vp v), n_alts (at_ (vp v)) with None, _ :: _ => (ndim (vc v) =? 0) || ownb (vp v, ndim (vc v) - 1) | _, _ => true end).
Definition good_alt (e : path * path) : bool :=
  one_db (fst e) && one_db (snd e) && ownb (snd e, 0) &&
  forallb (fun f => negb (if path_dec (fst f) (snd e) then true else false) && (if path_dec (fst f) (fst e) then if path_dec (snd f) (snd e) then true else false else true)) alt_pairs &&
  match sharef (fst e) 0 with Some y => if axis_dec y (snd e, 0) then true else false | None => true end.
Definition good_b : bool := forallb good_node vs && forallb good_alt alt_pairs.

Lemma node_some : forall p v, node p = Some v -> seen m v /\ vp v = p.
Proof.
  intros p v H. unfold node in H. apply find_some in H. destruct H as [H1 H2]. split; [apply visits_In in H1; exact H1|]. destruct (path_dec (vp v) p); [auto|discriminate].
Qed.
Lemma axis_okb_sound : forall x, axis_okb x = true -> axis_ok m x.
Proof.
  intros x H. unfold axis_okb in H. destruct (node (fst x)) as [v|] eqn:E; [|discriminate]. apply node_some in E. destruct E as [S E]. apply Nat.ltb_lt in H.
  exists (vc v), (va v), (vl v). rewrite <- E. split; auto.
Qed.
Lemma one_db_sound : forall p, one_db p = true -> one_d m p.
Proof.
  intros p H. unfold one_db in H. destruct (node p) as [v|] eqn:E; [|discriminate]. apply node_some in E. destruct E as [S E]. apply Nat.eqb_eq in H.
  exists (vc v), (va v), (vl v). rewrite <- E. split; auto.
Qed.
Lemma sharef_shares : forall x y, shares at_ m x y -> sharef (fst x) (snd x) = Some y.
Proof.
  intros x y H. inversion H; subst; unfold sharef; cbn [fst snd].
  - match goal with E : error_bar _ _ |- _ => apply error_of_spec in E; rewrite E end. reflexivity.
  - rewrite (proj2 (error_of_none p)) by assumption. match goal with E : n_refs _ _ = _ |- _ => rewrite E end. destruct (is_ancestor p q) eqn:A; [apply is_ancestor_spec in A; contradiction|reflexivity].
  - rewrite (proj2 (error_of_none p)) by assumption. match goal with E : n_refs _ _ = _ |- _ => rewrite E end. match goal with E : n_same _ _ = _ |- _ => rewrite E end. reflexivity.
Qed.
Lemma ownb_sound : forall x, ownb x = true -> exists d, own_dim at_ m x d.
Proof.
  intros [p i] H. unfold ownb in H. cbn [fst snd] in H. apply Bool.andb_true_iff in H. destruct H as [H S]. apply Bool.andb_true_iff in H. destruct H as [O L]. apply axis_okb_sound in O.
  destruct O as (c & a & n & IN & Li). cbn [fst snd] in *. apply Nat.ltb_lt in L. unfold sharef in S. destruct (error_of p) eqn:E; [discriminate|].
  pose proof (proj1 (error_of_none p) E) as E'. destruct (n_refs (at_ p) i) as [|q o] eqn:R.
  - destruct (n_same (at_ p) i) eqn:Sm; [|discriminate].
    destruct (Bool.bool_dec (is_aos c || negb (n + ndim c =? 1)) true) as [B|B].
    + assert (X : exists x, letter i x) by (unfold letter; do 6 (destruct i as [|i]; [eexists; reflexivity|]); lia). destruct X as (x & X).
      exists (dotted p ++ [":"%char; x]). eapply od_letter; eauto. apply Bool.orb_true_iff in B. destruct B as [B|B].
      * left. unfold is_aos in B. destruct (mkind c); congruence.
      * right. apply Bool.negb_true_iff, Nat.eqb_neq in B. exact B.
    + apply Bool.not_true_is_false, Bool.orb_false_iff in B. destruct B as [B1 B2]. apply Bool.negb_false_iff, Nat.eqb_eq in B2. assert (i = 0) by lia. assert (n = 0) by lia. subst.
      exists (dotted p). eapply od_plain; eauto; try lia. unfold is_aos in B1. destruct (mkind c); congruence.
  - destruct (is_ancestor p q) eqn:A; [|discriminate]. apply is_ancestor_spec in A. exists (dotted q). eapply od_inside; eauto.
Qed.
Lemma alternative_pairs : forall q mm, alternative at_ m q mm -> In (q, mm) alt_pairs.
Proof.
  intros q mm H. unfold alt_pairs. apply in_flat_map. inversion H; subst.
  - exists (p, c, a, n). split; [apply visits_In; assumption|]. cbn [vp vc fst snd]. rewrite (proj2 (error_of_none p)) by assumption. apply in_or_app. left. apply in_flat_map. exists i. split; [apply in_seq; lia|].
    match goal with E : n_refs _ _ = _ |- _ => rewrite E end. destruct (is_ancestor p mm) eqn:A; [apply is_ancestor_spec in A; contradiction|]. now apply List.in_map with (f := fun q => (q, mm)).
  - exists (mm, c, a, n). split; [apply visits_In; assumption|]. cbn [vp vc fst snd]. rewrite (proj2 (error_of_none mm)) by assumption. apply in_or_app. right.
    replace (0 <? ndim c) with true by (symmetry; apply Nat.ltb_lt; assumption). now apply List.in_map with (f := fun q => (q, mm)).
Qed.
Theorem good_b_sound : good_b = true -> good_references at_ m.
Proof.
  intros H. unfold good_b in H. apply Bool.andb_true_iff in H. destruct H as [H1 H2]. rewrite forallb_forall in H1, H2.
  assert (N : forall p c a n, in_ids m p c a n -> good_node (p, c, a, n) = true) by (intros; apply H1; apply visits_In; assumption).
  assert (N3 : forall p c a n, in_ids m p c a n -> ndim c <= 6 /\
     (forall i, i < ndim c -> length (n_same (at_ p) i) <= 1 /\ match sharef p i with Some y => axis_okb y = true | None => True end) /\
     (match error_of p, n_alts (at_ p) with None, _ :: _ => (ndim c =? 0) || ownb (p, ndim c - 1) | _, _ => true end) = true).
  { intros p c a n IN. apply N in IN. unfold good_node in IN. cbn [vp vc fst snd] in IN. apply Bool.andb_true_iff in IN. destruct IN as [IN G3]. apply Bool.andb_true_iff in IN. destruct IN as [G1 G2].
    apply Nat.leb_le in G1. rewrite forallb_forall in G2. split; auto. split; auto. intros i Li. specialize (G2 i). rewrite in_seq in G2. specialize (G2 ltac:(lia)).
    apply Bool.andb_true_iff in G2. destruct G2 as [G2 G4]. apply Nat.leb_le in G2. split; auto. destruct (sharef p i); auto. }
  constructor.
  - intros p c a n IN. now apply N3 in IN.
  - intros p c a n i IN Li. apply N3 in IN. now apply IN.
  - intros x y S. assert (O : axis_ok m x) by (eapply shares_ok; eauto). destruct O as (c & a & n & IN & Li). apply N3 in IN. destruct IN as (_ & IN & _). destruct (IN _ Li) as (_ & Q).
    rewrite (sharef_shares _ _ S) in Q. now apply axis_okb_sound.
  - intros p c a n IN L E NA. apply N3 in IN. destruct IN as (_ & _ & Q). rewrite (proj2 (error_of_none p)) in Q by assumption. destruct (n_alts (at_ p)); [congruence|].
    replace (ndim c =? 0) with false in Q by (symmetry; apply Nat.eqb_neq; lia). cbn [orb] in Q. now apply ownb_sound.
  - intros q mm A. pose proof (alternative_pairs _ _ A) as P. pose proof (H2 _ P) as Q. unfold good_alt in Q. cbn [fst snd] in Q.
    apply Bool.andb_true_iff in Q. destruct Q as [Q G5]. apply Bool.andb_true_iff in Q. destruct Q as [Q G4]. apply Bool.andb_true_iff in Q. destruct Q as [Q G3]. apply Bool.andb_true_iff in Q. destruct Q as [G1 G2].
    rewrite forallb_forall in G4. split; [now apply one_db_sound|]. split; [now apply one_db_sound|]. split; [now apply ownb_sound|]. split; [|split].
    + intros mm' A'. apply alternative_pairs in A'. apply G4 in A'. cbn [fst snd] in A'. destruct (path_dec mm mm); [discriminate|congruence].
    + intros mm' A'. apply alternative_pairs in A'. apply G4 in A'. cbn [fst snd] in A'. apply Bool.andb_true_iff in A'. destruct A' as [_ A']. destruct (path_dec q q); [|congruence]. destruct (path_dec mm' mm); [auto|discriminate].
    + intros y S. apply sharef_shares in S. cbn [fst snd] in S. rewrite S in G5. destruct (axis_dec y (mm, 0)); [auto|discriminate].
Qed.
End Check.

(** ** Examples *)
Definition leaf (nm : string) (t : dtype) (nd : nat) : meta := Meta (strs nm) (KLeaf t nd) [].
Definition ex_nc : meta :=
  Meta (strs "core_profiles") KStruct
    [ leaf "time" FLT 1;
      Meta (strs "profiles_1d") KAoS
        [ leaf "time" FLT 0; Meta (strs "grid") KStruct [leaf "rho" FLT 1; leaf "psi" FLT 1];
          leaf "t" FLT 1; leaf "t_error_upper" FLT 1; Meta (strs "ion") KAoS [leaf "label" STR 0; leaf "n" FLT 1] ];
      leaf "map" FLT 2 ].
Definition pth (l : list string) : path := map strs l.
Definition no_refs : nattr := {| n_refs := fun _ => []; n_same := fun _ => []; n_alts := [] |}.
Definition ex_attrs : list (path * nattr) :=
  [ (pth ["profiles_1d"]%string, {| n_refs := fun i => match i with 0 => [pth ["profiles_1d"; "time"]%string] | _ => [] end; n_same := fun _ => []; n_alts := [] |});
    (pth ["profiles_1d"; "grid"; "rho"]%string, {| n_refs := fun _ => []; n_same := fun _ => []; n_alts := [pth ["profiles_1d"; "grid"; "psi"]%string] |});
    (pth ["profiles_1d"; "t"]%string, {| n_refs := fun i => match i with 0 => [pth ["profiles_1d"; "grid"; "rho"]%string] | _ => [] end; n_same := fun _ => []; n_alts := [] |});
    (pth ["profiles_1d"; "ion"; "n"]%string, {| n_refs := fun _ => []; n_same := fun i => match i with 0 => [pth ["profiles_1d"; "t"]%string] | _ => [] end; n_alts := [] |});
    (pth ["map"]%string, {| n_refs := fun i => match i with 0 => [pth ["time"]%string] | _ => [] end; n_same := fun _ => []; n_alts := [] |}) ].
Definition ex_at (p : path) : nattr := match pget p ex_attrs with Some a => a | None => no_refs end.
Example ex_nc_wf : wf_meta ex_nc.
Proof. by_check. Qed.
Definition ex_dims (h : bool) (p : list string) : option (list str) :=
  match nc_metadata ex_at 100 ex_nc with Ok r => Some (get_dimensions r h (pth p)) | Err _ => None end.
Example ex_n : ex_dims false ["profiles_1d"; "ion"; "n"]%string = Some (map strs ["profiles_1d.time"; "profiles_1d.ion:i"; "profiles_1d.grid.rho:i"]%string).
Proof. vm_compute. reflexivity. Qed.
Example ex_n_homogeneous : ex_dims true ["profiles_1d"; "ion"; "n"]%string = Some (map strs ["time"; "profiles_1d.ion:i"; "profiles_1d.grid.rho:i"]%string).
Proof. vm_compute. reflexivity. Qed.
Example ex_psi : ex_dims false ["profiles_1d"; "grid"; "psi"]%string = Some (map strs ["profiles_1d.time"; "profiles_1d.grid.rho:i"]%string).
Proof. vm_compute. reflexivity. Qed.
Example ex_map : ex_dims false ["map"]%string = Some (map strs ["time"; "map:j"]%string).
Proof. vm_compute. reflexivity. Qed.
Example ex_good : good_references ex_at ex_nc.
Proof. apply good_b_sound. vm_compute. reflexivity. Qed.
Example ex_no_circles : no_circles ex_at ex_nc.
Proof.
  intros x C. destruct (nc_metadata ex_at 100 ex_nc) as [r|] eqn:E; [exact (C36_circular ex_at 100 ex_nc x ex_nc_wf C r E)|].
  assert (N : match nc_metadata ex_at 100 ex_nc with Ok _ => true | Err _ => false end = true) by (vm_compute; reflexivity). rewrite E in N. discriminate.
Qed.
Example ex_terminates : exists r, nc_metadata ex_at 100 ex_nc = Ok r.
Proof. apply C36_terminates; [exact ex_nc_wf|exact ex_good|exact ex_no_circles|vm_compute; lia]. Qed.
Example ex_in_ids : in_ids ex_nc (pth ["profiles_1d"; "ion"; "n"]%string) (leaf "n" FLT 1) (Some (pth ["profiles_1d"; "ion"]%string)) 2.
Proof.
  apply (visits_In ex_nc [] None 0 (pth ["profiles_1d"; "ion"; "n"]%string, leaf "n" FLT 1, Some (pth ["profiles_1d"; "ion"]%string), 2)). vm_compute. tauto.
Qed.

(** circular: two quantities that are each other's coordinate *)
Definition circ : meta := Meta (strs "x") KStruct [leaf "a" FLT 1; leaf "b" FLT 1].
Definition circ_at (p : path) : nattr :=
  {| n_refs := fun _ => if path_dec p (pth ["a"]%string) then [pth ["b"]%string] else [pth ["a"]%string]; n_same := fun _ => []; n_alts := [] |}.
Example circ_good : wf_meta circ /\ good_references circ_at circ.
Proof. split; [by_check|]. apply good_b_sound. vm_compute. reflexivity. Qed.
Example circ_reaches : reaches circ_at circ (pth ["a"]%string, 0) (pth ["a"]%string, 0).
Proof.
  assert (IA : in_ids circ (pth ["a"]%string) (leaf "a" FLT 1) None 0) by (apply (bl_child _ _ _ [] None 0 (leaf "a" FLT 1)); cbn; auto).
  assert (IB : in_ids circ (pth ["b"]%string) (leaf "b" FLT 1) None 0) by (apply (bl_child _ _ _ [] None 0 (leaf "b" FLT 1)); cbn; auto).
  assert (NE : forall p, error_of p = None -> forall b, ~ error_bar p b) by (intros p H; now apply error_of_none).
  apply (rc_more _ _ _ (pth ["b"]%string, 0)); [|apply rc_one]; left.
  - eapply sh_coordinate; [exact IA|cbn; lia|apply NE; vm_compute; reflexivity|vm_compute; reflexivity|]. intros I. apply is_ancestor_spec in I. vm_compute in I. discriminate.
  - eapply sh_coordinate; [exact IB|cbn; lia|apply NE; vm_compute; reflexivity|vm_compute; reflexivity|]. intros I. apply is_ancestor_spec in I. vm_compute in I. discriminate.
Qed.

(** ** Finding: a long chain of shared dimensions is also reported as circular.
    Every call of _resolve_pending may resolve one dimension only, and the number of nested calls is limited. *)
Definition chained : meta := Meta (strs "x") KStruct [leaf "d" FLT 1; leaf "c" FLT 1; leaf "b" FLT 1; leaf "a" FLT 1].
Definition chained_at (p : path) : nattr :=
  {| n_refs := fun _ => match p with
                        | [x] => if str_dec x (strs "d") then [pth ["c"]%string] else if str_dec x (strs "c") then [pth ["b"]%string] else if str_dec x (strs "b") then [pth ["a"]%string] else []
                        | _ => [] end; n_same := fun _ => []; n_alts := [] |}.
Theorem C36_long_chain_refuted : exists fuel m at_, wf_meta m /\ good_references at_ m /\ no_circles at_ m /\ 0 < fuel /\ nc_metadata at_ fuel m = Err Circular.
Proof.
  exists 2, chained, chained_at. assert (Wc : wf_meta chained) by by_check. split; [exact Wc|]. split; [apply good_b_sound; vm_compute; reflexivity|]. split; [|split; [lia|vm_compute; reflexivity]].
  intros x C. destruct (nc_metadata chained_at 100 chained) as [r|] eqn:E; [exact (C36_circular chained_at 100 chained x Wc C r E)|].
  assert (N : match nc_metadata chained_at 100 chained with Ok _ => true | Err _ => false end = true) by (vm_compute; reflexivity). rewrite E in N. discriminate.
Qed.
