(** * C53: the coordinates of netCDF variables. *)
From Verif Require Import Base TreeModel TreeSpec TreeProofs TreeCheck NcMetaModel NcMetaSpec NcMetaProofs NcMetaProofs2 NcMetaProofs3 NcMetaProofs4 NcMetaProps NcCoordSpec NcCoordProofs NcCoordProofs2.
From Coq Require Import Lia.

Lemma before_colon_spec : forall d k, before_colon d = k <-> ~ In ":"%char k /\ (d = k \/ exists r, d = k ++ ":"%char :: r).
Proof.
  assert (A : forall d, ~ In ":"%char (before_colon d) /\ (d = before_colon d \/ exists r, d = before_colon d ++ ":"%char :: r)).
  { induction d as [|x t (I1 & I2)]; cbn [before_colon].
    - split; [intros []|left; reflexivity].
    - destruct (Ascii.eqb x ":"%char) eqn:E.
      + apply Ascii.eqb_eq in E. subst. split; [intros []|]. right. exists t. reflexivity.
      + fold (before_colon t). apply Ascii.eqb_neq in E. split; [intros [X|X]; [congruence|contradiction]|]. destruct I2 as [I2|(r & I2)]; [left; congruence|right; exists r; cbn; congruence]. }
  assert (B : forall k r, ~ In ":"%char k -> before_colon k = k /\ before_colon (k ++ ":"%char :: r) = k).
  { induction k as [|x t IH]; intros r N; [split; reflexivity|]. cbn [app before_colon]. destruct (Ascii.eqb x ":"%char) eqn:E; [apply Ascii.eqb_eq in E; exfalso; apply N; left; exact E|].
    fold (before_colon t). fold (before_colon (t ++ ":"%char :: r)). destruct (IH r) as (I1 & I2); [intros X; apply N; right; exact X|]. rewrite I1, I2. auto. }
  intros d k. split.
  - intros <-. apply A.
  - intros (N & [-> | (r & ->)]); [apply (B k []); exact N|apply B; exact N].
Qed.

Section Run.
Variable at_ : path -> nattr.
Variable m : meta.
Hypothesis W : wf_meta m.
Lemma nc_run2 : forall fuel r, nc_metadata at_ fuel m = Ok r -> exists s0 s u,
  inv at_ m (visits m [] None 0) s0 /\ ready at_ m s0 s /\ rinv at_ m s [] u /\ known at_ m s /\ tensorize at_ m u s [] [] = Ok (nc_dims r, nc_coords r) /\ nc_time r = time_dims s.
Proof.
  intros fuel r H. unfold nc_metadata in H.
  destruct (parse at_ m [] None 0 nc0) as [s0|e] eqn:P; [|discriminate]. cbn [rbind] in H. pose proof (parse_inv at_ m s0 W P) as I.
  destruct (merge_alternatives (alts s0) s0) as [s|e] eqn:M; [|discriminate]. cbn [rbind] in H. pose proof (merged_ready at_ m W s0 s I M) as R0.
  pose proof (merged_known at_ m W s0 s P M) as K.
  destruct (resolve_pending fuel (pend s) (ut s)) as [u|e] eqn:R; [|discriminate]. cbn [rbind] in H.
  apply (resolve_pending_inv at_ m s) in R; [|eapply ready_rinv; eauto].
  destruct (tensorize at_ m u s [] []) as [[d co]|e] eqn:T; [|discriminate]. cbn [rbind fst snd] in H. inversion H; subst r. exists s0, s, u. cbn. auto 10.
Qed.
Lemma named_from : forall x d, named_dim at_ m x d -> exists y, comes_from at_ m x y /\ own_dim at_ m y d.
Proof.
  intros x d H. induction H as [x d O N|x y d T H (z & (C1 & C2 & C3) & O)].
  - exists x. split; auto. split; auto. split; eauto.
  - exists z. split; auto. split; [|auto]. right. destruct C1 as [<-|C1]; [apply rc_one; exact T|eapply rc_more; eauto].
Qed.
(** one list of coordinates, before the renaming of times *)
Lemma coords_of : forall fuel r, nc_metadata at_ fuel m = Ok r -> one_owner at_ m -> forall p c a n, in_ids m p c a n -> mkind c <> KStruct ->
  exists own labels, cget (nc_coords r) p = (match a with Some q => cget (nc_coords r) q | None => [] end) ++ concat own ++ labels /\ length own = ndim c /\
  (forall i l, nth_error own i = Some l -> (n_refs (at_ p) i = [] -> l = []) /\
     (n_refs (at_ p) i <> [] -> exists y, comes_from at_ m (p, i) y /\ (exists d, own_dim at_ m y d /\ named_dim at_ m (p, i) d) /\ forall k, In k l <-> coordinate at_ m y k)) /\
  (forall k, In k labels <-> mkind c = KAoS /\ label p c k).
Proof.
  intros fuel r H OO p c a n IN K. destruct (nc_run2 fuel r H) as (s0 & s & u & I & R & RV & KN & T & _).
  assert (KU : map fst u = map fst (ut s0)) by (rewrite (v_keys _ _ _ _ _ RV); apply (r_keys _ _ _ _ R)).
  destruct (tensorize_coords at_ m s u [] [] (nc_dims r) (nc_coords r)) as (T1 & T2); auto.
  { rewrite KU. now apply (keys_nodup at_ m W). }
  assert (Wc : wf_meta c) by (eapply below_wf; eauto).
  assert (LB : forall k, In k (if is_aos c then label_coordinates p c else []) <-> mkind c = KAoS /\ label p c k).
  { intros k. unfold is_aos. destruct (mkind c) eqn:KC; [split; [intros []|intros (X & _); discriminate]| |split; [intros []|intros (X & _); discriminate]]. rewrite label_spec by auto. tauto. }
  destruct (entryb (p, c, a, n)) eqn:E.
  - pose proof (entry_lens at_ m s0 p c a n I IN E) as L. rewrite <- (r_lens _ _ _ _ R), <- (v_lens _ _ _ _ _ RV) in L. unfold lens in L.
    destruct (pget p u) as [l|] eqn:G; [|discriminate]. cbn in L. inversion L as [Ll]. clear L.
    destruct (T2 p l) as (c' & oc & Mc & OC & CG); [eapply dget_In; eauto|]. rewrite (meta_at_in m W _ _ _ _ IN) in Mc. injection Mc as <-.
    assert (Hv : In (p, c, a, n) (visits m [] None 0)) by (apply visits_In; exact IN). pose proof (i_aos _ _ _ _ I _ Hv) as Ao. cbn [vp va fst snd] in Ao. rewrite (r_aos _ _ _ _ R), Ao in CG.
    destruct (own_coordinates_spec at_ p (dimc s) l 0 oc OC) as (ls & LL & -> & SP). exists ls, (if is_aos c then label_coordinates p c else []). split; [exact CG|]. split; [lia|]. split; [|exact LB].
    intros i l0 X. destruct (SP i l0 X) as (S1 & S2). cbn [Nat.add] in S1, S2. split; auto. intros NR. destruct (S2 NR) as (d & D1 & D2).
    assert (Sl : slot u (p, i) = Some (Some d)) by (unfold slot; cbn [fst snd]; rewrite G; exact D1). apply (v_named _ _ _ _ _ RV) in Sl as (ND & _).
    destruct (named_from _ _ ND) as (y & CF & O). exists y. split; auto. split; [eauto|]. intros k. split.
    + intros J. destruct (k_sound _ _ _ KN d l0 k D2 J) as (x & O' & CO). rewrite (OO _ _ _ O O'). exact CO.
    + intros J. eapply (k_complete _ _ _ KN OO); eauto.
  - assert (Z : ndim c = 0 /\ a = None).
    { unfold entryb in E. cbn [vc va fst snd] in E. assert (E' : (0 <? ndim c) || is_some a = false) by (destruct (mkind c); [congruence|exact E|exact E]).
      apply Bool.orb_false_iff in E'. destruct E' as [E1 E2]. apply Nat.ltb_ge in E1. split; [lia|]. destruct a; [discriminate|reflexivity]. }
    destruct Z as (Z & ->). exists [], []. split; [|split; [auto|split; [intros [|i]; discriminate|]]].
    + unfold cget. rewrite T1; [reflexivity|]. rewrite KU. apply (entry_not at_ m); auto. intros c' a' n' IN'. destruct (in_ids_fun m W _ _ _ _ _ _ _ IN IN') as (<- & <- & <-). exact E.
    + intros k. split; [intros []|]. intros (X & _). unfold ndim in Z. rewrite X in Z. discriminate.
Qed.
Definition rename_coord (r : ncmeta) (h : bool) (k : str) : str := if h then (if in_dec str_dec k (map before_colon (nc_time r)) then strs "time" else k) else k.
Lemma get_coordinates_cget : forall r h p, get_coordinates r h p = map (rename_coord r h) (cget (nc_coords r) p).
Proof. intros r h p. unfold get_coordinates, cget, rename_coord. destruct (pget p (nc_coords r)); [|reflexivity]. destruct h; [reflexivity|]. rewrite map_id. reflexivity. Qed.
Lemma time_coordinate_in : forall fuel r k, nc_metadata at_ fuel m = Ok r -> (In k (map before_colon (nc_time r)) <-> time_coordinate at_ m k).
Proof.
  intros fuel r k H. destruct (nc_run2 fuel r H) as (s0 & s & u & _ & _ & _ & KN & _ & ->). rewrite in_map_iff. unfold time_coordinate. split.
  - intros (d & E & I). apply before_colon_spec in E as (E1 & E2). split; auto. exists d. split; auto. apply (k_time _ _ _ KN). exact I.
  - intros (N & d & T & E). exists d. split; [apply before_colon_spec; auto|]. apply (k_time _ _ _ KN). exact T.
Qed.
Lemma rename_coord_spec : forall fuel r h k, nc_metadata at_ fuel m = Ok r -> renamed at_ m h k (rename_coord r h k).
Proof.
  intros fuel r h k H. unfold rename_coord, renamed. destruct h; [|right; split; [intros (X & _); discriminate|reflexivity]].
  pose proof (time_coordinate_in fuel r k H) as T. destruct (in_dec str_dec k (map before_colon (nc_time r))) as [I|I]; [left; split; auto; split; auto; apply T; exact I|right].
  split; auto. intros (_ & X). apply I. apply T. exact X.
Qed.
End Run.

(** ** The coordinates of every quantity *)
(** Those of the array of structures around it, then for each dimension with a coordinate attribute the coordinates of the dimension, then the labels
    of an array of structures. *)
Theorem C53_coordinates : forall at_ fuel m r h p c a n, wf_meta m -> nc_metadata at_ fuel m = Ok r -> one_owner at_ m -> in_ids m p c a n -> mkind c <> KStruct ->
  exists own labels rest, get_coordinates r h p = (match a with Some q => get_coordinates r h q | None => [] end) ++ rest /\ Forall2 (renamed at_ m h) (concat own ++ labels) rest /\
  length own = ndim c /\
  (forall i l, nth_error own i = Some l -> (n_refs (at_ p) i = [] -> l = []) /\
     (n_refs (at_ p) i <> [] -> exists y, comes_from at_ m (p, i) y /\ forall k, In k l <-> coordinate at_ m y k)) /\
  (forall k, In k labels <-> mkind c = KAoS /\ label p c k).
Proof.
  intros at_ fuel m r h p c a n W H OO IN K. destruct (coords_of at_ m W fuel r H OO p c a n IN K) as (own & labels & E & L & O & LB).
  exists own, labels, (map (rename_coord r h) (concat own ++ labels)). split.
  - rewrite get_coordinates_cget, E, map_app. f_equal. destruct a; [rewrite get_coordinates_cget|]; reflexivity.
  - split; [|split; auto; split; auto].
    + clear E. induction (concat own ++ labels) as [|k t IH]; cbn [map]; constructor; auto. eapply rename_coord_spec; eauto.
    + intros i l X. destruct (O i l X) as (O1 & O2). split; auto. intros NR. destruct (O2 NR) as (y & Y1 & _ & Y2). eauto.
Qed.
Print Assumptions C53_coordinates.
Theorem C53_no_coordinates : forall at_ fuel m r h p, wf_meta m -> nc_metadata at_ fuel m = Ok r -> (forall c a n, in_ids m p c a n -> mkind c = KStruct) -> get_coordinates r h p = [].
Proof.
  intros at_ fuel m r h p W H N. rewrite get_coordinates_cget. destruct (nc_run2 at_ m W fuel r H) as (s0 & s & u & I & R & RV & KN & T & _).
  assert (KU : map fst u = map fst (ut s0)) by (rewrite (v_keys _ _ _ _ _ RV); apply (r_keys _ _ _ _ R)).
  destruct (tensorize_coords at_ m s u [] [] (nc_dims r) (nc_coords r)) as (T1 & T2); auto.
  { rewrite KU. now apply (keys_nodup at_ m W). }
  unfold cget. rewrite T1; [reflexivity|]. rewrite KU. apply (entry_not at_ m); auto. intros c a n IN. unfold entryb. cbn [vc fst snd]. rewrite (N _ _ _ IN). reflexivity.
Qed.
Print Assumptions C53_no_coordinates.
(** The dimensions that stand for time. *)
Theorem C53_time_dimensions : forall at_ fuel m r p c a n, wf_meta m -> nc_metadata at_ fuel m = Ok r -> in_ids m p c a n -> mkind c <> KStruct ->
  exists own, length own = ndim c /\ (forall i d, nth_error own i = Some d -> named_dim at_ m (p, i) d) /\
  get_dimensions r false p = (match a with Some q => get_dimensions r false q | None => [] end) ++ own /\
  exists own', get_dimensions r true p = (match a with Some q => get_dimensions r true q | None => [] end) ++ own' /\
  Forall2 (fun d d' => (time_name at_ m d /\ d' = strs "time") \/ (~ time_name at_ m d /\ d' = d)) own own'.
Proof.
  intros at_ fuel m r p c a n W H IN K. destruct (C36_dimensions at_ fuel m r false p c a n W H IN K) as (own & L & E & N). cbn [rename_time] in E. exists own. split; auto. split; auto.
  split; [rewrite E; f_equal; rewrite <- (map_id own) at 2; reflexivity|].
  destruct (C36_dimensions at_ fuel m r true p c a n W H IN K) as (own2 & L2 & E2 & N2). exists (map (rename_time r true) own2). split; auto.
  assert (own2 = own) as ->.
  { destruct (nc_run2 at_ m W fuel r H) as (s0 & s & u & I & R & _). apply nth_ext with (d := []) (d' := []); [congruence|]. intros i Li.
    destruct (nth_error own2 i) as [x|] eqn:X; [|apply nth_error_None in X; lia]. destruct (nth_error own i) as [y|] eqn:Y; [|apply nth_error_None in Y; lia].
    rewrite (nth_error_nth _ _ _ X), (nth_error_nth _ _ _ Y). apply N2 in X. apply N in Y. revert Y. clear - R W X. revert y. induction X as [z d O NT|z z' d T X IH]; intros d' Y.
    - inversion Y as [? ? O'|? z' ? T]; subst; [eapply own_dim_fun; eauto|exfalso; eapply NT; eauto].
    - inversion Y as [? ? O' NT|? z'' ? T']; subst; [exfalso; eapply NT; eauto|]. apply IH. rewrite (r_fun _ _ _ _ R _ _ _ T T'). assumption. }
  destruct (nc_run2 at_ m W fuel r H) as (s0 & s & u & _ & _ & _ & KN & _ & TM). clear - KN TM. induction own as [|d t IH]; cbn [map]; constructor; auto.
  unfold rename_time. rewrite TM. destruct (in_dec str_dec d (time_dims s)) as [I|I]; [left|right]; split; auto; [apply (k_time _ _ _ KN); exact I|]. intros X. apply I. apply (k_time _ _ _ KN). exact X.
Qed.
Print Assumptions C53_time_dimensions.
