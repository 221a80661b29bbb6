(** Proofs for C53: what parsing records about coordinates and times. *)
From Verif Require Import Base TreeModel TreeSpec TreeProofs NcMetaModel NcMetaSpec NcMetaProofs NcMetaProofs2 NcMetaProofs3 NcMetaProofs4 NcCoordSpec.
From Coq Require Import Lia.

Lemma last_app : forall (p : path), is_time_ref p = true <-> exists b, p = b ++ [strs "time"].
Proof.
  intros p. unfold is_time_ref. split.
  - intros H. apply str_eqb_eq in H. destruct p as [|x t] using rev_ind; [discriminate|]. rewrite last_last in H. subst. eauto.
  - intros (b & ->). rewrite last_last. apply str_eqb_refl.
Qed.
Lemma add_missing_In : forall new l x, In x (add_missing l new) <-> In x l \/ In x new.
Proof.
  induction new as [|y t IH]; intros l x; cbn [add_missing].
  - cbn [In]. tauto.
  - destruct (in_dec str_dec y l) as [I|I]; rewrite IH; [cbn [In]|rewrite in_app_iff; cbn [In]]; split; intuition; subst; auto.
Qed.

Section C.
Variable at_ : path -> nattr.
Variable m : meta.
Hypothesis W : wf_meta m.
Notation in_ids := (in_ids m).
Notation own_dim := (own_dim at_ m).
Notation alternative := (alternative at_ m).
Notation time_axis := (time_axis at_ m).
Notation made_with := (made_with at_ m).

Lemma below_wf : forall k names parent lv p c a n, below k names parent lv p c a n -> wf_meta k -> wf_meta c.
Proof.
  intros k names parent lv p c a n H. induction H; intros WF; inversion WF; subst; auto.
Qed.
Lemma label_spec : forall p c k, wf_meta c -> (In k (label_coordinates p c) <-> label p c k).
Proof.
  intros p c k WF. unfold label_coordinates, label. rewrite in_flat_map. split.
  - intros (nm & I & H). destruct (List.find (fun d => str_eqb (mname d) nm) (mchildren c)) as [d|] eqn:F; [|destruct H]. apply find_some in F as (F1 & F2). apply str_eqb_eq in F2. subst nm.
    exists d. split; auto. split; auto. destruct (mkind d) as [| |[] [|nd]]; try (exfalso; exact H). destruct H as [<-|[]]. auto.
  - intros (d & I & N & K & ->). exists (mname d). split; auto.
    assert (F : List.find (fun e => str_eqb (mname e) (mname d)) (mchildren c) = Some d).
    { destruct c as [nm k cs]. cbn [mchildren] in *. apply find_child; auto. inversion WF; subst; assumption. }
    rewrite F, K. left. reflexivity.
Qed.

(** ** One dimension *)
Lemma new_dim_fields : forall d t co s, time_dims (new_dim d t co s) = (if t then [d] else []) ++ time_dims s /\ dimc (new_dim d t co s) = sset d co (dimc s).
Proof. intros d t co s. unfold new_dim. destruct t; cbn; auto. Qed.
Lemma handle_times : forall refs s, time_dims (snd (handle_alternatives refs s)) = time_dims s /\ dimc (snd (handle_alternatives refs s)) = dimc s.
Proof. intros [|q others] s; cbn; auto. destruct others; cbn; auto. destruct (pget q (alts s)); cbn; auto. Qed.
Lemma parse_dim_coords : forall c p a n i s o s', in_ids p c a n -> i < ndim c -> error_of p = None -> parse_dim at_ c p n i s = Ok (o, s') ->
  match o with
  | Some d => own_dim (p, i) d /\ exists t co, time_dims s' = (if t : bool then [d] else []) ++ time_dims s /\ dimc s' = sset d co (dimc s) /\
              (t = true <-> time_axis (p, i)) /\ forall k, In k co <-> made_with (p, i) k
  | None => time_dims s' = time_dims s /\ dimc s' = dimc s /\ (forall d, ~ own_dim (p, i) d)
  end.
Proof.
  intros c p a n i s o s' I L E H. destruct (parse_dim_spec at_ m c p a n i s o s' I L E H) as (_ & SP & _).
  assert (Wc : wf_meta c) by (eapply below_wf; eauto).
  assert (NE := proj1 (error_of_none p) E).
  assert (FI : forall c' a' n', in_ids p c' a' n' -> c' = c) by (intros c' a' n' I'; destruct (in_ids_fun m W _ _ _ _ _ _ _ I I') as (X & _); auto).
  assert (NS : o = None -> forall d, ~ own_dim (p, i) d).
  { intros -> d O. destruct SP as (y & S & _). eapply own_not_shares; eauto. }
  unfold parse_dim in H. cbv zeta in H. destruct (n_refs (at_ p) i) as [|r0 rs] eqn:R.
  - destruct (n_same (at_ p) i) as [|r [|r' t]] eqn:SA; [| |discriminate].
    + set (co := if is_aos c then label_coordinates p c else [dotted p]) in *. set (t := str_eqb (mname c) (strs "time")) in *.
      assert (T : t = true <-> time_axis (p, i)).
      { unfold t. split.
        - intros X. apply str_eqb_eq in X. eapply ta_named; eauto.
        - intros X. inversion X; subst; [congruence|]. match goal with J : in_ids p ?cc _ _ |- _ => apply FI in J; subst cc end. apply str_eqb_eq. assumption. }
      assert (C : forall k, In k co <-> made_with (p, i) k).
      { intros k. unfold co. assert (AE : is_aos c = true <-> mkind c = KAoS) by (unfold is_aos; destruct (mkind c); split; congruence). split.
        - intros X. destruct (is_aos c) eqn:A.
          + apply label_spec in X; auto. eapply mw_label; eauto. apply AE. reflexivity.
          + destruct X as [<-|[]]. eapply mw_own; eauto. intros Y. apply AE in Y. congruence.
        - intros X. inversion X; subst; [congruence| |]; match goal with J : in_ids p ?cc _ _ |- _ => apply FI in J; subst cc end.
          + rewrite (proj2 AE) by assumption. apply label_spec; auto.
          + destruct (is_aos c) eqn:A; [exfalso; intuition|]. left. reflexivity. }
      destruct (negb (n + ndim c =? 1) || is_aos c).
      * destruct (nth_error ["i"; "j"; "k"; "l"; "m"; "n"]%char i) as [x|]; [|discriminate]. injection H as <- <-. split; [apply SP|]. exists t, co.
        destruct (new_dim_fields (dotted p ++ [":"%char; x]) t co s) as (N1 & N2). auto.
      * injection H as <- <-. split; [apply SP|]. exists t, co. destruct (new_dim_fields (dotted p) t co s) as (N1 & N2). auto.
    + inversion H; subst o. split; [reflexivity|]. split; [reflexivity|]. apply NS. reflexivity.
  - destruct (is_ancestor p r0) eqn:AN.
    + injection H as <- <-. split; [apply SP|]. apply is_ancestor_spec in AN. set (t := is_time_coordinate (r0 :: rs)). exists t, [dotted r0].
      destruct (new_dim_fields (dotted r0) t [dotted r0] s) as (N1 & N2). split; [exact N1|]. split; [exact N2|]. split.
      * unfold t, is_time_coordinate. rewrite existsb_exists. split.
        -- intros (x & X & Y). apply last_app in Y as (b & Y). eapply ta_inside; eauto.
        -- intros X. inversion X; subst; [|congruence]. match goal with J : n_refs (at_ p) i = _ |- _ => rewrite R in J; injection J as <- <- end. eexists. split; [eassumption|]. apply last_app. eauto.
      * intros k. split.
        -- intros [<-|[]]. eapply mw_inside; eauto.
        -- intros X. inversion X; subst; [|congruence|congruence]. match goal with J : n_refs (at_ p) i = _ |- _ => rewrite R in J; injection J as <- <- end. left. reflexivity.
    + destruct (handle_times (r0 :: rs) s) as (T1 & T2). injection H as <- <-. cbn [set_pend time_dims dimc]. auto.
Qed.

Lemma parse_dims_spec2 : forall c p a n is s os s', in_ids p c a n -> error_of p = None -> parse_dims at_ c p n is s = Ok (os, s') -> 
  length os = length is /\ ((forall i, In i is -> i < ndim c) -> forall k i d, nth_error is k = Some i -> nth_error os k = Some (Some d) -> own_dim (p, i) d).
Proof.
  intros c p a n is. induction is as [|i t IH]; intros s os s' IN E H; cbn [parse_dims] in H.
  - inversion H; subst. split; auto. intros _ [|k]; discriminate.
  - destruct (parse_dim at_ c p n i s) as [[o s1]|e] eqn:D1; [|discriminate]. cbn [rbind fst snd] in H. destruct (parse_dims at_ c p n t s1) as [[os2 s2]|e] eqn:D2; [|discriminate]. cbn [rbind fst snd] in H.
    inversion H; subst os s2. destruct (IH _ _ _ IN E D2) as (L & O). split; [cbn; auto|]. intros LT [|k] j d; cbn [nth_error]; intros X Y.
    + injection X as <-. injection Y as ->. apply (parse_dim_coords c p a n i s (Some d) s1 IN) in D1; auto; [apply D1|apply LT; left; reflexivity].
    + eapply O; eauto. intros j' J. apply LT. right. exact J.
Qed.
(** ** What is known after the dimensions P, with the further coordinates Q *)
Record cinv (P : axis -> Prop) (Q : axis -> str -> Prop) (s : ncs) : Prop := {
  c_time : forall d, In d (time_dims s) <-> exists x, P x /\ own_dim x d /\ time_axis x;
  c_sound : forall d l k, sget d (dimc s) = Some l -> In k l -> exists x, P x /\ own_dim x d /\ (made_with x k \/ Q x k);
  c_complete : one_owner at_ m -> forall x d, P x -> own_dim x d -> exists l, sget d (dimc s) = Some l /\ forall k, made_with x k \/ Q x k -> In k l }.
Lemma cinv_ext : forall (P P' : axis -> Prop) (Q Q' : axis -> str -> Prop) s, cinv P Q s -> (forall x d, own_dim x d -> (P x <-> P' x)) -> (forall x d k, own_dim x d -> (Q x k <-> Q' x k)) -> cinv P' Q' s.
Proof.
  intros P P' Q Q' s I EP EQ. constructor.
  - intros d. rewrite (c_time _ _ _ I). split; intros (x & A & B & C); exists x; split; auto; eapply EP; eauto.
  - intros d l k A B. destruct (c_sound _ _ _ I d l k A B) as (x & X1 & X2 & X3). exists x. split; [eapply EP; eauto|]. split; auto. destruct X3 as [X3|X3]; auto. right. eapply EQ; eauto.
  - intros OO x d A B. destruct (c_complete _ _ _ I OO x d (proj2 (EP x d B) A) B) as (l & L1 & L2). exists l. split; auto. intros k [K|K]; apply L2; auto. right. eapply EQ; eauto.
Qed.
Lemma cinv_frame : forall P Q s s', cinv P Q s -> time_dims s' = time_dims s -> dimc s' = dimc s -> cinv P Q s'.
Proof. intros P Q s s' I T D. destruct I. constructor; rewrite ?T, ?D; auto. Qed.
Definition plus (P : axis -> Prop) (y : axis) (x : axis) : Prop := P x \/ x = y.
Lemma cinv_dim : forall P Q s c p a n i o s', cinv P Q s -> in_ids p c a n -> i < ndim c -> error_of p = None -> ~ P (p, i) -> (forall k, ~ Q (p, i) k) ->
  parse_dim at_ c p n i s = Ok (o, s') -> cinv (plus P (p, i)) Q s'.
Proof.
  intros P Q s c p a n i o s' I IN L E NP NQ H. apply (parse_dim_coords c p a n i s o s' IN L E) in H. destruct o as [d|].
  - destruct H as (O & t & co & T & D & TA & C). constructor.
    + intros d'. rewrite T, in_app_iff, (c_time _ _ _ I). split.
      * intros [X|(x & A & B & X)]; [|exists x; split; [left|]; auto]. destruct t; [|destruct X]. destruct X as [<-|[]]. exists (p, i). split; [right; reflexivity|]. split; auto. apply TA. reflexivity.
      * intros (x & [A| ->] & B & X); [right; eauto|left]. apply TA in X. subst t. rewrite (own_dim_fun _ _ W _ _ _ B O). left. reflexivity.
    + intros d' l k. rewrite D, sget_sset. destruct (str_dec d' d) as [->|N].
      * intros X K. injection X as <-. exists (p, i). split; [right; reflexivity|]. split; auto. left. apply C. exact K.
      * intros X K. destruct (c_sound _ _ _ I d' l k X K) as (x & X1 & X2 & X3). exists x. split; [left|]; auto.
    + intros OO x d' [A| ->] B; rewrite D, sget_sset.
      * destruct (str_dec d' d) as [->|N]; [exfalso; apply NP; rewrite <- (OO _ _ _ B O); exact A|]. apply (c_complete _ _ _ I OO x d' A B).
      * rewrite (own_dim_fun _ _ W _ _ _ B O). destruct (str_dec d d) as [_|N]; [|congruence]. exists co. split; auto. intros k [K|K]; [apply C; exact K|exfalso; eapply NQ; eauto].
  - destruct H as (T & D & NO). apply (cinv_ext P _ Q Q s').
    + eapply cinv_frame; eauto.
    + intros x d O. unfold plus. split; auto. intros [X| ->]; auto. exfalso. eapply NO; eauto.
    + intros. tauto.
Qed.
Lemma cinv_dims : forall c p a n is P Q s os s', in_ids p c a n -> (forall i, In i is -> i < ndim c) -> NoDup is -> error_of p = None ->
  cinv P Q s -> (forall i, In i is -> ~ P (p, i)) -> (forall i k, ~ Q (p, i) k) -> parse_dims at_ c p n is s = Ok (os, s') ->
  cinv (fun x => P x \/ (fst x = p /\ In (snd x) is)) Q s'.
Proof.
  intros c p a n is. induction is as [|i t IH]; intros P Q s os s' IN L ND E I NP NQ H; cbn [parse_dims] in H.
  - inversion H; subst. eapply cinv_ext; eauto; [|intros; tauto]. intros x d O. cbn [In]. tauto.
  - destruct (parse_dim at_ c p n i s) as [[o s1]|e] eqn:D1; [|discriminate]. cbn [rbind fst snd] in H. destruct (parse_dims at_ c p n t s1) as [[os2 s2]|e] eqn:D2; [|discriminate]. cbn [rbind fst snd] in H.
    inversion H; subst os s2. inversion ND as [|? ? NI ND']; subst.
    assert (I1 : cinv (plus P (p, i)) Q s1) by (eapply cinv_dim; eauto; [apply L; left; reflexivity|apply NP; left; reflexivity]).
    eapply (IH (plus P (p, i)) Q s1) in D2; eauto.
    + eapply cinv_ext; [exact D2| |intros; tauto]. intros [q j] d O. unfold plus. cbn [fst snd In]. split.
      * intros [[X|X]|(X & Y)]; auto. injection X as -> ->. right. auto.
      * intros [X|(-> & [<-|Y])]; auto.
    + intros j J. apply L. right. exact J.
    + intros j J [X|X]; [eapply NP; eauto; right; exact J|]. injection X as ->. contradiction.
Qed.
(** further coordinates of one dimension *)
Definition more (Q : axis -> str -> Prop) (y : axis) (l : list str) (x : axis) (k : str) : Prop := Q x k \/ (x = y /\ In k l).
Lemma cinv_more : forall P Q s x d l new l', cinv P Q s -> P x -> own_dim x d -> sget d (dimc s) = Some l -> (forall k, In k l' <-> In k l \/ In k new) ->
  cinv P (more Q x new) (set_dimc d l' s).
Proof.
  intros P Q s x d l new l' I PX O SL EL. constructor.
  - exact (c_time _ _ _ I).
  - intros d' l0 k. cbn [set_dimc dimc]. rewrite sget_sset. destruct (str_dec d' d) as [->|N].
    + intros X K. injection X as <-. apply EL in K as [K|K]; [|exists x; split; auto; split; auto; right; right; auto].
      destruct (c_sound _ _ _ I d l k SL K) as (x' & X1 & X2 & X3). exists x'. split; auto. split; auto. destruct X3; auto. right. left. assumption.
    + intros X K. destruct (c_sound _ _ _ I d' l0 k X K) as (x' & X1 & X2 & X3). exists x'. split; auto. split; auto. destruct X3; auto. right. left. assumption.
  - intros OO y d' A B. cbn [set_dimc dimc]. rewrite sget_sset. destruct (c_complete _ _ _ I OO y d' A B) as (l0 & L1 & L2). destruct (str_dec d' d) as [->|N].
    + exists l'. split; auto. intros k K. apply EL. rewrite SL in L1. injection L1 as <-. destruct K as [K|[K|(_ & K)]]; auto.
    + exists l0. split; auto. intros k [K|[K|(-> & K)]]; auto. exfalso. apply N. eapply own_dim_fun; eauto.
Qed.

(** ** All quantities *)
Definition axes_of (V : list visit) (x : axis) : Prop := exists v, In v V /\ fst x = vp v /\ snd x < ndim (vc v).
Definition listed (V : list visit) (x : axis) (k : str) : Prop :=
  exists v q, In v V /\ fst x = vp v /\ S (snd x) = ndim (vc v) /\ error_of (vp v) = None /\ In q (n_alts (at_ (vp v))) /\ k = dotted q.
Lemma own_no_error : forall x d, own_dim x d -> error_of (fst x) = None.
Proof. intros x d O. apply error_of_none. destruct O; assumption. Qed.
Lemma axes_app : forall V v x, axes_of (V ++ [v]) x <-> axes_of V x \/ (fst x = vp v /\ snd x < ndim (vc v)).
Proof.
  intros V v x. unfold axes_of. split.
  - intros (w & I & E). apply in_app_or in I as [I|[<-|[]]]; eauto.
  - intros [(w & I & E)|E]; [exists w|exists v]; rewrite in_app_iff; cbn [In]; auto.
Qed.
Lemma listed_app : forall V v x k, listed (V ++ [v]) x k <-> listed V x k \/ (fst x = vp v /\ S (snd x) = ndim (vc v) /\ error_of (vp v) = None /\ exists q, In q (n_alts (at_ (vp v))) /\ k = dotted q).
Proof.
  intros V v x k. unfold listed. split.
  - intros (w & q & I & E & F & G & H & J). apply in_app_or in I as [I|[<-|[]]]; [left; exists w, q; repeat (split; auto)|right; repeat (split; auto); exists q; auto].
  - intros [(w & q & I & E)|(A & B & C & q & D & E)]; [exists w, q|exists v, q]; rewrite in_app_iff; cbn [In]; intuition.
Qed.
Lemma not_visited : forall V v, ~ In (vp v) (map vp V) -> forall x, fst x = vp v -> ~ axes_of V x /\ forall k, ~ listed V x k.
Proof.
  intros V v NV x E. split.
  - intros (w & I & F & _). apply NV. rewrite <- E, F. apply List.in_map. exact I.
  - intros k (w & q & I & F & _). apply NV. rewrite <- E, F. apply List.in_map. exact I.
Qed.
Lemma set_pends_times : forall p q is s, time_dims (set_pends p q is s) = time_dims s /\ dimc (set_pends p q is s) = dimc s.
Proof. intros p q is. induction is as [|i t IH]; intros s; cbn [set_pends]; auto. destruct (IH (set_pend (p, i) (q, i) s)) as (A & B). rewrite A, B. auto. Qed.
Lemma parse_dimensions_cinv : forall V s v s', cinv (axes_of V) (listed V) s -> ~ In (vp v) (map vp V) -> seen m v -> 0 < ndim (vc v) ->
  parse_dimensions at_ (vc v) (vp v) (vl v) s = Ok s' -> cinv (axes_of (V ++ [v])) (listed (V ++ [v])) s'.
Proof.
  intros V s v s' I NV Sv L H. pose proof (not_visited V v NV) as NX. unfold parse_dimensions in H. destruct (error_of (vp v)) as [q|] eqn:Er.
  - inversion H; subst s'. apply (cinv_ext (axes_of V) _ (listed V) _ _).
    + eapply cinv_frame; [exact I| |]; [rewrite (proj1 (set_pends_times _ _ _ _))|rewrite (proj2 (set_pends_times _ _ _ _))]; reflexivity.
    + intros x d O. rewrite axes_app. split; auto. intros [X|(X & _)]; auto. apply own_no_error in O. congruence.
    + intros x d k O. rewrite listed_app. split; auto. intros [X|(X & _)]; auto. apply own_no_error in O. congruence.
  - destruct (parse_dims at_ (vc v) (vp v) (vl v) (seq 0 (ndim (vc v))) s) as [[os s2]|e] eqn:P; [|discriminate]. cbn [rbind fst snd] in H.
    pose proof P as P0. eapply (cinv_dims (vc v) (vp v) (va v) (vl v) _ (axes_of V) (listed V)) in P; eauto.
    2:{ intros i J. apply in_seq in J. lia. }
    2:{ apply seq_NoDup. }
    2:{ intros i J. apply NX. reflexivity. }
    2:{ intros i k. apply NX. reflexivity. }
    assert (PE : forall x, axes_of V x \/ fst x = vp v /\ In (snd x) (seq 0 (ndim (vc v))) <-> axes_of (V ++ [v]) x).
    { intros x. rewrite axes_app, in_seq. split; intros [X|(X & Y)]; auto; right; split; auto; lia. }
    assert (I2 : cinv (axes_of (V ++ [v])) (listed V) s2) by (eapply cinv_ext; [exact P|intros; apply PE|intros; tauto]).
    destruct (n_alts (at_ (vp v))) as [|a0 at0] eqn:NA.
    + inversion H; subst s'. apply (cinv_ext (axes_of (V ++ [v])) _ (listed V) _ _); [eapply cinv_frame; [exact I2|reflexivity|reflexivity]|intros; tauto|].
      intros x d k O. rewrite listed_app. split; auto. intros [X|(_ & _ & _ & q & X & _)]; auto. rewrite NA in X. destruct X.
    + remember (a0 :: at0) as al eqn:Eal. match type of H with context [set_alts (vp v) ?l s2] => remember l as nl eqn:Enl end.
      destruct (last os None) as [d|] eqn:LO; [|discriminate]. cbn [set_alts dimc] in H. destruct (sget d (dimc s2)) as [l|] eqn:Sd; [|discriminate]. inversion H; subst s'.
      assert (OD : own_dim (vp v, ndim (vc v) - 1) d).
      { destruct (parse_dims_spec2 _ _ _ _ _ _ _ _ Sv Er P0) as (LEN & OS). rewrite seq_length in LEN. assert (LT : forall i, In i (seq 0 (ndim (vc v))) -> i < ndim (vc v)) by (intros i J; apply in_seq in J; lia). specialize (OS LT).
        apply (OS (ndim (vc v) - 1) (ndim (vc v) - 1)).
        - rewrite seq_nth_error by lia. reflexivity.
        - rewrite <- LO, <- LEN. apply last_nth_error. intros ->. cbn in LEN. lia. }
      apply (cinv_ext (axes_of (V ++ [v])) _ (more (listed V) (vp v, ndim (vc v) - 1) (map dotted al)) _ _); [|intros; tauto|].
      * apply (cinv_frame _ _ (set_dimc d (l ++ map dotted al) s2)); [|reflexivity|reflexivity].
        apply cinv_more with (l := l); auto; [apply axes_app; right; cbn [fst snd]; split; [reflexivity|lia]|]. intros k. apply in_app_iff.
      * intros [q i] d' k O. rewrite listed_app. unfold more. cbn [fst snd]. split.
        -- intros [X|(X & Y)]; auto. injection X as -> ->. right. split; auto. split; [lia|]. split; auto. apply in_map_iff in Y as (q & <- & Y). rewrite NA. eauto.
        -- intros [X|(-> & X & _ & q0 & Y & ->)]; auto. right. rewrite NA in Y. split; [f_equal; lia|]. apply List.in_map. exact Y.
Qed.
End C.
