(** * C53, continued: the dimensions of a coordinate are among those of the quantity. *)
From Verif Require Import Base TreeModel TreeSpec TreeProofs TreeCheck NcMetaModel NcMetaSpec NcMetaProofs NcMetaProofs2 NcMetaProofs3 NcMetaProofs4 NcMetaProps NcCoordSpec NcCoordProofs NcCoordProofs2 NcCoordProps.
From Coq Require Import Lia.

Section Fit.
Variable at_ : path -> nattr.
Variable m : meta.
Hypothesis W : wf_meta m.
Variable fuel : nat.
Variable r : ncmeta.
Hypothesis Run : nc_metadata at_ fuel m = Ok r.
Notation in_ids := (in_ids m).
Notation encloses := (encloses m).
Notation D p := (get_dimensions r false p).

Lemma named_fun : forall x d d', named_dim at_ m x d -> named_dim at_ m x d' -> d = d'.
Proof.
  destruct (nc_run2 at_ m W fuel r Run) as (s0 & s & u & I & R & _). intros x d d' X. revert d'. induction X as [z d O NT|z z' d T X IH]; intros d' Y.
  - inversion Y as [? ? O'|? z' ? T]; subst; [eapply own_dim_fun; eauto|exfalso; eapply NT; eauto].
  - inversion Y as [? ? O' NT|? z'' ? T']; subst; [exfalso; eapply NT; eauto|]. apply IH. rewrite (r_fun _ _ _ _ R _ _ _ T T'). assumption.
Qed.
Lemma dims_split : forall p c a n, in_ids p c a n -> mkind c <> KStruct -> exists own, length own = ndim c /\
  D p = (match a with Some q => D q | None => [] end) ++ own /\ forall i d, nth_error own i = Some d -> named_dim at_ m (p, i) d.
Proof.
  intros p c a n IN K. destruct (C36_dimensions at_ fuel m r false p c a n W Run IN K) as (own & L & E & N). exists own. split; auto. split; auto.
  rewrite E. f_equal. rewrite <- (map_id own) at 2. reflexivity.
Qed.
Lemma parent_aos : forall p c a n, in_ids p c (Some a) n -> exists d b l, in_ids a d b l /\ mkind d = KAoS /\ n = S l.
Proof.
  intros p c a n IN. destruct (below_parent _ _ _ _ _ _ _ _ IN) as [[X _]|(q & d & b & l & X & -> & K & Q)]; [discriminate|]. injection X as ->. exists d, b, l. auto.
Qed.
Lemma encloses_dims : forall a p, encloses a p -> forall c b n, in_ids p c b n -> mkind c <> KStruct -> incl (D a) (D p).
Proof.
  intros a p H. induction H as [p c a n IN|p c b n a IN H IH]; intros c' b' n' IN' K.
  - destruct (in_ids_fun m W _ _ _ _ _ _ _ IN IN') as (<- & <- & <-). destruct (dims_split p c (Some a) n IN K) as (own & _ & E & _). rewrite E. apply incl_appl. apply incl_refl.
  - destruct (in_ids_fun m W _ _ _ _ _ _ _ IN IN') as (<- & <- & <-). destruct (dims_split p c (Some b) n IN K) as (own & _ & E & _). rewrite E. apply incl_appl.
    destruct (parent_aos _ _ _ _ IN) as (d & b' & l & IB & KB & _). eapply IH; eauto. congruence.
Qed.
Lemma encloses_trans : forall b p, encloses b p -> forall a, encloses a b -> encloses a p.
Proof. intros b p H. induction H as [p c a n IN|p c b' n a IN H IH]; intros a' X; eapply en_up; eauto. Qed.
Lemma encloses_in : forall a p, encloses a p -> exists c b n, in_ids p c (Some b) n /\ (a = b \/ encloses a b).
Proof. intros a p H. destruct H; eauto 8. Qed.
Hypothesis F : fitting at_ m.
Lemma reaches_encloses : forall x y, reaches at_ m x y -> forall c a n, in_ids (fst y) c (Some a) n -> encloses a (fst x).
Proof.
  intros x y H. induction H as [x y T|x y z T H IH]; intros c a n IN; [eapply (f_takes _ _ F); eauto|].
  destruct (encloses_in _ _ (IH _ _ _ IN)) as (c' & b & n' & IB & E). assert (X : encloses b (fst x)) by (eapply (f_takes _ _ F); eauto). destruct E as [-> | E]; auto. eapply encloses_trans; eauto.
Qed.
(** the arrays of structures around the quantity of an own dimension *)
Lemma from_encloses : forall p i y c a n, comes_from at_ m (p, i) y -> in_ids (fst y) c (Some a) n -> encloses a p.
Proof.
  intros p i y c a n ([<-|R] & _) IN; [eapply en_near; exact IN|]. exact (reaches_encloses _ _ R _ _ _ IN).
Qed.
Lemma root_named : forall x y d, comes_from at_ m x y -> own_dim at_ m y d -> named_dim at_ m y d.
Proof. intros x y d (_ & _ & N) O. apply nd_own; auto. Qed.
(** a quantity of one dimension d inside arrays of structures around p *)
Lemma one_dim : forall p cp ap np q c a n d, in_ids p cp ap np -> mkind cp <> KStruct -> In d (D p) -> in_ids q c a n -> mkind c <> KStruct -> ndim c = 1 -> named_dim at_ m (q, 0) d ->
  (forall a', a = Some a' -> encloses a' p) -> incl (D q) (D p).
Proof.
  intros p cp ap np q c a n d IP KP ID IQ KQ N1 ND EN. destruct (dims_split q c a n IQ KQ) as (own & L & E & O). rewrite E. apply incl_app.
  - destruct a as [a'|]; [eapply encloses_dims; eauto|intros x []].
  - intros x X. apply In_nth_error in X as (i & X). assert (Li : i < length own) by (apply nth_error_Some; congruence). assert (i = 0) by lia. subst i. rewrite (named_fun _ _ _ (O 0 x X) ND). exact ID.
Qed.
Lemma child_in : forall k names parent lv p c a n d, below k names parent lv p c a n -> mkind c = KAoS -> In d (mchildren c) -> below k names parent lv (p ++ [mname d]) d (Some p) (S n).
Proof.
  intros k names parent lv p c a n d H K I. induction H.
  - eapply bl_aos; eauto. destruct c as [x y z]. apply bl_child. exact I.
  - eapply bl_struct; eauto.
  - eapply bl_aos; eauto.
Qed.
Lemma below_last : forall k names parent lv p c a n, below k names parent lv p c a n -> exists x, p = x ++ [mname c].
Proof. intros k names parent lv p c a n H. induction H; eauto. Qed.
Lemma zero_dim : forall p q c n, in_ids q c (Some p) n -> mkind c <> KStruct -> ndim c = 0 -> D q = D p.
Proof.
  intros p q c n IN K Z. destruct (dims_split q c (Some p) n IN K) as (own & L & E & _). destruct own; [|cbn in L; lia]. rewrite E, app_nil_r. reflexivity.
Qed.
Hypothesis G : good_references at_ m.
Lemma coordinate_fits : forall p cp ap np i y d k, in_ids p cp ap np -> mkind cp <> KStruct -> comes_from at_ m (p, i) y -> n_refs (at_ p) i <> [] -> own_dim at_ m y d -> In d (D p) -> coordinate at_ m y k ->
  exists q c a n, in_ids q c a n /\ mkind c <> KStruct /\ k = dotted q /\ incl (D q) (D p).
Proof.
  intros p cp ap np i y d k IP KP CF NR O ID CO. pose proof (root_named _ _ _ CF O) as ND.
  assert (YOK := own_ok _ _ _ _ O). destruct YOK as (cy & ay & ny & IY & LY).
  assert (N1 : ndim cy = 1) by (eapply (f_one _ _ F); eauto). assert (Z0 : snd y = 0) by lia.
  assert (KY : mkind cy <> KStruct) by (intros X; unfold ndim in N1; rewrite X in N1; discriminate).
  assert (EY : forall a', ay = Some a' -> encloses a' p) by (intros a' ->; eapply from_encloses; eauto).
  assert (YP : incl (D (fst y)) (D p)).
  { eapply one_dim; eauto. destruct y as [qy iy]. cbn [fst snd] in *. subst iy. exact ND. }
  destruct CO as [MW|(_ & q & AL & ->)].
  - inversion MW as [p0 c0 a0 n0 q others i0 IN L NE R INS|p0 c0 a0 n0 i0 k0 IN L NE R SA K LB|p0 c0 a0 n0 i0 IN L NE R SA K]; subst y; subst; cbn [fst snd] in *.
    + destruct (f_inside _ _ F _ _ _ _ _ _ _ IN L NE R INS) as (KA & c' & n' & IQ & KQ & ZQ). exists q, c', (Some p0), n'. split; auto. split; auto. split; auto. rewrite (zero_dim _ _ _ _ IQ KQ ZQ). exact YP.
    + destruct LB as (e & Ie & _ & Ke & ->). pose proof (child_in _ _ _ _ _ _ _ _ e IN K Ie) as IQ. exists (p0 ++ [mname e]), e, (Some p0), (S n0). split; [exact IQ|]. split; [congruence|]. split; auto.
      rewrite (zero_dim _ _ _ _ IQ); [exact YP|congruence|unfold ndim; rewrite Ke; reflexivity].
    + exists p0, cy, ay, ny. auto.
  - destruct (g_alt _ _ G _ _ AL) as ((cq & aq & nq & IQ & NQ) & _ & _ & _ & UN & SH). exists q, cq, aq, nq. split; auto.
    assert (KQ : mkind cq <> KStruct) by (intros X; unfold ndim in NQ; rewrite X in NQ; discriminate). split; auto. split; auto.
    destruct (dims_split q cq aq nq IQ KQ) as (own & L & E & ON). destruct own as [|dq [|? ?]]; try (cbn in L; lia). pose proof (ON 0 dq eq_refl) as NQD.
    assert (dq = d) as ->.
    { assert (NY : named_dim at_ m (fst y, 0) d) by (destruct y as [qy iy]; cbn [fst snd] in *; subst iy; exact ND). inversion NQD as [? ? O' NT|? z ? T NZ]; subst.
      - exfalso. apply (NT (fst y, 0)). right. cbn [fst snd]. eauto.
      - assert (z = (fst y, 0)) as ->.
        { destruct T as [T|(_ & _ & Z1 & AL')]; [apply SH; exact T|]. cbn [fst snd] in *. apply UN in AL'. destruct z. cbn in *. congruence. }
        eapply named_fun; eauto. }
    eapply one_dim; eauto. intros a' ->. pose proof (f_alternative _ _ F _ _ _ _ _ AL IQ) as E1. destruct CF as ([CF|CF] & _).
    + subst y. exact E1.
    + destruct (encloses_in _ _ E1) as (c' & b & n' & IB & E2). pose proof (reaches_encloses _ _ CF _ _ _ IB) as E3. cbn [fst] in E3. destruct E2 as [-> | E2]; auto. eapply encloses_trans; eauto.
Qed.
Hypothesis OO : one_owner at_ m.
Lemma fits : forall n p c a, in_ids p c a n -> mkind c <> KStruct -> forall k, In k (cget (nc_coords r) p) ->
  (exists q c' a' n', in_ids q c' a' n' /\ mkind c' <> KStruct /\ k = dotted q /\ incl (D q) (D p)) /\
  ((exists y d, coordinate at_ m y k /\ own_dim at_ m y d /\ In d (D p)) \/ exists p' c' a' n', in_ids p' c' a' n' /\ mkind c' = KAoS /\ label p' c' k).
Proof.
  intros n. induction n as [n IH] using lt_wf_ind. intros p c a IN K k J. destruct (coords_of at_ m W fuel r Run OO p c a n IN K) as (own & labels & E & L & O & LB). rewrite E in J.
  destruct (dims_split p c a n IN K) as (od & Lo & Eo & No).
  apply in_app_or in J as [J|J]; [|apply in_app_or in J as [J|J]].
  - destruct a as [q|]; [|destruct J]. destruct (parent_aos _ _ _ _ IN) as (d & b & l & IB & KB & ->). destruct (IH l ltac:(lia) q d b IB ltac:(congruence) k J) as (X & Y).
    assert (INC : incl (D q) (D p)) by (rewrite Eo; apply incl_appl, incl_refl). split.
    + destruct X as (q' & c' & a' & n' & X1 & X2 & X3 & X4). exists q', c', a', n'. split; auto. split; auto. split; auto. eapply incl_tran; eauto.
    + destruct Y as [(y & d' & Y1 & Y2 & Y3)|Y]; [left; exists y, d'; auto|right; exact Y].
  - apply in_concat in J as (l & Il & J). apply In_nth_error in Il as (i & Il). destruct (O i l Il) as (O1 & O2).
    assert (NR : n_refs (at_ p) i <> []) by (intros X; rewrite (O1 X) in J; destruct J). destruct (O2 NR) as (y & CF & (d & OD & ND) & EQ). apply EQ in J.
    assert (ID : In d (D p)).
    { rewrite Eo. apply in_or_app. right. assert (Li : i < length od) by (rewrite Lo, <- L; apply nth_error_Some; congruence).
      destruct (nth_error od i) as [d'|] eqn:X; [|apply nth_error_None in X; lia]. rewrite (named_fun _ _ _ ND (No _ _ X)). eapply nth_error_In; eauto. }
    split; [eapply coordinate_fits; eauto|]. left. eauto.
  - apply LB in J as (KA & J). split; [|right; eauto 8]. destruct J as (e & Ie & _ & Ke & ->). pose proof (child_in _ _ _ _ _ _ _ _ e IN KA Ie) as IQ. exists (p ++ [mname e]), e, (Some p), (S n).
    split; [exact IQ|]. split; [congruence|]. split; auto. rewrite (zero_dim _ _ _ _ IQ); [apply incl_refl|congruence|unfold ndim; rewrite Ke; reflexivity].
Qed.
Lemma dims_h : forall h p, get_dimensions r h p = map (rename_time r h) (D p).
Proof. intros h p. unfold get_dimensions, rename_time. destruct (pget p (nc_dims r)); [|reflexivity]. destruct h; [reflexivity|]. symmetry. apply map_id. Qed.
Hypothesis FT : fitting_times at_ m.
Lemma time_renamed : forall d, time_name at_ m d -> rename_time r true d = strs "time".
Proof.
  intros d T. unfold rename_time. destruct (nc_run2 at_ m W fuel r Run) as (s0 & s & u & _ & _ & _ & KN & _ & ->). destruct (in_dec str_dec d (time_dims s)) as [I|I]; auto.
  exfalso. apply I. apply (k_time _ _ _ KN). exact T.
Qed.
Lemma fits_h : forall h n p c a, in_ids p c a n -> mkind c <> KStruct -> forall k, In k (get_coordinates r h p) ->
  exists q c' a' n', in_ids q c' a' n' /\ mkind c' <> KStruct /\ k = dotted q /\ incl (get_dimensions r h q) (get_dimensions r h p).
Proof.
  intros h n p c a IN K k J. rewrite get_coordinates_cget in J. apply in_map_iff in J as (k0 & E & J). destruct (fits n p c a IN K k0 J) as ((q & c' & a' & n' & X1 & X2 & X3 & X4) & Y).
  pose proof (rename_coord_spec at_ m W fuel r h k0 Run) as RN. rewrite E in RN. destruct RN as [(-> & TC & ->)|(_ & ->)].
  - destruct (t_root _ _ FT) as (c0 & I0 & N0 & K0 & R0 & S0 & NT). exists [strs "time"], c0, None, 0. split; auto.
    assert (K0' : mkind c0 <> KStruct) by (intros Z; unfold ndim in N0; rewrite Z in N0; discriminate). split; auto. split; [reflexivity|].
    destruct Y as [(y & d & CO & OD & ID)|(p' & c1 & a1 & n1 & I1 & K1 & LB)]; [|exact (False_ind _ (t_label _ _ FT p' c1 a1 n1 k0 I1 K1 LB TC))].
    pose proof (t_dim _ _ FT y k0 CO TC) as TA. assert (IT : In (strs "time") (get_dimensions r true p)).
    { rewrite dims_h. apply in_map_iff. exists d. split; auto. apply time_renamed. exists y. auto. }
    destruct (dims_split [strs "time"] c0 None 0 I0 K0') as (own & L & EO & NO). destruct own as [|d0 [|? ?]]; try (cbn in L; lia).
    pose proof (NO 0 d0 eq_refl) as ND. assert (NE : forall e, ~ error_bar [strs "time"] e) by (apply error_of_none; vm_compute; reflexivity).
    assert (OT : own_dim at_ m ([strs "time"], 0) (dotted [strs "time"])) by (eapply od_plain; eauto; lia).
    assert (TT : time_axis at_ m ([strs "time"], 0)).
    { eapply ta_named; eauto; [lia|]. destruct (below_last _ _ _ _ _ _ _ _ I0) as (x & Z). destruct x as [|x0 [|x1 x]]; cbn [app] in Z; try discriminate. injection Z as Z. symmetry. exact Z. }
    assert (d0 = dotted [strs "time"]) as ->.
    { inversion ND as [? ? O' _|? z ? T _]; subst; [eapply own_dim_fun; eauto|exfalso; eapply NT; eauto]. }
    rewrite (dims_h true [strs "time"]), EO. cbn [app map]. rewrite time_renamed by (eexists; eauto). intros x [<-|[]]. exact IT.
  - exists q, c', a', n'. split; auto. split; auto. split; auto. rewrite (dims_h h q), (dims_h h p). apply incl_map. exact X4.
Qed.
End Fit.

(** Every coordinate of a variable is a quantity whose dimensions are dimensions of the variable, as the CF conventions ask. *)
Theorem C53_fit : forall at_ fuel m r p c a n k, wf_meta m -> nc_metadata at_ fuel m = Ok r -> one_owner at_ m -> good_references at_ m -> fitting at_ m ->
  in_ids m p c a n -> mkind c <> KStruct -> In k (get_coordinates r false p) ->
  exists q c' a' n', in_ids m q c' a' n' /\ mkind c' <> KStruct /\ k = dotted q /\ incl (get_dimensions r false q) (get_dimensions r false p).
Proof.
  intros at_ fuel m r p c a n k W R OO G F IN K J. rewrite get_coordinates_cget in J. unfold rename_coord in J. rewrite map_id in J.
  destruct (fits at_ m W fuel r R F G OO n p c a IN K k J) as (X & _). exact X.
Qed.
Print Assumptions C53_fit.
Theorem C53_fit_homogeneous : forall at_ fuel m r p c a n k, wf_meta m -> nc_metadata at_ fuel m = Ok r -> one_owner at_ m -> good_references at_ m -> fitting at_ m -> fitting_times at_ m ->
  in_ids m p c a n -> mkind c <> KStruct -> In k (get_coordinates r true p) ->
  exists q c' a' n', in_ids m q c' a' n' /\ mkind c' <> KStruct /\ k = dotted q /\ incl (get_dimensions r true q) (get_dimensions r true p).
Proof. intros at_ fuel m r p c a n k W R OO G F FT IN K J. eapply fits_h; eauto. Qed.
Print Assumptions C53_fit_homogeneous.
