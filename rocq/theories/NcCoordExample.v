(** * Checks for the hypotheses of C53, examples, and findings. *)
From Verif Require Import Base TreeModel TreeSpec TreeProofs TreeCheck NcMetaModel NcMetaSpec NcMetaProofs NcMetaProofs2 NcMetaProofs3 NcMetaProofs4 NcMetaProps NcCoordSpec NcCoordProofs NcCoordProofs2 NcCoordProps NcCoordFit.
From Coq Require Import Lia.

Section Check.
Variable at_ : path -> nattr.
Variable m : meta.
Hypothesis W : wf_meta m.
Notation node := (node m).
Notation sharef := (sharef at_).

Lemma node_all : forall p c a n, in_ids m p c a n -> node p = Some (p, c, a, n).
Proof.
  intros p c a n IN. destruct (node p) as [v|] eqn:E.
  - apply node_some in E as (E & <-). destruct v as (((p' & c') & a') & n'). unfold seen in E. cbn [vp vc va vl fst snd] in *. destruct (in_ids_fun m W _ _ _ _ _ _ _ E IN) as (-> & -> & ->). reflexivity.
  - exfalso. unfold NcMetaProps.node in E. pose proof (find_none _ _ E (p, c, a, n)) as N. cbn [vp fst] in N. destruct (path_dec p p); [|congruence]. discriminate N. apply visits_In. exact IN.
Qed.
Definition axes : list axis := flat_map (fun v => map (fun i => (vp v, i)) (seq 0 (ndim (vc v)))) (vs m).
Lemma axes_all : forall p c a n i, in_ids m p c a n -> i < ndim c -> In (p, i) axes.
Proof. intros p c a n i IN L. apply in_flat_map. exists (p, c, a, n). split; [apply visits_In; exact IN|]. apply in_map_iff. exists i. split; auto. apply in_seq. cbn. lia. Qed.
Definition ownf (x : axis) : option str :=
  match node (fst x), error_of (fst x) with
  | Some v, None =>
    match n_refs (at_ (fst x)) (snd x) with
    | q :: _ => if is_ancestor (fst x) q then Some (dotted q) else None
    | [] => match n_same (at_ (fst x)) (snd x) with
            | [] => if is_aos (vc v) || negb (vl v + ndim (vc v) =? 1)
                    then match nth_error ["i"; "j"; "k"; "l"; "m"; "n"]%char (snd x) with Some l => Some (dotted (fst x) ++ [":"%char; l]) | None => None end
                    else Some (dotted (fst x))
            | _ => None end end
  | _, _ => None end.
Lemma ownf_all : forall x d, own_dim at_ m x d -> In x axes /\ ownf x = Some d.
Proof.
  intros x d H. split; [destruct (own_ok _ _ _ _ H) as (c & a & n & IN & L); destruct x; eapply axes_all; eauto|].
  inversion H as [p c a n q others i IN L NE R INS|p c a IN L NE R S K N|p c a n i l IN L NE R S K LT]; subst; unfold ownf; cbn [fst snd]; rewrite (node_all _ _ _ _ IN), (proj2 (error_of_none p)) by assumption; rewrite R.
  - apply is_ancestor_spec in INS. rewrite INS. reflexivity.
  - rewrite S. cbn [vc vl fst snd]. rewrite N. cbn. destruct (is_aos c) eqn:A; [unfold is_aos in A; destruct (mkind c); congruence|reflexivity].
  - rewrite S. cbn [vc vl fst snd]. replace (is_aos c || negb (n + ndim c =? 1)) with true; [unfold letter in LT; rewrite LT; reflexivity|]. symmetry. apply Bool.orb_true_iff. destruct K as [K|K].
    + left. unfold is_aos. rewrite K. reflexivity.
    + right. apply Bool.negb_true_iff, Nat.eqb_neq. exact K.
Qed.
Definition one_owner_b : bool :=
  forallb (fun x => forallb (fun y => match ownf x, ownf y with Some d, Some e => if str_dec d e then if axis_dec x y then true else false else true | _, _ => true end) axes) axes.
Lemma one_owner_b_sound : one_owner_b = true -> one_owner at_ m.
Proof.
  intros H x y d X Y. apply ownf_all in X as (X1 & X2), Y as (Y1 & Y2). unfold one_owner_b in H. rewrite forallb_forall in H. specialize (H x X1). rewrite forallb_forall in H. specialize (H y Y1).
  rewrite X2, Y2 in H. destruct (str_dec d d); [|congruence]. destruct (axis_dec x y); [assumption|discriminate].
Qed.
Definition takef (x : axis) : list axis :=
  (match sharef (fst x) (snd x) with Some y => [y] | None => [] end) ++
  (if snd x =? 0 then map (fun e => (snd e, 0)) (filter (fun e => if path_dec (fst e) (fst x) then true else false) (alt_pairs at_ m)) else []).
Lemma takef_all : forall x y, takes at_ m x y -> In x axes /\ In y (takef x).
Proof.
  intros x y H. destruct H as [H|((d & O) & Z & Z' & A)].
  - split; [destruct (shares_ok _ _ _ _ H) as (c & a & n & IN & L); destruct x; eapply axes_all; eauto|]. apply in_or_app. left. rewrite (sharef_shares _ _ _ _ H). left. reflexivity.
  - split; [apply (ownf_all _ _ O)|]. apply in_or_app. right. rewrite Z. cbn [Nat.eqb]. apply in_map_iff. exists (fst x, fst y). split; [destruct y; cbn in *; subst; reflexivity|]. apply filter_In. split; [apply alternative_pairs; exact A|].
    cbn [fst]. destruct (path_dec (fst x) (fst x)); congruence.
Qed.
Fixpoint encl_b (f : nat) (a p : path) : bool :=
  match f with
  | O => false
  | S f => match node p with
           | Some v => match va v with Some b => (if path_dec a b then true else false) || encl_b f a b | None => false end
           | None => false end end.
Lemma encl_b_sound : forall f a p, encl_b f a p = true -> encloses m a p.
Proof.
  induction f as [|f IH]; intros a p H; [discriminate|]. cbn [encl_b] in H. destruct (node p) as [v|] eqn:E; [|discriminate]. apply node_some in E as (E & <-). unfold seen in E. destruct (va v) as [b|] eqn:A; [|discriminate].
  apply Bool.orb_true_iff in H as [H|H]; [destruct (path_dec a b) as [->|]; [|discriminate]; eapply en_near; eauto|eapply en_up; eauto].
Qed.
Definition aos_of (p : path) : option path := match node p with Some v => va v | None => None end.
Definition within (y x : path) : bool := match aos_of y with Some a => encl_b 50 a x | None => true end.
(** the own dimensions of quantities with more than one dimension, and the dimensions that are one of these *)
Definition many (y : axis) : bool := match node (fst y) with Some v => negb (ndim (vc v) =? 1) | None => true end.
Variable bad : list axis.
Definition badb (x : axis) : bool := if in_dec axis_dec x bad then true else false.
Definition fit_axis (x : axis) : bool :=
  forallb (fun y => within (fst y) (fst x) && (negb (badb y) || badb x)) (takef x) &&
  match node (fst x) with
  | Some v =>
    match error_of (fst x), n_refs (at_ (fst x)) (snd x) with
    | None, q :: _ => if is_ancestor (fst x) q then is_aos (vc v) && match node q with Some w => (match va w with Some z => if path_dec z (fst x) then true else false | None => false end) && (match mkind (vc w) with KStruct => false | _ => true end) && (ndim (vc w) =? 0) | None => false end else true
    | _, _ => true end
  | None => false end &&
  (negb (match ownf x with Some _ => true | None => false end && many x) || badb x) &&
  (negb (badb x) || match n_refs (at_ (fst x)) (snd x) with [] => true | _ => false end).
Definition fitting_b : bool := forallb fit_axis axes && forallb (fun e => within (fst e) (snd e)) (alt_pairs at_ m).
Lemma within_sound : forall y x c a n, within y x = true -> in_ids m y c (Some a) n -> encloses m a x.
Proof. intros y x c a n H IN. unfold within, aos_of in H. rewrite (node_all _ _ _ _ IN) in H. cbn [va fst snd] in H. eapply encl_b_sound; eauto. Qed.
Lemma fitting_b_sound : fitting_b = true -> fitting at_ m.
Proof.
  intros H. apply Bool.andb_true_iff in H as (H1 & H2). rewrite forallb_forall in H1, H2.
  assert (A : forall x, In x axes -> (forall y, In y (takef x) -> within (fst y) (fst x) = true /\ (badb y = true -> badb x = true)) /\
     (forall q others v, node (fst x) = Some v -> error_of (fst x) = None -> n_refs (at_ (fst x)) (snd x) = q :: others -> is_ancestor (fst x) q = true ->
        is_aos (vc v) = true /\ exists w, node q = Some w /\ va w = Some (fst x) /\ mkind (vc w) <> KStruct /\ ndim (vc w) = 0) /\
     (forall d, ownf x = Some d -> many x = true -> badb x = true) /\ (badb x = true -> n_refs (at_ (fst x)) (snd x) = [])).
  { intros x I. pose proof (H1 x I) as X. unfold fit_axis in X. apply Bool.andb_true_iff in X as (X & X4). apply Bool.andb_true_iff in X as (X & X3). apply Bool.andb_true_iff in X as (X1 & X2).
    rewrite forallb_forall in X1. split; [|split; [|split]].
    - intros y J. apply X1 in J. apply Bool.andb_true_iff in J as (J1 & J2). split; auto. intros B. rewrite B in J2. exact J2.
    - intros q others v N E R AN. rewrite N, E, R, AN in X2. apply Bool.andb_true_iff in X2 as (X2 & X5). split; auto. destruct (node q) as [w|]; [|discriminate]. exists w. split; auto.
      destruct (va w) as [z|]; [|discriminate]. apply Bool.andb_true_iff in X5 as (X5 & X7). apply Bool.andb_true_iff in X5 as (X5 & X6). apply Nat.eqb_eq in X7. destruct (path_dec z (fst x)) as [->|]; [|discriminate].
      split; auto. split; auto. destruct (mkind (vc w)); congruence.
    - intros d O M. rewrite O, M in X3. exact X3.
    - intros B. rewrite B in X4. destruct (n_refs (at_ (fst x)) (snd x)); [reflexivity|discriminate]. }
  constructor.
  - intros x y c a n T IN. apply takef_all in T as (T1 & T2). eapply within_sound; eauto. apply (A x T1); auto.
  - intros q p c a n AL IN. apply alternative_pairs in AL. apply H2 in AL. eapply within_sound; eauto.
  - intros p c a n q others i IN L NE R INS. destruct (A (p, i) (axes_all _ _ _ _ _ IN L)) as (_ & X & _). cbn [fst snd] in X. specialize (X q others _ (node_all _ _ _ _ IN) (proj2 (error_of_none p) NE) R (proj2 (is_ancestor_spec _ _) INS)).
    destruct X as (K & w & N & V & K2 & Z). cbn [vc fst snd] in K. split; [unfold is_aos in K; destruct (mkind c); congruence|]. apply node_some in N as (N & <-). exists (vc w), (vl w). unfold seen in N. rewrite V in N. auto.
  - intros x y c a n (RE & (d & O) & NT) NR IN. destruct (Nat.eq_dec (ndim c) 1) as [E|E]; auto. exfalso. apply NR.
    assert (BY : badb y = true). { destruct (ownf_all _ _ O) as (O1 & O2). apply (proj1 (proj2 (proj2 (A y O1))) d O2). unfold many. rewrite (node_all _ _ _ _ IN). cbn [vc fst snd]. apply Bool.negb_true_iff, Nat.eqb_neq. exact E. }
    assert (BX : In x axes /\ badb x = true).
    { destruct RE as [<-|RE]; [split; [apply (ownf_all _ _ O)|exact BY]|]. clear -RE BY A W. induction RE as [x y T|x y z T R IH]; apply takef_all in T as (T1 & T2); split; auto; apply (A x T1) in T2; apply T2; [exact BY|]. apply IH. exact BY. }
    apply (A x (proj1 BX)). apply BX.
Qed.
Definition is_time (p : path) : bool := match rev p with x :: _ => if str_dec x (strs "time") then true else false | [] => false end.
Definition time_axisb (x : axis) : bool :=
  match node (fst x), error_of (fst x) with
  | Some v, None => (snd x <? ndim (vc v)) &&
    match n_refs (at_ (fst x)) (snd x) with
    | q :: others => is_ancestor (fst x) q && existsb is_time (q :: others)
    | [] => match n_same (at_ (fst x)) (snd x) with [] => if str_dec (mname (vc v)) (strs "time") then true else false | _ => false end
    end
  | _, _ => false end.
Lemma is_time_spec : forall p, is_time p = true <-> exists b, p = b ++ [strs "time"].
Proof.
  intros p. unfold is_time. split.
  - destruct (rev p) as [|x t] eqn:E; [discriminate|]. destruct (str_dec x (strs "time")) as [->|]; [|discriminate]. intros _. exists (rev t). rewrite <- (rev_involutive p), E. reflexivity.
  - intros (b & ->). rewrite rev_app_distr. cbn [rev app]. destruct (str_dec (strs "time") (strs "time")); congruence.
Qed.
Lemma time_axisb_spec : forall x, time_axisb x = true <-> time_axis at_ m x.
Proof.
  intros x. split.
  - intros H. destruct x as [p i]. unfold time_axisb in H. cbn [fst snd] in H. destruct (node p) as [v|] eqn:N; [|discriminate]. destruct (error_of p) eqn:E; [discriminate|]. pose proof (proj1 (error_of_none p) E) as NE.
    apply node_some in N as (N & EP). unfold seen in N. rewrite EP in N. apply Bool.andb_true_iff in H as (L & H). apply Nat.ltb_lt in L. destruct (n_refs (at_ p) i) as [|q others] eqn:R.
    + destruct (n_same (at_ p) i) eqn:S; [|discriminate]. destruct (str_dec (mname (vc v)) (strs "time")) as [T|]; [|discriminate]. exact (ta_named at_ m p (vc v) (va v) (vl v) i N L NE R S T).
    + apply Bool.andb_true_iff in H as (AN & H). apply existsb_exists in H as (r & Ir & T). apply is_time_spec in T as (b & T). apply is_ancestor_spec in AN. exact (ta_inside at_ m p (vc v) (va v) (vl v) q others i r b N L NE R AN Ir T).
  - intros H. inversion H as [p c a n q others i r b IN L NE R INS Ir E|p c a n i IN L NE R S T]; subst x; unfold time_axisb; cbn [fst snd]; rewrite (node_all _ _ _ _ IN), (proj2 (error_of_none p)) by assumption; rewrite R; cbn [vc fst snd]; rewrite (proj2 (Nat.ltb_lt _ _) L); cbn [andb].
    + rewrite (proj2 (is_ancestor_spec _ _) INS). apply existsb_exists. exists r. split; auto. apply is_time_spec. eauto.
    + rewrite S, T. destruct (str_dec (strs "time") (strs "time")); congruence.
Qed.
Definition labelf (p : path) (c : meta) : list str :=
  map (fun d => dotted (p ++ [mname d])) (filter (fun d => (if in_dec str_dec (mname d) [strs "name"; strs "identifier"; strs "label"] then true else false) && match mkind d with KLeaf STR 0 => true | _ => false end) (mchildren c)).
Lemma labelf_all : forall p c k, label p c k -> In k (labelf p c).
Proof.
  intros p c k (d & I & N & K & ->). apply in_map_iff. exists d. split; auto. apply filter_In. split; auto. rewrite K. destruct (in_dec str_dec (mname d) _); [reflexivity|contradiction].
Qed.
Definition coordf (x : axis) : list str :=
  match n_refs (at_ (fst x)) (snd x) with q :: _ => if is_ancestor (fst x) q then [dotted q] else [] | [] => match node (fst x) with Some v => dotted (fst x) :: labelf (fst x) (vc v) | None => [] end end ++
  (if snd x =? 0 then map (fun e => dotted (fst e)) (filter (fun e => if path_dec (snd e) (fst x) then true else false) (alt_pairs at_ m)) else []).
Lemma made_in : forall x k, made_with at_ m x k -> In k (coordf x).
Proof.
  intros x k H. apply in_or_app. left. inversion H as [p c a n q others i IN L NE R INS|p c a n i k' IN L NE R S K LB|p c a n i IN L NE R S K]; subst; cbn [fst snd]; rewrite R; [rewrite (proj2 (is_ancestor_spec _ _) INS); left; reflexivity| |]; rewrite (node_all _ _ _ _ IN); [right; apply labelf_all; exact LB|left; reflexivity].
Qed.
Definition time_names : list str := flat_map (fun x => if time_axisb x then match ownf x with Some d => [before_colon d] | None => [] end else []) axes.
Lemma time_names_all : forall k, time_coordinate at_ m k -> In k time_names.
Proof.
  intros k (N & d & (x & O & T) & E). apply in_flat_map. apply ownf_all in O as (O1 & O2). exists x. split; auto. rewrite (proj2 (time_axisb_spec x) T), O2. left. apply before_colon_spec. auto.
Qed.
Definition timeb (k : str) : bool := if in_dec str_dec k time_names then true else false.
Definition fitting_times_b : bool :=
  (match node [strs "time"] with
   | Some v => (match va v with None => true | Some _ => false end) && (vl v =? 0) && (ndim (vc v) =? 1) && negb (is_aos (vc v)) && (match n_refs (at_ [strs "time"]) 0, n_same (at_ [strs "time"]) 0, takef ([strs "time"], 0) with [], [], [] => true | _, _, _ => false end)
   | None => false end) &&
  forallb (fun y => time_axisb y || forallb (fun k => negb (timeb k)) (coordf y)) (axes ++ map (fun e => (snd e, 0)) (alt_pairs at_ m)) &&
  forallb (fun v => negb (is_aos (vc v)) || forallb (fun k => negb (timeb k)) (labelf (vp v) (vc v))) (vs m).
Lemma timeb_not : forall k, negb (timeb k) = true -> ~ time_coordinate at_ m k.
Proof. intros k H T. apply time_names_all in T. unfold timeb in H. destruct (in_dec str_dec k time_names); [discriminate|contradiction]. Qed.
Lemma fitting_times_b_sound : fitting_times_b = true -> fitting_times at_ m.
Proof.
  intros H. unfold fitting_times_b in H. remember [strs "time"] as tp eqn:ET. apply Bool.andb_true_iff in H as (H & H3). apply Bool.andb_true_iff in H as (H1 & H2). rewrite forallb_forall in H2, H3. constructor.
  - rewrite <- ET. destruct (node tp) as [v|] eqn:N; [|discriminate]. apply node_some in N as (N & EP). unfold seen in N. rewrite EP in N. apply Bool.andb_true_iff in H1 as (H1 & R). apply Bool.andb_true_iff in H1 as (H1 & K). apply Bool.andb_true_iff in H1 as (H1 & D). apply Bool.andb_true_iff in H1 as (A & L).
    destruct (va v); [discriminate|]. apply Nat.eqb_eq in L, D. rewrite L in N. exists (vc v). split; auto. split; auto. split; [intros X; unfold is_aos in K; rewrite X in K; discriminate|].
    destruct (n_refs (at_ tp) 0); [|discriminate]. destruct (n_same (at_ tp) 0); [|discriminate]. destruct (takef (tp, 0)) eqn:TF; [|discriminate]. split; auto. split; auto. intros y T. apply takef_all in T as (_ & T). rewrite TF in T. destruct T.
  - intros y k CO TC. assert (I : In y (axes ++ map (fun e => (snd e, 0)) (alt_pairs at_ m)) /\ In k (coordf y)).
    { destruct CO as [MW|(Z & q & AL & ->)].
      - split; [|apply made_in; exact MW]. apply in_or_app. left. inversion MW; subst; eapply axes_all; eauto.
      - apply alternative_pairs in AL. split; [apply in_or_app; right; apply in_map_iff; exists (q, fst y); split; auto; destruct y; cbn in *; subst; reflexivity|].
        apply in_or_app. right. rewrite Z. cbn [Nat.eqb]. apply in_map_iff. exists (q, fst y). split; auto. apply filter_In. split; auto. cbn [snd]. destruct (path_dec (fst y) (fst y)); congruence. }
    destruct I as (I1 & I2). apply H2 in I1. apply Bool.orb_true_iff in I1 as [I1|I1]; [apply time_axisb_spec; exact I1|]. rewrite forallb_forall in I1. apply I1 in I2. exfalso. eapply timeb_not; eauto.
  - intros p c a n k IN K LB TC. assert (I : In (p, c, a, n) (vs m)) by (apply visits_In; exact IN). apply H3 in I. cbn [vp vc fst snd] in I. unfold is_aos in I. rewrite K in I. cbn [negb orb] in I. rewrite forallb_forall in I. apply labelf_all in LB. apply I in LB. eapply timeb_not; eauto.
Qed.
End Check.

(** ** The example dictionary of C36 meets all the hypotheses *)
Example ex_one_owner : one_owner ex_at ex_nc.
Proof. apply one_owner_b_sound; [exact ex_nc_wf|]. vm_compute. reflexivity. Qed.
Example ex_fitting : fitting ex_at ex_nc.
Proof. apply (fitting_b_sound ex_at ex_nc ex_nc_wf [(pth ["map"]%string, 1)]). vm_compute. reflexivity. Qed.
Example ex_fitting_times : fitting_times ex_at ex_nc.
Proof. apply fitting_times_b_sound; [exact ex_nc_wf|]. vm_compute. reflexivity. Qed.
Definition ex_coords (h : bool) (p : list string) : option (list str) :=
  match nc_metadata ex_at 100 ex_nc with Ok r => Some (get_coordinates r h (pth p)) | Err _ => None end.
Example ex_coords_n : ex_coords false ["profiles_1d"; "ion"; "n"]%string = Some (map strs ["profiles_1d.time"; "profiles_1d.ion.label"]%string).
Proof. vm_compute. reflexivity. Qed.
Example ex_coords_t : ex_coords false ["profiles_1d"; "t"]%string = Some (map strs ["profiles_1d.time"; "profiles_1d.grid.rho"; "profiles_1d.grid.psi"]%string).
Proof. vm_compute. reflexivity. Qed.
Example ex_coords_t_homogeneous : ex_coords true ["profiles_1d"; "t"]%string = Some (map strs ["time"; "profiles_1d.grid.rho"; "profiles_1d.grid.psi"]%string).
Proof. vm_compute. reflexivity. Qed.

(** ** Finding: with homogeneous time, a coordinate is replaced by the time of the IDS although its dimension is not time.
    The dictionary says that the dimension of x is s or a/time: the dimension is called s, a/time is a coordinate too, and is written as time. *)
Definition alt_time : meta := Meta (strs "x") KStruct [leaf "time" FLT 1; leaf "s" FLT 1; Meta (strs "a") KStruct [leaf "time" FLT 1]; leaf "x" FLT 1].
Definition alt_time_at (p : path) : nattr :=
  if path_dec p (pth ["x"]%string) then {| n_refs := fun _ => [pth ["s"]%string; pth ["a"; "time"]%string]; n_same := fun _ => []; n_alts := [] |} else no_refs.
Example alt_time_wf : wf_meta alt_time.
Proof. by_check. Qed.
Theorem C53_alternative_time_refuted : exists at_ fuel m r p c a n, wf_meta m /\ one_owner at_ m /\ good_references at_ m /\ fitting at_ m /\ nc_metadata at_ fuel m = Ok r /\ in_ids m p c a n /\
  In (strs "time") (get_coordinates r true p) /\ get_dimensions r true [strs "time"] = [strs "time"] /\ ~ In (strs "time") (get_dimensions r true p).
Proof.
  destruct (nc_metadata alt_time_at 100 alt_time) as [r|e] eqn:E.
  - exists alt_time_at, 100, alt_time, r, (pth ["x"]%string), (leaf "x" FLT 1), None, 0. split; [exact alt_time_wf|]. split; [apply one_owner_b_sound; [exact alt_time_wf|vm_compute; reflexivity]|].
    split; [apply good_b_sound; vm_compute; reflexivity|]. split; [apply (fitting_b_sound _ _ alt_time_wf []); vm_compute; reflexivity|]. split; auto.
    assert (X : match nc_metadata alt_time_at 100 alt_time with
                | Ok r => (get_coordinates r true (pth ["x"]%string), get_dimensions r true [strs "time"], get_dimensions r true (pth ["x"]%string))
                | Err _ => ([], [], []) end = ([strs "s"; strs "time"], [strs "time"], [strs "s"])) by (vm_compute; reflexivity).
    rewrite E in X. pose proof (f_equal (fun z => fst (fst z)) X) as X1. pose proof (f_equal (fun z => snd (fst z)) X) as X2. pose proof (f_equal snd X) as X3. cbn [fst snd] in X1, X2, X3. rewrite X1, X2, X3. split; [apply (bl_child _ _ _ [] None 0 (leaf "x" FLT 1)); cbn; auto 6|]. split; [right; left; reflexivity|]. split; [reflexivity|]. intros [Y|[]]. discriminate Y.
  - exfalso. assert (X : match nc_metadata alt_time_at 100 alt_time with Ok _ => true | Err _ => false end = true) by (vm_compute; reflexivity). rewrite E in X. discriminate.
Qed.
Print Assumptions C53_alternative_time_refuted.
