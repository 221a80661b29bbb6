(** The metadata of a definition. *)
From Verif Require Import Base DataTypeModel PathModel PathSpec ConvSpec ValModel MetaModel MetaSpec MetaProofs.
From Verif Require NcEntryModel.

Lemma snoc_split : forall {A} (a b : list A) p x, p ++ [x] = a ++ b -> b <> [] -> exists b', b = b' ++ [x] /\ p = a ++ b'.
Proof.
  intros A a b p x E N. destruct (exists_last N) as (b' & z & ->). rewrite app_assoc in E. apply app_inj_tail in E. destruct E as (-> & ->). exists b'. auto.
Qed.
Lemma dim_none : forall y i, x_coords i = coords_of [] (xattrib y) (x_ndim i) ->
  length (x_coords i) = N.to_nat (x_ndim i) /\ forall k c, nth_error (x_coords i) k = Some c -> coordinate "" y k c.
Proof.
  intros y i ->. split; [unfold coords_of; rewrite map_length, seq_length; reflexivity|]. intros k c E. apply (coord_spec "" y (x_ndim i)). assumption.
Qed.
Lemma dim_same : forall y i, x_same i = coords_of (strs "_same_as") (xattrib y) (x_ndim i) ->
  length (x_same i) = N.to_nat (x_ndim i) /\ forall k c, nth_error (x_same i) k = Some c -> coordinate "_same_as" y k c.
Proof.
  intros y i ->. split; [unfold coords_of; rewrite map_length, seq_length; reflexivity|]. intros k c E. apply (coord_spec "_same_as" y (x_ndim i)). assumption.
Qed.
Lemma no_prefix : forall {A} (a b : list A), [] = a ++ b -> a = [] /\ b = [].
Proof. intros A [] b E; cbn in E; [auto|discriminate]. Qed.

Lemma node_top : forall x i k, init (xattrib x) [] None = Ok (i, k) -> node_is x [] x i.
Proof.
  intros x i k E. destruct (init_inv _ _ _ _ _ E) as (L & C & T & D & U). unfold ctx_is, dyn_is, units_is in *. destruct L.
  assert (NI : ~ inside_varying x []). { intros (a & b & y & E1 & NA & _). destruct (no_prefix _ _ E1). contradiction. }
  constructor; auto.
  - rewrite (type_iff _ _ li_time). reflexivity.
  - rewrite D. split; [discriminate|]. intros (N & _). contradiction.
  - assert (AR := array_iff _ _ _ li_type). assert (DY := dyn_iff _ _ li_time). unfold time_base, tbp_is, varies in *.
    destruct (is_array (x_dtype i)); destruct (is_dynamic (x_type i)); split; intros A; try (exfalso; intuition congruence); split; intros V; try tauto.
    + exfalso. destruct DY as (_ & DY). specialize (DY V). discriminate.
    + destruct T. intros _. congruence.
  - exists [], [], x. split; [reflexivity|]. split; [constructor|]. split; [assumption|]. split; [left; reflexivity|].
    intros b1 b2 y' E1 N. destruct (no_prefix _ _ E1). contradiction.
  - apply dim_none. assumption.
  - apply dim_same. assumption.
Qed.

Lemma slashed_snoc : forall r n, r <> [] -> slashed (r ++ [n]) = slashed r ++ "/"%char :: n.
Proof.
  unfold slashed. induction r as [|a r IH]; intros n N; [contradiction|]. destruct r as [|b r]; [reflexivity|].
  change (join_with "/" ((a :: b :: r) ++ [n])) with (a ++ "/"%char :: join_with "/" ((b :: r) ++ [n])). rewrite IH by discriminate.
  change (join_with "/" (a :: b :: r)) with (a ++ "/"%char :: join_with "/" (b :: r)). rewrite <- app_assoc. reflexivity.
Qed.

Lemma slashed_nonempty : forall r, r <> [] -> Forall is_name r -> slashed r <> [].
Proof.
  intros [|a [|b r]] N F E; [contradiction| |]; inversion F as [|? ? (c & t & -> & _) _]; discriminate.
Qed.

Section Node.
Variable x : xml.
Hypothesis D : distinct_names x.
Hypothesis NE : forall p y, elem_at x p y -> ~ In [] p.

Lemma slashed_ne : forall r, r <> [] -> ~ In [] r -> slashed r <> [].
Proof. intros [|a [|b r]] N I E; [contradiction| |]; destruct a; try (apply I; left; reflexivity); discriminate. Qed.

Lemma node_child : forall p y i c n j k, elem_at x p y -> node_is x p y i -> In c (xchildren y) -> attr "name" c = Some n ->
  init (xattrib c) (if is_array (x_dtype i) then [] else x_ctx i) (Some i) = Ok (j, k) -> node_is x (p ++ [n]) c j.
Proof.
  intros p y i c n j k EY NI IC NC E. destruct (init_inv _ _ _ _ _ E) as (L & C & T & DY & U). unfold ctx_is, dyn_is, units_is in *. destruct L.
  assert (EC : elem_at x (p ++ [n]) c) by (eapply elem_app; [eassumption|]; econstructor; [eassumption|assumption|constructor]).
  assert (n = x_name j) by congruence. subst n.
  assert (AY := array_iff _ _ _ (ni_type _ _ _ _ NI)).
  assert (IV : inside_varying x (p ++ [x_name j]) <-> x_is_dynamic i = true).
  { rewrite (ni_inside _ _ _ _ NI). split.
    - intros (a & b & z & E1 & NA & NB & EZ & V). destruct (snoc_split _ _ _ _ E1 NB) as (b' & -> & ->). split; [destruct a; [contradiction|discriminate]|].
      destruct b' as [|w b']; [left|right].
      + rewrite app_nil_r in *. rewrite (elem_fun _ _ _ _ D EY EZ). assumption.
      + exists a, (w :: b'), z. repeat split; auto. discriminate.
    - intros (NP & [V|(a & b & z & -> & NA & NB & EZ & V)]).
      + exists p, [x_name j], y. repeat split; auto. discriminate.
      + exists a, (b ++ [x_name j]), z. rewrite app_assoc. repeat split; auto. destruct b; discriminate. }
  constructor; auto.
  - (* context *)
    right. rewrite C. destruct (is_array (x_dtype i)) eqn:EA.
    + exists p, [x_name j]. split; [reflexivity|]. split; [discriminate|]. split; [reflexivity|]. split; [right; exists y; split; [assumption|]; apply AY; reflexivity|].
      intros r1 r2 z E1 N1 N2. destruct r1 as [|? [|? ?]]; [contradiction| |]; destruct r2; discriminate || contradiction.
    + destruct (ni_context _ _ _ _ NI) as [(-> & ->)|(a & r & -> & NR & EC' & A & B)].
      * exists [], [x_name j]. split; [reflexivity|]. split; [discriminate|]. split; [reflexivity|]. split; [left; reflexivity|].
        intros r1 r2 z E1 N1 N2. destruct r1 as [|? [|? ?]]; [contradiction| |]; destruct r2; discriminate || contradiction.
      * exists a, (r ++ [x_name j]). split; [rewrite app_assoc; reflexivity|]. split; [destruct r; discriminate|].
        assert (SN : slashed r <> []) by (apply slashed_ne; auto; intros I; apply (NE _ _ EY); apply in_or_app; right; assumption).
        split.
        { rewrite EC'. rewrite slashed_snoc by assumption. destruct (slashed r); [contradiction|reflexivity]. }
        split; [assumption|]. intros r1 r2 z E1 N1 N2 EZ. destruct (snoc_split _ _ _ _ E1 N2) as (r2' & -> & ->). destruct r2' as [|w r2'].
        { rewrite app_nil_r in *. rewrite (elem_fun _ _ _ _ D EZ EY). intros AA. apply AY in AA. congruence. }
        { apply (B r1 (w :: r2') z); auto. discriminate. }
  - rewrite (type_iff _ _ li_time). reflexivity.
  - rewrite DY, orb_true_iff, (dyn_iff _ _ li_time). rewrite <- IV. unfold varies. split; [|tauto]. intros Q. split; [|assumption]. destruct p; discriminate.
  - assert (AR := array_iff _ _ _ li_type). assert (DX := dyn_iff _ _ li_time). unfold time_base, tbp_is, varies in *.
    destruct (is_array (x_dtype j)); destruct (is_dynamic (x_type j)); split; intros A; try (exfalso; intuition congruence); split; intros V; try tauto.
    + exfalso. destruct DX as (_ & DX). specialize (DX V). discriminate.
    + intros NV. rewrite T. destruct (x_is_dynamic i); [exfalso; apply NV, IV; reflexivity|reflexivity].
    + rewrite T. destruct V as [V|V]; [tauto|]. apply IV in V. rewrite V. reflexivity.
  - (* units *)
    destruct (str_eqb (attr_or "units" c) (strs "as_parent")) eqn:EU.
    + apply str_eqb_eq in EU. destruct (ni_units _ _ _ _ NI) as (a & b & z & -> & EZ & UZ & A & B). exists a, (b ++ [x_name j]), z.
      split; [rewrite app_assoc; reflexivity|]. split; [assumption|]. split; [congruence|]. split; [destruct A; auto; right; congruence|].
      intros b1 b2 y' E1 N1 E2. destruct b2 as [|w b2].
      * rewrite app_nil_r in E1. subst b1. rewrite app_assoc in E2. rewrite (elem_fun _ _ _ _ D E2 EC). assumption.
      * destruct (snoc_split _ _ _ _ E1) as (b2' & E3 & ->); [discriminate|]. apply (B b1 b2' y'); auto.
    + apply str_eqb_neq in EU. exists (p ++ [x_name j]), [], c. rewrite app_nil_r. split; [reflexivity|]. split; [assumption|]. split; [assumption|]. split; [right; congruence|].
      intros b1 b2 y' E1 N. destruct (no_prefix _ _ E1). contradiction.
  - apply dim_none. assumption.
  - apply dim_same. assumption.
Qed.
End Node.

(** ** The children *)
Definition kids (ctx : str) (i : minfo) := fix kids (l : list xml) (d : list (str * mtree)) : result me_exn (list (str * mtree)) :=
  match l with
  | [] => Ok d
  | y :: r => do t <- build y ctx (Some i); kids r (aset (x_name (tinfo t)) t d)
  end.
Definition child_ctx (i : minfo) : str := if is_array (x_dtype i) then [] else x_ctx i.
Lemma build_eq : forall t a cs cp par, build (Xml t a cs) cp par =
  (do ic <- init a cp par; do d <- kids (child_ctx (fst ic)) (fst ic) cs []; match snd ic with Some _ => Ok (MTree (fst ic) d) | None => Err MeKey end).
Proof. intros. cbn [build]. destruct (init a cp par) as [[i c]|]; reflexivity. Qed.
Lemma build_inv : forall y cp par t, build y cp par = Ok t -> exists k d, init (xattrib y) cp par = Ok (tinfo t, Some k) /\
  kids (child_ctx (tinfo t)) (tinfo t) (xchildren y) [] = Ok d /\ tchildren t = d.
Proof.
  intros [tg a cs] cp par t E. rewrite build_eq in E. cbn [xattrib xchildren]. destruct (init a cp par) as [[i [k|]]|]; [|cbn in E|discriminate].
  - cbn [rbind fst snd] in E. destruct (kids (child_ctx i) i cs []) as [d|] eqn:E1; [|discriminate]. cbn in E. injection E as <-. exists k, d. auto.
  - destruct (kids (child_ctx i) i cs []); discriminate.
Qed.
Lemma build_name : forall y cp par t, build y cp par = Ok t -> attr "name" y = Some (x_name (tinfo t)).
Proof. intros y cp par t E. destruct (build_inv _ _ _ _ E) as (k & d & I & _). apply init_inv in I. destruct I as (L & _). apply L. Qed.
Lemma aset_new : forall {V} (d : list (str * V)) n v, ~ In n (akeys d) -> aset n v d = d ++ [(n, v)].
Proof.
  induction d as [|[m w] d IH]; intros n v N; [reflexivity|]. cbn in *. destruct (str_eqb n m) eqn:E; [apply str_eqb_eq in E; subst; tauto|].
  rewrite IH by tauto. reflexivity.
Qed.
Lemma kids_inv : forall ctx i cs d0 d, kids ctx i cs d0 = Ok d -> NoDup (map (attr "name") cs) -> (forall c n, In c cs -> attr "name" c = Some n -> ~ In n (akeys d0)) ->
  exists d', d = d0 ++ d' /\ Forall2 (fun c kt => attr "name" c = Some (fst kt) /\ build c ctx (Some i) = Ok (snd kt)) cs d'.
Proof.
  induction cs as [|c cs IH]; intros d0 d E N H; cbn [kids] in E.
  - injection E as <-. exists []. rewrite app_nil_r. split; auto.
  - destruct (build c ctx (Some i)) as [t|] eqn:EB; [|discriminate]. cbn [rbind] in E. assert (EN := build_name _ _ _ _ EB).
    rewrite aset_new in E by (apply (H c); [left; reflexivity|assumption]). inversion N as [|? ? NI N']; subst.
    destruct (IH _ _ E N') as (d' & -> & F).
    { intros c' n I EC J. unfold akeys in J. rewrite map_app in J. apply in_app_or in J. destruct J as [J|[J|[]]]; [eapply H; eauto; right; assumption|].
      cbn in J. subst n. apply NI. rewrite EN, <- EC. apply in_map. assumption. }
    exists ((x_name (tinfo t), t) :: d'). rewrite <- app_assoc. split; [reflexivity|]. constructor; auto.
Qed.
Lemma build_children : forall y cp par t, build y cp par = Ok t -> NoDup (map (attr "name") (xchildren y)) ->
  Forall2 (fun c kt => attr "name" c = Some (fst kt) /\ build c (child_ctx (tinfo t)) (Some (tinfo t)) = Ok (snd kt)) (xchildren y) (tchildren t).
Proof.
  intros y cp par t E N. destruct (build_inv _ _ _ _ E) as (k & d & _ & K & ->). destruct (kids_inv _ _ _ _ _ K N) as (d' & -> & F); [intros ? ? _ _ []|]. exact F.
Qed.
Lemma F2_keys : forall (P : xml -> mtree -> Prop) cs d, Forall2 (fun c kt => attr "name" c = Some (fst kt) /\ P c (snd kt)) cs d -> map (attr "name") cs = map Some (akeys d).
Proof. induction 1 as [|c [k t] cs d (E & _) F IH]; cbn; auto. cbn in E. rewrite E, IH. reflexivity. Qed.
Lemma F2_lookup : forall (P : xml -> mtree -> Prop) cs d, Forall2 (fun c kt => attr "name" c = Some (fst kt) /\ P c (snd kt)) cs d ->
  forall n t, alookup n d = Some t -> exists c, In c cs /\ attr "name" c = Some n /\ P c t.
Proof.
  induction 1 as [|c [k t] cs d (E & Q) F IH]; intros n t' L; [discriminate|]. cbn in *. destruct (str_eqb n k) eqn:EK.
  - apply str_eqb_eq in EK. subst. injection L as <-. exists c. auto.
  - destruct (IH _ _ L) as (c' & I & R). exists c'. auto.
Qed.
Lemma F2_find : forall (P : xml -> mtree -> Prop) cs d, Forall2 (fun c kt => attr "name" c = Some (fst kt) /\ P c (snd kt)) cs d -> NoDup (map (attr "name") cs) ->
  forall c n, In c cs -> attr "name" c = Some n -> exists t, alookup n d = Some t /\ P c t.
Proof.
  induction 1 as [|c [k t] cs d (E & Q) F IH]; intros N c' n I EN; [destruct I|]. inversion N as [|? ? NI N']; subst. cbn in *.
  destruct I as [<-|I].
  - replace n with k by congruence. rewrite str_eqb_refl. exists t. auto.
  - destruct (str_eqb n k) eqn:EK; [|apply IH; auto]. apply str_eqb_eq in EK. subst. exfalso. apply NI. rewrite E, <- EN. apply in_map. assumption.
Qed.

Section Tree.
Variable x : xml.
Hypothesis D : distinct_names x.
Hypothesis NE : forall p y, elem_at x p y -> ~ In [] p.

Definition names_are (y : xml) (t : mtree) : Prop := map (attr "name") (xchildren y) = map Some (map fst (tchildren t)).

Lemma build_down : forall q y z p t cp par, elem_at y q z -> elem_at x p y -> build y cp par = Ok t -> node_is x p y (tinfo t) ->
  exists m, descend t q = Some m /\ node_is x (p ++ q) z (tinfo m) /\ names_are z m.
Proof.
  induction q as [|n q IH]; intros y z p t cp par E EX B NI; assert (ND : NoDup (map (attr "name") (xchildren y))) by (apply D; eapply elem_part; eauto).
  - inversion E; subst. exists t. rewrite app_nil_r. split; [reflexivity|]. split; [assumption|]. unfold names_are.
    apply (F2_keys (fun c u => build c (child_ctx (tinfo t)) (Some (tinfo t)) = Ok u)). eapply build_children; eauto.
  - inversion E as [|? c ? ? ? I N E']; subst. destruct (F2_find (fun c u => build c (child_ctx (tinfo t)) (Some (tinfo t)) = Ok u) _ _ (build_children _ _ _ _ B ND) ND c n I N) as (u & L & BU).
    cbn [descend]. rewrite L. replace (p ++ n :: q) with ((p ++ [n]) ++ q) by (rewrite <- app_assoc; reflexivity).
    eapply IH; [eassumption| |exact BU|].
    + eapply elem_app; [eassumption|]. econstructor; [eassumption|assumption|constructor].
    + destruct (build_inv _ _ _ _ BU) as (k & d & II & _). eapply node_child; eauto.
Qed.
Lemma descend_up : forall q y t m cp par, distinct_names y -> build y cp par = Ok t -> descend t q = Some m -> exists z, elem_at y q z.
Proof.
  induction q as [|n q IH]; intros y t m cp par DY B E; cbn [descend] in E.
  - exists y. constructor.
  - destruct (alookup n (tchildren t)) as [u|] eqn:L; [|discriminate]. assert (ND : NoDup (map (attr "name") (xchildren y))) by (apply DY; constructor).
    destruct (F2_lookup (fun c u => build c (child_ctx (tinfo t)) (Some (tinfo t)) = Ok u) _ _ (build_children _ _ _ _ B ND) _ _ L) as (c & I & N & BU). destruct (IH _ _ _ _ _ (distinct_child _ _ DY I) BU E) as (z & EZ).
    exists z. econstructor; eauto.
Qed.
End Tree.
