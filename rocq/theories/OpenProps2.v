(** C60: opening a data entry, continued: what is done with the Access Layer, netCDF4 and the environment. *)
From Verif Require Import Base OpenModel OpenSpec OpenProofs OpenProps.
From Coq Require Import Lia.

Lemma starts_app : forall p s, starts p (p ++ s) = true.
Proof. intros p s. unfold starts. rewrite firstn_app, Nat.sub_diag, firstn_all. cbn [firstn]. rewrite app_nil_r. apply str_eqb_refl. Qed.
Lemma starts_true : forall p s, starts p s = true -> exists r, s = p ++ r.
Proof. intros p s E. unfold starts in E. apply str_eqb_eq in E. exists (skipn (length p) s). rewrite E at 1. symmetry. apply firstn_skipn. Qed.
Lemma ends_app : forall p s, ends p (s ++ p) = true.
Proof.
  intros p s. unfold ends. rewrite app_length. replace (length s + length p - length p) with (length s) by lia. rewrite skipn_app, Nat.sub_diag, skipn_all. cbn [app skipn].
  rewrite str_eqb_refl. cbn [andb]. apply Nat.leb_le. lia.
Qed.
Lemma ends_true : forall p s, ends p s = true -> exists r, s = r ++ p.
Proof. intros p s E. unfold ends in E. apply andb_prop in E. destruct E as [E _]. apply str_eqb_eq in E. exists (firstn (length s - length p) s). rewrite E at 2. symmetry. apply firstn_skipn. Qed.
Lemma mode_of_spec : forall m pm, alookup m open_modes = Some pm <-> mode_of m pm.
Proof.
  intros m pm. split.
  - intros E. apply alookup_In in E. destruct E as [E|[E|[E|[E|[]]]]]; injection E as <- <-; constructor.
  - intros H. destruct H; reflexivity.
Qed.

(** a value that is given, or the default *)
Definition given (a d r : arg) : Prop := ((a = ANone \/ a = AText [] \/ a = ANum 0) /\ r = d) \/ (a <> ANone /\ a <> AText [] /\ a <> ANum 0 /\ r = a).
Lemma or_given : forall a d, given a d (or_ a d).
Proof.
  intros a d. unfold given, or_, truthy. destruct a as [[|c s]|z| |s]; try (left; tauto); try (right; repeat split; discriminate). destruct (Z.eqb z 0) eqn:E; cbn [negb].
  - apply Z.eqb_eq in E. subst. auto.
  - right. apply Z.eqb_neq in E. repeat split; try discriminate. congruence.
Qed.

Section Opening.
Variable bracket_ok : str -> bool.
Variables (has_imas has_netcdf : bool).
Variable file_version : str -> option str.
Variable extract_idsdef : str -> option str.
Variable mds_dir : factory -> option (option str).
Variable begin_ok : str -> pmode -> bool.
Variable dataset_ok : str -> str -> bool -> bool.
Variable legacy_uri : list arg -> arg -> option str.
Variable user : str.
Variable str_of : arg -> str.
Let init := init bracket_ok has_imas has_netcdf file_version extract_idsdef mds_dir begin_ok dataset_ok str_of.
Let create := create bracket_ok has_imas file_version extract_idsdef mds_dir begin_ok legacy_uri user.
Let open_ := open_ bracket_ok has_imas file_version extract_idsdef mds_dir begin_ok legacy_uri user.
Let setup := setup_backend file_version extract_idsdef mds_dir.

Lemma setup_env : forall b pm f w w' r, setup b pm f w = (w', r) ->
  calls w' = calls w /\ (forall n, ~ may_set b pm n -> alookup n (environ w') = alookup n (environ w)).
Proof.
  assert (PE : forall b pm n a w w' r, may_set b pm n -> put_env n a w = (w', r) -> calls w' = calls w /\ (forall k, ~ may_set b pm k -> alookup k (environ w') = alookup k (environ w))).
  { intros b pm n a w w' r H E. unfold put_env in E. destruct a as [s|z| |s]; inversion E; subst; clear E; auto. split; auto. intros k NK. unfold setenv. cbn [environ]. apply alookup_aset_other. intros ->. apply NK. exact H. }
  intros b pm f w w' r E. unfold setup, setup_backend in E. destruct (str_eqb b (strs "mdsplus")) eqn:EB.
  - apply str_eqb_eq in EB. destruct (pmode_eqb pm Open) eqn:EO; [inversion E; subst; auto|].
    assert (MS : may_set b pm (strs "ids_path")) by (left; split; auto; split; auto; intros ->; discriminate EO).
    destruct (mds_dir f) as [[[|c d]|]|]; try (inversion E; subst; auto; fail). eapply PE; eauto.
  - destruct (str_eqb b (strs "uda")) eqn:EU; [|inversion E; subst; auto]. apply str_eqb_eq in EU.
    assert (MS : may_set b pm (strs "IDSDEF_PATH")) by (right; auto).
    match type of E with (match ?x with Some _ => _ | None => _ end) = _ => destruct x as [p|] end; [eapply PE; eauto|].
    destruct (extract_idsdef (f_version f)); [eapply PE; eauto|inversion E; subst; auto].
Qed.

(** what a call that succeeds has done *)
Definition opened (u : str) (pm : pmode) (f : factory) (w w' : world) (i : impl) : Prop :=
  exists backend options w1, backend_of bracket_ok u = Ok backend /\ setup backend pm f w = (w1, Ok tt) /\ begin_ok u pm = true /\
    (exists p q, urlparse bracket_ok u = Ok (p, q) /\ options = querydict q) /\ w' = emit (EBegin u pm) w1 /\ i = ImplAL u backend options.
Lemma init_al_ok : forall u pm f w w' i, init_al bracket_ok file_version extract_idsdef mds_dir begin_ok u pm f w = (w', Ok i) <-> opened u pm f w w' i.
Proof.
  intros u pm f w w' i. unfold init_al, opened. fold setup. split.
  - intros E. destruct (backend_of bracket_ok u) as [b|] eqn:B; [|discriminate E]. destruct (setup b pm f w) as [w1 [[]|e]] eqn:S; [|discriminate E].
    destruct (begin_ok u pm) eqn:G; [|discriminate E]. destruct (urlparse bracket_ok u) as [[p q]|] eqn:P; [|discriminate E]. cbn [rbind] in E. injection E as <- <-.
    exists b, (querydict q), w1. repeat split; auto. exists p, q. auto.
  - intros (b & o & w1 & B & S & G & (p & q & P & ->) & -> & ->). rewrite B, S, G, P. reflexivity.
Qed.

Hypothesis text : forall s, str_of (AText s) = s.
Lemma by_uri : forall args kw u m f w, NoDup (map fst kw) -> takes uri_form args kw [AText u; m] ->
  init args kw (Some f) w = let (w, r) := if is_nc u then nc_from_uri has_netcdf dataset_ok str_of u m w else al_from_uri bracket_ok has_imas file_version extract_idsdef mds_dir begin_ok u m f w in
      (w, do i <- r; Ok {| d_uri := Some u; d_values := []; d_factory := f; d_impl := Some i |}).
Proof.
  intros args kw u m f w ND T. unfold init, OpenModel.init. rewrite (proj2 (proj1 (C60_arguments args kw ND) (AText u) m) T). rewrite text. reflexivity.
Qed.
Lemma uri_not_nc : forall name opts u, imas_uri name opts u -> is_nc u = false.
Proof. intros name opts u U. destruct U. unfold is_nc. rewrite starts_app. cbn [negb]. apply andb_false_r. Qed.

(** C60: opening with a URI of the documented form succeeds exactly if the Access Layer is there, the mode is one of the four documented ones,
    the backend can be prepared and the Access Layer opens the entry.  Then the Access Layer was called once, with the URI as it was given and
    with the documented mode; backend and options are those that the URI says, and nothing in the environment is changed but ids_path
    (mdsplus, not for reading) and IDSDEF_PATH (uda). *)
Theorem C60_open : forall args kw u m f w name opts, NoDup (map fst kw) -> takes uri_form args kw [AText u; m] -> imas_uri name opts u ->
  exists backend, Forall2 small name backend /\
  ((exists w' e, init args kw (Some f) w = (w', Ok e)) <->
     has_imas = true /\ exists mt pm w1, m = AText mt /\ mode_of mt pm /\ setup backend pm f w = (w1, Ok tt) /\ begin_ok u pm = true) /\
  forall w' e, init args kw (Some f) w = (w', Ok e) ->
     exists mt pm options, m = AText mt /\ mode_of mt pm /\ calls w' = calls w ++ [EBegin u pm] /\
       (forall n, ~ may_set backend pm n -> alookup n (environ w') = alookup n (environ w)) /\
       d_uri e = Some u /\ d_factory e = f /\ d_impl e = Some (ImplAL u backend options) /\
       forall n v, alookup n options = Some v <-> last_value opts n v.
Proof.
  intros args kw u m f w name opts ND T U. destruct (C60_uri bracket_ok name opts u U) as (backend & q & B & SM & (p & P) & Q). exists backend. split; auto.
  rewrite (by_uri args kw u m f w ND T). rewrite (uri_not_nc _ _ _ U). unfold al_from_uri.
  assert (X : forall w' e, (let (w0, r) := if negb has_imas then (w, Err NoCore) else match m with
        | AText m0 => match alookup m0 open_modes with Some pm => init_al bracket_ok file_version extract_idsdef mds_dir begin_ok u pm f w | None => (w, Err BadMode) end
        | _ => (w, Err BadMode) end in (w0, do i <- r; Ok {| d_uri := Some u; d_values := []; d_factory := f; d_impl := Some i |})) = (w', Ok e) <->
     has_imas = true /\ exists mt pm i, m = AText mt /\ mode_of mt pm /\ opened u pm f w w' i /\ e = {| d_uri := Some u; d_values := []; d_factory := f; d_impl := Some i |}).
  { intros w' e. split.
    - destruct has_imas; cbn [negb]; [|intros E; discriminate E]. destruct m as [mt|z| |s]; try (intros E; discriminate E). destruct (alookup mt open_modes) as [pm|] eqn:M; [|intros E; discriminate E].
      destruct (init_al bracket_ok file_version extract_idsdef mds_dir begin_ok u pm f w) as [w2 [i|x]] eqn:I; cbn [rbind]; [|intros E; discriminate E]. intros [= <- <-]. split; auto. exists mt, pm, i.
      split; auto. split; [now apply mode_of_spec|]. split; auto. now apply init_al_ok.
    - intros (-> & mt & pm & i & -> & M & O & ->). cbn [negb]. apply mode_of_spec in M. rewrite M. apply init_al_ok in O. rewrite O. reflexivity. }
  split.
  - split.
    + intros (w' & e & E). apply X in E. destruct E as (H & mt & pm & i & -> & M & O & _). split; auto. destruct O as (b & o & w1 & B' & S & G & _). assert (b = backend) by congruence. subst b. exists mt, pm, w1. auto.
    + intros (H & mt & pm & w1 & -> & M & S & G). exists (emit (EBegin u pm) w1), {| d_uri := Some u; d_values := []; d_factory := f; d_impl := Some (ImplAL u backend (querydict q)) |}. apply X. split; auto. exists mt, pm, (ImplAL u backend (querydict q)). split; auto. split; auto. split; [|reflexivity].
      exists backend, (querydict q), w1. repeat split; auto. exists p, q. auto.
  - intros w' e E. apply X in E. destruct E as (H & mt & pm & i & -> & M & O & ->). destruct O as (b & o & w1 & B' & S & G & (p' & q' & P' & ->) & -> & ->).
    assert (b = backend) by congruence. subst b. assert (q' = q) by congruence. subst q'. destruct (setup_env _ _ _ _ _ _ S) as [C EV].
    exists mt, pm, (querydict q). split; auto. split; auto. split; [cbn [emit calls]; rewrite C; reflexivity|]. split; [exact EV|]. exact (conj eq_refl (conj eq_refl (conj eq_refl Q))).
Qed.

(** C60: any other mode is refused before anything is done *)
Theorem C60_modes : forall args kw u m f w name opts, NoDup (map fst kw) -> takes uri_form args kw [AText u; m] -> imas_uri name opts u -> has_imas = true ->
  (forall mt pm, m = AText mt -> ~ mode_of mt pm) <-> init args kw (Some f) w = (w, Err BadMode).
Proof.
  intros args kw u m f w name opts ND T U H. rewrite (by_uri args kw u m f w ND T), (uri_not_nc _ _ _ U). unfold al_from_uri. rewrite H. cbn [negb]. split.
  - intros N. destruct m as [mt|z| |s]; auto. destruct (alookup mt open_modes) as [pm|] eqn:M; auto. apply mode_of_spec in M. destruct (N mt pm eq_refl M).
  - intros E mt pm -> M. apply mode_of_spec in M. rewrite M in E. unfold init_al in E. destruct (C60_uri bracket_ok name opts u U) as (b & q & B & _ & (p & P) & _). rewrite B in E. fold setup in E.
    destruct (setup b pm f w) as [w1 [[]|x]] eqn:S.
    + destruct (begin_ok u pm); [rewrite P in E; discriminate E|discriminate E].
    + cbn [rbind] in E. injection E as _ ->. clear - S. unfold setup, setup_backend, put_env in S. destruct (str_eqb b (strs "mdsplus")).
      * destruct (pmode_eqb pm Open); [discriminate S|]. destruct (mds_dir f) as [[[|c d]|]|]; discriminate S.
      * destruct (str_eqb b (strs "uda")); [|discriminate S]. match type of S with (match ?x with Some _ => _ | None => _ end) = _ => destruct x as [[| | |]|] end; try discriminate S. destruct (extract_idsdef (f_version f)); discriminate S.
Qed.

(** C60: after opening with the UDA backend, IDSDEF_PATH names the dictionary of the entry: the file that was given, or a file of its version *)
Theorem C60_uda : (forall v p, extract_idsdef v = Some p -> file_version p = Some v) ->
  forall args kw u m f w w' e opts, NoDup (map fst kw) -> takes uri_form args kw [AText u; m] -> imas_uri (strs "uda") opts u ->
  init args kw (Some f) w = (w', Ok e) ->
  exists p, alookup (strs "IDSDEF_PATH") (environ w') = Some p /\ (forall a, f_xml f = Some a -> a = AText p) /\ (f_xml f = None -> file_version p = Some (f_version f)).
Proof.
  intros EX args kw u m f w w' e opts ND T U E. destruct (C60_open args kw u m f w _ opts ND T U) as (backend & SM & _ & _).
  rewrite (by_uri args kw u m f w ND T), (uri_not_nc _ _ _ U) in E. unfold al_from_uri in E. destruct has_imas; cbn [negb] in E; [|discriminate E]. destruct m as [mt|z| |s]; try discriminate E.
  destruct (alookup mt open_modes) as [pm|] eqn:M; [|discriminate E]. destruct (init_al bracket_ok file_version extract_idsdef mds_dir begin_ok u pm f w) as [w2 [i|x]] eqn:I; [|discriminate E]. injection E as <- _.
  apply init_al_ok in I. destruct I as (b & o & w1 & B & S & _ & _ & -> & _). cbn [emit environ].
  destruct (C60_uri bracket_ok _ opts u U) as (b' & q & B' & SM' & _). assert (b' = b) by congruence. subst b'.
  assert (b = strs "uda"). { clear - SM'. assert (L : forall c d, small c d -> In c (strs "uda") -> d = c). { intros c d [(i & Li & Ec & Ed)|(_ & ->)] IC; auto. exfalso. apply (f_equal N_of_ascii) in Ec. rewrite N_ascii_embedding in Ec by lia. destruct IC as [<-|[<-|[<-|[]]]]; [change (N_of_ascii "u") with 117%N in Ec|change (N_of_ascii "d") with 100%N in Ec|change (N_of_ascii "a") with 97%N in Ec]; lia. }
    assert (G : forall x y, Forall2 small x y -> (forall c, In c x -> In c (strs "uda")) -> y = x). { induction 1; intros IC; auto. f_equal; [apply L; auto; apply IC; left; auto|apply IHForall2; intros; apply IC; right; auto]. } apply G; auto. }
  subst b. unfold setup, setup_backend in S. change (str_eqb (strs "uda") (strs "mdsplus")) with false in S. change (str_eqb (strs "uda") (strs "uda")) with true in S. cbn iota in S.
  assert (PE : forall a, put_env (strs "IDSDEF_PATH") a w = (w1, Ok tt) -> exists p, a = AText p /\ alookup (strs "IDSDEF_PATH") (environ w1) = Some p).
  { intros a H. unfold put_env in H. destruct a as [s|z| |s]; try discriminate H. injection H as <-. exists s. split; auto. unfold setenv. cbn [environ]. apply alookup_aset_same. }
  destruct (f_xml f) as [a|] eqn:FX.
  - destruct (PE _ S) as (p & -> & L). exists p. split; auto. split; [congruence|discriminate].
  - assert (ALT : (match extract_idsdef (f_version f) with Some p => put_env (strs "IDSDEF_PATH") (AText p) w | None => (w, Err Extract) end) = (w1, Ok tt) -> exists p, alookup (strs "IDSDEF_PATH") (environ w1) = Some p /\ (forall a, None = Some a -> a = AText p) /\ (@None arg = None -> file_version p = Some (f_version f))).
    { intros H. destruct (extract_idsdef (f_version f)) as [p|] eqn:XP; [|discriminate H]. destruct (PE _ H) as (p' & EP & L). injection EP as <-. exists p. split; auto. split; [discriminate|]. intros _. now apply EX. }
    destruct (alookup (strs "IMAS_PREFIX") (environ w)) as [pre|]; [|now apply ALT]. set (path := pre ++ strs "/include/IDSDef.xml") in *. destruct (file_version path) as [v|] eqn:FV; [|now apply ALT].
    destruct (str_eqb v (f_version f)) eqn:EV; [|now apply ALT]. apply str_eqb_eq in EV. subst v. destruct (PE _ S) as (p' & EP & L). injection EP as <-. exists path. split; auto. split; [discriminate|auto].
Qed.

(** C60: a name that ends in .nc is a netCDF file unless it starts with imas: -- netCDF4 opens it once, a new file is never written over an
    existing one with the mode x, and the environment stays as it is *)
Theorem C60_nc : forall args kw s m f w, let u := s ++ strs ".nc" in NoDup (map fst kw) -> takes uri_form args kw [AText u; AText m] -> (forall r, u <> strs "imas:" ++ r) -> has_netcdf = true ->
  exists mode clobber, ((m = strs "x" /\ mode = strs "w" /\ clobber = false) \/ (m <> strs "x" /\ mode = m /\ clobber = true)) /\
  init args kw (Some f) w = ({| environ := environ w; calls := calls w ++ [EDataset u mode clobber] |},
    if dataset_ok u mode clobber then Ok {| d_uri := Some u; d_values := []; d_factory := f; d_impl := Some (ImplNC u) |} else Err Dataset).
Proof.
  intros args kw s m f w u ND T NI H. rewrite (by_uri args kw u (AText m) f w ND T). assert (E : is_nc u = true). { unfold is_nc, u. rewrite ends_app. cbn [andb]. destruct (starts (strs "imas:") (s ++ strs ".nc")) eqn:E; auto. apply starts_true in E. destruct E as (r & E). destruct (NI r E). }
  rewrite E. unfold nc_from_uri. rewrite H, text. cbn [negb]. destruct (str_eqb m (strs "x")) eqn:X.
  - apply str_eqb_eq in X. exists (strs "w"), false. split; auto. unfold emit. destruct (dataset_ok u (strs "w") false); reflexivity.
  - exists m, true. split; [right; split; auto; intros ->; rewrite str_eqb_refl in X; discriminate|]. unfold emit. destruct (dataset_ok u m true); reflexivity.
Qed.
(** every other name goes to the Access Layer *)
Theorem C60_not_nc : forall args kw u m f w w' r, NoDup (map fst kw) -> takes uri_form args kw [AText u; m] -> ((forall s, u <> s ++ strs ".nc") \/ exists s, u = strs "imas:" ++ s) ->
  init args kw (Some f) w = (w', r) -> forall e, In e (calls w') -> In e (calls w) \/ exists pm, e = EBegin u pm.
Proof.
  intros args kw u m f w w' r ND T NC E ev I. rewrite (by_uri args kw u m f w ND T) in E.
  assert (NE : is_nc u = false). { unfold is_nc. destruct NC as [NC|(s & ->)]; [|rewrite starts_app; apply andb_false_r]. destruct (ends (strs ".nc") u) eqn:X; auto. apply ends_true in X. destruct X as (s & X). destruct (NC s X). }
  rewrite NE in E. unfold al_from_uri in E. destruct has_imas; cbn [negb] in E; [|inversion E; subst; auto]. destruct m as [mt|z| |s]; try (inversion E; subst; auto; fail).
  destruct (alookup mt open_modes) as [pm|]; [|inversion E; subst; auto]. unfold init_al in E. destruct (backend_of bracket_ok u) as [b|]; [|inversion E; subst; auto]. fold setup in E.
  destruct (setup b pm f w) as [w1 [[]|x]] eqn:S; apply setup_env in S; destruct S as [C _]; [|inversion E; subst; rewrite C in I; auto].
  assert (W : w' = emit (EBegin u pm) w1) by (destruct (begin_ok u pm); inversion E; reflexivity). subst w'. cbn [emit calls] in I. rewrite C in I. apply in_app_or in I. destruct I as [I|[<-|[]]]; eauto.
Qed.

(** C60: an entry made with legacy parameters does nothing until it is opened or created; then the Access Layer is asked for the URI of these
    parameters, with the name of the user and the version of the dictionary where none is given, and opens it with the documented mode *)
Theorem C60_legacy_init : forall args kw l f w, NoDup (map fst kw) -> parse_args args kw = Ok (Legacy l) ->
  init args kw (Some f) w = (w, Ok {| d_uri := None; d_values := l; d_factory := f; d_impl := None |}).
Proof. intros args kw l f w ND P. unfold init, OpenModel.init. rewrite P. reflexivity. Qed.
(** [legacy_done e pm options w w' e']: [e] was opened with [pm] *)
Definition legacy_done (e : entry) (pm : pmode) (options : arg) (w w' : world) (e' : entry) : Prop :=
  exists b d p r us v us' v' options' uri i, d_values e = [b; d; p; r; us; v] /\
    given us (AText user) us' /\ given v (AText (f_version (d_factory e))) v' /\ given options (AText []) options' /\
    legacy_uri [b; d; p; r; us'; v'] options' = Some uri /\ opened uri pm (d_factory e) w w' i /\ calls w' = calls w ++ [EBegin uri pm] /\
    e' = {| d_uri := d_uri e; d_values := d_values e; d_factory := d_factory e; d_impl := Some i |}.
Theorem C60_legacy : forall e options w w' e', length (d_values e) = 6 ->
  (create true e options w = (w', Ok e') -> legacy_done e ForceCreate options w w' e') /\
  (create false e options w = (w', Ok e') -> legacy_done e Create options w w' e') /\
  (forall mode, open_ mode true e options w = (w', Ok e') -> legacy_done e ForceOpen options w w' e') /\
  (forall mode, open_ mode false e options w = (w', Ok e') -> legacy_done e mode options w w' e').
Proof.
  intros e options w w' e' LV.
  assert (G : forall pm, open_pulse bracket_ok has_imas file_version extract_idsdef mds_dir begin_ok legacy_uri user e pm options w = (w', Ok e') -> legacy_done e pm options w w' e').
  { intros pm G. unfold legacy_done. destruct e as [du dv df di]. cbn [d_values d_factory d_uri] in *. destruct dv as [|b [|d [|p [|r [|us [|v [|x dv]]]]]]]; cbn in LV; try lia.
    unfold open_pulse, al_from_pulse_run in G. cbn [d_values d_factory d_uri] in G. destruct has_imas; cbn [negb] in G; [|discriminate G].
    destruct (legacy_uri [b; d; p; r; or_ us (AText user); or_ v (AText (f_version df))] (or_ options (AText []))) as [uri|] eqn:L; [|discriminate G].
    destruct (init_al bracket_ok file_version extract_idsdef mds_dir begin_ok uri pm df w) as [w2 [i|x]] eqn:I; [|discriminate G]. cbn [rbind] in G. injection G as <- <-. apply init_al_ok in I.
    exists b, d, p, r, us, v, (or_ us (AText user)), (or_ v (AText (f_version df))), (or_ options (AText [])), uri, i. split; auto. split; [apply or_given|]. split; [apply or_given|]. split; [apply or_given|]. split; auto. split; auto. split; auto.
    destruct I as (bk & o & w1 & _ & S & _ & _ & -> & _). apply setup_env in S. destruct S as [C _]. cbn [emit calls]. now rewrite C. }
  split; [apply (G ForceCreate)|]. split; [apply (G Create)|]. split; [intros mode; apply (G ForceOpen)|intros mode; apply (G mode)].
Qed.
End Opening.
Print Assumptions C60_open.
Print Assumptions C60_modes.
Print Assumptions C60_uda.
Print Assumptions C60_nc.
Print Assumptions C60_not_nc.
Print Assumptions C60_legacy_init.
Print Assumptions C60_legacy.
