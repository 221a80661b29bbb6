(** C55, second part: the map that a read uses. *)
From Verif Require Import Base TreeModel VersionModel VersionSpec VersionProofs VersionProps.
From Verif Require VmapModel EndModel.

Section Maps.
Variable bundled : list (str * xml).
Variable idsdef : str -> str.
Variable parse : str -> option parsed.
Variable xml_major : str -> option Z.
Variable order : list str -> list str.
Variable flips : str -> list str.
Variable dd341 : EndModel.dictionary.
Variable rank341 : Z.
Notation make := (make bundled idsdef).
Notation choose := (choose bundled idsdef parse xml_major order flips dd341 rank341).
Notation nc_choose := (nc_choose bundled idsdef parse xml_major order flips dd341 rank341).
Notation nc_open := (nc_open bundled idsdef).
Notation dict := (dict xml_major).
Notation rename_map := (EndModel.rename_map order flips dd341 rank341).
Notation map_from_factories := (map_from_factories parse xml_major order flips dd341 rank341).

(** The released versions are as they should be: each has one definition, which has this version or none; different versions are different
    numbers. *)
Record package_ok : Prop := {
  po_nodup : NoDup (akeys bundled);
  po_empty : ~ released bundled [];
  po_version : forall v x u, In (v, x) bundled -> x_version x = Some u -> u = v;
  po_rank : forall v v' p p', parse v = Some p -> parse v' = Some p' -> p_rank p = p_rank p' -> v = v' }.
Hypothesis OK : package_ok.

(** what is kept after some history *)
Definition reachable (s : mem) : Prop := exists w l o, run bundled idsdef w fresh l = (o, s).
Definition packaged (s : mem) : Prop := cache_ok (fun k x => truthy (snd k) = false -> forall w, load bundled w k = Ok x) s.
Lemma load_package : forall w w' k, truthy (snd k) = false -> load bundled w k = load bundled w' k.
Proof. intros w w' k T. unfold load. rewrite T. reflexivity. Qed.
Lemma make_packaged : forall w v p s r s', packaged s -> make w v p s = (r, s') ->
  packaged s' /\ (forall f, r = Ok f -> exists k, select bundled idsdef w v p = Ok k /\ (truthy (snd k) = false -> forall w, load bundled w k = Ok (f_xml f)) /\ version_of (f_xml f) v = Ok (f_version f) /\ f_path f = p /\ f_obj f = m_next s) /\
  (forall k x u, truthy (snd k) = false -> select bundled idsdef w v p = Ok k -> load bundled w k = Ok x -> version_of x v = Ok u -> exists f, r = Ok f) /\ m_next s <= m_next s'.
Proof.
  intros w v p s r s' P M.
  destruct (make_ok bundled idsdef (fun k x => truthy (snd k) = false -> forall w, load bundled w k = Ok x) w v p s r s' P) as (A & B & C & D & _); auto.
  { intros k x _ L T w'. rewrite (load_package w' w k T). exact L. }
  split; [exact A|]. split; [exact B|]. split; [|exact D]. intros k x u T SE L V. apply (C k x u SE L); auto. intros y Y. specialize (Y T w). congruence.
Qed.
Lemma reachable_packaged : forall s, reachable s -> packaged s.
Proof.
  intros s (w & l & o & R). assert (P : packaged fresh) by (intros k x []). revert w o R P. generalize fresh as s0.
  induction l as [|[w'|v p] l IH]; intros s0 w o R P; cbn [VersionModel.run] in R.
  - inversion R; subst. exact P.
  - eapply IH; eauto.
  - destruct (make w v p s0) as [r s1] eqn:M. destruct (run bundled idsdef w s1 l) as [o' s2] eqn:R2. injection R as _ <-. eapply IH; eauto. apply (make_packaged w v p s0 r s1 P M).
Qed.
(** IDSFactory(version) *)
Lemma make_version : forall w v s, packaged s -> released bundled v ->
  exists f s', make w (Some v) None s = (Ok f, s') /\ packaged s' /\ In (v, f_xml f) bundled /\ f_version f = v /\ f_obj f = m_next s /\ m_next s <= m_next s'.
Proof.
  intros w v s P R. destruct (make w (Some v) None s) as [r s'] eqn:M. destruct (make_packaged w (Some v) None s r s' P M) as (A & B & C & D).
  assert (NV : v <> []) by (intros ->; exact (po_empty OK R)). assert (T : truthy (Some v) = true) by (apply truthy_true; eauto).
  assert (SE : select bundled idsdef w (Some v) None = Ok (Some v, None)). { unfold select. change (truthy None) with false. rewrite T. cbn [andb negb fst snd]. rewrite T. reflexivity. }
  destruct R as (x & I). assert (L : load bundled w (Some v, None) = Ok x). { apply (load_contains bundled (po_nodup OK)). split; [exact I|discriminate]. }
  assert (V : version_of x (Some v) = Ok v). { apply version_reports. split; [|congruence]. destruct (x_version x) as [u|] eqn:X; [left; f_equal; apply (po_version OK v x u I X)|right; left; auto]. }
  destruct (C (Some v, None) x v eq_refl SE L V) as (f & ->). destruct (B f eq_refl) as (k & SK & LK & VK & _ & OB). assert (k = (Some v, None)) by congruence. subst k.
  specialize (LK eq_refl w). assert (EX : f_xml f = x) by congruence. exists f, s'. rewrite EX in *. repeat split; auto. congruence.
Qed.
Lemma make_unknown : forall w v s, packaged s -> v <> [] -> ~ released bundled v -> fst (make w (Some v) None s) = Err VUnknown.
Proof.
  intros w v s P NV NR. assert (T : truthy (Some v) = true) by (apply truthy_true; eauto).
  assert (SE : select bundled idsdef w (Some v) None = Ok (Some v, None)). { unfold select. change (truthy None) with false. rewrite T. cbn [andb negb fst snd]. rewrite T. reflexivity. }
  assert (L : load bundled w (Some v, None) = Err VUnknown). { unfold load. cbn [fst snd truthy]. destruct (alookup v bundled) as [x|] eqn:A; auto. exfalso. apply NR. exists x. apply alookup_In. exact A. }
  unfold VersionModel.make, dd_etree. rewrite SE. unfold cached_load. destruct (cache_get (m_cache s) (Some v, None)) as [x|] eqn:G.
  - apply cache_get_In in G. specialize (P _ _ G eq_refl w). congruence.
  - rewrite L. reflexivity.
Qed.

(** A version number stands for one definition: that of the entry, if it is also a released one, is the same. *)
Definition one_definition (f : factory) : Prop := forall x, In (f_version f, x) bundled -> x = f_xml f.
(** The definition that stored data has. *)
Definition disk_def (fe : factory) (stored : str) (x : xml) : Prop := (stored = f_version fe /\ x = f_xml fe) \/ In (stored, x) bundled.
Definition as_factory (v : str) (x : xml) : factory := {| f_version := v; f_xml := x; f_path := None; f_obj := 0 |}.
(** the map from definition x of version v to definition x' of version v' *)
Definition right_map (name : str) (v : str) (x : xml) (v' : str) (x' : xml) (mp : VmapModel.nmap) : Prop :=
  exists p p', parse v = Some p /\ parse v' = Some p' /\ rename_map name (dict (as_factory v x) p) (dict (as_factory v' x') p') = Ok mp.
Lemma dict_as : forall f p, dict f p = dict (as_factory (f_version f) (f_xml f)) p.
Proof. reflexivity. Qed.
Lemma map_right : forall name f fe mp older, map_from_factories name f fe = Ok (mp, older) -> f_version f <> f_version fe ->
  right_map name (f_version fe) (f_xml fe) (f_version f) (f_xml f) (if older then VmapModel.n2o mp else VmapModel.o2n mp) /\
  right_map name (f_version f) (f_xml f) (f_version fe) (f_xml fe) (if older then VmapModel.o2n mp else VmapModel.n2o mp).
Proof.
  intros name f fe mp older H N. unfold VersionModel.map_from_factories in H. destruct (parse (f_version f)) as [p1|] eqn:P1; [|discriminate]. destruct (parse (f_version fe)) as [p2|] eqn:P2; [|discriminate].
  destruct (p_rank p2 <? p_rank p1)%Z eqn:L1; [|destruct (p_rank p1 <? p_rank p2)%Z eqn:L2].
  - destruct (EndModel.dd_version_map order flips dd341 rank341 name (dict fe p2) (dict f p1)) as [q|] eqn:E; [|discriminate]. cbn [rbind] in H. inversion H; subst mp older.
    apply Z.ltb_lt in L1. split; [exists p2, p1|exists p1, p2]; (split; [auto|]; split; [auto|]); rewrite <- !dict_as; unfold EndModel.rename_map; cbn [EndModel.d_rank VersionModel.dict].
    + assert (B : (p_rank p2 >? p_rank p1)%Z = false) by (rewrite Z.gtb_ltb; apply Z.ltb_ge; lia). rewrite B, E. reflexivity.
    + assert (B : (p_rank p1 >? p_rank p2)%Z = true) by (rewrite Z.gtb_ltb; apply Z.ltb_lt; lia). rewrite B, E. reflexivity.
  - destruct (EndModel.dd_version_map order flips dd341 rank341 name (dict f p1) (dict fe p2)) as [q|] eqn:E; [|discriminate]. cbn [rbind] in H. inversion H; subst mp older.
    apply Z.ltb_lt in L2. split; [exists p2, p1|exists p1, p2]; (split; [auto|]; split; [auto|]); rewrite <- !dict_as; unfold EndModel.rename_map; cbn [EndModel.d_rank VersionModel.dict].
    + assert (B : (p_rank p2 >? p_rank p1)%Z = true) by (rewrite Z.gtb_ltb; apply Z.ltb_lt; lia). rewrite B, E. reflexivity.
    + assert (B : (p_rank p1 >? p_rank p2)%Z = false) by (rewrite Z.gtb_ltb; apply Z.ltb_ge; lia). rewrite B, E. reflexivity.
  - exfalso. apply N. apply (po_rank OK _ _ p1 p2 P1 P2). apply Z.ltb_ge in L1. apply Z.ltb_ge in L2. lia.
Qed.

(** ** What a read uses *)
(** the version that data is taken to have: none if it has none or if it is ignored *)
Definition taken (fe : factory) (ignore : bool) (stored : str) (dd : option str) : Prop :=
  (dd = None /\ (stored = [] \/ (ignore = true /\ stored <> f_version fe /\ ~ released bundled stored))) \/
  (dd = Some stored /\ stored <> [] /\ (stored = f_version fe \/ released bundled stored)).
Lemma disk_taken : forall fe ignore stored dd, disk_version bundled fe ignore stored = Ok dd -> taken fe ignore stored dd.
Proof.
  intros fe ignore stored dd H. unfold disk_version in H. destruct stored as [|a t]; [inversion H; left; auto|]. set (v := a :: t) in *. assert (NV : v <> []) by discriminate. clearbody v.
  destruct (negb (str_eqb v (f_version fe)) && negb (known bundled v)) eqn:B.
  - destruct ignore; [|discriminate]. inversion H. left. split; auto. right. apply Bool.andb_true_iff in B as (B1 & B2). split; auto. split.
    + intros E. apply str_eqb_eq in E. rewrite E in B1. discriminate.
    + intros R. apply known_released in R. rewrite R in B2. discriminate.
  - inversion H; subst. right. split; auto. split; auto. apply Bool.andb_false_iff in B as [B|B].
    + left. apply str_eqb_eq. destruct (str_eqb v (f_version fe)); auto; discriminate.
    + right. apply known_released. destruct (known bundled v); auto; discriminate.
Qed.
(** The destination has the version of the entry or that of the stored data. *)
Definition fitting_dest (fe : factory) (stored : str) (dest : option factory) : Prop :=
  forall d, dest = Some d -> (f_version d = f_version fe /\ f_xml d = f_xml fe) \/ f_version d = stored.
Definition result_ok (name : str) (fe : factory) (dest : option factory) (auto : bool) (dd : option str) (d : factory) (m : option VmapModel.nmap)
                     (right : str -> xml -> str -> xml -> VmapModel.nmap -> Prop) : Prop :=
  (forall e, dest = Some e -> d = e) /\ (dest = None -> auto = true \/ dd = None -> d = fe) /\
  (dest = None -> auto = false -> forall v, dd = Some v -> f_version d = v /\ In (v, f_xml d) bundled) /\
  (m = None <-> dd = None \/ dd = Some (f_version d)) /\
  (forall mp, m = Some mp -> exists v x, dd = Some v /\ disk_def fe v x /\ right v x (f_version d) (f_xml d) mp).
Lemma choose_ok : forall w s fe name dest auto ignore stored d m s', packaged s -> fitting_dest fe stored dest ->
  choose w fe name dest auto ignore stored s = (Ok (d, m), s') ->
  packaged s' /\ exists dd, taken fe ignore stored dd /\ result_ok name fe dest auto dd d m (fun v x v' x' mp => right_map name v' x' v x mp) /\ (m <> None -> f_version d = f_version fe /\ f_xml d = f_xml fe).
Proof.
  intros w s fe name dest auto ignore stored d m s' P FD H. unfold VersionModel.choose in H. destruct (negb (has_ids fe name)); [discriminate|].
  destruct (disk_version bundled fe ignore stored) as [dd|] eqn:DV; [|discriminate]. apply disk_taken in DV as TK.
  assert (D : exists s1, packaged s1 /\ (forall e, dest = Some e -> d = e) /\ (dest = None -> auto = true \/ dd = None -> d = fe) /\ (dest = None -> auto = false -> forall v, dd = Some v -> f_version d = v /\ In (v, f_xml d) bundled) /\
    match dd with
    | None => (Ok (d, None), s1)
    | Some v => if str_eqb v (f_version d) then (Ok (d, None), s1)
                else if negb (str_eqb (major v) (major (f_version d))) then (Err VMajor, s1)
                else match make w (Some v) None s1 with
                     | (Err e, s) => (Err e, s)
                     | (Ok f, s) => match map_from_factories name f fe with
                                    | Err e => (Err e, s)
                                    | Ok (mp, older) => (Ok (d, Some (if older then VmapModel.n2o mp else VmapModel.o2n mp)), s)
                                    end
                     end
    end = (Ok (d, m), s')).
  { assert (FIN : forall e s1, match dd with
      | None => (Ok (e, None), s1)
      | Some v => if str_eqb v (f_version e) then (Ok (e, None), s1) else if negb (str_eqb (major v) (major (f_version e))) then (Err VMajor, s1)
                  else match make w (Some v) None s1 with
                       | (Err x, s) => (Err x, s)
                       | (Ok f, s) => match map_from_factories name f fe with Err x => (Err x, s) | Ok (mp, older) => (Ok (e, Some (if older then VmapModel.n2o mp else VmapModel.o2n mp)), s) end
                       end
      end = (Ok (d, m), s') -> e = d).
    { intros e s1 Q. destruct dd as [v|]; [|congruence]. destruct (str_eqb v (f_version e)); [congruence|]. destruct (negb (str_eqb (major v) (major (f_version e)))); [discriminate|].
      destruct (make w (Some v) None s1) as [[f|] s2]; [|discriminate]. destruct (map_from_factories name f fe) as [[mp older]|]; [congruence|discriminate]. }
    destruct dest as [e|].
    - cbv beta iota zeta in H. exists s. assert (E : e = d) by (apply (FIN e s); destruct dd; exact H). subst e. split; [auto|]. split; [congruence|]. split; [discriminate|]. split; [discriminate|]. destruct dd; exact H.
    - destruct dd as [v|].
      + destruct auto.
        * assert (E : fe = d) by (apply (FIN fe s); exact H). exists s. split; [auto|]. split; [discriminate|]. split; [auto|]. split; [discriminate|]. subst d. exact H.
        * destruct (make w (Some v) None s) as [[f|] s1] eqn:M; [|discriminate]. destruct (has_ids f name); [|discriminate].
          assert (E : f = d) by (apply (FIN f s1); exact H). exists s1. destruct (make_packaged _ _ _ _ _ _ P M) as (P1 & _).
          assert (R : stored = v /\ (v = f_version fe \/ released bundled v) /\ v <> []). { destruct TK as [(Q & _)|(Q & N & R)]; [discriminate|]. assert (v = stored) by congruence. subst v. auto. }
          destruct R as (-> & R & NV). assert (RL : released bundled v).
          { destruct (known bundled v) eqn:K; [now apply known_released|]. exfalso. assert (NR : ~ released bundled v) by (intros Q; apply known_released in Q; congruence).
            pose proof (eq_trans (eq_sym (f_equal fst M)) (make_unknown w v s P NV NR)) as Q. discriminate. }
          destruct (make_version w v s P RL) as (f' & s1' & M' & _ & I & V & _). pose proof (eq_trans (eq_sym M) M') as MM. assert (f' = f) by congruence. subst f'. subst f.
          split; [auto|]. split; [discriminate|]. split; [intros _ [Q|Q]; discriminate|]. split; [intros _ _ u Q; inversion Q; subst u; auto|]. exact H.
      + assert (E : fe = d) by (apply (FIN fe s); exact H). exists s. split; [auto|]. split; [discriminate|]. split; [auto|]. split; [discriminate|]. subst d. exact H. }
  destruct D as (s1 & P1 & D1 & D2 & D3 & Q). unfold result_ok. destruct dd as [v|].
  2:{ inversion Q; subst. split; [auto|]. exists None. split; [auto|]. split; [|congruence]. split; [auto|]. split; [auto|]. split; [auto|]. split; [tauto|discriminate]. }
  destruct TK as [(E & _)|(E & NV & R)]; [discriminate|]. assert (v = stored) by congruence. subst v. clear E.
  destruct (str_eqb stored (f_version d)) eqn:SV.
  { apply str_eqb_eq in SV. inversion Q; subst m s'. split; [auto|]. exists (Some stored). split; [right; auto|]. split; [|congruence]. split; [auto|]. split; [auto|]. split; [auto|]. split; [|discriminate].
    split; auto. intros _. right. congruence. }
  assert (NS : stored <> f_version d) by (intros E; rewrite E, str_eqb_refl in SV; discriminate).
  destruct (negb (str_eqb (major stored) (major (f_version d)))); [discriminate|].
  assert (DF : f_version d = f_version fe /\ f_xml d = f_xml fe).
  { destruct dest as [e|]; [rewrite (D1 e eq_refl) in *; destruct (FD e eq_refl) as [X|X]; [exact X|congruence]|]. destruct auto; [rewrite (D2 eq_refl (or_introl eq_refl)); auto|].
    destruct (D3 eq_refl eq_refl stored eq_refl) as (X & _). congruence. }
  assert (RL : released bundled stored) by (destruct R as [R|R]; [exfalso; apply NS; rewrite R; symmetry; apply DF|exact R]).
  destruct (make_version w stored s1 P1 RL) as (f & s2 & M & P2 & I & V & _). rewrite M in Q. destruct (map_from_factories name f fe) as [[mp older]|] eqn:MF; [|discriminate].
  inversion Q; subst m s'. split; [auto|]. exists (Some stored). split; [right; auto|]. split; [|auto]. split; [auto|]. split; [auto|]. split; [auto|]. split.
  - split; [discriminate|]. intros [E|E]; [discriminate|]. exfalso. apply NS. congruence.
  - intros mp' E. assert (mp' = if older then VmapModel.n2o mp else VmapModel.o2n mp) by congruence. subst mp'. exists stored, (f_xml f). split; auto. split; [right; auto|].
    destruct DF as (F1 & F2). rewrite F1, F2. rewrite <- V. apply (map_right name f fe mp older MF). rewrite V, <- F1. exact NS.
Qed.
(** The Access Layer backend: no map if the stored data has the version of the destination or has to be taken as such; otherwise the map from
    the dictionary of the destination to that of the stored data. *)
Theorem C55_map : forall w s fe name dest auto ignore stored d m s', reachable s -> fitting_dest fe stored dest ->
  choose w fe name dest auto ignore stored s = (Ok (d, m), s') ->
  exists dd, taken fe ignore stored dd /\ result_ok name fe dest auto dd d m (fun v x v' x' mp => right_map name v' x' v x mp).
Proof.
  intros w s fe name dest auto ignore stored d m s' R FD H. destruct (choose_ok w s fe name dest auto ignore stored d m s' (reachable_packaged s R) FD H) as (_ & dd & T & Q & _). eauto.
Qed.
(** The netCDF backend: the map from the dictionary of the file to that of the destination; a file of an unknown version cannot even be opened,
    so that ignore_unknown_dd_version has no effect. *)
Theorem C55_nc_map : forall w w' s0 fe stored ds s name dest auto ignore d m s', reachable s0 -> stored <> [] -> nc_open w' fe stored s0 = (Ok ds, s) -> fitting_dest fe stored dest ->
  nc_choose w fe ds name dest auto ignore s = (Ok (d, m), s') ->
  f_version ds = stored /\ (stored = f_version fe /\ ds = fe \/ In (stored, f_xml ds) bundled) /\
  result_ok name fe dest auto (Some stored) d m (fun v x v' x' mp => right_map name v x v' x' mp).
Proof.
  intros w w' s0 fe stored ds s name dest auto ignore d m s' R NV OP FD H. apply reachable_packaged in R.
  assert (DS : packaged s /\ f_version ds = stored /\ (stored = f_version fe /\ ds = fe \/ In (stored, f_xml ds) bundled)).
  { unfold VersionModel.nc_open in OP. destruct (str_eqb stored (f_version fe)) eqn:E.
    - apply str_eqb_eq in E. inversion OP; subst. auto.
    - assert (RL : released bundled stored). { destruct (known bundled stored) eqn:K; [now apply known_released|]. exfalso. assert (NR : ~ released bundled stored) by (intros Q; apply known_released in Q; congruence).
        pose proof (eq_trans (eq_sym (f_equal fst OP)) (make_unknown w' stored s0 R NV NR)) as Q. discriminate. }
      destruct (make_version w' stored s0 R RL) as (f & s1 & M & P1 & I & V & _). pose proof (eq_trans (eq_sym M) OP) as MM. inversion MM; subst. auto. }
  destruct DS as (P & V & DD). split; [auto|]. split; [auto|]. unfold VersionModel.nc_choose in H. rewrite V in H.
  destruct (choose w fe name dest auto ignore stored s) as [[[d0 m0]|] s1] eqn:C; [|discriminate].
  destruct (choose_ok w s fe name dest auto ignore stored d0 m0 s1 P FD C) as (_ & dd & T & Q & DF).
  destruct (nc_map parse xml_major order flips dd341 rank341 name ds fe d0) as [m1|] eqn:NM; [|discriminate]. inversion H; subst d0 m1 s1. clear H.
  assert (ED : dd = Some stored). { destruct T as [(_ & [E|(_ & E1 & E2)])|(E & _)]; auto; [congruence|]. exfalso. destruct DD as [(E & _)|I]; [congruence|]. apply E2. eexists; eauto. }
  subst dd. destruct Q as (Q1 & Q2 & Q3 & Q4 & _). unfold nc_map in NM. rewrite V in NM.
  assert (M0 : m0 = None <-> stored = f_version d). { rewrite Q4. split; [intros [E|E]; [discriminate|injection E as E; exact E]|]. intros ->. auto. }
  split; [auto|]. split; [auto|]. split; [auto|].
  destruct (str_eqb stored (f_version d)) eqn:SV.
  - apply str_eqb_eq in SV. injection NM as NM. subst m. split; [|discriminate]. split; auto. intros _. right. rewrite SV. reflexivity.
  - assert (NS : stored <> f_version d) by (intros E; rewrite E, str_eqb_refl in SV; discriminate). destruct DF as (F1 & F2); [intros E; apply NS; apply M0; exact E|].
    destruct (map_from_factories name ds fe) as [[mp older]|] eqn:MF; [|discriminate]. cbn [rbind fst snd] in NM. inversion NM; subst m. split.
    + split; [discriminate|]. intros [E|E]; [discriminate|]. exfalso. apply NS. congruence.
    + intros mp' E. assert (mp' = if older then VmapModel.o2n mp else VmapModel.n2o mp) by congruence. subst mp'. exists stored, (f_xml ds). split; auto.
      split; [destruct DD as [(E1 & E2)|I]; [left; subst; auto|right; auto]|]. rewrite F1, F2. rewrite <- V. apply (map_right name ds fe mp older MF). rewrite V, <- F1. exact NS.
Qed.
Theorem C55_nc_unknown : forall w s fe stored, reachable s -> stored <> [] -> stored <> f_version fe -> ~ released bundled stored -> fst (nc_open w fe stored s) = Err VUnknown.
Proof.
  intros w s fe stored R NV NS NR. unfold VersionModel.nc_open. destruct (str_eqb stored (f_version fe)) eqn:E; [apply str_eqb_eq in E; congruence|].
  apply make_unknown; auto. now apply reachable_packaged.
Qed.
End Maps.
Print Assumptions C55_map.
Print Assumptions C55_nc_map.
Print Assumptions C55_nc_unknown.
