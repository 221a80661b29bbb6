(** C55, third part: reading netCDF files end to end, examples and findings. *)
From Verif Require Import Base PathSpec TreeModel TreeSpec TreeProofs TreeCheck ValProofs StoreProofs2 ConvSpec NcMetaModel
  NcFileModel NcFileSpec NcConvModel NcConvSpec NcConvProps NcConvEx VersionModel VersionSpec VersionProofs VersionProps VersionProps2.
From Verif Require DataTypeModel NcFileProps VmapModel VmapSpec VmapProofs4 VmapProps EndSpec EndModel EndProofs4 EndProps EndCheck.
From Coq Require Import Lia.
Import VmapProps(el, ren).
Import NcFileProps(st, fl, no_units).

Section Reads.
Variable bundled : list (str * xml).
Variable idsdef : str -> str.
Variable parse : str -> option parsed.
Variable xml_major : str -> option Z.
Variable order : list str -> list str.
Variable flips : str -> list str.
Variable dd341 : EndModel.dictionary.
Variable rank341 : Z.
Hypothesis Ord : VmapProps.any_order order.
Hypothesis OK : package_ok bundled parse.
Notation nc_choose := (nc_choose bundled idsdef parse xml_major order flips dd341 rank341).
Notation choose := (choose bundled idsdef parse xml_major order flips dd341 rank341).
Notation nc_open := (nc_open bundled idsdef).
Notation dict := (dict xml_major).
Notation imeta o := (EndModel.i_meta o).

(** With one definition for the version of the entry, a file or IDS that is read without map has the definition of the destination. *)
Theorem C55_same : forall w s fe name auto ignore stored d s' v x, reachable bundled idsdef s -> one_definition bundled fe ->
  choose w fe name None auto ignore stored s = (Ok (d, None), s') -> taken bundled fe ignore stored (Some v) -> disk_def bundled fe v x -> f_version d = v /\ f_xml d = x.
Proof.
  intros w s fe name auto ignore stored d s' v x R OD H TK DD.
  destruct (C55_map bundled idsdef parse xml_major order flips dd341 rank341 OK w s fe name None auto ignore stored d None s' R ltac:(intros e E; discriminate) H) as (dd & T & _ & Q2 & Q3 & Q4 & _).
  assert (ED : dd = Some v).
  { destruct T as [(-> & T)|(-> & _)]; destruct TK as [(E & _)|(E & NV & K)]; try discriminate E.
    - assert (EV : v = stored) by (injection E as E; exact E). subst v. destruct T as [T|(_ & T1 & T2)]; [congruence|]. destruct K as [K|K]; [exfalso; exact (T1 K)|exfalso; exact (T2 K)].
    - rewrite E. reflexivity. }
  subst dd. destruct (proj1 Q4 eq_refl) as [E|E]; [discriminate|]. assert (EV : v = f_version d) by (injection E as E; exact E). split; [auto|].
  destruct auto.
  - rewrite (Q2 eq_refl (or_introl eq_refl)) in *. destruct DD as [(_ & ->)|I]; auto. rewrite EV in I. symmetry. apply OD. exact I.
  - destruct (Q3 eq_refl eq_refl v eq_refl) as (_ & I). destruct DD as [(E1 & ->)|I2]; [apply OD; rewrite <- E1; exact I|].
    pose proof (alookup_NoDup_In _ _ _ (po_nodup _ _ OK) I) as A1. pose proof (alookup_NoDup_In _ _ _ (po_nodup _ _ OK) I2) as A2. congruence.
Qed.

Lemma has_ids_In : forall f name o, alookup name (x_ids (f_xml f)) = Some o -> has_ids f name = true.
Proof.
  intros f name o A. apply alookup_In in A. unfold has_ids. apply existsb_exists. exists name. split; [|apply str_eqb_refl]. unfold akeys. apply List.in_map_iff. exists (name, o). auto.
Qed.
Lemma nc_chosen : forall w s fe ds name ignore mp (p p' : parsed), packaged bundled s -> f_version ds <> [] -> f_version ds <> f_version fe -> In (f_version ds, f_xml ds) bundled -> major (f_version ds) = major (f_version fe) ->
  has_ids fe name = true -> parse (f_version ds) = Some p -> parse (f_version fe) = Some p' ->
  EndModel.rename_map order flips dd341 rank341 name (dict ds p) (dict fe p') = Ok mp ->
  exists s', nc_choose w fe ds name None true ignore s = (Ok (fe, Some mp), s').
Proof.
  intros w s fe ds name ignore mp p p' P NV NS IN MJ HI PD PE RM.
  assert (RL : released bundled (f_version ds)) by (eexists; eauto).
  destruct (make_version bundled idsdef parse OK w (f_version ds) s P RL) as (f & s1 & M & P1 & I & V & _).
  assert (FX : f_xml f = f_xml ds).
  { pose proof (alookup_NoDup_In _ _ _ (po_nodup _ _ OK) I) as A1. pose proof (alookup_NoDup_In _ _ _ (po_nodup _ _ OK) IN) as A2. congruence. }
  assert (RK : p_rank p <> p_rank p') by (intros E; apply NS; apply (po_rank _ _ OK _ _ p p' PD PE E)).
  assert (MF : forall g, f_version g = f_version ds -> f_xml g = f_xml ds -> exists q older, map_from_factories parse xml_major order flips dd341 rank341 name g fe = Ok (q, older) /\ (if older then VmapModel.o2n q else VmapModel.n2o q) = mp).
  { intros g EV EX. assert (EG : forall p, dict g p = dict ds p) by (intros q; unfold VersionModel.dict; rewrite EV, EX; reflexivity). unfold map_from_factories. rewrite EV, PD, PE, !EG.
    unfold EndModel.rename_map in RM. cbn [EndModel.d_rank VersionModel.dict] in RM. rewrite Z.gtb_ltb in RM. destruct (p_rank p' <? p_rank p)%Z eqn:L.
    - destruct (EndModel.dd_version_map order flips dd341 rank341 name (dict fe p') (dict ds p)) as [q|] eqn:E; [|discriminate]. cbn [rbind] in RM |- *. exists q, false. split; [reflexivity|congruence].
    - assert (L2 : (p_rank p <? p_rank p')%Z = true). { apply Z.ltb_lt. apply Z.ltb_ge in L. lia. } rewrite L2.
      destruct (EndModel.dd_version_map order flips dd341 rank341 name (dict ds p) (dict fe p')) as [q|] eqn:E; [|discriminate]. cbn [rbind] in RM |- *. exists q, true. split; [reflexivity|congruence]. }
  unfold VersionModel.nc_choose, VersionModel.choose. rewrite HI. cbn [negb].
  assert (DV : disk_version bundled fe ignore (f_version ds) = Ok (Some (f_version ds))).
  { unfold disk_version. apply known_released in RL. rewrite RL, Bool.andb_false_r. destruct (f_version ds); [congruence|reflexivity]. }
  rewrite DV. assert (SE : str_eqb (f_version ds) (f_version fe) = false). { destruct (str_eqb (f_version ds) (f_version fe)) eqn:E; auto. apply str_eqb_eq in E. congruence. }
  rewrite SE, MJ, str_eqb_refl. cbn [negb]. destruct (MF f V FX) as (q & older & E1 & _). destruct (MF ds eq_refl eq_refl) as (q2 & older2 & E2 & E3).
  match goal with |- context [VersionModel.make ?a ?b ?c ?d ?e ?h] => replace (VersionModel.make a b c d e h) with (@pair (result vexn factory) mem (Ok f) s1) by (symmetry; exact M) end.
  rewrite E1. unfold nc_map. rewrite SE, E2. cbn [rbind fst snd]. rewrite E3. eauto.
Qed.

(** A file of an older version, opened with an entry of a newer one: everything is read at the place of its counterpart. *)
Theorem C55_nc_newer : forall w w' s0 s fe ds name stored ignore p p' o n, reachable bundled idsdef s0 -> stored <> [] -> nc_open w' fe stored s0 = (Ok ds, s) -> major stored = major (f_version fe) ->
  parse stored = Some p -> parse (f_version fe) = Some p' -> (p_rank p < p_rank p')%Z -> EndProps.pair_ok name (dict ds p) (dict fe p') o n ->
  forall at_ fuel r units units' cast g n0, nc_metadata at_ fuel (imeta o) = Ok r -> names_ok (imeta o) -> keeps_values cast -> same_mode (imeta o) (imeta n) units units' ->
  NoDup (map v_name (g_vars g)) -> NcFileModel.get (imeta o) r units g = Ok n0 ->
  (forall v c, In v (g_vars g) -> at_path (imeta o) (vpath v) c -> mkind c <> KStruct ->
     fate (EndSpec.counterpart (EndModel.i_fields o) (EndModel.i_fields n) (p_rank p)) (EndSpec.old_changes (EndModel.i_fields o) (EndModel.i_fields n) (p_rank p)) (old_gone (dict ds p) o n) (vpath v)) ->
  exists rm s' n', nc_choose w fe ds name None true ignore s = (Ok (fe, Some rm), s') /\ get_conv (imeta o) r units (imeta n) units' rm cast g = Ok n' /\
  (forall t v, leaf_at (imeta n) n' t v <-> exists l, leaf_at (imeta o) n0 l v /\
     unchanged (EndSpec.old_changes (EndModel.i_fields o) (EndModel.i_fields n) (p_rank p)) (loc_names l) /\ EndProofs4.stands_for (imeta n) (EndSpec.counterpart (EndModel.i_fields o) (EndModel.i_fields n) (p_rank p)) l t) /\
  (forall t k, aos_at (imeta n) n' t k <-> exists l, aos_at (imeta o) n0 l k /\
     unchanged (EndSpec.old_changes (EndModel.i_fields o) (EndModel.i_fields n) (p_rank p)) (loc_names l) /\ EndProofs4.stands_for (imeta n) (EndSpec.counterpart (EndModel.i_fields o) (EndModel.i_fields n) (p_rank p)) l t).
Proof.
  intros w w' s0 s fe ds name stored ignore p p' o n R NV OP MJ PD PE LT PO at_ fuel r units units' cast g n0 NM NO CAST MODE ND G H.
  destruct (C54_forward order flips dd341 rank341 Ord name _ _ o n PO at_ fuel r units units' cast g n0 NM NO CAST MODE ND G H) as (rm & n' & RM & GC & QL & QA).
  apply reachable_packaged in R.
  assert (NS : stored <> f_version fe) by (intros E; subst stored; rewrite PD in PE; inversion PE; subst; lia).
  assert (DS : packaged bundled s /\ f_version ds = stored /\ In (stored, f_xml ds) bundled).
  { unfold VersionModel.nc_open in OP. destruct (str_eqb stored (f_version fe)) eqn:E; [apply str_eqb_eq in E; congruence|].
    assert (RL : released bundled stored). { destruct (known bundled stored) eqn:K; [now apply known_released|]. exfalso. assert (NR : ~ released bundled stored) by (intros Q; apply known_released in Q; congruence).
      pose proof (eq_trans (eq_sym (f_equal fst OP)) (make_unknown bundled idsdef w' stored s0 R NV NR)) as Q. discriminate. }
    destruct (make_version bundled idsdef parse OK w' stored s0 R RL) as (f & s1 & M & P1 & I & V & _). pose proof (eq_trans (eq_sym M) OP) as MM. inversion MM; subst. auto. }
  destruct DS as (P & V & IN). subst stored.
  destruct (nc_chosen w s fe ds name ignore rm p p' P NV NS IN MJ (has_ids_In fe name n (EndProps.po_new _ _ _ _ _ PO)) PD PE RM) as (s' & CH).
  exists rm, s', n'. auto.
Qed.
(** ... and the other way round. *)
Theorem C55_nc_older : forall w w' s0 s fe ds name stored ignore p p' o n, reachable bundled idsdef s0 -> stored <> [] -> nc_open w' fe stored s0 = (Ok ds, s) -> major stored = major (f_version fe) ->
  parse stored = Some p -> parse (f_version fe) = Some p' -> (p_rank p' < p_rank p)%Z -> EndProps.pair_ok name (dict fe p') (dict ds p) o n ->
  forall at_ fuel r units units' cast g n0, nc_metadata at_ fuel (imeta n) = Ok r -> names_ok (imeta n) -> keeps_values cast -> same_mode (imeta n) (imeta o) units units' ->
  NoDup (map v_name (g_vars g)) -> NcFileModel.get (imeta n) r units g = Ok n0 ->
  (forall v c, In v (g_vars g) -> at_path (imeta n) (vpath v) c -> mkind c <> KStruct ->
     fate (fun q u => EndSpec.counterpart (EndModel.i_fields o) (EndModel.i_fields n) (p_rank p') u q) (EndSpec.new_changes (EndModel.i_fields o) (EndModel.i_fields n) (p_rank p')) (new_gone (dict fe p') o n) (vpath v)) ->
  exists rm s' n', nc_choose w fe ds name None true ignore s = (Ok (fe, Some rm), s') /\ get_conv (imeta n) r units (imeta o) units' rm cast g = Ok n' /\
  (forall t v, leaf_at (imeta o) n' t v <-> exists l, leaf_at (imeta n) n0 l v /\
     unchanged (EndSpec.new_changes (EndModel.i_fields o) (EndModel.i_fields n) (p_rank p')) (loc_names l) /\ EndProofs4.stands_for (imeta o) (fun q u => EndSpec.counterpart (EndModel.i_fields o) (EndModel.i_fields n) (p_rank p') u q) l t) /\
  (forall t k, aos_at (imeta o) n' t k <-> exists l, aos_at (imeta n) n0 l k /\
     unchanged (EndSpec.new_changes (EndModel.i_fields o) (EndModel.i_fields n) (p_rank p')) (loc_names l) /\ EndProofs4.stands_for (imeta o) (fun q u => EndSpec.counterpart (EndModel.i_fields o) (EndModel.i_fields n) (p_rank p') u q) l t).
Proof.
  intros w w' s0 s fe ds name stored ignore p p' o n R NV OP MJ PD PE LT PO at_ fuel r units units' cast g n0 NM NO CAST MODE ND G H.
  destruct (C54_backward order flips dd341 rank341 Ord name _ _ o n PO LT at_ fuel r units units' cast g n0 NM NO CAST MODE ND G H) as (rm & n' & RM & GC & QL & QA).
  apply reachable_packaged in R.
  assert (NS : stored <> f_version fe) by (intros E; subst stored; rewrite PD in PE; inversion PE; subst; lia).
  assert (DS : packaged bundled s /\ f_version ds = stored /\ In (stored, f_xml ds) bundled).
  { unfold VersionModel.nc_open in OP. destruct (str_eqb stored (f_version fe)) eqn:E; [apply str_eqb_eq in E; congruence|].
    assert (RL : released bundled stored). { destruct (known bundled stored) eqn:K; [now apply known_released|]. exfalso. assert (NR : ~ released bundled stored) by (intros Q; apply known_released in Q; congruence).
      pose proof (eq_trans (eq_sym (f_equal fst OP)) (make_unknown bundled idsdef w' stored s0 R NV NR)) as Q. discriminate. }
    destruct (make_version bundled idsdef parse OK w' stored s0 R RL) as (f & s1 & M & P1 & I & V & _). pose proof (eq_trans (eq_sym M) OP) as MM. inversion MM; subst. auto. }
  destruct DS as (P & V & IN). subst stored.
  destruct (nc_chosen w s fe ds name ignore rm p p' P NV NS IN MJ (has_ids_In fe name o (EndProps.po_old _ _ _ _ _ PO)) PD PE RM) as (s' & CH).
  exists rm, s', n'. auto.
Qed.
End Reads.
Print Assumptions C55_same.
Print Assumptions C55_nc_newer.
Print Assumptions C55_nc_older.
