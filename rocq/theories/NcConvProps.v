(** C54: reading a netCDF file with another version of the data dictionary than it was written with. *)
From Verif Require Import Base PathSpec TreeModel TreeSpec TreeProofs TreeCheck ValProofs StoreProofs2 ConvSpec ConvProofs3 ConvProps ConvProps8 NcMetaModel NcMetaSpec NcMetaProofs2
  NcFileModel NcFileSpec NcFileProofs NcFileProofs2 NcFileProofs3 NcFileProofs4 NcConvModel NcConvSpec NcConvProofs NcConvProofs2 NcConvProofs3 NcConvProofs4 NcConvProofs5.
From Verif Require PrimModel ValModel ConvModel NcMetaProofs4 NcFileProofs6 NcFileProofs8 NcFileProofs9 NcFileProps ConvProofs4 VmapModel VmapSpec VmapProofs3 VmapProofs4 VmapProps EndSpec EndModel EndProofs4 EndProps EndCheck.
From Coq Require Import Lia Permutation.
Import VmapModel(nmap, o2n, n2o).

Lemma in_dec_elem : forall s : loc, inside_aos s \/ ~ inside_aos s.
Proof.
  induction s as [|[x|i] s IH]; [right; intros (i & [])| |left; exists i; now left].
  destruct IH as [(i & I)|N]; [left; exists i; now right|right; intros (i & [E|I]); [discriminate|apply N; now exists i]].
Qed.
Lemma complex_dec : forall v, is_complex v \/ ~ is_complex v.
Proof. intros v. unfold is_complex. destruct v; try (left; eauto; fail); right; intros (a & b & E); discriminate E. Qed.

Section General.
Variables (at_ : path -> nattr) (fuel : nat) (m : meta) (r : ncmeta) (units : path -> str) (m' : meta) (units' : path -> str) (rm : nmap) (cast : meta -> value -> result fexn value).
Hypothesis W : wf_meta m.
Hypothesis W' : wf_meta m'.
Hypothesis K : mkind m = KStruct.
Hypothesis K' : mkind m' = KStruct.
Hypothesis R : nc_metadata at_ fuel m = Ok r.
Hypothesis NO : names_ok m.
Hypothesis F : fits m m' rm.
Hypothesis SO : str_ok m.
Hypothesis CAST : keeps_values cast.
Hypothesis MODE : same_mode m m' units units'.

(** What is read from a file with the version it was written with, is read with another version, at the place of its counterpart there;
    nothing else is read.  Every variable of the file has to be skipped or kept. *)
Theorem C54_converted : forall g n, NoDup (map v_name (g_vars g)) -> get m r units g = Ok n ->
  (forall v c, In v (g_vars g) -> at_path m (vpath v) c -> mkind c <> KStruct -> skipped rm (vpath v) \/ kept rm (vpath v)) ->
  exists n', get_conv m r units m' units' rm cast g = Ok n' /\
  (forall t v, leaf_at m' n' t v <-> exists s, leaf_at m n s v /\ kept rm (loc_names s) /\ goes_to m' rm s t) /\
  (forall t k, aos_at m' n' t k <-> exists s, aos_at m n s k /\ kept rm (loc_names s) /\ goes_to m' rm s t).
Proof.
  intros g n ND G H. unfold get in G. destruct (read_homogeneous m r units g) as [h|] eqn:RH; [|discriminate]. cbn [rbind] in G.
  destruct (validate_variables m r units g h) as [u|] eqn:V; [|discriminate]. cbn [rbind] in G. destruct (read_vars m r g h (sorted_vars g) []) as [fs|] eqn:RV; [|discriminate].
  cbn [rbind] in G. assert (EN : NStruct fs = n) by congruence. clear G. subst n. destruct u.
  destruct (conv_holds at_ fuel m r m' rm cast g h W W' K K' R NO ND F (str_dims m SO) CAST H (valid_dims m r units g h W V) fs RV) as (fs' & C & Q).
  exists (NStruct fs'). destruct MODE as (c & c' & A & A' & EK & EU). split.
  { unfold get_conv. rewrite (mode_same m m' r units units' g c c' W W' A A' EK EU), RH. cbn [rbind]. rewrite V. cbn [rbind]. rewrite C. reflexivity. }
  split; [intros t v; exact (Q t (ILeaf v))|intros t k; exact (Q t (ISize k))].
Qed.

(** Files written by put. *)
Theorem C54_written : small_dims m -> no_structure_errors m -> forall n, conf m n -> time_mode m n -> int32 m n ->
  (forall s, (exists v, leaf_at m n s v) \/ (exists k, aos_at m n s k) -> skipped rm (loc_names s) \/ kept rm (loc_names s)) ->
  exists g n', put m r units n = Ok g /\ get_conv m r units m' units' rm cast g = Ok n' /\
    (forall t k, aos_at m' n' t k <-> exists s, aos_at m n s k /\ kept rm (loc_names s) /\ goes_to m' rm s t) /\
    (forall s t v, leaf_at m n s v -> (inside_aos s -> ~ looks_unset v) -> kept rm (loc_names s) -> goes_to m' rm s t -> leaf_at m' n' t v) /\
    (forall t v, leaf_at m' n' t v -> exists s, (leaf_at m n s v \/ (inside_aos s /\ is_complex v)) /\ kept rm (loc_names s) /\ goes_to m' rm s t).
Proof.
  intros SD NE n C TM I32 H.
  destruct (NcFileProofs6.write_group_ok at_ fuel m r W R NO SD K n C (homogeneous_of n) units I32) as (g & E' & WG).
  destruct (NcFileProps.C34_round_trip_partial at_ fuel m r units W K NO SD NE R n C TM I32) as (g' & n1 & P & G & RA & RL & RB).
  assert (E2 : put m r units n = Ok g) by exact E'. rewrite E2 in P. assert (EG : g = g') by congruence. clear P. subst g'.
  pose proof (NcFileProofs8.written_nodup at_ fuel m r W R NO K n C (homogeneous_of n) units g WG) as ND.
  assert (HV : forall v c, In v (g_vars g) -> at_path m (vpath v) c -> mkind c <> KStruct -> skipped rm (vpath v) \/ kept rm (vpath v)).
  { intros v c Iv A KC. destruct (NcFileProofs6.w_var _ _ _ _ _ _ WG v Iv) as (p & c0 & a & lv & sp & I & (ix & x & FP) & SP & ->).
    assert (EP : vpath (NcFileProofs6.var_of m r n (homogeneous_of n) units p c0 sp) = p). { unfold vpath. change (v_name _) with (dotted p). exact (var_path m W NO p c0 a lv I). }
    rewrite EP in *. assert (c = c0) as ->. { apply (proj2 (meta_at_path p m c W)) in A. rewrite (NcMetaProofs4.meta_at_in m W p c0 a lv I) in A. congruence. }
    destruct (NcFileProofs6.item_fits m W K n C _ _ _ _ _ _ FP I) as [FT _].
    assert (X : exists y, x = content_item y). { destruct x as [|k|y]; [cbn in FT; congruence|exists (ISize k); reflexivity|exists (ILeaf y); reflexivity]. }
    destruct X as (y & ->). apply (filled_iter_spec m W n [] [] p ix y C) in FP; [|congruence]. destruct FP as (l & _ & EP2 & _ & HL). cbn [app] in EP2. rewrite EP2. apply H. destruct y; [left|right]; eauto. }
  destruct (C54_converted g n1 ND G HV) as (n' & GC & QL & QA). exists g, n'. split; [exact E2|]. split; [exact GC|]. split; [|split].
  - intros t k. rewrite QA. split; intros (s & A & Q); exists s; split; auto; apply RA; auto.
  - intros s t v L U KP GT. apply QL. exists s. split; auto.
  - intros t v L. apply QL in L. destruct L as (s & L & KP & GT). exists s. split; auto.
    destruct (in_dec_elem s) as [I|I]; [|left; apply RB; auto; intros I'; contradiction].
    destruct (complex_dec v) as [J|J]; [auto|]. left. apply RB; auto.
Qed.
End General.
Print Assumptions C54_converted.
Print Assumptions C54_written.

(** ** In terms of the two data dictionaries *)
(** nothing changes on the way to p *)
Definition unchanged (ch : str -> Prop) (p : list str) : Prop := forall a b, p = a ++ b -> a <> [] -> ~ ch (slashed a).
Section Bridge.
Variables (sm tm : meta) (rm : nmap) (C : str -> str -> Prop) (ch gone : str -> Prop).
Hypothesis V : versions_ok sm tm rm.
Hypothesis Hmap : forall p q m mt, at_path sm p m -> at_path tm q mt -> p <> [] -> q <> [] -> ~ removed rm p -> (mapped rm p q <-> C (slashed p) (slashed q)).
Hypothesis Hrem : forall p q m mt, at_path sm p m -> at_path tm q mt -> p <> [] -> q <> [] -> removed rm p -> C (slashed p) (slashed q) ->
  exists a b, p = a ++ b /\ a <> [] /\ ch (slashed a).
Hypothesis Hrule : forall p, rule_at rm p -> ch (slashed p).
Hypothesis Hplace : forall p q, C p q -> exists qq mt, q = slashed qq /\ qq <> [] /\ at_path tm qq mt.
Hypothesis Hgone : forall p, gone p -> alookup p (VmapModel.m_path rm) = Some None.

Definition fate (p : list str) : Prop := (unchanged ch p /\ exists q, C (slashed p) q) \/ gone (slashed p).
Lemma fate_kept : forall p c, at_path sm p c -> p <> [] -> unchanged ch p -> (exists q, C (slashed p) q) -> kept rm p.
Proof.
  intros p c A NP U (q & CC). destruct (Hplace _ _ CC) as (qq & mt & -> & NQ & AQ). split.
  - intros RM. destruct (Hrem p qq c mt A AQ NP NQ RM CC) as (a & b & E & NA & X). exact (U a b E NA X).
  - intros (a & b & E & NA & X). exact (U a b E NA (Hrule a X)).
Qed.
Lemma fate_skip : forall p, gone (slashed p) -> skipped rm p.
Proof. intros p G. left. apply Hgone. exact G. Qed.
Lemma fate_handled : forall p c, at_path sm p c -> p <> [] -> fate p -> skipped rm p \/ kept rm p.
Proof. intros p c A NP [[U Q]|G]; [right; eapply fate_kept; eauto|left; now apply fate_skip]. Qed.
Lemma fate_goes : forall s t c, loc_ok sm s c -> ~ is_elem s -> mkind c <> KStruct -> loc_names s <> [] -> fate (loc_names s) ->
  (kept rm (loc_names s) /\ goes_to tm rm s t <-> unchanged ch (loc_names s) /\ EndProofs4.stands_for tm C s t).
Proof.
  intros s t c L NE KC NP FT. pose proof (loc_at_path _ _ _ L NE) as A. destruct V as (W1 & W2 & K1 & K2 & SO & F). split.
  - intros ([NR NU] & MP & EI & NT & mt & LT). destruct FT as [[U Q]|G]; [|exfalso; apply NR; exists (loc_names s), []; rewrite app_nil_r; split; auto; split; auto; apply Hgone; exact G].
    split; [exact U|]. pose proof (loc_at_path _ _ _ LT NT) as AQ.
    assert (NQ : loc_names t <> []).
    { destruct (ft_target _ _ _ F _ _ A NP NR (ConvProofs4.not_ruled_above rm _ NU) (or_introl KC)) as (q & mq & MP' & NQ & AQ' & _). assert (E : q = loc_names t) by (eapply ConvProofs4.mapped_fun; eauto). now rewrite <- E. }
    split; [apply (Hmap _ _ _ _ A AQ NP NQ NR); exact MP|]. eauto.
  - intros (U & CC & EI & NT & mt & LT). pose proof (loc_at_path _ _ _ LT NT) as AQ. assert (KP : kept rm (loc_names s)) by (eapply fate_kept; eauto). split; [exact KP|].
    assert (NQ : loc_names t <> []). { destruct (Hplace _ _ CC) as (qq & mq & E & NQ & AQ'). intros E0. rewrite E0 in E. pose proof (ft_names_t _ _ _ F _ _ AQ') as FN. destruct qq as [|x qq]; [congruence|]. inversion FN as [|? ? IN _]; subst. destruct IN as (y & u & -> & _). destruct qq; discriminate. }
    split; [apply (Hmap _ _ _ _ A AQ NP NQ (proj1 KP)); exact CC|]. eauto.
Qed.
End Bridge.

Section Versions.
Variable order : list str -> list str.
Variable flips : str -> list str.
Variable dd341 : EndModel.dictionary.
Variable rank341 : Z.
Hypothesis Ord : VmapProps.any_order order.
Notation rename_map := (EndModel.rename_map order flips dd341 rank341).
Notation old_fields o := (EndModel.i_fields o).
Notation imeta o := (EndModel.i_meta o).
Variables (name : str) (old new : EndModel.dictionary) (o n : EndModel.ids_def).
Hypothesis P : EndProps.pair_ok name old new o n.
Notation Oldf := (EndModel.i_fields o).
Notation Newf := (EndModel.i_fields n).
Notation rank := (EndModel.d_rank old).
(** the highest quantities without counterpart, and those with a type that cannot be converted *)
Definition old_gone (p : str) : Prop := VmapProofs3.retyped Oldf Newf rank p \/ VmapSpec.lost_top Oldf Newf (VmapProofs3.old_moved Oldf Newf rank) p.
Definition new_gone (q : str) : Prop := VmapProofs3.retyped Oldf Newf rank q \/ VmapSpec.lost_top Newf Oldf (VmapProofs3.new_moved Oldf Newf rank) q.

(** A file of the older version, read with the newer one. *)
Theorem C54_forward : forall at_ fuel r units units' cast g n0, nc_metadata at_ fuel (imeta o) = Ok r -> names_ok (imeta o) -> keeps_values cast -> same_mode (imeta o) (imeta n) units units' ->
  NoDup (map v_name (g_vars g)) -> get (imeta o) r units g = Ok n0 ->
  (forall v c, In v (g_vars g) -> at_path (imeta o) (vpath v) c -> mkind c <> KStruct ->
     fate (EndSpec.counterpart Oldf Newf rank) (EndSpec.old_changes Oldf Newf rank) old_gone (vpath v)) ->
  exists rm n', rename_map name old new = Ok rm /\ get_conv (imeta o) r units (imeta n) units' rm cast g = Ok n' /\
  (forall t v, leaf_at (imeta n) n' t v <-> exists s, leaf_at (imeta o) n0 s v /\
     unchanged (EndSpec.old_changes Oldf Newf rank) (loc_names s) /\ EndProofs4.stands_for (imeta n) (EndSpec.counterpart Oldf Newf rank) s t) /\
  (forall t k, aos_at (imeta n) n' t k <-> exists s, aos_at (imeta o) n0 s k /\
     unchanged (EndSpec.old_changes Oldf Newf rank) (loc_names s) /\ EndProofs4.stands_for (imeta n) (EndSpec.counterpart Oldf Newf rank) s t).
Proof.
  intros at_ fuel r units units' cast g n0 R NO CAST MODE ND G H. destruct (EndProps.dd_map order flips dd341 rank341 Ord _ _ _ _ _ P) as (s & B & D).
  destruct P as [P1 P2 P3 P4 P5 P6 P7 P8 P9 (P10 & P10') (P11 & P11') (P12 & P12') P13 P14].
  destruct (EndProps.forward_ok _ _ _ _ _ P5 P6 P7 P10 P10' P8 P9 order s Ord B P11 P11' P12') as (V & _).
  set (ch := EndSpec.old_changes Oldf Newf rank) in *. set (C := EndSpec.counterpart Oldf Newf rank) in *.
  assert (HR := EndProps.forward_rule _ _ _ P5 P6 P7 order s Ord B).
  assert (HM := EndProps.forward_map _ _ _ _ _ P5 P6 P7 P10 P10' P8 P9 order s Ord B).
  assert (HD := EndProps.forward_removed _ _ _ _ _ P5 P6 P7 P10 P10' P8 P9 order s Ord B).
  assert (HE : forall p q, C p q -> exists qq mt, q = slashed qq /\ qq <> [] /\ at_path (imeta n) qq mt).
  { intros p q (_ & (e & I & E) & _). destruct (EndSpec.ds_meta _ _ P9 e I) as (q' & mq & N2 & AQ & E' & _). exists q', mq. rewrite E in E'. auto. }
  assert (HG : forall p, old_gone p -> alookup p (VmapModel.m_path (o2n s)) = Some None) by (intros p X; apply (proj2 (VmapProps.exact_of _ _ _ _ _ Ord P5 B)); right; auto).
  pose proof V as (_ & _ & _ & _ & _ & F).
  exists (o2n s).
  destruct (C54_converted at_ fuel (imeta o) r units (imeta n) units' (o2n s) cast P10 P10' P11 P11' R NO F P12 CAST MODE g n0 ND G) as (n' & GC & QL & QA).
  { intros v c Iv A KC. exact (fate_handled (imeta o) (imeta n) (o2n s) C ch old_gone HD HR HE HG (vpath v) c A (split_on_nonnil _ _) (H v c Iv A KC)). }
  exists n'. split; [unfold EndModel.rename_map; replace (rank >? EndModel.d_rank new)%Z with false by (symmetry; rewrite Z.gtb_ltb; apply Z.ltb_ge; lia); rewrite D; reflexivity|]. split; [exact GC|].
  assert (FT : forall x t y, holds (imeta o) n0 x y -> (kept (o2n s) (loc_names x) /\ goes_to (imeta n) (o2n s) x t <-> unchanged ch (loc_names x) /\ EndProofs4.stands_for (imeta n) C x t)).
  { intros x t y HX. destruct (read_var_of_get _ _ _ _ _ P10 P11 NO ND G x y HX) as (v & c & Iv & EV & A & KC & L & NE). rewrite EV in A.
    apply (fate_goes (imeta o) (imeta n) (o2n s) C ch old_gone V HM HD HR HE HG x t c L NE KC); [rewrite <- EV; apply split_on_nonnil|]. rewrite <- EV. eapply H; eauto. rewrite EV. exact A. }
  split; intros t y; [rewrite QL|rewrite QA]; split; intros (x & LA & X); exists x; (split; [exact LA|]); [apply (FT x t (ILeaf y) LA)|apply (FT x t (ILeaf y) LA)|apply (FT x t (ISize y) LA)|apply (FT x t (ISize y) LA)]; exact X.
Qed.
(** A file of the newer version, read with the older one. *)
Theorem C54_backward : (rank < EndModel.d_rank new)%Z ->
  forall at_ fuel r units units' cast g n0, nc_metadata at_ fuel (imeta n) = Ok r -> names_ok (imeta n) -> keeps_values cast -> same_mode (imeta n) (imeta o) units units' ->
  NoDup (map v_name (g_vars g)) -> get (imeta n) r units g = Ok n0 ->
  (forall v c, In v (g_vars g) -> at_path (imeta n) (vpath v) c -> mkind c <> KStruct ->
     fate (fun q p => EndSpec.counterpart Oldf Newf rank p q) (EndSpec.new_changes Oldf Newf rank) new_gone (vpath v)) ->
  exists rm n', rename_map name new old = Ok rm /\ get_conv (imeta n) r units (imeta o) units' rm cast g = Ok n' /\
  (forall t v, leaf_at (imeta o) n' t v <-> exists s, leaf_at (imeta n) n0 s v /\
     unchanged (EndSpec.new_changes Oldf Newf rank) (loc_names s) /\ EndProofs4.stands_for (imeta o) (fun q p => EndSpec.counterpart Oldf Newf rank p q) s t) /\
  (forall t k, aos_at (imeta o) n' t k <-> exists s, aos_at (imeta n) n0 s k /\
     unchanged (EndSpec.new_changes Oldf Newf rank) (loc_names s) /\ EndProofs4.stands_for (imeta o) (fun q p => EndSpec.counterpart Oldf Newf rank p q) s t).
Proof.
  intros LT at_ fuel r units units' cast g n0 R NO CAST MODE ND G H. destruct (EndProps.dd_map order flips dd341 rank341 Ord _ _ _ _ _ P) as (s & B & D).
  destruct P as [P1 P2 P3 P4 P5 P6 P7 P8 P9 (P10 & P10') (P11 & P11') (P12 & P12') P13 P14].
  destruct (EndProps.backward_ok _ _ _ _ _ P5 P6 P7 P10 P10' P8 P9 order s Ord B P11 P11' P12) as (V & _).
  set (ch := EndSpec.new_changes Oldf Newf rank) in *. set (C := fun q p => EndSpec.counterpart Oldf Newf rank p q) in *.
  assert (HR := EndProps.backward_rule _ _ _ P5 P6 P7 order s Ord B).
  assert (HM := EndProps.backward_map _ _ _ _ _ P5 P6 P7 P10 P10' P8 P9 order s Ord B).
  assert (HD := EndProps.backward_removed _ _ _ _ _ P5 P6 P7 P10 P10' P8 P9 order s Ord B).
  assert (HE : forall p q, C p q -> exists qq mt, q = slashed qq /\ qq <> [] /\ at_path (imeta o) qq mt).
  { intros p q ((e & I & E) & _). destruct (EndSpec.ds_meta _ _ P8 e I) as (q' & mq & N2 & AQ & E' & _). exists q', mq. rewrite E in E'. auto. }
  assert (HG : forall p, new_gone p -> alookup p (VmapModel.m_path (n2o s)) = Some None) by (intros p X; apply (proj1 (VmapProps.exact_of _ _ _ _ _ Ord P5 B)); right; auto).
  pose proof V as (_ & _ & _ & _ & _ & F).
  exists (n2o s).
  destruct (C54_converted at_ fuel (imeta n) r units (imeta o) units' (n2o s) cast P10' P10 P11' P11 R NO F P12' CAST MODE g n0 ND G) as (n' & GC & QL & QA).
  { intros v c Iv A KC. exact (fate_handled (imeta n) (imeta o) (n2o s) C ch new_gone HD HR HE HG (vpath v) c A (split_on_nonnil _ _) (H v c Iv A KC)). }
  exists n'. split; [unfold EndModel.rename_map; replace (EndModel.d_rank new >? rank)%Z with true by (symmetry; rewrite Z.gtb_ltb; apply Z.ltb_lt; lia); rewrite D; reflexivity|]. split; [exact GC|].
  assert (FT : forall x t y, holds (imeta n) n0 x y -> (kept (n2o s) (loc_names x) /\ goes_to (imeta o) (n2o s) x t <-> unchanged ch (loc_names x) /\ EndProofs4.stands_for (imeta o) C x t)).
  { intros x t y HX. destruct (read_var_of_get _ _ _ _ _ P10' P11' NO ND G x y HX) as (v & c & Iv & EV & A & KC & L & NE). rewrite EV in A.
    apply (fate_goes (imeta n) (imeta o) (n2o s) C ch new_gone V HM HD HR HE HG x t c L NE KC); [rewrite <- EV; apply split_on_nonnil|]. rewrite <- EV. eapply H; eauto. rewrite EV. exact A. }
  split; intros t y; [rewrite QL|rewrite QA]; split; intros (x & LA & X); exists x; (split; [exact LA|]); [apply (FT x t (ILeaf y) LA)|apply (FT x t (ILeaf y) LA)|apply (FT x t (ISize y) LA)|apply (FT x t (ISize y) LA)]; exact X.
Qed.
End Versions.
Print Assumptions C54_forward.
Print Assumptions C54_backward.

(** ** When a file cannot be read *)
(** A quantity outside all arrays of structures that is neither in the map nor has a change of type has to exist in the other version under
    the same path: otherwise nothing of the file is read. *)
Theorem C54_needs_place : forall m r units m' units' rm cast g, wf_meta m -> wf_meta m' ->
  forall v c, In v (g_vars g) -> at_path m (vpath v) c -> mkind c <> KStruct -> ~ skipped rm (vpath v) -> (forall q, ConvSpec.entry rm (vpath v) <> Some (Some q)) ->
  (forall x y cx, vpath v = x ++ y -> x <> [] -> y <> [] -> at_path m x cx -> mkind cx <> KAoS) ->
  (forall c', ~ at_path m' (vpath v) c') -> forall n', get_conv m r units m' units' rm cast g <> Ok n'.
Proof.
  intros m r units m' units' rm cast g W W' v c Iv A KC NS NR AR NP n' G.
  assert (E : ConvSpec.entry rm (vpath v) = None). { destruct (ConvSpec.entry rm (vpath v)) as [[q|]|] eqn:E; auto; [exfalso; exact (NR q eq_refl)|exfalso; apply NS; left; exact E]. }
  assert (T : alookup (slashed (vpath v)) (VmapModel.m_type rm) = None). { destruct (alookup (slashed (vpath v)) (VmapModel.m_type rm)) eqn:T; auto. exfalso. apply NS. right. split; auto. congruence. }
  destruct (get_conv_place _ _ _ _ _ _ _ _ _ W W' G v c Iv A KC E T AR) as (c' & A'). exact (NP c' A').
Qed.
Print Assumptions C54_needs_place.

(** ** The same as reading and then converting *)
Section AsConvert.
Variable order : list str -> list str.
Variable flips : str -> list str.
Variable dd341 : EndModel.dictionary.
Variables (rank340 rank341 : Z).
Variable library_version : str.
Variable str_of : PrimModel.pyval -> str.
Variable parse_float : str -> option flt.
Variable parse_cpx : str -> option (flt * flt).
Variable flt_of_int : Z -> option flt.
Variable np_cast : dtype -> PrimModel.pyval -> result PrimModel.pexn value.
Variable array_items : value -> list PrimModel.pyval.
Variable close : PrimModel.pyval -> PrimModel.pyval -> bool.
Variable np_int32 : flt -> result PrimModel.pexn Z.
Variable enum_of : list str -> option (Z -> option (str * str)).
Variable cat : list str -> ValModel.attrs.
Variable lin : flt -> flt -> flt -> flt -> flt -> flt.
Notation convert := (EndModel.convert_ids order flips dd341 rank340 rank341 library_version str_of parse_float parse_cpx flt_of_int np_cast array_items close np_int32 enum_of cat lin).
Notation imeta o := (EndModel.i_meta o).
(** Reading a file with the newer version gives the same values and arrays of structures as reading it with the version it was written
    with and calling convert_ids. *)
Theorem C54_as_convert : VmapProps.any_order order -> casts_arrays np_cast ->
  forall name old new o n, EndProps.pair_ok name old new o n ->
  forall at_ fuel r units units' cast g n0, nc_metadata at_ fuel (imeta o) = Ok r -> names_ok (imeta o) -> keeps_values cast -> same_mode (imeta o) (imeta n) units units' ->
  NoDup (map v_name (g_vars g)) -> get (imeta o) r units g = Ok n0 -> conf (imeta o) n0 -> stored_values (imeta o) n0 -> EndProps.plain_copy rank340 name old new (imeta o) ->
  (forall v c, In v (g_vars g) -> at_path (imeta o) (vpath v) c -> mkind c <> KStruct ->
     unchanged (EndSpec.old_changes (EndModel.i_fields o) (EndModel.i_fields n) (EndModel.d_rank old)) (vpath v) /\
     ((exists q, EndSpec.counterpart (EndModel.i_fields o) (EndModel.i_fields n) (EndModel.d_rank old) (slashed (vpath v)) q) \/ old_gone old o n (slashed (vpath v)))) ->
  forall deepcopy stamp, exists rm n' st, EndModel.rename_map order flips dd341 rank341 name old new = Ok rm /\ get_conv (imeta o) r units (imeta n) units' rm cast g = Ok n' /\
    convert false name old new (imeta o) n0 None deepcopy [] stamp = Ok st /\
    (forall t v, leaf_at (imeta n) n' t v <-> leaf_at (imeta n) (ConvModel.c_tree st) t v) /\ (forall t k, aos_at (imeta n) n' t k <-> aos_at (imeta n) (ConvModel.c_tree st) t k).
Proof.
  intros Ord Casts name old new o n P at_ fuel r units units' cast g n0 R NO CAST MODE ND G CF SV PC H dc stamp.
  destruct (EndProps.po_wf _ _ _ _ _ P) as (W1 & W2). destruct (EndProps.po_kind _ _ _ _ _ P) as (K1 & K2).
  assert (U : EndProofs4.untouched (imeta o) n0 (EndSpec.old_changes (EndModel.i_fields o) (EndModel.i_fields n) (EndModel.d_rank old))).
  { intros s PR. assert (X : exists x, holds (imeta o) n0 s x) by (destruct PR as [(v & L)|(k & L)]; [exists (ILeaf v)|exists (ISize k)]; exact L). destruct X as (x & X).
    destruct (read_var_of_get _ _ _ _ _ W1 K1 NO ND G s x X) as (v & c & Iv & EV & A & KC & _). rewrite <- EV. exact (proj1 (H v c Iv A KC)). }
  destruct (C54_forward order flips dd341 rank341 Ord name old new o n P at_ fuel r units units' cast g n0 R NO CAST MODE ND G) as (rm & n' & RM & GC & L & A).
  { intros v c Iv AP KC. destruct (H v c Iv AP KC) as (X & [Y|Y]); [left; auto|right; exact Y]. }
  destruct (EndProps.C48_forward order flips dd341 rank340 rank341 library_version str_of parse_float parse_cpx flt_of_int np_cast array_items close np_int32 enum_of cat lin Ord Casts name old new o n P n0 CF SV PC U dc stamp)
    as (st & CV & _ & L' & A').
  exists rm, n', st. split; [exact RM|]. split; [exact GC|]. split; [exact CV|].
  split; intros t y; [rewrite L, L'|rewrite A, A']; split; intros (s & X & Y); exists s; (split; [exact X|]); try (exact (proj2 Y)); (split; [|exact Y]); intros a b E NA; [exact (U s (or_introl (ex_intro _ y X)) a b E NA)|exact (U s (or_intror (ex_intro _ y X)) a b E NA)].
Qed.
End AsConvert.
Print Assumptions C54_as_convert.
