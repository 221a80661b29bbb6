(** C59: in terms of the two data dictionaries; examples and findings. *)
From Verif Require Import Base PathSpec TreeModel TreeSpec TreeProofs TreeCheck ValProofs StoreProofs2 ConvSpec ConvProofs3 ConvProps ConvProps8 NcMetaModel NcMetaSpec NcMetaProofs2
  NcFileModel NcFileSpec NcFileProofs NcFileProofs2 NcFileProofs3 NcFileProofs4 NcConvModel NcConvSpec NcConvProofs NcConvProofs2 NcConvProofs3 NcConvProofs4 NcConvProps NcConvEx
  LazyModel LazySpec NcLazyModel NcLazySpec NcLazyConvModel NcLazyConvSpec NcLazyConvProps.
From Verif Require DataTypeModel ConvProofs4 NcMetaProps NcFileProps NcLazyProps VmapModel VmapSpec VmapProofs3 VmapProofs4 VmapProps EndSpec EndModel EndProofs4 EndProps EndCheck.
From Coq Require Import Lia Permutation.
Import VmapModel(nmap, o2n, n2o).
Import VmapProps(el, ren).
Import NcFileProps(st, fl, no_units).

(** the arrays that move are those whose counterpart has another path *)
Lemma none_moved : forall sm tm rm g (C : str -> str -> Prop), wf_meta sm -> wf_meta tm -> fits sm tm rm ->
  (forall p q m mt, at_path sm p m -> at_path tm q mt -> p <> [] -> q <> [] -> ~ removed rm p -> (mapped rm p q <-> C (slashed p) (slashed q))) ->
  (forall v c, In v (g_vars g) -> at_path sm (vpath v) c -> mkind c <> KStruct -> skipped rm (vpath v) \/ kept rm (vpath v)) ->
  (forall v c q, In v (g_vars g) -> v_sparse v = false -> at_path sm (vpath v) c -> mkind c = KAoS -> C (slashed (vpath v)) q -> q = slashed (vpath v)) ->
  forall q, ~ moved sm rm g q.
Proof.
  intros sm tm rm g C W W' F HM H HN q (v & c & Iv & SP & A & KC & MP & NQ & NMQ). assert (KS : mkind c <> KStruct) by congruence. assert (NP : vpath v <> []) by apply split_on_nonnil.
  assert (KP : kept rm (vpath v)). { destruct (H v c Iv A KS) as [S|KP]; auto. exfalso. destruct MP as [MP|(_ & MP)]; [|congruence]. destruct S as [S|(S & _)]; rewrite S in MP; discriminate. }
  destruct KP as [NR NU]. destruct (ft_target _ _ _ F (vpath v) c A NP NR (ConvProofs4.not_ruled_above rm _ NU) (or_introl KS)) as (q' & mt & MP' & NQ' & AQ & _).
  assert (E : q' = q). { destruct MP as [MP|(_ & MP)]; [|congruence]. destruct MP' as [MP'|(MP' & _)]; rewrite MP in MP'; [|discriminate]. injection MP' as E. apply slashed_inj; auto. exact (ft_names_t _ _ _ F _ _ AQ). }
  subst q'.
  assert (E : slashed q = slashed (vpath v)) by (apply (HN v c); auto; apply (HM _ _ c mt); auto).
  apply NQ. apply slashed_inj; auto. exact (ft_names_s _ _ _ F _ _ A).
Qed.

Section Versions.
Variable order : list str -> list str.
Variable flips : str -> list str.
Variable dd341 : EndModel.dictionary.
Variable rank341 : Z.
Hypothesis Ord : VmapProps.any_order order.
Notation rename_map := (EndModel.rename_map order flips dd341 rank341).
Notation imeta o := (EndModel.i_meta o).
Variables (name : str) (old new : EndModel.dictionary) (o n : EndModel.ids_def).
Hypothesis P : EndProps.pair_ok name old new o n.
Notation Oldf := (EndModel.i_fields o).
Notation Newf := (EndModel.i_fields n).
Notation rank := (EndModel.d_rank old).

(** A file of the older version, read lazily with the newer one, when every (not sparse) array of structures in it has its path in both. *)
Theorem C59_forward : forall at_ fuel r units units' cast g n0, nc_metadata at_ fuel (imeta o) = Ok r -> names_ok (imeta o) -> keeps_values cast -> same_mode (imeta o) (imeta n) units units' ->
  NoDup (map v_name (g_vars g)) -> get (imeta o) r units g = Ok n0 ->
  (forall v c, In v (g_vars g) -> at_path (imeta o) (vpath v) c -> mkind c <> KStruct ->
     fate (EndSpec.counterpart Oldf Newf rank) (EndSpec.old_changes Oldf Newf rank) (old_gone old o n) (vpath v)) ->
  (forall v c q, In v (g_vars g) -> v_sparse v = false -> at_path (imeta o) (vpath v) c -> mkind c = KAoS -> EndSpec.counterpart Oldf Newf rank (slashed (vpath v)) q -> q = slashed (vpath v)) ->
  exists rm n', rename_map name old new = Ok rm /\ get_conv (imeta o) r units (imeta n) units' rm cast g = Ok n' /\
  forall ops, exists outs, cget (imeta o) r units (imeta n) units' rm g ops = Ok outs /\ length outs = length ops /\
    forall i path look x, ~ In Close (firstn i ops) -> nth_error ops i = Some (Access path look) -> nth_error outs i = Some (Some x) -> shows (imeta n) n' path look x.
Proof.
  intros at_ fuel r units units' cast g n0 R NO CAST MODE ND G H HN. destruct (EndProps.dd_map order flips dd341 rank341 Ord _ _ _ _ _ P) as (s & B & D).
  destruct P as [P1 P2 P3 P4 P5 P6 P7 P8 P9 (P10 & P10') (P11 & P11') (P12 & P12') P13 P14].
  destruct (EndProps.forward_ok _ _ _ _ _ P5 P6 P7 P10 P10' P8 P9 order s Ord B P11 P11' P12') as (V & _).
  set (ch := EndSpec.old_changes Oldf Newf rank) in *. set (C := EndSpec.counterpart Oldf Newf rank) in *.
  assert (HR := EndProps.forward_rule _ _ _ P5 P6 P7 order s Ord B).
  assert (HM := EndProps.forward_map _ _ _ _ _ P5 P6 P7 P10 P10' P8 P9 order s Ord B).
  assert (HD := EndProps.forward_removed _ _ _ _ _ P5 P6 P7 P10 P10' P8 P9 order s Ord B).
  assert (HE : forall p q, C p q -> exists qq mt, q = slashed qq /\ qq <> [] /\ at_path (imeta n) qq mt).
  { intros p q (_ & (e & I & E) & _). destruct (EndSpec.ds_meta _ _ P9 e I) as (q' & mq & N2 & AQ & E' & _). exists q', mq. rewrite E in E'. auto. }
  assert (HG : forall p, old_gone old o n p -> alookup p (VmapModel.m_path (o2n s)) = Some None) by (intros p X; apply (proj2 (VmapProps.exact_of _ _ _ _ _ Ord P5 B)); right; auto).
  pose proof V as (_ & _ & _ & _ & _ & F).
  assert (HH : forall v c, In v (g_vars g) -> at_path (imeta o) (vpath v) c -> mkind c <> KStruct -> skipped (o2n s) (vpath v) \/ kept (o2n s) (vpath v)).
  { intros v c Iv A KC. exact (fate_handled (imeta o) (imeta n) (o2n s) C ch (old_gone old o n) HD HR HE HG (vpath v) c A (split_on_nonnil _ _) (H v c Iv A KC)). }
  pose proof (none_moved (imeta o) (imeta n) (o2n s) g C P10 P10' F HM HH HN) as NM.
  destruct (C59_lazy_get at_ fuel (imeta o) r units (imeta n) units' (o2n s) cast P10 P10' P11 P11' R NO F P12 CAST MODE g n0 ND G HH ltac:(intros q Q; exfalso; exact (NM q Q)) NM) as (n' & GC & Q).
  exists (o2n s), n'. split; [unfold EndModel.rename_map; replace (rank >? EndModel.d_rank new)%Z with false by (symmetry; rewrite Z.gtb_ltb; apply Z.ltb_ge; lia); rewrite D; reflexivity|]. auto.
Qed.
(** A file of the newer version, read lazily with the older one. *)
Theorem C59_backward : (rank < EndModel.d_rank new)%Z ->
  forall at_ fuel r units units' cast g n0, nc_metadata at_ fuel (imeta n) = Ok r -> names_ok (imeta n) -> keeps_values cast -> same_mode (imeta n) (imeta o) units units' ->
  NoDup (map v_name (g_vars g)) -> get (imeta n) r units g = Ok n0 ->
  (forall v c, In v (g_vars g) -> at_path (imeta n) (vpath v) c -> mkind c <> KStruct ->
     fate (fun q p => EndSpec.counterpart Oldf Newf rank p q) (EndSpec.new_changes Oldf Newf rank) (new_gone old o n) (vpath v)) ->
  (forall v c p, In v (g_vars g) -> v_sparse v = false -> at_path (imeta n) (vpath v) c -> mkind c = KAoS -> EndSpec.counterpart Oldf Newf rank p (slashed (vpath v)) -> p = slashed (vpath v)) ->
  exists rm n', rename_map name new old = Ok rm /\ get_conv (imeta n) r units (imeta o) units' rm cast g = Ok n' /\
  forall ops, exists outs, cget (imeta n) r units (imeta o) units' rm g ops = Ok outs /\ length outs = length ops /\
    forall i path look x, ~ In Close (firstn i ops) -> nth_error ops i = Some (Access path look) -> nth_error outs i = Some (Some x) -> shows (imeta o) n' path look x.
Proof.
  intros LT at_ fuel r units units' cast g n0 R NO CAST MODE ND G H HN. destruct (EndProps.dd_map order flips dd341 rank341 Ord _ _ _ _ _ P) as (s & B & D).
  destruct P as [P1 P2 P3 P4 P5 P6 P7 P8 P9 (P10 & P10') (P11 & P11') (P12 & P12') P13 P14].
  destruct (EndProps.backward_ok _ _ _ _ _ P5 P6 P7 P10 P10' P8 P9 order s Ord B P11 P11' P12) as (V & _).
  set (ch := EndSpec.new_changes Oldf Newf rank) in *. set (C := fun q p => EndSpec.counterpart Oldf Newf rank p q) in *.
  assert (HR := EndProps.backward_rule _ _ _ P5 P6 P7 order s Ord B).
  assert (HM := EndProps.backward_map _ _ _ _ _ P5 P6 P7 P10 P10' P8 P9 order s Ord B).
  assert (HD := EndProps.backward_removed _ _ _ _ _ P5 P6 P7 P10 P10' P8 P9 order s Ord B).
  assert (HE : forall p q, C p q -> exists qq mt, q = slashed qq /\ qq <> [] /\ at_path (imeta o) qq mt).
  { intros p q ((e & I & E) & _). destruct (EndSpec.ds_meta _ _ P8 e I) as (q' & mq & N2 & AQ & E' & _). exists q', mq. rewrite E in E'. auto. }
  assert (HG : forall p, new_gone old o n p -> alookup p (VmapModel.m_path (n2o s)) = Some None) by (intros p X; apply (proj1 (VmapProps.exact_of _ _ _ _ _ Ord P5 B)); right; auto).
  pose proof V as (_ & _ & _ & _ & _ & F).
  assert (HH : forall v c, In v (g_vars g) -> at_path (imeta n) (vpath v) c -> mkind c <> KStruct -> skipped (n2o s) (vpath v) \/ kept (n2o s) (vpath v)).
  { intros v c Iv A KC. exact (fate_handled (imeta n) (imeta o) (n2o s) C ch (new_gone old o n) HD HR HE HG (vpath v) c A (split_on_nonnil _ _) (H v c Iv A KC)). }
  pose proof (none_moved (imeta n) (imeta o) (n2o s) g C P10' P10 F HM HH HN) as NM.
  destruct (C59_lazy_get at_ fuel (imeta n) r units (imeta o) units' (n2o s) cast P10' P10 P11' P11 R NO F P12' CAST MODE g n0 ND G HH ltac:(intros q Q; exfalso; exact (NM q Q)) NM) as (n' & GC & Q).
  exists (n2o s), n'. split; [unfold EndModel.rename_map; replace (EndModel.d_rank new >? rank)%Z with true by (symmetry; rewrite Z.gtb_ltb; apply Z.ltb_lt; lia); rewrite D; reflexivity|]. auto.
Qed.
End Versions.
Print Assumptions C59_forward.
Print Assumptions C59_backward.

(** ** An example *)
(** a quantity with another name in an array of structures; in it an array that gets another name but is sparse; a quantity with another name *)
Definition lz_old : EndModel.ids_def := {| EndModel.i_fields := head_f ++ [el "a" "FLT_0D"; el "s" "struct_array"; el "s/p" "FLT_0D"; el "s/t" "struct_array"; el "s/t/u" "INT_0D"];
  EndModel.i_meta := Meta (strs "ids") KStruct [head_m; lf "a" FLT 0; Meta (strs "s") KAoS [lf "p" FLT 0; Meta (strs "t") KAoS [lf "u" INT 0]]] |}.
Definition lz_new : EndModel.ids_def := {| EndModel.i_fields := head_f ++ [ren "c" "FLT_0D" "leaf_renamed" "a"; el "s" "struct_array"; ren "s/q" "FLT_0D" "leaf_renamed" "p"; ren "s/w" "struct_array" "aos_renamed" "t"; el "s/w/u" "INT_0D"];
  EndModel.i_meta := Meta (strs "ids") KStruct [head_m; lf "c" FLT 0; Meta (strs "s") KAoS [lf "q" FLT 0; Meta (strs "w") KAoS [lf "u" INT 0]]] |}.
Notation lo := (EndModel.i_meta lz_old).
Notation ln := (EndModel.i_meta lz_new).
Example C59_example_pair : EndProps.pair_ok (strs "ids") (EndProps.en_dict 5 lz_old) (EndProps.en_dict 20 lz_new) lz_old lz_new.
Proof.
  assert (W : VmapSpec.wf_fields (EndModel.i_fields lz_new)) by (apply VmapProofs4.wf_b_sound; vm_compute; reflexivity).
  constructor; try reflexivity; try (split; by_check).
  - cbn. lia.
  - intros (_ & H). discriminate.
  - apply VmapProofs4.pair_b_sound. vm_compute. reflexivity.
  - apply EndCheck.same_b_sound; [exact W|]. vm_compute. reflexivity.
  - apply EndCheck.inside_b_sound; [exact W|]. vm_compute. reflexivity.
  - apply EndCheck.described_b_sound. vm_compute. reflexivity.
  - apply EndCheck.described_b_sound. vm_compute. reflexivity.
  - split; reflexivity.
  - assert (X : forall p t, (exists ty, DataTypeModel.dt_parse (Some (strs t)) = Ok ty) -> VmapProofs4.good_elem (el p t)).
    { intros p t [ty H]. split; [exists (strs t), ty; auto|]. intros c E. discriminate. }
    assert (Y : forall p t d v, (exists ty, DataTypeModel.dt_parse (Some (strs t)) = Ok ty) -> In d ["leaf_renamed"; "aos_renamed"]%string -> VmapProofs4.good_elem (ren p t d v)).
    { intros p t d v [ty H] I. split; [exists (strs t), ty; auto|]. intros c E. inversion E; subst. right. exists [10%Z]. split; [reflexivity|]. split; [destruct I as [<-|[<-|[]]]; reflexivity|]. intros _. exists [strs v]. split; reflexivity. }
    split; intros e I; cbn in I; repeat (destruct I as [<-|I]; [first [apply X; eexists; reflexivity|apply Y; [eexists; reflexivity|cbn; tauto]]|]); destruct I.
  - intros e c I N E. cbn in I. repeat (destruct I as [<-|I]; [cbn in N; try discriminate; injection N as <-; discriminate|]). destruct I.
Qed.
Definition elem_ (p : Z) (us : list Z) : node := st [("p", NLeaf (Some (VFlt (fl p)))); ("t", NAoS (map (fun u => st [("u", NLeaf (Some (VInt u)))]) us))]%string.
Definition lz_src : node := cv_tree [("a", NLeaf (Some (VFlt (fl 9)))); ("s", NAoS [elem_ 7 [1]; elem_ 8 [2; 3]])]%string%Z.
Definition lz_g : group := match put lo (nc_of lo) no_units lz_src with Ok g => g | Err _ => {| g_vars := []; g_shapes := []; g_sizes := [] |} end.
Definition lz_back : node := match get lo (nc_of lo) no_units lz_g with Ok n => n | Err _ => NLeaf None end.
Definition lz_map : nmap := match EndModel.rename_map VmapProps.same_order (fun _ => []) (EndProps.en_dict 41 lz_old) 41 (strs "ids") (EndProps.en_dict 5 lz_old) (EndProps.en_dict 20 lz_new) with Ok rm => rm | Err _ => VmapModel.empty_map end.
Definition A (nm : string) : acc := Attr (strs nm).
(** the variables of the file are as C59_forward asks; accesses, and what they give *)
Example C59_example : get lo (nc_of lo) no_units lz_g = Ok lz_back /\ NoDup (map v_name (g_vars lz_g)) /\ length (g_vars lz_g) = 7 /\
  (exists v, In v (g_vars lz_g) /\ v_name v = strs "s.t" /\ v_sparse v = true) /\ (forall q, ~ moved lo lz_map lz_g q) /\
  cget lo (nc_of lo) no_units ln no_units lz_map lz_g
    [Access [A "s"; Item 1; A "w"; Item (-1); A "u"] true; Access [A "c"] true; Access [A "a"] true; Access [A "s"] true; Access [A "s"; Item 0; A "w"] true;
     Access [A "s"; Item 1; A "q"] true; Close; Access [A "s"; Item 0; A "q"] true; Access [A "s"; Item 1; A "q"] true] =
  Ok [Some (Ok (OValue (Some (VInt 3)))); Some (Ok (OValue (Some (VFlt (fl 9))))); Some (Err (QLazy NoAttribute)); Some (Ok (OSize 2)); Some (Ok (OSize 1));
      Some (Ok (OValue (Some (VFlt (fl 8))))); None; Some (Err (QLazy Unavailable)); Some (Ok (OValue (Some (VFlt (fl 8)))))].
Proof.
  split; [vm_compute; reflexivity|]. split; [apply VmapProofs4.nodup_b_sound; vm_compute; reflexivity|]. split; [vm_compute; reflexivity|]. split.
  { assert (Q : existsb (fun v => str_eqb (v_name v) (strs "s.t") && v_sparse v) (g_vars lz_g) = true) by (vm_compute; reflexivity). apply existsb_exists in Q. destruct Q as (v & I & Q). apply Bool.andb_true_iff in Q. destruct Q as [Q1 Q2]. exists v. apply str_eqb_eq in Q1. exact (conj I (conj Q1 Q2)). }
  split; [|vm_compute; reflexivity].
  intros q (v & c & Iv & SP & AP & KC & MP & NQ & NMQ). assert (W : wf_meta lo) by by_check. apply meta_at_path in AP; [|exact W].
  assert (Q : forallb (fun v => v_sparse v || match meta_at lo (vpath v) with Some c => match mkind c with KAoS => match alookup (slashed (vpath v)) (VmapModel.m_path lz_map) with None => true | _ => false end | _ => true end | None => true end) (g_vars lz_g) = true) by (vm_compute; reflexivity).
  rewrite forallb_forall in Q. specialize (Q v Iv). rewrite SP, AP, KC in Q. cbn [orb] in Q. destruct MP as [MP|(_ & MP)]; [|congruence]. unfold ConvSpec.entry in MP. rewrite MP in Q. discriminate.
Qed.

(** ** Findings *)
(** C59 refuted for an array of structures that changes its path (here because the structure around it gets another name).  Reading at once
    gives its three elements.  When it is read lazily the first access raises IndexError (line 343 looks for the dimensions of the new path in the
    metadata of the old version); after that it appears to have no elements. *)
Theorem C59_moved_refuted : exists name old new o n rm src g n' path,
  EndProps.pair_ok name old new o n /\ EndModel.rename_map VmapProps.same_order (fun _ => []) old 41 name old new = Ok rm /\
  conf (EndModel.i_meta o) src /\ put (EndModel.i_meta o) (nc_of (EndModel.i_meta o)) no_units src = Ok g /\
  get_conv (EndModel.i_meta o) (nc_of (EndModel.i_meta o)) no_units (EndModel.i_meta n) no_units rm keep g = Ok n' /\
  seen (EndModel.i_meta n) n' path true (Ok (OSize 3)) /\
  cget (EndModel.i_meta o) (nc_of (EndModel.i_meta o)) no_units (EndModel.i_meta n) no_units rm g [Access path true; Access path true] = Ok [Some (Err (QFile FIndex)); Some (Ok (OSize 0))].
Proof.
  exists (strs "ids"), (EndProps.en_dict 5 cv_old), (EndProps.en_dict 20 cv_new), cv_old, cv_new, cv_map, cv_src, cv_g, cv_got, [A "c"; A "s"].
  split; [exact C54_example_pair|]. split; [vm_compute; reflexivity|]. split; [by_check|]. split; [vm_compute; reflexivity|]. split; [vm_compute; reflexivity|]. split; [|vm_compute; reflexivity].
  assert (Y : exists fs fs2 els, cv_got = NStruct fs /\ alookup (strs "c") fs = Some (NStruct fs2) /\ alookup (strs "s") fs2 = Some (NAoS els) /\ length els = 3).
  { eexists _, _, _. split; [vm_compute; reflexivity|]. split; [vm_compute; reflexivity|]. split; [vm_compute; reflexivity|reflexivity]. }
  destruct Y as (fs & fs2 & els & -> & Y1 & Y2 & LE).
  pose (d1 := nth 1 (mchildren nm) nm). pose (d2 := nth 2 (mchildren d1) nm).
  assert (RE : reach nm (NStruct fs) [A "c"; A "s"] [Child (strs "c"); Child (strs "s")] d2 (NAoS els)).
  { apply (re_attr (strs "ids") (mchildren nm) fs d1 [A "s"] [Child (strs "s")] d2 (NAoS els)); [cbn; tauto|]. unfold LazySpec.field. change (mname d1) with (strs "c"). rewrite Y1.
    apply (re_attr (strs "c") (mchildren d1) fs2 d2 [] [] d2 (NAoS els)); [cbn; tauto|]. unfold LazySpec.field. change (mname d2) with (strs "s"). rewrite Y2. constructor. }
  pose proof (seen_ok _ _ _ true _ _ _ RE) as S. cbn [shown] in S. rewrite LE in S. exact S.
Qed.
Print Assumptions C59_moved_refuted.
(** The file of C54_removed_structure_refuted, which cannot be read at once, can be read lazily. *)
Theorem C59_removed_structure : exists g, put om (nc_of om) no_units cv_lost = Ok g /\ get_conv om (nc_of om) no_units nm no_units cv_map keep g = Err FAttr /\
  cget om (nc_of om) no_units nm no_units cv_map g [Access [A "c"; A "x"] true; Access [A "gone"] true] = Ok [Some (Ok (OValue (Some (VFlt (fl 7))))); Some (Err (QLazy NoAttribute))].
Proof. eexists. split; [vm_compute; reflexivity|]. split; vm_compute; reflexivity. Qed.
