(** * C59: an IDS that is lazily loaded from a netCDF file of another version of the data dictionary. *)
From Verif Require Import Base PathSpec TreeModel TreeSpec TreeProofs StoreProofs2 ConvSpec ConvProofs3 NcMetaModel NcMetaSpec NcMetaProofs2
  NcFileModel NcFileSpec NcFileProofs NcFileProofs2 NcFileProofs3 NcFileProofs4 NcConvModel NcConvSpec NcConvProofs NcConvProofs2 NcConvProofs3 NcConvProofs4 NcConvProofs5
  LazyModel LazySpec LazyProofs LazyProofs2 NcLazyModel NcLazySpec NcLazyProofs NcLazyProofs2 NcLazyConvModel NcLazyConvSpec NcLazyConvProofs NcLazyConvProofs2.
From Verif Require ConvProofs2 ConvProofs4 VmapModel.
From Coq Require Import Lia Permutation.
Import VmapModel(nmap).

Section Run.
Variables (m : meta) (r : ncmeta) (g : group) (h : bool) (lm : path -> option ncvar) (val : path -> dtype -> nat -> list nat -> option value) (size : path -> list nat -> nat) (bad : path -> Prop).
Notation crun := (crun r g h lm).
Notation cstep := (cstep r g h lm).
Notation cagree := (cagree val size).
Notation cause := (cause bad).
Notation e := (gen val size m [] []).
Hypothesis W : wf_meta m.
Hypothesis RD : good r g h lm val size bad m [] [].

Lemma cstep_agree : forall st op B, cagree B m [] [] [] (q_tree st) ->
  (exists B', cagree B' m [] [] [] (q_tree (fst (cstep m st op))) /\ (forall l, B l -> B' l) /\
     forall l, B' l -> B l \/ exists path look y, op = Access path look /\ snd (cstep m st op) = Some (Err y) /\ cause (q_open st) l y /\ asked m e path l) /\
  forall path look x, op = Access path look -> snd (cstep m st op) = Some x -> coutcome bad (q_open st) B m e [] path look x.
Proof.
  intros st [path look|] B A; cbn [NcLazyConvModel.cstep fst snd q_tree q_open].
  - destruct (caccess_agree r g h lm val size bad (q_open st) path look B m [] [] [] (q_tree st) W RD eq_refl A) as [(B' & A' & M & N) O]. split.
    + exists B'. split; auto. split; auto. intros l Bl. destruct (N l Bl) as [|(y & U & C & F)]; auto. right. exists path, look, y. rewrite U.
      split; auto. split; auto. split; auto. destruct F as (l1 & AS & ->). exact AS.
    + intros p' k x E1 E2. inversion E1; inversion E2; subst. exact O.
  - split; [exists B; auto|]. intros; discriminate.
Qed.
Lemma step_open : forall st op, q_open (fst (cstep m st op)) = match op with Close => false | _ => q_open st end.
Proof. intros st [path look|]; reflexivity. Qed.

Definition failed_for (st : qstate) (ops : list lop) (i : nat) (l : loc) (y : qexn) : Prop :=
  (y = QLazy Unavailable /\ (q_open st = false \/ In Close (firstn i ops))) \/ (bad (loc_names l) /\ y = QFile FIndex).
Lemma crun_outcome : forall ops st B i path look x, cagree B m [] [] [] (q_tree st) ->
  nth_error ops i = Some (Access path look) -> nth_error (snd (crun m st ops)) i = Some (Some x) ->
  shows m e path look x \/ (exists l y, x = Err y /\ failed_for st ops i l y /\ asked m e path l) \/
  (exists p1 p2 l m' e', path = p1 ++ p2 /\ reach m e p1 l m' e' /\ shows m' (new_node m') p2 look x /\
     (B l \/ exists j path' look' y, j < i /\ nth_error ops j = Some (Access path' look') /\
        nth_error (snd (crun m st ops)) j = Some (Some (Err y)) /\ failed_for st ops j l y /\ asked m e path' l)).
Proof.
  induction ops as [|op ops IH]; intros st B i path look x A N R; [destruct i; discriminate|].
  destruct (cstep_agree st op B A) as [(B' & A' & M & NB) O]. cbn [NcLazyConvModel.crun] in *. cbv zeta in *. cbn [snd] in *.
  assert (UP : forall j l y, failed_for (fst (cstep m st op)) ops j l y -> failed_for st (op :: ops) (S j) l y).
  { intros j l y [(-> & Q)|Q]; [left|right; exact Q]. split; auto. rewrite step_open in Q. cbn [firstn In]. destruct op; [tauto|]. right. now left. }
  assert (HR : forall l y, cause (q_open st) l y -> failed_for st (op :: ops) 0 l y). { intros l y [(Op & ->)|(_ & Bd & ->)]; [left; auto|right; auto]. }
  destruct i as [|i]; cbn [nth_error] in *.
  - inversion N; subst op. assert (R' : snd (cstep m st (Access path look)) = Some x) by congruence.
    destruct (O _ _ _ eq_refl R') as [S|[(l & y & -> & C & (l1 & AS & E1))|(p1 & p2 & l & m' & e' & y & -> & RE & Bl & SY & ->)]]; [left; exact S| |].
    + right. left. exists l, y. split; auto. split; auto. cbn in E1. now subst l1.
    + right. right. exists p1, p2, l, m', e'. split; auto. split; auto. split; auto. exists y. auto.
  - destruct (IH _ _ _ _ _ _ A' N R) as [S|[(l & y & -> & C & AS)|(p1 & p2 & l & m' & e' & -> & RE & SY & Bl)]]; [left; exact S| |].
    + right. left. exists l, y. auto.
    + right. right. exists p1, p2, l, m', e'. split; auto. split; auto. split; auto. destruct Bl as [Bl|(j & p' & k' & y & Lt & Nj & Rj & C & As)].
      * destruct (NB l Bl) as [|(p' & k' & y & -> & U & C & As)]; auto. right. exists 0, p', k', y. cbn [nth_error]. rewrite U. split; [lia|]. split; auto.
      * right. exists (S j), p', k', y. cbn [nth_error]. split; [lia|]. split; auto.
Qed.
Lemma crun_length : forall ops st, length (snd (crun m st ops)) = length ops.
Proof. induction ops as [|op ops IH]; intros st; auto. cbn [NcLazyConvModel.crun]. cbv zeta. cbn [snd length]. now rewrite IH. Qed.

(** a first access that comes to an array whose size is not found *)
Definition unloaded (c : meta) (p : path) (idx : list nat) : qnode :=
  match mkind c with KStruct => QStruct (Some idx) [] | KAoS => QAoS (Some (idx, size p idx)) None | KLeaf dt nd => QLeaf (val p dt nd idx) end.
Lemma first_access : forall p1 c p idx l c1 e1, reach c (gen val size c p idx) p1 l c1 e1 -> wf_meta c -> good r g h lm val size bad c p idx -> l <> [] -> ~ is_elem l ->
  bad (p ++ loc_names l) -> (forall idx, exists v, lm (p ++ loc_names l) = Some v /\ lazy_size r g h v (p ++ loc_names l) idx = Err FIndex) -> mkind c1 = KAoS ->
  forall p2 look, snd (caccess r g h lm true c p (p1 ++ p2) look (unloaded c p idx)) = Err (QFile FIndex).
Proof.
  induction p1 as [|a p1 IH]; intros c p idx l c1 e1 RE Wc G NL NE BD LZ KC p2 look; [inversion RE; subst; congruence|].
  destruct c as [nm k cs]. destruct k as [| |dt nd]; [| |inversion RE].
  - change (gen val size (Meta nm KStruct cs) p idx) with (NStruct (gen_fields val size cs p idx)) in RE.
    inversion RE as [|? ? fs d ? l2 ? ? I RE2| |]; subst. assert (NDc : NoDup (map mname cs)) by (inversion Wc; auto). unfold unloaded. cbn [mkind]. cbn [app caccess].
    assert (CM : child_meta (Meta nm KStruct cs) (mname d) = Some d).
    { destruct (child_meta (Meta nm KStruct cs) (mname d)) as [d2|] eqn:E; [apply child_meta_spec in E; destruct E as [I2 E2]; f_equal; cbn in I2; eapply NoDup_names; eauto|]. exfalso. apply (child_meta_none _ _ E). cbn. now apply List.in_map. }
    rewrite CM. cbn [alookup].
    assert (DF : LazySpec.field d (gen_fields val size cs p idx) = gen val size d (p ++ [mname d]) idx) by (apply (gen_field val size cs p idx d NDc I)). rewrite DF in RE2. pose proof (wf_child _ _ _ _ Wc I) as Wd. assert (Gd : good r g h lm val size bad d (p ++ [mname d]) idx) by (inversion G; subst; auto).
    cbn [loc_names flat_map app] in BD, LZ. fold (loc_names l2) in BD, LZ.
    assert (EQ : p ++ mname d :: loc_names l2 = (p ++ [mname d]) ++ loc_names l2) by (rewrite <- app_assoc; reflexivity). rewrite EQ in BD, LZ.
    destruct l2 as [|st l2].
    + cbn [loc_names flat_map] in BD, LZ. rewrite app_nil_r in BD, LZ. destruct (LZ idx) as (v & LV & SZ).
      assert (d = c1) by (inversion RE2; auto). subst c1. unfold cload_child. rewrite KC, LV, SZ. reflexivity.
    + assert (NE2 : ~ is_elem (st :: l2)) by (intros (l' & i & Q); apply NE; exists (Child (mname d) :: l'), i; rewrite Q; reflexivity).
      specialize (IH d (p ++ [mname d]) idx (st :: l2) c1 e1 RE2 Wd Gd ltac:(discriminate) NE2 BD LZ KC p2 look).
      assert (LD : cload_child r g h lm true d (p ++ [mname d]) (Some idx) = (unloaded d (p ++ [mname d]) idx, None) \/ exists y, cload_child r g h lm true d (p ++ [mname d]) (Some idx) = (y, Some (QFile FIndex))).
      { unfold cload_child, unloaded. destruct d as [dn dk dc]. cbn [mkind mname] in *. destruct dk as [| |dt nd]; [now left| |inversion Gd as [? ? ? ? ? ? GV GN| |]; subst].
        - inversion Gd as [| |? ? ? ? GS GN _]; subst. destruct (lm (p ++ [dn])) as [v|]; [|left; now rewrite GN]. destruct (GS v eq_refl) as [E|[_ E]]; rewrite E; eauto.
        - unfold qnew. cbn [mkind]. destruct (lm (p ++ [dn])) as [v|]; [rewrite (GV v eq_refl); auto|rewrite GN; auto]. }
      destruct LD as [LD|(y & LD)]; rewrite LD; cbv zeta; cbn [snd]; [exact IH|reflexivity].
  - set (els := map (fun i => NStruct (gen_fields val size cs p (idx ++ [i]))) (seq 0 (size p idx))). change (gen val size (Meta nm KAoS cs) p idx) with (NAoS els) in RE.
    assert (LE : length els = size p idx) by (unfold els; now rewrite map_length, seq_length).
    assert (X : exists i j y l2, a = Item i /\ index i (length els) = Some j /\ nth_error els j = Some y /\ l = Elem j :: l2 /\ reach (Meta nm KStruct cs) y p1 l2 c1 e1).
    { inversion RE as [| |? ? ? i y ? l2 ? ? N RE2|? ? ? i y ? l2 ? ? N Li RE2]; subst.
      - exists (Z.of_nat i), i, y, l2. split; auto. split; [|auto]. assert (i < length els) by (apply nth_error_Some; congruence). unfold index.
        destruct (Z.ltb_spec (Z.of_nat i) 0); [lia|]. cbv zeta. destruct (Z.leb_spec 0 (Z.of_nat i)); [|lia]. destruct (Z.ltb_spec (Z.of_nat i) (Z.of_nat (length els))); [|lia]. cbn [andb]. now rewrite Nat2Z.id.
      - exists (- Z.of_nat (S i))%Z, (length els - S i), y, l2. split; auto. split; [|auto]. unfold index. destruct (Z.ltb_spec (- Z.of_nat (S i)) 0); [|lia]. cbv zeta.
        destruct (Z.leb_spec 0 (- Z.of_nat (S i) + Z.of_nat (length els))); [|lia]. destruct (Z.ltb_spec (- Z.of_nat (S i) + Z.of_nat (length els)) (Z.of_nat (length els))); [|lia]. cbn [andb]. f_equal. lia. }
    destruct X as (i & j & y & l2 & -> & IX & N & -> & RE2). unfold unloaded. cbn [mkind app caccess]. cbn [qload_size snd]. cbv zeta. rewrite repeat_length, <- LE, IX.
    assert (Lj : j < size p idx) by (rewrite <- LE; apply nth_error_Some; congruence).
    assert (EL : match nth_error (repeat (@None qnode) (length els)) j with Some (Some e0) => e0 | _ => QStruct (option_map (fun k : list nat * nat => fst k ++ [j]) (Some (idx, length els))) [] end = unloaded (Meta nm KStruct cs) p (idx ++ [j])).
    { destruct (nth_error (repeat (@None qnode) (length els)) j) as [[q|]|] eqn:Q; [apply nth_error_In, repeat_spec in Q; discriminate| |]; reflexivity. }
    rewrite EL. cbn [mname mchildren snd]. unfold els in N. rewrite nth_error_map, seq_nth_error in N by auto. cbn [option_map Nat.add] in N. assert (EY : y = gen val size (Meta nm KStruct cs) p (idx ++ [j])) by (inversion N; reflexivity). rewrite EY in RE2.
    destruct l2 as [|s2 l2]; [exfalso; apply NE; exists [], j; reflexivity|].
    eapply IH; eauto.
    + apply (wf_elem _ _ Wc).
    + constructor. inversion G as [| |? ? ? ? _ _ GI]; subst. intros d D. now apply GI.
    + discriminate.
    + intros (l' & i0 & Q). apply NE. exists (Elem j :: l'), i0. rewrite Q. reflexivity.
Qed.
End Run.

Section General.
Variables (at_ : path -> nattr) (fuel : nat) (m : meta) (r : ncmeta) (units : path -> str) (m' : meta) (units' : path -> str) (rm : nmap) (cast : meta -> value -> result fexn value).
Hypothesis W : wf_meta m.
Hypothesis W' : wf_meta m'.
Hypothesis K : mkind m = KStruct.
Hypothesis K' : mkind m' = KStruct.
Hypothesis R : nc_metadata at_ fuel m = Ok r.
Hypothesis NO : names_ok m.
Hypothesis F : fits m m' rm.
Hypothesis SO : str_ok m.
Hypothesis CAST : keeps_values cast.
Hypothesis MODE : same_mode m m' units units'.
Notation get_conv := (get_conv m r units m' units' rm cast).
Notation cget := (cget m r units m' units' rm).

Section File.
Variables (g : group) (n : node).
Hypothesis ND : NoDup (map v_name (g_vars g)).
Hypothesis G : get m r units g = Ok n.
Hypothesis H : forall v c, In v (g_vars g) -> at_path m (vpath v) c -> mkind c <> KStruct -> skipped rm (vpath v) \/ kept rm (vpath v).
Hypothesis NEW : forall q, moved m rm g q -> forall c, ~ at_path m q c.

Lemma file_facts : exists n' h lm val size, get_conv g = Ok n' /\
  (forall ops, cget g ops = Ok (snd (crun r g h lm m' {| q_open := true; q_tree := QStruct (Some []) [] |} ops))) /\
  good r g h lm val size (moved m rm g) m' [] [] /\ same m' n' (gen val size m' [] []) /\
  (forall q v c, In v (g_vars g) -> v_sparse v = false -> at_path m (vpath v) c -> mkind c = KAoS -> kept rm (vpath v) -> mapped rm (vpath v) q -> q <> vpath v -> (exists c', at_path m' q c') ->
     forall idx, exists v, lm q = Some v /\ lazy_size r g h v q idx = Err FIndex).
Proof.
  pose proof G as G1. unfold get in G1. destruct (read_homogeneous m r units g) as [h|] eqn:RH; [|discriminate]. cbn [rbind] in G1.
  destruct (validate_variables m r units g h) as [u|] eqn:V; [|discriminate]. cbn [rbind] in G1. destruct (read_vars m r g h (sorted_vars g) []) as [fs|] eqn:RV; [|discriminate]. clear G1. destruct u.
  destruct (conv_facts at_ fuel m r m' rm cast g h W W' K K' R NO ND F (str_dims m SO) CAST H (valid_dims m r units g h W V) NEW fs RV) as (fs' & L & C & EL & GD & SM).
  destruct (lazy_map_src m r m' rm cast g h W W' ND F H [] fs' C) as (L2 & EL2 & SL). rewrite EL in EL2. assert (L2 = L) by congruence. subst L2.
  destruct MODE as (c & c' & A & A' & EK & EU).
  assert (RH' : read_homogeneous m' r units' g = Ok h) by (rewrite (mode_same m m' r units units' g c c' W W' A A' EK EU); exact RH).
  exists (NStruct fs'), h, (target_var L). eexists. eexists.
  split; [unfold NcConvModel.get_conv; rewrite RH'; cbn [rbind]; rewrite V; cbn [rbind]; rewrite C; reflexivity|].
  split; [intros ops; unfold NcLazyConvModel.cget; rewrite RH'; cbn [rbind]; rewrite V; cbn [rbind]; rewrite EL; reflexivity|].
  split; [exact GD|]. split; [exact SM|].
  intros q v cv Iv SP AP KC KP MP NQ (cq & AQ) idx. exists v. split.
  - rewrite SL. apply (src_iff m m' rm g W W' ND F H); [apply incl_refl|]. split; auto. eapply (tgt_kept m m' rm g W W' F); eauto. congruence.
  - unfold lazy_size. rewrite SP. unfold get_dimensions. rewrite (NcMetaProps.dims_none at_ m W fuel r R); [reflexivity|].
    intros c0 a0 n0 IN. exfalso. apply (NEW q) with (c := c0); [exists v, cv; repeat split; auto; exact (ft_names_t _ _ _ F _ _ AQ)|]. apply meta_at_path; auto. exact (NcMetaProofs4.meta_at_in m W _ _ _ _ IN).
Qed.
Lemma root_agree : forall val size B, cagree val size B m' [] [] [] (QStruct (Some []) []).
Proof. intros val size B. destruct m' as [nm k cs]. cbn in K'. subst k. constructor. intros; discriminate. Qed.

(** C59: reading lazily, with the file being closed at any time.  Every access gives what it gives for the IDS that is read at once.  Or it
    raises, because the file is closed, or because it comes to a (not sparse) array of structures that changes its path; then the node
    that was asked for appears to be empty later. *)
Theorem C59_any_time : exists n', get_conv g = Ok n' /\ forall ops, exists outs, cget g ops = Ok outs /\ length outs = length ops /\
  forall i path look x, nth_error ops i = Some (Access path look) -> nth_error outs i = Some (Some x) ->
  shows m' n' path look x \/
  (x = Err (QLazy Unavailable) /\ In Close (firstn i ops)) \/
  (x = Err (QFile FIndex) /\ exists l, asked m' n' path l /\ moved m rm g (loc_names l)) \/
  (exists p1 p2 l m1 e1 j path' look' y, path = p1 ++ p2 /\ reach m' n' p1 l m1 e1 /\ shows m1 (new_node m1) p2 look x /\ j < i /\
     nth_error ops j = Some (Access path' look') /\ nth_error outs j = Some (Some (Err y)) /\ asked m' n' path' l /\
     ((y = QLazy Unavailable /\ In Close (firstn j ops)) \/ (y = QFile FIndex /\ moved m rm g (loc_names l)))).
Proof.
  destruct file_facts as (n' & h & lm & val & size & GC & CG & GD & SM & _). exists n'. split; auto. intros ops. eexists. split; [apply CG|]. split; [apply crun_length|].
  intros i path look x N O. pose proof (same_sym _ _ _ SM) as SM'.
  assert (AS : forall p l, asked m' (gen val size m' [] []) p l -> asked m' n' p l). { intros p l (q1 & q2 & m2 & e3 & -> & RE3). destruct (same_reach _ _ _ _ _ _ RE3 _ SM') as (e4 & RE4 & _). exists q1, q2, m2, e4. auto. }
  destruct (crun_outcome m' r g h lm val size (moved m rm g) W' GD ops {| q_open := true; q_tree := QStruct (Some []) [] |} (fun _ => False) i path look x (root_agree _ _ _) N O)
    as [(z & Z & ->)|[(l & y & -> & C & A)|(p1 & p2 & l & m1 & e1 & -> & RE & S & [[]|(j & p' & k' & y & Lt & Nj & Rj & C & A)])]].
  - left. exists z. split; auto. eapply same_seen; eauto.
  - destruct C as [(-> & [C|C])|(C & ->)]; [discriminate| |]; right; [left; auto|right; left]. split; auto. exists l. auto.
  - right. right. right. destruct (same_reach _ _ _ _ _ _ RE _ SM') as (e2 & RE2 & _). exists p1, p2, l, m1, e2, j, p', k', y. split; auto. split; auto. split; auto. split; auto. split; auto. split; auto. split; auto.
    destruct C as [(-> & [C|C])|(C & ->)]; [discriminate|left|right]; auto.
Qed.
(** C59: as long as the file is open, and no array of structures changes its path, every access gives what it gives for the IDS that is
    read at once. *)
Theorem C59_lazy_get : (forall q, ~ moved m rm g q) -> exists n', get_conv g = Ok n' /\ forall ops, exists outs, cget g ops = Ok outs /\ length outs = length ops /\
  forall i path look x, ~ In Close (firstn i ops) -> nth_error ops i = Some (Access path look) -> nth_error outs i = Some (Some x) -> shows m' n' path look x.
Proof.
  intros NM. destruct C59_any_time as (n' & GC & CG). exists n'. split; auto. intros ops. destruct (CG ops) as (outs & E & LN & Q). exists outs. split; auto. split; auto.
  intros i path look x NC N O. destruct (Q i path look x N O) as [S|[(_ & C)|[(_ & l & _ & M)|(p1 & p2 & l & m1 & e1 & j & p' & k' & y & -> & RE & S & Lt & Nj & Rj & A & [(-> & C)|(_ & M)])]]]; auto; [contradiction|exfalso; eapply NM; eauto| |exfalso; eapply NM; eauto].
  exfalso. apply NC. replace (firstn j ops) with (firstn j (firstn i ops)) in C by (rewrite firstn_firstn; f_equal; lia). rewrite <- (firstn_skipn j (firstn i ops)). apply in_or_app; auto.
Qed.
(** C59: an array of structures that changes its path cannot be loaded lazily: the first access to it, or to anything in it, raises. *)
Theorem C59_moved : exists n', get_conv g = Ok n' /\ forall path1 path2 look l c1 e1, reach m' n' path1 l c1 e1 -> ~ is_elem l -> moved m rm g (loc_names l) -> mkind c1 = KAoS ->
  cget g [Access (path1 ++ path2) look] = Ok [Some (Err (QFile FIndex))].
Proof.
  destruct file_facts as (n' & h & lm & val & size & GC & CG & GD & SM & MV). exists n'. split; auto. intros path1 path2 look l c1 e1 RE NE M KC.
  rewrite CG. cbn [crun cstep snd fst q_tree q_open]. cbv zeta. cbn [snd]. destruct (same_reach _ _ _ _ _ _ RE _ SM) as (e2 & RE2 & _).
  assert (NL : l <> []). { intros ->. inversion RE; subst. congruence. }
  pose proof (first_access r g h lm val size (moved m rm g) path1 m' [] [] l c1 e2 RE2 W' GD NL NE M) as FA. cbn [app] in FA.
  assert (AL : exists c', at_path m' (loc_names l) c'). { exists c1. apply loc_at_path; auto. clear - RE. induction RE; [constructor|constructor; auto|constructor; auto|constructor; auto]. }
  destruct M as (v & c & Iv & SP & AP & KV & MP & NQ & _).
  assert (KP : kept rm (vpath v)). { destruct (H v c Iv AP ltac:(congruence)) as [S|KP]; auto. exfalso. destruct MP as [MP|(_ & MP)]; [|congruence]. destruct S as [S|(S & _)]; rewrite S in MP; discriminate. }
  rewrite <- (FA (MV (loc_names l) v c Iv SP AP KV KP MP NQ AL) KC path2 look). destruct m' as [nm k cs]. cbn in K'. subst k. reflexivity.
Qed.
End File.
End General.
Print Assumptions C59_any_time.
Print Assumptions C59_lazy_get.
Print Assumptions C59_moved.
