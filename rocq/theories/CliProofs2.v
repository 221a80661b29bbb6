(** What put stores and get reads, for the command "imas convert". *)
From Verif Require Import Base TreeModel TreeSpec TreeProofs PrimModel PrimSpec ConvSpec ConvProofs3 ConvProofs4 ConvModel EndModel StoreModel StoreSpec StoreProofs2 StoreProps CliModel CliSpec CliProofs.
From Verif Require StoreProps2 SerModel SerProps IdentProofs.
From Coq Require Import Lia.

Lemma meta_at_loc : forall p m m', wf_meta m -> loc_ok m (map Child p) m' -> meta_at m p = Some m'.
Proof.
  induction p as [|x p IH]; intros m m' W L; cbn [map] in L.
  - inversion L; subst. reflexivity.
  - apply loc_ok_child in L. destruct L as (nm & cs & c & -> & I & <- & L). inversion W as [? ? ? ND W2 W3]; subst. cbn [meta_at mkind mchildren].
    assert (E : List.find (fun d => str_eqb (mname c) (mname d)) cs = Some c).
    { destruct (List.find _ cs) as [d|] eqn:F.
      - apply find_some in F. destruct F as [Id E]. apply str_eqb_eq in E. f_equal. eapply IdentProofs.NoDup_map_inj; eauto.
      - exfalso. pose proof (find_none _ _ F c I) as X. cbn in X. rewrite str_eqb_refl in X. discriminate. }
    rewrite E. apply IH; auto.
Qed.
(** the time mode is the leaf *)
Lemma mode_of_leaf : forall m n z, wf_meta m -> conf m n -> leaf_at m n (map Child time_path) (VInt z) -> SerModel.time_mode n = z.
Proof.
  intros m n z W CF (m' & _ & N & _). unfold time_path in N. cbn [map] in N. remember (strs "ids_properties") as P eqn:EP. remember (strs "homogeneous_time") as T eqn:ET.
  inversion N as [|? ? fs c ch l ? ? I A N2|]; subst. inversion N2 as [|? ? gs c2 ch2 l2 ? ? I2 A2 N3|]; subst. inversion N3; subst. unfold SerModel.time_mode. 
  match goal with H : mname (Meta _ _ _) = _ |- _ => rewrite <- H, A end. change (strs "homogeneous_time") with ["h"; "o"; "m"; "o"; "g"; "e"; "n"; "e"; "o"; "u"; "s"; "_"; "t"; "i"; "m"; "e"]%char.
  match goal with H : mname m' = _ |- _ => rewrite <- H, A2 end. reflexivity.
Qed.

Section Put.
Variable maxoccur : dictionary -> str -> list str -> option nat.
Variable constant : dictionary -> str -> bool.
Variable valid : dictionary -> str -> node -> bool.
Variable verify : bool.
Variables (access_layer language : str).
Variable released : list (str * dictionary).
Variable own : dictionary.
Hypothesis AL : access_layer <> [].
Hypothesis LG : language <> [].

Notation put_ids := (put_ids maxoccur constant valid verify access_layer language).
Notation stamp := (CliModel.stamp constant access_layer language).

Definition mode_after (d : dictionary) (name : str) (n : node) : Z := if constant d name then 2%Z else SerModel.time_mode n.
Lemma time_loc : forall m n, wf_meta m -> conf m n -> is_mode (SerModel.time_mode n) = true -> exists nm cs, loc_ok m (map Child time_path) (Meta nm (KLeaf INT 0) cs).
Proof.
  intros m n W CF M. destruct (SerProps.mode_leaf m n CF M) as (m' & (dt & nd & K) & N & _). pose proof (node_at_conf _ _ _ _ _ N CF) as CN. destruct m' as [nm k cs]. cbn in K. subst k. inversion CN as [|? ? ? ? ? V| |]; subst.
  inversion V; subst. exists nm, cs. eapply node_at_loc_ok; eauto.
Qed.
Lemma stamp_ok : forall d name i n n', usual i -> conf (i_meta i) n -> settled (i_meta i) n -> is_mode (SerModel.time_mode n) = true -> d_text d <> [] -> stamp d name (d, i, n) = Ok n' ->
  conf (i_meta i) n' /\ settled (i_meta i) n' /\ SerModel.time_mode n' = mode_after d name n /\
  (forall l v, leaf_at (i_meta i) n' l v <-> put_leaf (i_meta i) n (constant d name) (d_text d) access_layer language l v) /\
  (forall l k, aos_at (i_meta i) n' l k <-> aos_at (i_meta i) n l k).
Proof.
  intros d name i n n' U CF ST M TX E. pose proof (us_wf i U) as W. set (m := i_meta i) in *.
  destruct (time_loc m n W CF M) as (tn & tc & LT).
  assert (LV := us_version i U). fold m in LV.
  destruct (LV (strs "data_dictionary") (or_introl eq_refl)) as (n1 & c1 & L1). destruct (LV (strs "access_layer") (or_intror (or_introl eq_refl))) as (n2 & c2 & L2).
  destruct (LV (strs "access_layer_language") (or_intror (or_intror (or_introl eq_refl)))) as (n3 & c3 & L3). clear LV.
  set (P1 := version_path ++ [strs "data_dictionary"]) in *. set (P2 := version_path ++ [strs "access_layer"]) in *. set (P3 := version_path ++ [strs "access_layer_language"]) in *.
  change [Child (strs "ids_properties"); Child (strs "version_put"); Child (strs "data_dictionary")] with (map Child P1) in L1.
  change [Child (strs "ids_properties"); Child (strs "version_put"); Child (strs "access_layer")] with (map Child P2) in L2.
  change [Child (strs "ids_properties"); Child (strs "version_put"); Child (strs "access_layer_language")] with (map Child P3) in L3.
  assert (MV : exists mv, meta_at m version_path = Some mv).
  { change (map Child P1) with (map Child version_path ++ [Child (strs "data_dictionary")]) in L1. apply loc_ok_split in L1. destruct L1 as (mv & L & _). exists mv. now apply meta_at_loc. }
  destruct MV as (mv & MV).
  set (n0 := if constant d name then set_field time_path (VInt 2) n else n).
  assert (S0 : conf m n0 /\ (forall l x, holds m n0 l x <-> (constant d name = true /\ l = map Child time_path /\ x = ILeaf (VInt 2)) \/ (~ (constant d name = true /\ l = map Child time_path) /\ holds m n l x))).
  { unfold n0. destruct (constant d name).
    - destruct (set_field_ok time_path m (VInt 2) n tn INT 0 tc W CF LT (vo_int 2) Logic.I) as [A B]. split; [exact A|]. intros l x. rewrite B. intuition congruence.
    - split; [exact CF|]. intros l x. intuition congruence. }
  destruct S0 as [C0 H0].
  assert (ES : Ok (set_field P3 (VStr language) (set_field P2 (VStr access_layer) (set_field P1 (VStr (d_text d)) n0))) = Ok n' :> result cli_exn node).
  { rewrite <- E. unfold stamp. fold m. fold n0. rewrite MV. cbn [forallb].
    change (version_path ++ [strs "data_dictionary"]) with P1. change (version_path ++ [strs "access_layer"]) with P2. change (version_path ++ [strs "access_layer_language"]) with P3.
    rewrite (meta_at_loc P1 m _ W L1), (meta_at_loc P2 m _ W L2), (meta_at_loc P3 m _ W L3). reflexivity. }
  apply (f_equal (fun r => match r with Ok x => x | Err _ => n0 end)) in ES. cbv beta iota in ES. clear E.
  destruct (set_field_ok P1 m (VStr (d_text d)) n0 n1 STR 0 c1 W C0 L1 (vo_str (d_text d)) Logic.I) as [C1 H1]. set (t1 := set_field P1 (VStr (d_text d)) n0) in *.
  destruct (set_field_ok P2 m (VStr access_layer) t1 n2 STR 0 c2 W C1 L2 (vo_str _) Logic.I) as [C2 H2]. set (t2 := set_field P2 (VStr access_layer) t1) in *.
  destruct (set_field_ok P3 m (VStr language) t2 n3 STR 0 c3 W C2 L3 (vo_str _) Logic.I) as [C3 H3]. rewrite ES in C3, H3. clearbody t1 t2. clear ES.
  assert (NE12 : map Child P1 <> map Child P2) by (intros X; apply (f_equal (map (fun s => match s with Child c => c | Elem _ => [] end))) in X; vm_compute in X; discriminate).
  assert (NE13 : map Child P1 <> map Child P3) by (intros X; apply (f_equal (map (fun s => match s with Child c => c | Elem _ => [] end))) in X; vm_compute in X; discriminate).
  assert (NE23 : map Child P2 <> map Child P3) by (intros X; apply (f_equal (map (fun s => match s with Child c => c | Elem _ => [] end))) in X; vm_compute in X; discriminate).
  assert (NT1 : map Child time_path <> map Child P1) by discriminate. assert (NT2 : map Child time_path <> map Child P2) by discriminate. assert (NT3 : map Child time_path <> map Child P3) by discriminate.
  assert (LD : forall a b : loc, a = b \/ a <> b) by (intros a b; repeat decide equality).
  assert (HS : forall l x, holds m n' l x <->
     (constant d name = true /\ l = map Child time_path /\ x = ILeaf (VInt 2)) \/ (l = map Child P1 /\ x = ILeaf (VStr (d_text d))) \/ (l = map Child P2 /\ x = ILeaf (VStr access_layer)) \/ (l = map Child P3 /\ x = ILeaf (VStr language)) \/
     (~ (constant d name = true /\ l = map Child time_path) /\ l <> map Child P1 /\ l <> map Child P2 /\ l <> map Child P3 /\ holds m n l x)).
  { intros l x. rewrite H3, H2, H1, H0. clear - NE12 NE13 NE23 NT1 NT2 NT3 LD.
    split.
    - intros [H|[N3 [H|[N2 [H|[N1 [H|[N0 H]]]]]]]]; auto 10.
    - intros [(A & B & C)|[(A & B)|[(A & B)|[(A & B)|(A & B & C & D & H)]]]]; subst.
      + right. split; [assumption|]. right. split; [assumption|]. right. split; [assumption|]. left. auto.
      + right. split; [assumption|]. right. split; [assumption|]. left. auto.
      + right. split; [assumption|]. left. auto.
      + left. auto.
      + right. split; [assumption|]. right. split; [assumption|]. right. split; [assumption|]. right. auto. }
  assert (LF : forall l v, leaf_at m n' l v <-> put_leaf m n (constant d name) (d_text d) access_layer language l v).
  { intros l v. change (leaf_at m n' l v) with (holds m n' l (ILeaf v)). rewrite HS. unfold put_leaf, assigns, assigned. split.
    - intros [(A & B & C)|[(A & B)|[(A & B)|[(A & B)|(A & B & C & D & H)]]]].
      + left. left. injection C as ->. auto.
      + left. right. injection B as ->. exists (strs "data_dictionary", d_text d). split; [exact A|]. split; [reflexivity|left; reflexivity].
      + left. right. injection B as ->. exists (strs "access_layer", access_layer). split; [exact A|]. split; [reflexivity|right; left; reflexivity].
      + left. right. injection B as ->. exists (strs "access_layer_language", language). split; [exact A|]. split; [reflexivity|right; right; left; reflexivity].
      + right. split; [|exact H]. intros (w & [(X & Y & _)|(x & Y & _ & I)]); [apply A; split; assumption|]. destruct I as [<-|[<-|[<-|[]]]]; cbn [fst] in Y; [exact (B Y)|exact (C Y)|exact (D Y)].
    - intros [[(A & B & C)|(x & A & B & I)]|[NA H]].
      + left. subst v. auto.
      + subst v. destruct I as [<-|[<-|[<-|[]]]]; cbn [fst snd] in *; right; [left|right; left|right; right; left]; split; auto.
      + right. right. right. right. split; [intros (X & Y); apply NA; exists (VInt 2); left; auto|].
        split; [intros Y; apply NA; exists (VStr []); right; exists (strs "data_dictionary", []); split; [exact Y|]; split; [reflexivity|left; reflexivity]|].
        split; [intros Y; apply NA; exists (VStr []); right; exists (strs "access_layer", []); split; [exact Y|]; split; [reflexivity|right; left; reflexivity]|].
        split; [intros Y; apply NA; exists (VStr []); right; exists (strs "access_layer_language", []); split; [exact Y|]; split; [reflexivity|right; right; left; reflexivity]|exact H]. }
  split; [exact C3|]. split; [|split; [|split; [exact LF|]]].
  - apply (settled_holds m n' C3). intros l v H dt V. apply HS in H. destruct H as [(A & B & C)|[(A & B)|[(A & B)|[(A & B)|(A & B & C & D & H)]]]].
    + injection C as ->. inversion V; subst. reflexivity.
    + injection B as ->. inversion V; subst. destruct (d_text d); [contradiction|reflexivity].
    + injection B as ->. inversion V; subst. destruct access_layer; [contradiction|reflexivity].
    + injection B as ->. inversion V; subst. destruct language; [contradiction|reflexivity].
    + exact (proj1 (settled_holds m n CF) ST l v H dt V).
  - apply (mode_of_leaf m n' _ W C3). apply (proj2 (HS (map Child time_path) (ILeaf (VInt (mode_after d name n))))). unfold mode_after. destruct (constant d name); [left; auto|].
    right. right. right. right. split; [intros (X & _); discriminate|]. split; [exact NT1|]. split; [exact NT2|]. split; [exact NT3|]. exact (SerProps.mode_leaf m n CF M).
  - intros l k. change (aos_at m n' l k) with (holds m n' l (ISize k)). rewrite HS. split.
    + intros [(_ & _ & X)|[(_ & X)|[(_ & X)|[(_ & X)|(_ & _ & _ & _ & H)]]]]; try discriminate. exact H.
    + intros H. pose proof H as (mk & els & N & K & _). pose proof (node_at_loc_ok _ _ _ _ _ N) as LK.
      right. right. right. right. split; [|split; [|split; [|split; [|exact H]]]].
      * intros (_ & ->). rewrite (loc_ok_fun _ _ _ W LK _ LT) in K. discriminate.
      * intros ->. rewrite (loc_ok_fun _ _ _ W LK _ L1) in K. discriminate.
      * intros ->. rewrite (loc_ok_fun _ _ _ W LK _ L2) in K. discriminate.
      * intros ->. rewrite (loc_ok_fun _ _ _ W LK _ L3) in K. discriminate.
Qed.

Lemma kept_static : forall dynamic mode p, (forall q, In q (inits p) -> dynamic q = false) -> kept dynamic mode (map Child p).
Proof.
  intros dynamic mode p H a nm b E [_ D].
  assert (X : exists p1 p2, p = p1 ++ nm :: p2 /\ a = map Child p1).
  { clear - E. revert a E. induction p as [|x p IH]; intros a E; [destruct a; discriminate|]. destruct a as [|y a]; cbn [map app] in E.
    - injection E as E1 _. exists [], p. subst. auto.
    - assert (E1 := f_equal (hd y) E). cbn in E1. assert (E2 := f_equal (@tl _) E). cbn in E2. destruct (IH a E2) as (p1 & p2 & -> & ->). exists (x :: p1), p2. subst y. auto. }
  destruct X as (p1 & p2 & -> & ->). assert (Q : loc_names (map Child p1) = p1) by (clear; induction p1 as [|x p1 IH]; [reflexivity|cbn; f_equal; exact IH]). rewrite Q in D.
  assert (I : In (p1 ++ [nm]) (inits (p1 ++ nm :: p2))).
  { clear. induction p1 as [|x p1 IH]; cbn [app inits]; [left; reflexivity|]. right. apply (List.in_map (cons x)). exact IH. }
  rewrite (H _ I) in D. discriminate.
Qed.
Lemma conf_struct : forall m n, conf m n -> mkind m = KStruct -> exists fs, n = NStruct fs.
Proof. intros m n C K. inversion C; subst; try discriminate. eauto. Qed.
(** put, then get *)
Lemma put_get : forall d name i n s0 s e o, alookup (d_text d) released = Some d -> alookup name (d_ids own) <> None -> alookup name (d_ids d) = Some i -> usual i -> d_text d <> [] ->
  conf (i_meta i) n -> settled (i_meta i) n -> filled_store s0 -> put_ids d name (d, i, n) s0 = (s, None) -> find_store e (name, o) = Some s ->
  filled_store s /\ is_mode (SerModel.time_mode n) = true /\ exists g, get_ids released own e name o = Ok (d, i, g) /\ conf (i_meta i) g /\ settled (i_meta i) g /\ SerModel.time_mode g = mode_after d name n /\
  (forall l v, leaf_at (i_meta i) g l v <-> put_leaf (i_meta i) n (constant d name) (d_text d) access_layer language l v /\ kept (StoreProps2.xml_dynamic (i_fields i)) (mode_after d name n) l) /\
  (forall l k, aos_at (i_meta i) g l k <-> aos_at (i_meta i) n l k /\ kept (StoreProps2.xml_dynamic (i_fields i)) (mode_after d name n) l).
Proof.
  intros d name i n s0 s e o KN OW EI U TX CF ST FS P FE. unfold put_ids in P. destruct (valid d name n); cbn [negb] in P; [|discriminate].
  destruct (is_mode (SerModel.time_mode n)) eqn:M; cbn [negb] in P; [|discriminate]. destruct (stamp d name (d, i, n)) as [n'|] eqn:S; [|discriminate]. rewrite EI in P.
  destruct (al_put _ _ _ _ _ _ _ _ _ _ _) as [s' [x|]] eqn:AP; [discriminate|]. assert (s' = s) by congruence. subst s'. clear P.
  destruct (stamp_ok d name i n n' U CF ST M TX S) as (C & T & TM & LF & AO). set (m := i_meta i) in *. set (dyn := StoreProps2.xml_dynamic (i_fields i)) in *. set (mode := mode_after d name n) in *.
  pose proof (us_wf i U) as W. pose proof (us_kind i U) as K. pose proof (us_static i U) as US. fold m in W, K. fold dyn in US.
  assert (D1 : dyn [strs "ids_properties"] = false) by (apply US; left; reflexivity). assert (D2 : dyn [strs "ids_properties"; strs "homogeneous_time"] = false) by (apply US; right; left; reflexivity).
  assert (D3 : dyn [strs "ids_properties"; strs "version_put"] = false) by (apply US; right; right; left; reflexivity).
  assert (D4 : dyn [strs "ids_properties"; strs "version_put"; strs "data_dictionary"] = false) by (apply US; right; right; right; left; reflexivity).
  assert (M' : is_mode (SerModel.time_mode n') = true) by (rewrite TM; unfold mode, mode_after; destruct (constant d name); [reflexivity|exact M]).
  destruct (al_put_ok dyn _ _ _ m n' s0 s (us_named i U) W K C T M' D1 D2 FS AP) as (FS' & RM & g & G & CG & SG & HG). rewrite TM in *.
  assert (RV : read_version s = Ok (d_text d)).
  { destruct (conf_struct m n' C K) as (fs & ->).
    eapply (al_put_version dyn); try exact AP; eauto; [exact (us_named i U)|]. apply LF. left. right. exists (strs "data_dictionary", d_text d). split; [reflexivity|]. split; [reflexivity|left; reflexivity]. }
  split; [exact FS'|]. split; [reflexivity|]. exists g. split; [|split; [exact CG|]; split; [exact SG|]; split; [|split]].
  - unfold get_ids. destruct (alookup name (d_ids own)) as [io|] eqn:OO; [|contradiction]. unfold stored. rewrite FE. rewrite RM, RV. cbn [backend rbind].
    assert (IM : is_mode mode = true) by (exact M'). rewrite IM. cbn [negb]. destruct (d_text d) as [|c0 tx] eqn:TT; [contradiction|]. rewrite KN. cbn [rbind]. rewrite EI. fold dyn. fold m. rewrite G. reflexivity.
  - apply (mode_of_leaf m g mode W CG). apply (proj2 (HG (map Child time_path) (ILeaf (VInt mode)))). split.
    + pose proof (SerProps.mode_leaf m n' C) as ML. rewrite TM in ML. exact (ML M').
    + apply kept_static. intros q [<-|[<-|[]]]; assumption.
  - intros l v. rewrite (HG l (ILeaf v)). cbn [holds]. rewrite LF. reflexivity.
  - intros l k. rewrite (HG l (ISize k)). cbn [holds]. rewrite AO. reflexivity.
Qed.
End Put.
