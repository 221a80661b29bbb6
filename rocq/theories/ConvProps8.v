(** C24, C20: converting an IDS to another version and back gives the values that exist in both versions, where they were. *)
From Verif Require Import Base PathModel PathSpec PathProofs3 TreeModel TreeSpec TreeProofs TreeProofs2 TreeCheck TreeProofs4 ValModel ValProofs ValProofs2 ValProofs5 PrimModel PrimSpec PrimProps ConvModel ConvSpec ConvProofs ConvProofs2 ConvProofs3 ConvProofs4 ConvProofs5 ConvCheck ConvProps ConvProgress ConvProps7.
From Verif Require VmapModel.
Import VmapModel(handler(..), nmap).

(** Quantities and arrays are renamed back. *)
Definition renamed_back (sm tm : meta) (rm rb : nmap) : Prop :=
  forall p q m mt, at_path sm p m -> mkind m <> KStruct -> at_path tm q mt -> ~ removed rm p -> ~ removed rb q -> mapped rm p q -> mapped rb q p.
(** no rule for anything that is filled *)
Definition no_rules (m : meta) (n : node) (rm : nmap) : Prop :=
  forall s, (exists v, leaf_at m n s v) \/ (exists k, aos_at m n s k) -> ~ ruled rm (loc_names s).
Lemma no_rules_nodes : forall m n rm, no_rules m n rm -> forall s m' n', node_at m n s m' n' -> nonempty m' n' -> ~ ruled rm (loc_names s).
Proof.
  intros m n rm H s m' n' N (l & NE) U. apply (H (s ++ l)).
  - destruct NE as [(v & mm & LF & N2 & FV)|(k & mm & els & N2 & X)]; [left; exists v, mm|right; exists k, mm, els]; intuition; eapply node_at_app; eauto.
  - rewrite names_app. apply ruled_more. exact U.
Qed.

Section Back.
Variables (sm tm : meta).
Variable src : node.
Variables (rm rb : nmap).
Variables deepcopy deepcopy' : bool.
Variable str_of : pyval -> str.
Variable parse_float : str -> option flt.
Variable parse_cpx : str -> option (flt * flt).
Variable flt_of_int : Z -> option flt.
Variable np_cast : dtype -> pyval -> result pexn value.
Variable array_items : value -> list pyval.
Variable close : pyval -> pyval -> bool.
Variable np_int32 : flt -> result pexn Z.
Variable enum_of : list str -> option (Z -> option (str * str)).
Notation copy m m' n r d := (copy_toplevel m m' n r d str_of parse_float parse_cpx flt_of_int np_cast array_items close np_int32 enum_of {| c_tree := NStruct []; c_shared := [] |}).

Lemma goes_back : versions_ok sm tm rm -> renamed_back sm tm rm rb -> forall s t, (exists v, leaf_at sm src s v) \/ (exists k, aos_at sm src s k) ->
  ~ removed rm (loc_names s) -> ~ removed rb (loc_names t) -> goes_to tm rm s t -> goes_to sm rb t s.
Proof.
  intros (W1 & W2 & K1 & K2 & SO & F) RB s t PR NR NB G.
  destruct (present_meta sm tm src W1 K1 K2 s PR) as (m' & n' & N & K & NE & NN & NNN & AP & L).
  destruct (goes_to_path _ _ _ _ G) as (mt & PT & LT). destruct G as (M & I & NT & _).
  split; [|split; [|split]]; eauto.
Qed.
Theorem C24_there_and_back : versions_ok sm tm rm -> versions_ok tm sm rb -> casts_arrays np_cast -> stored_values sm src -> conf sm src ->
  structures_ok sm tm rm -> structures_ok tm sm rb -> renamed_back sm tm rm rb -> no_rules sm src rm ->
  (forall s t, (exists v, leaf_at sm src s v) \/ (exists k, aos_at sm src s k) -> ~ removed rm (loc_names s) -> goes_to tm rm s t -> ~ ruled rb (loc_names t)) ->
  exists st st', copy sm tm src rm deepcopy = (st, Ok tt) /\ copy tm sm (c_tree st) rb deepcopy' = (st', Ok tt) /\ conf sm (c_tree st') /\
  (forall s v, leaf_at sm (c_tree st') s v <->
     leaf_at sm src s v /\ ~ removed rm (loc_names s) /\ exists t, goes_to tm rm s t /\ ~ removed rb (loc_names t)) /\
  (forall s k, aos_at sm (c_tree st') s k <->
     aos_at sm src s k /\ ~ removed rm (loc_names s) /\ exists t, goes_to tm rm s t /\ ~ removed rb (loc_names t)).
Proof.
  intros V1 V2 NC SV C SO1 SO2 RB NU1 NU2.
  destruct (C24_converts sm tm src rm deepcopy str_of parse_float parse_cpx flt_of_int np_cast array_items close np_int32 enum_of V1 NC SV C SO1 (no_rules_nodes _ _ _ NU1))
    as (st & R1 & C1 & L1 & A1).
  assert (NR2 : no_rules tm (c_tree st) rb).
  { intros t [(v & LA)|(k & LA)].
    - apply L1 in LA as (s & LA & NR & G). eapply NU2; eauto.
    - apply A1 in LA as (s & LA & NR & G). eapply NU2; eauto. }
  assert (SV2 : stored_values tm (c_tree st)).
  { intros t nm dt cs v N E.
    assert (LT : leaf_at tm (c_tree st) t v).
    { exists (Meta nm (KLeaf dt 0) cs). split; [exists dt, 0; reflexivity|]. split; auto.
      destruct E; simpl; auto. }
    apply L1 in LT as (s & LA & NR & G). pose proof LA as (m' & (dt' & nd' & K') & N' & FV).
    destruct V1 as (W1 & W2 & K1 & K2 & SO & F).
    destruct (present_meta sm tm src W1 K1 K2 s (or_introl (ex_intro _ v LA))) as (m2 & n2 & N2 & K & NE & NN & NNN & AP & L).
    destruct (node_at_inj _ _ _ _ _ N' W1 _ _ N2) as (<- & _).
    assert (NU : ~ ruled rm (loc_names s)) by (apply NU1; left; eauto).
    destruct (ft_target _ _ _ F _ _ AP NNN NR (not_ruled_above rm _ NU) (or_introl K)) as (q & mt & MP & QN & AQ & KQ & FA).
    destruct (goes_to_path _ _ _ _ G) as (mt' & PT & LT). destruct G as (M & I & NT & _).
    assert (q = loc_names t) as -> by (eapply mapped_fun; eauto).
    assert (mt' = mt) as -> by (eapply at_path_fun; eauto).
    assert (mt = Meta nm (KLeaf dt 0) cs) as -> by (eapply (loc_ok_fun tm t); eauto; eapply node_at_loc_ok; eauto).
    assert (KE : mkind m' = KLeaf dt 0) by (symmetry; apply KQ; apply not_ruled_at; auto).
    destruct m' as [nm' k' cs']. simpl in KE. subst k'. eapply SV; eauto. }
  destruct (C24_converts tm sm (c_tree st) rb deepcopy' str_of parse_float parse_cpx flt_of_int np_cast array_items close np_int32 enum_of V2 NC SV2 C1 SO2 (no_rules_nodes _ _ _ NR2))
    as (st' & R2 & C2 & L2 & A2).
  exists st, st'. split; auto. split; auto. split; auto.
  assert (UN : forall s s' t, goes_to tm rm s' t -> (exists v, leaf_at sm src s' v) \/ (exists k, aos_at sm src s' k) -> ~ removed rm (loc_names s') -> ~ removed rb (loc_names t) -> goes_to sm rb t s -> s = s').
  { intros s s' t G PR NR NB GB. destruct V2 as (W1 & W2 & K1 & K2 & SO & F). eapply goes_fun; eauto. eapply goes_back; eauto. }
  split.
  - intros s v. rewrite L2. split.
    + intros (t & LA & NB & GB). apply L1 in LA as (s' & LA & NR & G). assert (s = s') as <- by (eapply UN; eauto). eauto.
    + intros (LA & NR & t & G & NB). exists t. split; [apply L1; eauto|]. split; auto. eapply goes_back; eauto.
  - intros s k. rewrite A2. split.
    + intros (t & LA & NB & GB). apply A1 in LA as (s' & LA & NR & G). assert (s = s') as <- by (eapply UN; eauto). eauto.
    + intros (LA & NR & t & G & NB). exists t. split; [apply A1; eauto|]. split; auto. eapply goes_back; eauto.
Qed.
End Back.
Print Assumptions C24_there_and_back.

(** ** An example *)
Definition back_b (sm tm : meta) (rm rb : nmap) : bool :=
  forallb (fun x => forallb (fun y => kind_b (mkind (snd x)) KStruct || removed_b rm (fst x) || removed_b rb (fst y) || negb (mapped_b rm (fst x) (fst y)) || mapped_b rb (fst y) (fst x))
    (paths tm)) (paths sm).
Lemma back_b_sound : forall sm tm rm rb, back_b sm tm rm rb = true -> renamed_back sm tm rm rb.
Proof.
  intros sm tm rm rb H p q m mt AP K AQ NR NB M. unfold back_b in H. rewrite forallb_forall in H. specialize (H _ (paths_complete _ _ _ AP)).
  rewrite forallb_forall in H. specialize (H _ (paths_complete _ _ _ AQ)). cbn [fst snd] in H.
  destruct (kind_b (mkind m) KStruct) eqn:E1; [apply kind_b_spec in E1; contradiction|].
  destruct (removed_b rm p) eqn:E2; [apply removed_b_spec in E2; contradiction|].
  destruct (removed_b rb q) eqn:E3; [apply removed_b_spec in E3; contradiction|].
  apply mapped_b_spec in M. rewrite M in H. apply mapped_b_spec. exact H.
Qed.
Definition fin_back : nmap :=
  VmapModel.set_path (strs "s/new") (Some (strs "s/u/old"))
  (VmapModel.set_path (strs "xx/yy/cc/d") (Some (strs "aa/w/cc/d")) (VmapModel.set_path (strs "xx/yy/cc") (Some (strs "aa/w/cc"))
  (VmapModel.set_path (strs "xx/yy/b") (Some (strs "aa/b")) (VmapModel.set_path (strs "xx/yy") (Some (strs "aa")) VmapModel.empty_map)))).
Example C24_there_and_back_hypotheses : versions_ok fin_new fin_old fin_back /\ structures_ok fin_new fin_old fin_back /\
  renamed_back fin_old fin_new fin_map fin_back /\ no_rules fin_old fin_src fin_map /\ (forall p, ~ ruled fin_back p).
Proof.
  assert (F : fits fin_new fin_old fin_back) by (apply fits_b_sound; vm_compute; reflexivity).
  split; [|split; [|split; [|split]]].
  - split; [by_check|]. split; [by_check|]. split; [reflexivity|]. split; [reflexivity|]. split; [by_check|]. exact F.
  - apply structures_b_sound; [exact F|vm_compute; reflexivity].
  - apply back_b_sound. vm_compute. reflexivity.
  - intros s _ (a & b & E & NA & [H|H]); exact (H eq_refl).
  - intros p (a & b & E & NA & [H|H]); exact (H eq_refl).
Qed.
(** all values come back but that of [gone] *)
Example C24_there_and_back_example : let (st, r) := ex_run fin_old fin_new fin_map fin_src in r = Ok tt /\
  let (st', r') := ex_run fin_new fin_old fin_back (c_tree st) in r' = Ok tt /\
  leaf_at fin_old (c_tree st') [Child (strs "aa"); Elem 1; Child (strs "w"); Child (strs "cc"); Elem 1; Child (strs "d")] (VInt 8) /\
  leaf_at fin_old (c_tree st') [Child (strs "s"); Child (strs "u"); Child (strs "old")] (VIntA [1] [4%Z]) /\
  forall v, ~ leaf_at fin_old (c_tree st') [Child (strs "gone")] v.
Proof.
  destruct (ex_run fin_old fin_new fin_map fin_src) as [st r] eqn:E. vm_compute in E. injection E as <- <-. split; auto. cbn [c_tree].
  match goal with |- context [ex_run ?a ?b ?c ?d] => destruct (ex_run a b c d) as [st' r'] eqn:E' end. vm_compute in E'. injection E' as <- <-. split; auto.
  split; [|split].
  - apply fval_leaf; [by_check|by_check|]. vm_compute. reflexivity.
  - apply fval_leaf; [by_check|by_check|]. vm_compute. reflexivity.
  - intros v L. apply fval_leaf in L; [|by_check|by_check]. vm_compute in L. discriminate.
Qed.
