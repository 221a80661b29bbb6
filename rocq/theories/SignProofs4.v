(** Conversions with changes of sign, there and back. *)
From Verif Require Import Base PathModel PathSpec TreeModel TreeSpec TreeProofs TreeProofs2 TreeProofs4 ValModel ValProofs ValProofs2 ValProofs5 PrimModel PrimSpec PrimProps ConvModel ConvSpec ConvProofs ConvProofs2 ConvProofs3 ConvProofs4 ConvProofs5 ConvProgress ConvProps ConvInverse ConvProps2 ConvProps7 ConvProps8 SignSpec SignProofs SignProofs2 SignProofs3.
From Verif Require VmapModel.
Import VmapModel(handler(..), nmap).

(** ** The opposite of the opposite is empty only if the value is *)
Lemma mag_parts : forall a b, f_exp a = f_exp b -> f_man a = f_man b -> f_mag a = f_mag b.
Proof.
  intros a b E M. unfold f_exp, f_man, f_mag in *. apply Z.bits_inj'. intros n Hn. rewrite !Z.land_spec.
  destruct (Z_lt_ge_dec n 63) as [L|L]; [|rewrite Z.ones_spec_high by lia; rewrite !andb_false_r; reflexivity].
  destruct (Z_lt_ge_dec n 52) as [L2|L2].
  - pose proof (f_equal (fun z => Z.testbit z n) M) as X. cbn beta in X. rewrite !Z.land_spec, Z.ones_spec_low, !andb_true_r in X by lia. rewrite X. reflexivity.
  - pose proof (f_equal (fun z => Z.testbit z (n - 52)) E) as X. cbn beta in X. rewrite !Z.land_spec, Z.ones_spec_low, !andb_true_r, !Z.shiftr_spec in X by lia. replace (n - 52 + 52)%Z with n in X by lia. rewrite X. reflexivity.
Qed.
Lemma opp_opp_same : forall f g h x, opp_flt f g -> opp_flt g h -> same_flt h x -> same_flt f x.
Proof.
  intros f g h x (N1 & E1 & M1) (N2 & E2 & M2) S. assert (N : f_neg h = f_neg f) by (rewrite N2, N1, negb_involutive; reflexivity).
  assert (NN : is_nan h = is_nan f) by (unfold is_nan; rewrite E2, E1, M2, M1; reflexivity).
  assert (KK : f_key h = f_key f) by (unfold f_key; rewrite N, (mag_parts h f) by congruence; reflexivity).
  unfold same_flt in *. rewrite NN, KK in S. exact S.
Qed.
Lemma opp_opp_empty : forall dt v w u, opposite v w -> opposite w u -> empty dt u -> empty dt v.
Proof.
  intros dt v w u O1 O2 E. destruct E as [| |f S|r i S1 S2]; inversion O2; subst; inversion O1; subst.
  - match goal with H : (- _)%Z = _ |- _ => rename H into H1 end. assert (z0 = -999999999)%Z as -> by lia. constructor.
  - constructor. eapply opp_opp_same; eauto.
  - constructor; eapply opp_opp_same; eauto.
Qed.

Section Back.
Variables (sm tm : meta).
Variable src : node.
Variables (rm rm0 rb rb0 : nmap).
Variables deepcopy deepcopy' : bool.
Variable str_of : pyval -> str.
Variable parse_float : str -> option flt.
Variable parse_cpx : str -> option (flt * flt).
Variable flt_of_int : Z -> option flt.
Variable np_cast : dtype -> pyval -> result pexn value.
Variable array_items : value -> list pyval.
Variable close : pyval -> pyval -> bool.
Variable np_int32 : flt -> result pexn Z.
Variable enum_of : list str -> option (Z -> option (str * str)).
Variables (fl fb : list str -> Prop).
Notation copy m m' n r d := (copy_toplevel m m' n r d str_of parse_float parse_cpx flt_of_int np_cast array_items close np_int32 enum_of {| c_tree := NStruct []; c_shared := [] |}).
Hypothesis V : versions_ok sm tm rm0.
Hypothesis V' : versions_ok tm sm rb0.
Hypothesis NC : casts_arrays np_cast.
Hypothesis SV : stored_values sm src.
Hypothesis Csrc : conf sm src.
Hypothesis SO : structures_ok sm tm rm0.
Hypothesis SO' : structures_ok tm sm rb0.
Hypothesis RB : renamed_back sm tm rm0 rb0.
Hypothesis NR : no_rules sm src rm0.
Hypothesis SA : signs_added sm src rm0 rm fl.
Hypothesis Dec : forall p, fl p \/ ~ fl p.
Hypothesis Dec' : forall p, fb p \/ ~ fb p.
Hypothesis OK : signs_ok sm src fl.
(** the way back, for the places where there are values *)
Hypothesis Back : forall s t, present sm src s -> ~ removed rm0 (loc_names s) -> goes_to tm rm0 s t ->
  ~ ruled rb0 (loc_names t) /\ (fl (loc_names s) <-> fb (loc_names t)) /\
  forall a b, loc_names t = a ++ b -> a <> [] -> entry rb a = entry rb0 a /\ alookup (slashed a) (VmapModel.m_type rb) = None /\
    (fb a -> alookup (slashed a) (VmapModel.m_post rb) = Some H_cocos /\ b = [] /\ exists v, leaf_at sm src s v) /\
    (~ fb a -> alookup (slashed a) (VmapModel.m_post rb) = None).

Theorem signs_back : exists st st', copy sm tm src rm deepcopy = (st, Ok tt) /\ copy tm sm (c_tree st) rb deepcopy' = (st', Ok tt) /\ conf tm (c_tree st) /\ conf sm (c_tree st') /\
  (forall s v, leaf_at sm (c_tree st') s v <->
     leaf_at sm src s v /\ ~ removed rm0 (loc_names s) /\ exists t, goes_to tm rm0 s t /\ ~ removed rb0 (loc_names t)) /\
  (forall s k, aos_at sm (c_tree st') s k <->
     aos_at sm src s k /\ ~ removed rm0 (loc_names s) /\ exists t, goes_to tm rm0 s t /\ ~ removed rb0 (loc_names t)).
Proof.
  destruct (copy_signs sm tm src rm rm0 deepcopy str_of parse_float parse_cpx flt_of_int np_cast array_items close np_int32 enum_of fl V NC SV Csrc SO NR SA Dec OK) as (st & R1 & C1 & L1 & A1).
  pose proof V as (W1 & W2 & K1 & K2 & _).
  (* a value of the intermediate result *)
  assert (VAL : forall t mt w, node_at tm (c_tree st) t mt (NLeaf (Some w)) -> filled_value w -> exists s v m' dt nd, leaf_at sm src s v /\ ~ removed rm0 (loc_names s) /\ goes_to tm rm0 s t /\
    node_at sm src s m' (NLeaf (Some v)) /\ mkind m' = KLeaf dt nd /\ mkind mt = KLeaf dt nd /\ val_ok dt nd v /\ w = flip_value (signed rm) (loc_names s) v /\
    (fl (loc_names s) -> negate v = Some w /\ opposite v w /\ dt <> STR /\ ints32 v)).
  { intros t mt w N FW. assert (C' : conf mt (NLeaf (Some w))) by (eapply node_at_conf; eauto).
    assert (LT : leaf_at tm (c_tree st) t w) by (exists mt; split; [inversion C'; do 2 eexists; reflexivity|auto]).
    apply L1 in LT. destruct LT as (s & v & LA & NX & G & E). pose proof LA as (m' & (dt & nd & K) & N' & FV).
    assert (KT : mkind mt = mkind m') by (eapply (target_kind sm tm src rm0 V NR); eauto; eapply node_at_loc_ok; eauto).
    assert (Cv : conf m' (NLeaf (Some v))) by (eapply node_at_conf; eauto).
    assert (VO : val_ok dt nd v) by (inversion Cv; subst; cbn in K; injection K as <- <-; assumption).
    exists s, v, m', dt, nd. do 8 (split; [solve [auto | congruence]|]).
    intros F. destruct (OK s m' v N' FV F) as (dt' & nd' & K' & NS & I & NE). rewrite K in K'. injection K' as <- <-.
    pose proof (proj1 (leaf_signed sm tm src rm rm0 fl V SA Dec s v LA) F) as SG.
    destruct (flip_value_spec (signed rm) m' (loc_names s) v dt nd K VO) as (_ & A & _). { intros _ _. exists dt, nd. auto. } destruct (A FV SG) as (X & Y & _). rewrite <- E in *. auto. }
  assert (SV2 : stored_values tm (c_tree st)).
  { intros t nm dt cs w N E. destruct (VAL t _ w N) as (s & v & m' & dt' & nd' & LA & NX & G & N' & K' & KT & VO & EW & FF); [destruct E; cbn; auto|].
    cbn in KT. injection KT as <- <-. pose proof LA as (_ & _ & _ & FV). destruct (Dec (loc_names s)) as [F|F].
    - destruct (OK s m' v N' FV F) as (dt' & nd' & K2' & NS & I & NE). rewrite K' in K2'. injection K2' as <- <-. destruct (FF F) as (_ & OP & _). exact (NE eq_refl w OP E).
    - assert (SG : signed rm (loc_names s) = false) by (apply (signs_signed _ _ _ _ _ SA s (or_introl (ex_intro _ v LA)) (leaf_names sm tm src rm0 V s v LA)); exact F).
      unfold flip_value in EW. rewrite SG in EW. subst w. destruct m' as [nm' k' cs']. cbn in K'. subst k'. exact (SV s nm' dt cs' v N' E). }
  assert (PR2 : forall t, present tm (c_tree st) t -> exists s, present sm src s /\ ~ removed rm0 (loc_names s) /\ goes_to tm rm0 s t /\ ((exists v, leaf_at sm src s v) -> exists w, leaf_at tm (c_tree st) t w)).
  { intros t [(w & LT)|(k & LT)].
    - pose proof (proj1 (L1 t w) LT) as (s & v & LA & NX & G & E). exists s. split; [left; eauto|]. eauto 6.
    - pose proof (proj1 (A1 t k) LT) as (s & LA & NX & G). exists s. split; [right; eauto|]. split; auto. split; auto. intros (v & LV). eexists. apply L1. eauto 6. }
  assert (NR2 : no_rules tm (c_tree st) rb0).
  { intros t PT. destruct (PR2 t PT) as (s & PR & NX & G & _). apply (Back s t PR NX G). }
  assert (SA2 : signs_added tm (c_tree st) rb0 rb fb).
  { intros t PT a b E NA. destruct (PR2 t PT) as (s & PR & NX & G & LV). destruct (Back s t PR NX G) as (_ & _ & H). destruct (H a b E NA) as (H1 & H2 & H3 & H4). split; auto. split; auto. split; auto.
    intros F. destruct (H3 F) as (X & Y & Z). auto. }
  assert (OK2 : signs_ok tm (c_tree st) fb).
  { intros t mt w N FW F. destruct (VAL t mt w N FW) as (s & v & m' & dt & nd & LA & NX & G & N' & K' & KT & VO & EW & FF).
    assert (FS : fl (loc_names s)) by (apply (Back s t (or_introl (ex_intro _ v LA)) NX G); exact F). destruct (FF FS) as (NG & OP & NS & I). destruct (negate_spec v dt nd VO NS I) as (w' & NG' & _ & _ & _ & I'). rewrite NG in NG'. injection NG' as <-.
    exists dt, nd. split; auto. split; auto. split; auto. intros -> u OU E. destruct m' as [nm' k' cs']. cbn in K'. subst k'. apply (SV s nm' dt cs' v N'). eapply opp_opp_empty; eauto. }
  destruct (copy_signs tm sm (c_tree st) rb rb0 deepcopy' str_of parse_float parse_cpx flt_of_int np_cast array_items close np_int32 enum_of fb V' NC SV2 C1 SO' NR2 SA2 Dec' OK2) as (st' & R2 & C2 & L2 & A2).
  exists st, st'. split; auto. split; auto. split; auto. split; auto.
  assert (UN : forall s s' t, goes_to tm rm0 s' t -> present sm src s' -> ~ removed rm0 (loc_names s') -> ~ removed rb0 (loc_names t) -> goes_to sm rb0 t s -> s = s').
  { intros s s' t G PR NX NB GB. pose proof (goes_back sm tm src rm0 rb0 V RB s' t PR NX NB G) as G'. destruct V' as (Y1 & Y2 & Y3 & Y4 & Y5 & Y6). eapply goes_fun; eauto. }
  (* back to the value *)
  assert (TWICE : forall s t v, leaf_at sm src s v -> ~ removed rm0 (loc_names s) -> goes_to tm rm0 s t -> flip_value (signed rb) (loc_names t) (flip_value (signed rm) (loc_names s) v) = v).
  { intros s t v LA NX G. set (w := flip_value (signed rm) (loc_names s) v). assert (LW : leaf_at tm (c_tree st) t w) by (apply L1; exists s, v; auto).
    pose proof LW as (mt & _ & NW & FW). destruct (Back s t (or_introl (ex_intro _ v LA)) NX G) as (_ & FF & _).
    pose proof (leaf_signed sm tm src rm rm0 fl V SA Dec s v LA) as S1. pose proof (leaf_signed tm sm (c_tree st) rb rb0 fb V' SA2 Dec' t w LW) as S2.
    destruct (signed rm (loc_names s)) eqn:E1.
    - assert (FS : fl (loc_names s)) by (apply S1; reflexivity). assert (E2 : signed rb (loc_names t) = true) by (apply S2, FF; exact FS).
      pose proof LA as (m' & (dt & nd & K) & N' & FV). destruct (OK s m' v N' FV FS) as (dt' & nd' & K' & NS & I & NE). rewrite K in K'. injection K' as <- <-.
      assert (Cv : conf m' (NLeaf (Some v))) by (eapply node_at_conf; eauto). assert (VO : val_ok dt nd v) by (inversion Cv; subst; cbn in K; injection K as <- <-; assumption).
      destruct (negate_spec v dt nd VO NS I) as (w' & NG & _ & NB & _). unfold w, flip_value. rewrite E1, E2, NG, NB. reflexivity.
    - assert (E2 : signed rb (loc_names t) = false) by (destruct (signed rb (loc_names t)) eqn:E2; [|reflexivity]; exfalso; assert (FS : fl (loc_names s)) by (apply FF, S2; reflexivity); apply S1 in FS; discriminate).
      unfold w, flip_value. rewrite E1, E2. reflexivity. }
  split.
  - intros s v. rewrite L2. split.
    + intros (t & w & LT & NB & GB & ->). apply L1 in LT. destruct LT as (s' & v' & LA & NX & G & ->). assert (s = s') as <- by (eapply UN; eauto; left; eauto). rewrite (TWICE s t v' LA NX G). eauto.
    + intros (LA & NX & t & G & NB). exists t, (flip_value (signed rm) (loc_names s) v). split; [apply L1; exists s, v; auto|]. split; auto. split; [exact (goes_back sm tm src rm0 rb0 V RB s t (or_introl (ex_intro _ v LA)) NX NB G)|]. symmetry. apply TWICE; auto.
  - intros s k. rewrite A2. split.
    + intros (t & LT & NB & GB). apply A1 in LT. destruct LT as (s' & LA & NX & G). assert (s = s') as <- by (eapply UN; eauto; right; eauto). eauto.
    + intros (LA & NX & t & G & NB). exists t. split; [apply A1; eauto|]. split; auto. exact (goes_back sm tm src rm0 rb0 V RB s t (or_intror (ex_intro _ k LA)) NX NB G).
Qed.
End Back.
