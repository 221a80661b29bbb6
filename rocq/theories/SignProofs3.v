(** Conversions with changes of sign: which values arrive. *)
From Verif Require Import Base PathModel PathSpec TreeModel TreeSpec TreeProofs TreeProofs2 TreeProofs4 ValModel ValProofs ValProofs2 ValProofs5 PrimModel PrimSpec PrimProps ConvModel ConvSpec ConvProofs ConvProofs2 ConvProofs3 ConvProofs4 ConvProofs5 ConvProgress ConvProps ConvInverse ConvProps2 ConvProps7 ConvProps8 SignSpec SignProofs SignProofs2.
From Verif Require VmapModel.
Import VmapModel(handler(..), nmap).

Lemma elems_struct : forall l m n m' n', node_at m n l m' n' -> loc_names l = [] -> l <> [] -> mkind m' = KStruct.
Proof.
  intros l m n m' n' H. induction H as [m n|nm cs fs c ch l m' n' I L N IH|nm cs els i e l m' n' NE N IH]; intros E X; [congruence|discriminate|].
  destruct l as [|x l]; [inversion N; reflexivity|apply IH; [exact E|discriminate]].
Qed.
Lemma present_app : forall m n s m' n' l, node_at m n s m' n' -> present m' n' l -> present m n (s ++ l).
Proof.
  intros m n s m' n' l N [(v & mm & LF & N2 & FV)|(k & mm & els & N2 & X)]; [left; exists v, mm|right; exists k, mm, els]; intuition; eapply node_at_app; eauto.
Qed.
(** the places where the map changes the sign are those that are meant *)
Lemma signs_signed : forall m n rm0 rm fl, signs_added m n rm0 rm fl -> forall s, present m n s -> loc_names s <> [] -> (fl (loc_names s) -> signed rm (loc_names s) = true) /\ (~ fl (loc_names s) -> signed rm (loc_names s) = false).
Proof.
  intros m n rm0 rm fl SA s PR NE. destruct (SA s PR (loc_names s) [] (eq_sym (app_nil_r _)) NE) as (_ & _ & A & B). unfold signed. split; intros H.
  - destruct (A H) as (-> & _). reflexivity.
  - rewrite (B H). reflexivity.
Qed.
Lemma signed_fl : forall m n rm0 rm fl, signs_added m n rm0 rm fl -> forall s, present m n s -> loc_names s <> [] -> signed rm (loc_names s) = true -> ~ ~ fl (loc_names s).
Proof. intros m n rm0 rm fl SA s PR NE S H. destruct (signs_signed _ _ _ _ _ SA s PR NE) as (_ & X). rewrite (X H) in S. discriminate. Qed.

Section Copy.
Variables (sm tm : meta).
Variable src : node.
Variables (rm rm0 : nmap).
Variable deepcopy : bool.
Variable str_of : pyval -> str.
Variable parse_float : str -> option flt.
Variable parse_cpx : str -> option (flt * flt).
Variable flt_of_int : Z -> option flt.
Variable np_cast : dtype -> pyval -> result pexn value.
Variable array_items : value -> list pyval.
Variable close : pyval -> pyval -> bool.
Variable np_int32 : flt -> result pexn Z.
Variable enum_of : list str -> option (Z -> option (str * str)).
Variable fl : list str -> Prop.
Notation copy := (copy_toplevel sm tm src rm deepcopy str_of parse_float parse_cpx flt_of_int np_cast array_items close np_int32 enum_of).
Hypothesis V : versions_ok sm tm rm0.
Hypothesis NC : casts_arrays np_cast.
Hypothesis SV : stored_values sm src.
Hypothesis Csrc : conf sm src.
Hypothesis SO : structures_ok sm tm rm0.
Hypothesis NR : no_rules sm src rm0.
Hypothesis SA : signs_added sm src rm0 rm fl.
Hypothesis Dec : forall p, fl p \/ ~ fl p.
Hypothesis OK : signs_ok sm src fl.

Lemma leaf_names : forall s v, leaf_at sm src s v -> loc_names s <> [].
Proof.
  intros s v LA. destruct V as (W1 & W2 & K1 & K2 & _). destruct (present_meta sm tm src W1 K1 K2 s (or_introl (ex_intro _ v LA))) as (m' & n' & _ & _ & _ & _ & H & _). exact H.
Qed.
Lemma leaf_signed : forall s v, leaf_at sm src s v -> (fl (loc_names s) <-> signed rm (loc_names s) = true).
Proof.
  intros s v LA. destruct (signs_signed _ _ _ _ _ SA s (or_introl (ex_intro _ v LA)) (leaf_names _ _ LA)) as (A & B). split; auto. intros H. destruct (Dec (loc_names s)) as [D|D]; auto. rewrite (B D) in H. discriminate.
Qed.
Lemma flips_ok : flippable (signed rm) sm [] src.
Proof.
  intros l m' v N FV S. cbn [app] in S.
  assert (W1 : wf_meta sm) by (apply V). assert (C' : conf m' (NLeaf (Some v))) by (eapply node_at_conf; eauto).
  assert (LA : leaf_at sm src l v) by (exists m'; split; [inversion C'; do 2 eexists; reflexivity|auto]).
  apply (OK l m' v N FV). apply (leaf_signed l v LA). exact S.
Qed.
Lemma agree : forall s m n, node_at sm src s m n -> nonempty m n -> s <> [] -> let p := slashed (loc_names s) in
  alookup p (VmapModel.m_path rm) = alookup p (VmapModel.m_path rm0) /\ alookup p (VmapModel.m_type rm) = None /\
  (alookup p (VmapModel.m_post rm) = None \/ (alookup p (VmapModel.m_post rm) = Some H_cocos /\ exists dt nd, mkind m = KLeaf dt nd)).
Proof.
  intros s m n N (l & P) NN p. destruct V as (W1 & W2 & K1 & K2 & _).
  assert (NE : loc_names s <> []).
  { intros E. pose proof (elems_struct _ _ _ _ _ N E NN) as KS. destruct s as [|[x|i] s]; [congruence|discriminate E|]. inversion N; subst. cbn in K1. discriminate. }
  pose proof (present_app _ _ _ _ _ l N P) as PR. destruct (SA _ PR (loc_names s) (loc_names l) (names_app _ _) NE) as (E1 & E2 & E3 & E4). split; [exact E1|]. split; [exact E2|].
  destruct (Dec (loc_names s)) as [D|D]; [right|left; apply E4; exact D]. destruct (E3 D) as (X & B & v & LA). split; [exact X|].
  destruct l as [|x l].
  - rewrite app_nil_r in LA. destruct LA as (m2 & (dt & nd & K) & N2 & _). destruct (node_at_inj _ _ _ _ _ N W1 _ _ N2) as (<- & _). eauto.
  - exfalso. destruct LA as (m2 & (dt & nd & K) & N2 & _). destruct P as [(v' & m3 & LF & N3 & _)|(k & m3 & els & N3 & K3 & _)].
    + pose proof (elems_struct _ _ _ _ _ N3 B ltac:(discriminate)) as KS. destruct LF as (dt' & nd' & KL). congruence.
    + pose proof (elems_struct _ _ _ _ _ N3 B ltac:(discriminate)) as KS. congruence.
Qed.
Lemma flip_present : forall s, present sm (flip (signed rm) [] src) s <-> present sm src s.
Proof.
  intros s. assert (W1 : wf_meta sm) by (apply V). split; intros [(v & L)|(k & L)].
  - apply (flip_leaf_at _ _ _ _ W1 Csrc flips_ok) in L. destruct L as (v0 & L & _). left. eauto.
  - right. exists k. exact (proj1 (flip_aos_at _ _ _ _ _ _) L).
  - left. eexists. apply (flip_leaf_at _ _ _ _ W1 Csrc flips_ok). eauto.
  - right. exists k. exact (proj2 (flip_aos_at _ _ _ _ _ _) L).
Qed.
Lemma flip_stored : stored_values sm (flip (signed rm) [] src).
Proof.
  intros s nm dt cs w N. apply flip_node_inv in N. destruct N as (n0 & N & E). destruct n0 as [?|?|[v|]]; try discriminate. rewrite flip_leaf in E. injection E as ->.
  assert (C' : conf (Meta nm (KLeaf dt 0) cs) (NLeaf (Some v))) by (eapply node_at_conf; eauto).
  assert (VO : val_ok dt 0 v) by (inversion C'; subst; assumption).
  destruct (flip_value_spec (signed rm) (Meta nm (KLeaf dt 0) cs) (loc_names s) v dt 0 eq_refl VO) as (_ & A & B).
  { intros FV F. exact (flips_ok _ _ _ N FV F). }
  destruct (filled_dec v) as [FV|NF]; [|rewrite (unfilled_same _ _ _ NF); eapply SV; eauto].
  cbn [app]. destruct (signed rm (loc_names s)) eqn:E.
  - apply (A FV eq_refl). reflexivity.
  - rewrite (B eq_refl). eapply SV; eauto.
Qed.

(** the values of the target are those of the source, with their signs *)
Theorem copy_signs : exists st', copy {| c_tree := NStruct []; c_shared := [] |} = (st', Ok tt) /\ conf tm (c_tree st') /\
  (forall t w, leaf_at tm (c_tree st') t w <-> exists s v, leaf_at sm src s v /\ ~ removed rm0 (loc_names s) /\ goes_to tm rm0 s t /\ w = flip_value (signed rm) (loc_names s) v) /\
  (forall t k, aos_at tm (c_tree st') t k <-> exists s, aos_at sm src s k /\ ~ removed rm0 (loc_names s) /\ goes_to tm rm0 s t).
Proof.
  pose proof flips_ok as FB. pose proof V as (W1 & W2 & K1 & K2 & STR & F). pose proof NC as (NT & NS).
  assert (NR' : no_rules sm (flip (signed rm) [] src) rm0) by (intros s PR; apply NR; apply flip_present; exact PR).
  destruct (C24_converts sm tm (flip (signed rm) [] src) rm0 deepcopy str_of parse_float parse_cpx flt_of_int np_cast array_items close np_int32 enum_of V NC flip_stored (flip_conf _ _ _ _ Csrc FB) SO (no_rules_nodes _ _ _ NR'))
    as (stB & RB & CB & LB & AB).
  destruct (sim_toplevel sm tm src rm rm0 deepcopy str_of parse_float parse_cpx flt_of_int np_cast array_items close np_int32 enum_of W1 W2 K1 K2 Csrc NS SV F FB (no_rules_nodes _ _ _ NR) agree
    {| c_tree := NStruct []; c_shared := [] |} _ stB eq_refl RB) as (stA & RA & EA).
  exists stA. split; [exact RA|]. rewrite EA. split; [exact CB|]. split.
  - intros t w. rewrite LB. split.
    + intros (s & LA & X). apply (flip_leaf_at _ _ _ _ W1 Csrc FB) in LA. destruct LA as (v & LA & ->). exists s, v. tauto.
    + intros (s & v & LA & N1 & G & ->). exists s. split; [|auto]. apply (flip_leaf_at _ _ _ _ W1 Csrc FB). exists v. auto.
  - intros t k. rewrite AB. split; intros (s & LA & X); exists s; split; auto.
    + exact (proj1 (flip_aos_at _ _ _ _ _ _) LA).
    + exact (proj2 (flip_aos_at _ _ _ _ _ _) LA).
Qed.
Lemma leaf_arrives : forall s v, leaf_at sm src s v -> arrives fl (loc_names s) v (flip_value (signed rm) (loc_names s) v).
Proof.
  intros s v LA. pose proof LA as (m' & (dt & nd & K) & N & FV). assert (C' : conf m' (NLeaf (Some v))) by (eapply node_at_conf; eauto).
  assert (VO : val_ok dt nd v) by (inversion C'; subst; cbn in K; injection K as <- <-; assumption).
  destruct (flip_value_spec (signed rm) m' (loc_names s) v dt nd K VO) as (_ & A & B). { intros FV' E. exact (flips_ok _ _ _ N FV' E). }
  pose proof (leaf_signed s v LA) as X. split.
  - intros H. apply (A FV). apply X. exact H.
  - intros H. apply B. destruct (signed rm (loc_names s)) eqn:E; [exfalso; apply H, X; reflexivity|reflexivity].
Qed.
(** the place of a value has its type *)
Lemma target_kind : forall s v t m' mt, leaf_at sm src s v -> ~ removed rm0 (loc_names s) -> goes_to tm rm0 s t -> loc_ok sm s m' -> loc_ok tm t mt -> mkind mt = mkind m'.
Proof.
  intros s v t m' mt LA N1 G L1 L2. pose proof V as (W1 & W2 & K1 & K2 & STR & F).
  destruct (present_meta sm tm src W1 K1 K2 s (or_introl (ex_intro _ v LA))) as (m2 & n2 & N2 & K & NE & NN & NNN & AP & L).
  assert (m2 = m') as -> by (eapply (loc_ok_fun sm s); eauto).
  assert (NU : ~ ruled rm0 (loc_names s)) by (apply NR; left; eauto).
  destruct (ft_target _ _ _ F _ _ AP NNN N1 (not_ruled_above rm0 _ NU) (or_introl K)) as (q & mq & MP & QN & AQ & KQ & FA).
  destruct (goes_to_path _ _ _ _ G) as (mt' & PT & LT). destruct G as (M & I & NT & _).
  assert (q = loc_names t) as -> by (eapply mapped_fun; eauto). assert (mt' = mq) as -> by (eapply at_path_fun; eauto).
  assert (mt = mq) as -> by (eapply (loc_ok_fun tm t); eauto). apply KQ. apply not_ruled_at; auto.
Qed.
End Copy.
