(** C26: the conversion of a whole pulse_schedule. *)
From Verif Require Import Base PathModel PathSpec TreeModel TreeSpec TreeProofs TreeCheck ValModel ValSpec ValProofs ValProofs2 ValProofs3 ValProofs4 ValProofs5 TreeProofs4 ValProps PrimModel PrimSpec PrimProps TreeProofs2 ConvModel ConvSpec ConvProofs ConvProofs2 ConvProofs3 ConvProofs4 ConvProofs5 ConvCheck ConvProps PulseModel PulseProofs PulseProofs2.
From Verif Require VmapModel ResampleModel ResampleSpec ResampleProofs ResampleProps.
Import VmapModel(handler(..), nmap).
Import ResampleSpec(strictly_increasing).

(** ** Specification *)
Section Spec.
Variables (sm tm : meta).
Variable src : node.
Variable rm : nmap.
Variable at_ : list str -> ValModel.attrs.
Variable lin : flt -> flt -> flt -> flt -> flt -> flt.

(** top-level items that are copied as they are *)
Definition kept_name (x : str) : Prop := In x (map strs ["ids_properties"; "code"; "time"; "event"]%string).
(** the others: structures that get a common time base *)
Definition group (x : str) : Prop := ~ kept_name x /\ ~ removed rm [x] /\ exists c n, node_at sm src [Child x] c n /\ nonempty c n.
(** the structure of the target that a group is copied to: its place, or the IDS itself if there is none *)
Definition stem (x : str) (q : loc) : Prop :=
  goes_to tm rm [Child x] q \/ (q = [] /\ entry rm [x] = None /\ ~ In x (map mname (mchildren tm))).
Definition time_in (q : loc) : loc := q ++ [Child (strs "time")].

(** the common time base of a group: strictly increasing, the points of all time bases in the group and no others *)
Definition base_of (x : str) (tb : list flt) : Prop :=
  strictly_increasing tb /\
  (forall t, In t tb -> exists l sh d, leaf_at sm src (Child x :: time_in l) (VFltA sh d) /\ In t d) /\
  (forall l sh d t, leaf_at sm src (Child x :: time_in l) (VFltA sh d) -> In t d -> exists t', In t' tb /\ f_key t' = f_key t).

(** a 1D quantity over time in the group x *)
Definition dynamic (x : str) (s : loc) : Prop :=
  ~ kept_name x /\ (exists r, s = Child x :: r) /\ time_coord (nth 0 (a_coords (at_ (loc_names s))) no_coord) /\
  exists m dt n, node_at sm src s m n /\ mkind m = KLeaf dt 1.
(** the times of a quantity: the values of its coordinate *)
Definition times (s : loc) (time : list flt) : Prop :=
  exists q sh, coordinate sm at_ src s 0 (nth 0 (a_coords (at_ (loc_names s))) no_coord) (Ok (CNode q)) /\ value_at sm src q (VFltA sh time).
(** the values on the time base: those of C26_resampled *)
Inductive on_base (tb time : list flt) : value -> value -> Prop :=
| ob_int : forall k d d', length d = length time -> length d' = length tb ->
    (forall i t, nth_error tb i = Some t -> exists y, nth_error d' i = Some y /\ ResampleProps.at_time lin time d true t y) ->
    on_base tb time (VIntA [k] d) (VIntA [length tb] d')
| ob_flt : forall k d d', length d = length time -> length d' = length tb ->
    (forall i t, nth_error tb i = Some t -> exists y, nth_error d' i = Some y /\ ResampleProps.at_time lin time d false t y) ->
    on_base tb time (VFltA [k] d) (VFltA [length tb] d').
End Spec.

Section C26.
Variables (sm tm : meta).
Variable src : node.
Variable rm : nmap.
Variable deepcopy : bool.
Variable str_of : pyval -> str.
Variable parse_float : str -> option flt.
Variable parse_cpx : str -> option (flt * flt).
Variable flt_of_int : Z -> option flt.
Variable np_cast : dtype -> pyval -> result pexn value.
Variable array_items : value -> list pyval.
Variable close : pyval -> pyval -> bool.
Variable np_int32 : flt -> result pexn Z.
Variable enum_of : list str -> option (Z -> option (str * str)).
Variable at_ : list str -> ValModel.attrs.
Variable lin : flt -> flt -> flt -> flt -> flt -> flt.
Notation convert := (pulse_3to4 sm tm src rm deepcopy str_of parse_float parse_cpx flt_of_int np_cast array_items close np_int32 enum_of at_ lin).
Notation copy_structure := (copy_structure_cb sm tm src rm deepcopy str_of parse_float parse_cpx flt_of_int np_cast array_items close np_int32 enum_of).

(** ** The converted tree conforms *)
Section Conf.
Hypothesis Wtm : wf_meta tm.
Hypothesis Stm : str_ok tm.
Hypothesis np_typed : forall dt p v, np_cast dt p = Ok v -> typed_array dt v.
Notation pres := (pres (R_conf tm)).
Lemma c_refl : forall n, R_conf tm n n. Proof. intros n C. exact C. Qed.
Lemma c_trans : forall a b c, R_conf tm a b -> R_conf tm b c -> R_conf tm a c. Proof. unfold R_conf. auto. Qed.
Lemma c_access : forall n l, R_conf tm n (TreeModel.access tm n l). Proof. intros n l C. apply access_conf; auto. Qed.
Notation assign := (assign tm str_of parse_float parse_cpx flt_of_int np_cast array_items).
Lemma c_assign : forall l from p, not_node p -> pres (assign l from p).
Proof. intros l from p NN s C. apply conf_assign; auto. Qed.
Lemma c_resize : forall l k, pres (resize tm l k). Proof. intros l k s C. apply conf_resize; auto. Qed.
Lemma c_structure : forall callback cs fs sl tl, (forall c n sl tl, pres (callback c n sl tl)) -> pres (copy_structure callback cs fs sl tl).
Proof.
  intros callback cs fs sl tl CB. unfold copy_structure_cb. apply pres_iter; [apply c_refl|apply c_trans|]. intros d _.
  destruct (alookup (mname d) fs); [|apply pres_ret; apply c_refl]. destruct (has_value d n); [|apply pres_ret; apply c_refl].
  apply pres_copy_item_cb with (ok := fun _ => True) (t0 := []); auto using c_refl, c_access.
  - apply c_trans.
  - intros. apply c_assign; auto.
  - intros. apply c_resize.
  - intros r mr s' ip tl' n1 n' t _ _ _ _ _. exists t. reflexivity.
  - exists tl. reflexivity.
Qed.
Lemma convert_conf : pres convert.
Proof.
  unfold pulse_3to4. apply pres_iter; [apply c_refl|apply c_trans|]. intros c _. destruct (alookup (mname c) (node_fields src)) as [n|]; [|apply pres_ret; apply c_refl].
  destruct (has_value c n); [|apply pres_ret; apply c_refl]. unfold pulse_item.
  apply pres_bind; [apply c_trans|apply pres_target_item; [apply c_refl|apply c_trans|apply c_access]|]. intros [tl|]; [|apply pres_ret; apply c_refl].
  assert (NC : forall c n sl tl, pres (no_callback c n sl tl)) by (intros; apply pres_ret; apply c_refl).
  destruct (named ["ids_properties"; "code"]%string (mname c)). { destruct n; try (apply pres_fail; apply c_refl). apply c_structure; auto. }
  destruct (named ["time"]%string (mname c)). { destruct n; try (apply pres_fail; apply c_refl). apply c_assign. apply of_value_nn. }
  destruct (named ["event"]%string (mname c)).
  { destruct n; try (apply pres_fail; apply c_refl). apply pres_bind; [apply c_trans|apply c_resize|]. intros _. apply pres_iter; [apply c_refl|apply c_trans|].
    intros a _. apply c_structure; auto. }
  destruct n; try (apply pres_fail; apply c_refl). destruct (ResampleModel.common_time_base c (NStruct fields)) as [tb|]; [|apply pres_fail; apply c_refl].
  apply pres_bind; [apply c_trans|apply pres_getattr; [apply c_refl|apply c_trans|apply c_access]|]. intros a.
  apply pres_bind; [apply c_trans|apply c_assign; exact I|]. intros _. apply c_structure.
  intros d m sl t. unfold resample_cb. destruct (mkind d) as [| |dt [|[|nd]]]; try (apply pres_ret; apply c_refl).
  - destruct (over_time at_ (loc_names sl)); [apply pres_fail; apply c_refl|apply pres_ret; apply c_refl].
  - destruct (over_time at_ (loc_names sl)); [|apply pres_ret; apply c_refl]. destruct (own_time sm src at_ sl); [|apply pres_fail; apply c_refl].
    destruct (ResampleModel.resample_callback lin tb a0 (leaf_value d m)); [|apply pres_fail; apply c_refl]. apply c_assign. exact I.
Qed.
End Conf.

(** ** The theorem *)
Notation G := (group sm src rm).
Notation stem := (stem tm rm).
Notation base_of := (base_of sm src).
Notation dynamic := (dynamic sm src at_).
Notation times := (times sm src at_).
Notation by_rule := (by_rule sm tm src rm).

(** The special places of pulse_schedule: top-level items have no special rule; [time] of the target of a group is a 1D array of floats,
    no special rule writes there, nothing of the source goes there. *)
Definition bases_ok : Prop :=
  (forall c, In c (mchildren sm) -> ~ rule_at rm [mname c]) /\
  (forall x q, G x -> stem x q ->
     (exists mt, loc_ok tm (time_in q) mt /\ mkind mt = KLeaf FLT 1) /\ ~ by_rule (time_in q) /\
     (forall s t, (exists v, leaf_at sm src s v) \/ (exists k, aos_at sm src s k) -> ~ removed rm (loc_names s) -> ~ ruled rm (loc_names s) ->
        goes_to tm rm s t -> ~ within t (time_in q))).

Lemma special_kept : forall x, special x = true <-> kept_name x.
Proof.
  intros x. unfold special, named, kept_name. rewrite existsb_exists, in_map_iff. split; intros (y & A & B); exists y; split; auto.
  - apply str_eqb_eq in B. auto.
  - apply str_eqb_eq. auto.
Qed.
Lemma group_iff : forall x, conf sm src -> (G x <-> exists c n, PulseProofs2.group sm src rm x c n).
Proof.
  intros x C. unfold group, PulseProofs2.group. split.
  - intros (A & B & c & n & N & NE). exists c, n. split; [|split; [auto|split; auto]].
    + destruct (special x) eqn:E; auto. exfalso. apply A. apply special_kept; auto.
    + apply has_value_nonempty; auto. eapply node_at_conf; eauto.
  - intros (c & n & A & N & HV & R). split; [|split; auto].
    + intros K. apply special_kept in K. congruence.
    + exists c, n. split; auto. apply has_value_nonempty; auto. eapply node_at_conf; eauto.
Qed.
Lemma dynamic_arrives : forall x s v, wf_meta sm -> str_ok sm -> conf sm src -> leaf_at sm src s v -> (exists r, s = Child x :: r) -> ~ kept_name x ->
  (dynamic x s /\ forall o, arrives sm src at_ lin s v = Some o -> exists c n tb time w, node_at sm src [Child x] c n /\
      ResampleModel.common_time_base c n = Ok tb /\ times s time /\ ResampleModel.resample_callback lin tb time v = Ok w /\ o = shown w) \/
  (~ dynamic x s /\ arrives sm src at_ lin s v = Some (Some v)).
Proof.
  intros x s v W SO C LA (r & ->) NK. destruct LA as (m & (dt & nd & K) & N & FV).
  assert (SP : special x = false) by (destruct (special x) eqn:E; auto; exfalso; apply NK; apply special_kept; auto).
  assert (NX : exists c n, node_at sm src [Child x] c n).
  { change (Child x :: r) with ([Child x] ++ r) in N. apply node_at_split in N as (c & n & N & _). eauto. }
  destruct NX as (c & n & NX).
  assert (SRC : forall s m n, node_at sm src s m n -> source_at sm src s = Some (m, n)).
  { intros s' m' n' N'. unfold source_at. apply look_vnode; auto. apply node_at_vnode; auto. }
  unfold arrives. rewrite SP, (SRC _ _ _ N), (SRC _ _ _ NX). destruct m as [nm k cs]. simpl in K. subst k.
  assert (ND : nd <> 1 -> ~ dynamic x (Child x :: r)).
  { intros NE (_ & _ & _ & m & dt' & n' & N' & K'). destruct (node_at_inj _ _ _ _ _ N W _ _ N') as (<- & _). simpl in K'. congruence. }
  destruct nd as [|[|nd]]; [right; split; auto|..|right; split; auto; apply ND; lia].
  unfold PulseModel.over_time. destruct (is_time (nth 0 (a_coords (at_ (loc_names (Child x :: r)))) no_coord)) eqn:T.
  - apply is_time_spec in T. left. split; [split; auto; split; eauto; split; auto; exists (Meta nm (KLeaf dt 1) cs), dt; eauto|].
    intros o. destruct (ResampleModel.common_time_base c n) as [tb|] eqn:TB; [|discriminate].
    destruct (own_time sm src at_ (Child x :: r)) as [time|] eqn:OT; [|discriminate].
    destruct (ResampleModel.resample_callback lin tb time v) as [w|] eqn:RC; [|discriminate]. intros E. injection E as <-.
    exists c, n, tb, time, w. split; auto. split; auto. split; auto. unfold own_time in OT.
    destruct (snd (lookup sm at_ (Child x :: r) 0 src)) as [[q|?|?]|] eqn:LK; try discriminate.
    destruct (source_at sm src q) as [[mq [fs|els|vq]]|] eqn:SQ; try discriminate.
    destruct (leaf_value mq (NLeaf vq)) as [| | | | | |sh d|] eqn:LV; try discriminate. destruct sh as [|k [|]]; try discriminate. injection OT as <-.
    exists q, [k]. split.
    + apply (proj1 (C18_lookup_iff_coordinate sm at_ src (Child x :: r) 0 _ W SO C ltac:(exists (value_shape v); right; exists v; split; auto; exists (Meta nm (KLeaf dt 1) cs), (Some v), dt, 1; split; [apply node_at_vnode; exact N|split; auto]))). exact LK.
    + unfold source_at in SQ. apply look_vnode in SQ; auto. destruct (vnode_conf _ _ _ _ _ SQ W C) as (_ & CQ).
      assert (KQ : exists dtq ndq, mkind mq = KLeaf dtq ndq) by (inversion CQ; subst; simpl; eauto). destruct KQ as (dtq & ndq & KQ).
      exists mq, vq, dtq, ndq. split; auto. split; auto. unfold leaf_value in LV. rewrite KQ in LV. destruct vq; auto.
  - right. split; auto. intros (_ & _ & TC & _). apply is_time_spec in TC. congruence.
Qed.

Theorem C26_converted : versions_ok sm tm rm -> str_ok sm -> casts_arrays np_cast -> stored_values sm src -> conf sm src -> bases_ok -> forall tgt0 sh st',
  conf tm tgt0 -> convert {| c_tree := tgt0; c_shared := sh |} = (st', Ok tt) ->
  let tgt := c_tree st' in
  conf tm tgt /\ exists base : str -> list flt,
  (* the time bases *)
  (forall x, G x -> base_of x (base x)) /\
  (forall x q, G x -> stem x q -> (forall y, G y -> stem y q -> y = x) -> base x <> [] -> leaf_at tm tgt (time_in q) (VFltA [length (base x)] (base x))) /\
  (* quantities that are not resampled *)
  (forall s v t, leaf_at sm src s v -> ~ removed rm (loc_names s) -> ~ ruled rm (loc_names s) -> goes_to tm rm s t -> ~ by_rule t ->
     (forall x, ~ dynamic x s) -> leaf_at tm tgt t v) /\
  (* quantities that are resampled *)
  (forall x s v t, leaf_at sm src s v -> ~ removed rm (loc_names s) -> ~ ruled rm (loc_names s) -> goes_to tm rm s t -> ~ by_rule t ->
     dynamic x s -> exists time, times s time /\
       (strictly_increasing time -> time <> [] -> base x <> [] -> exists w, leaf_at tm tgt t w /\ on_base lin (base x) time v w)) /\
  (forall s k t, aos_at sm src s k -> ~ removed rm (loc_names s) -> ~ ruled rm (loc_names s) -> goes_to tm rm s t -> ~ by_rule t -> aos_at tm tgt t k) /\
  (* nothing else *)
  (forall t w, leaf_at tm tgt t w ->
     (exists s v, leaf_at sm src s v /\ ~ removed rm (loc_names s) /\ ~ ruled rm (loc_names s) /\ goes_to tm rm s t /\
        ((w = v /\ forall x, ~ dynamic x s) \/
         (exists x time, dynamic x s /\ times s time /\ (strictly_increasing time -> time <> [] -> on_base lin (base x) time v w)))) \/
     by_rule t \/ leaf_at tm tgt0 t w \/
     (exists x q, G x /\ stem x q /\ t = time_in q /\ w = VFltA [length (base x)] (base x))) /\
  (forall t k, aos_at tm tgt t k ->
     (exists s, aos_at sm src s k /\ ~ removed rm (loc_names s) /\ ~ ruled rm (loc_names s) /\ goes_to tm rm s t) \/
     by_rule t \/ aos_at tm tgt0 t k).
Proof.
  intros (W1 & W2 & K1 & K2 & SO2 & F) SO (NT & NS) PR C (BR & BF) tgt0 sh st' CT RUN tgt.
  assert (CF : conf tm tgt).
  { pose proof (convert_conf W2 SO2 NT {| c_tree := tgt0; c_shared := sh |} CT) as H. rewrite RUN in H. exact H. }
  split; auto.
  apply pulse_J in RUN; auto.
  2:{ intros x c n q Gx ST. destruct (BF x q) as (_ & A & B); auto; [apply group_iff; eauto|]. split; auto. intros s t1 PS (R & U) GT. apply (B s t1); auto. }
  2:{ intros x c n q Gx ST. destruct (BF x q) as (A & _); auto. apply group_iff; eauto. }
  destruct RUN as (ref & (A & B & D & E & U) & R1 & R2 & R3 & R4). fold tgt in A, B, D, E, U.
  set (base := fun x => match source_at sm src [Child x] with Some (c, n) => match ResampleModel.common_time_base c n with Ok tb => tb | Err _ => [] end | None => [] end).
  assert (SRC : forall s m n, node_at sm src s m n -> source_at sm src s = Some (m, n)).
  { intros s' m' n' N'. unfold source_at. apply look_vnode; auto. apply node_at_vnode; auto. }
  assert (BE : forall x c n tb, node_at sm src [Child x] c n -> ResampleModel.common_time_base c n = Ok tb -> base x = tb).
  { intros x c n tb N TB. unfold base. rewrite (SRC _ _ _ N), TB. reflexivity. }
  assert (TOP : forall x c n, node_at sm src [Child x] c n -> In x (map mname (mchildren sm))).
  { intros x c n N. inversion N; subst. apply in_map. auto. }
  assert (SH : forall tb : list flt, shown (VFltA [length tb] tb) = if 0 <? length tb then Some (VFltA [length tb] tb) else None).
  { intros tb. unfold shown, leaf_has_value, leaf_size. simpl. rewrite Nat.mul_1_r. reflexivity. }
  (* the items *)
  assert (HEAD : forall s v, leaf_at sm src s v -> exists x r, s = Child x :: r).
  { intros s v LA. destruct (present_meta sm tm src W1 K1 K2 s (or_introl (ex_intro _ v LA))) as (m & n & N & K & NE & NN & _ & _ & L).
    destruct s as [|[x|i] s]; [congruence|eauto|]. exfalso. apply loc_ok_elem in L as (nm & cs & E1 & _). rewrite E1 in K1. discriminate. }
  assert (DYN : forall x y r, dynamic x (Child y :: r) -> x = y).
  { intros x y r (_ & (r' & E1) & _). congruence. }
  assert (ONB : forall tb time v w, strictly_increasing time -> time <> [] -> ResampleModel.resample_callback lin tb time v = Ok w -> on_base lin tb time v w).
  { intros tb time v w SI NE RC. pose proof (ResampleProps.C26_resampled lin tb time v w SI NE RC) as H.
    assert (V : exists k d, v = VIntA [k] d \/ v = VFltA [k] d).
    { destruct (proj1 (ResampleProps.C26_accepts lin tb time v)) as (k & d & V & _); eauto. }
    destruct V as (k & d & [-> | ->]); destruct w; try contradiction; destruct H as (-> & L1 & L2 & H); constructor; auto. }
  assert (CASE : forall s v, leaf_at sm src s v ->
    (exists x, dynamic x s /\ ~ kept_name x /\ forall o, arrives sm src at_ lin s v = Some o -> exists time w, times s time /\ ResampleModel.resample_callback lin (base x) time v = Ok w /\ o = shown w) \/
    ((forall x, ~ dynamic x s) /\ arrives sm src at_ lin s v = Some (Some v))).
  { intros s v LA. destruct (HEAD s v LA) as (x & r & ->). destruct (special x) eqn:SP.
    - right. split; [|unfold arrives; rewrite SP; reflexivity]. intros y DY. pose proof (DYN _ _ _ DY) as ->. destruct DY as (NK & _). apply NK, special_kept; auto.
    - assert (NK : ~ kept_name x) by (intros K; apply special_kept in K; congruence).
      destruct (dynamic_arrives x (Child x :: r) v W1 SO C LA (ex_intro _ r eq_refl) NK) as [(DY & H)|(DY & H)].
      + left. exists x. split; auto. split; auto. intros o E1. destruct (H o E1) as (c & n & tb & time & w & N & TB & TI & RC & O). exists time, w. rewrite (BE _ _ _ _ N TB). auto.
      + right. split; auto. intros y DY'. pose proof (DYN _ _ _ DY') as ->. auto. }
  assert (LEN : forall tb time v w, ResampleModel.resample_callback lin tb time v = Ok w -> shown w = if 0 <? length tb then Some w else None).
  { intros tb time v w RC. unfold ResampleModel.resample_callback in RC. destruct v as [| | | | |shp d|shp d|]; try discriminate; destruct shp as [|k [|]]; try discriminate;
      destruct (length d =? length time); try discriminate; injection RC as <-; unfold shown, leaf_has_value, leaf_size; simpl; rewrite Nat.mul_1_r; reflexivity. }
  exists base. split; [|split; [|split; [|split; [|split; [|split]]]]].
  - intros x Gx. pose proof Gx as Gx'. apply group_iff in Gx' as (c & n & GR); auto. pose proof GR as (_ & N & HV & _).
    destruct (R4 x c n (TOP _ _ _ N) GR) as (tb & TB & fs & EN). rewrite (BE _ _ _ _ N TB).
    assert (CN : conf c n) by (eapply node_at_conf; eauto).
    assert (NL : ~ is_leaf c).
    { intros (dt & nd & K). subst n. inversion CN; subst; discriminate. }
    destruct (ResampleProps.C26_time_base c n tb CN NL TB) as (A1 & A2 & A3). split; auto. split.
    + intros t I. destruct (A2 t I) as (l & shp & d & (m & LF & NM & FV) & ID). exists l, shp, d. split; auto. exists m. split; auto. split; auto.
      change (Child x :: time_in l) with ([Child x] ++ time_in l). eapply node_at_app; eauto.
    + intros l shp d t (m & LF & NM & FV) I. apply (A3 l shp d t); auto. exists m. split; auto. split; auto.
      change (Child x :: time_in l) with ([Child x] ++ time_in l) in NM. apply node_at_split in NM as (c' & n' & N1 & N2).
      destruct (node_at_inj _ _ _ _ _ N W1 _ _ N1) as (<- & <-). exact N2.
  - intros x q Gx ST UQ NB. pose proof Gx as Gx'. apply group_iff in Gx' as (c & n & GR); auto. pose proof GR as (_ & N & HV & _).
    apply fval_leaf; auto. destruct (BF x q Gx ST) as (_ & B1 & B2).
    rewrite U by (split; auto; intros s t1 PS (R & UU) GT; apply (B2 s t1); auto).
    change (time_in q) with (timel q). rewrite (R3 x c n q (TOP _ _ _ N) GR ST).
    + destruct (R4 x c n (TOP _ _ _ N) GR) as (tb & TB & fs & EN). unfold base_value. rewrite TB, SH, (BE _ _ _ _ N TB). pose proof NB as NB'. rewrite (BE _ _ _ _ N TB) in NB'.
      destruct tb; [congruence|reflexivity].
    + intros y c' n' Gy Sy. apply UQ; auto. apply group_iff; eauto.
  - intros s v t LA R UU GT NB ND. apply fval_leaf; auto. pose proof (A s v t I LA (conj R UU) GT NB) as H.
    destruct (CASE s v LA) as [(x & DY & _)|(_ & H2)]; [exfalso; eapply ND; eauto|]. congruence.
  - intros x s v t LA R UU GT NB DY. pose proof (A s v t I LA (conj R UU) GT NB) as H.
    destruct (CASE s v LA) as [(y & DY' & _ & H2)|(ND & _)]; [|exfalso; eapply ND; eauto].
    assert (y = x) as ->. { destruct (HEAD s v LA) as (z & r & ->). rewrite (DYN _ _ _ DY), (DYN _ _ _ DY'). reflexivity. }
    destruct (H2 _ (eq_sym H)) as (time & w & TI & RC & O). exists time. split; auto. intros SI NE NBA. exists w. split; [|apply ONB; auto].
    apply fval_leaf; auto. rewrite O, (LEN _ _ _ _ RC). destruct (base x); [congruence|reflexivity].
  - intros s k t LA R UU GT NB. assert (k > 0) by (destruct LA as (? & ? & _ & _ & _ & ?); auto). destruct k as [|k]; [lia|].
    apply fsize_aos; auto. eapply B; eauto. split; auto.
  - intros t w LA. apply fval_leaf in LA; auto. destruct (D t w LA) as [(s & v & _ & LS & AR & (R & UU) & GT)|[X|X]]; [left|auto|].
    + exists s, v. split; auto. split; auto. split; auto. split; auto. destruct (CASE s v LS) as [(x & DY & _ & H2)|(ND & H2)].
      * right. destruct (H2 _ AR) as (time & w' & TI & RC & O). exists x, time. split; auto. split; auto. intros SI NE.
        assert (w' = w) as -> by (rewrite (LEN _ _ _ _ RC) in O; destruct (0 <? length (base x)); congruence). apply ONB; auto.
      * left. split; auto. congruence.
    + right. right. destruct (R1 t w X) as [Y|(x & c & n & q & _ & GR & ST & -> & BV)]; [left; apply fval_leaf; auto|right]. pose proof GR as (_ & N & _).
      exists x, q. split; [apply group_iff; eauto|]. split; auto. split; auto.
      destruct (R4 x c n (TOP _ _ _ N) GR) as (tb & TB & fs & EN). unfold base_value in BV. rewrite TB, SH in BV. rewrite (BE _ _ _ _ N TB). destruct (0 <? length tb); congruence.
  - intros t k LA. assert (k > 0) by (destruct LA as (? & ? & _ & _ & _ & ?); auto). destruct k as [|k]; [lia|].
    apply fsize_aos in LA; auto. destruct (E t k LA) as [(s & _ & X & (Y & Z) & GT)|[X|X]]; [left; eauto 6|auto|].
    right. right. apply fsize_aos; auto.
Qed.
End C26.
Print Assumptions C26_converted.

(** A quantity on the common time base has its own values at its own times. *)
Theorem C26_own_times : forall lin tb time v w, strictly_increasing time -> on_base lin tb time v w ->
  exists k d d', ((v = VIntA [k] d /\ w = VIntA [length tb] d') \/ (v = VFltA [k] d /\ w = VFltA [length tb] d')) /\
    forall i t y q t', nth_error time i = Some t -> nth_error d i = Some y -> nth_error tb q = Some t' -> f_key t' = f_key t -> nth_error d' q = Some y.
Proof.
  intros lin tb time v w SI H.
  assert (ONE : forall (d : list Z) eb t y y0 i u, nth_error time i = Some u -> f_key t = f_key u -> nth_error d i = Some y -> length d = length time -> ResampleProps.at_time lin time d eb t y0 -> y0 = y).
  { intros d eb t y y0 i u E K Y L A.
    assert (NE : time <> []) by (destruct time; [destruct i|]; discriminate).
    assert (MONO : forall a b ta tb0, nth_error time a = Some ta -> nth_error time b = Some tb0 -> (f_key ta < f_key tb0)%Z -> a < b).
    { intros a b ta tb0 Ea Eb LT. destruct (lt_eq_lt_dec a b) as [[?| ->]|G]; auto; [assert (ta = tb0) by congruence; subst; lia|].
      pose proof (ResampleProofs.sorted_nth _ _ _ SI b a _ _ G Eb Ea) as X. cbn in X. lia. }
    assert (SAME : forall a b ta tb0, nth_error time a = Some ta -> nth_error time b = Some tb0 -> f_key ta = f_key tb0 -> a = b).
    { intros a b ta tb0 Ea Eb EQ. destruct (lt_eq_lt_dec a b) as [[G| ->]|G]; auto; exfalso;
      [pose proof (ResampleProofs.sorted_nth _ _ _ SI a b _ _ G Ea Eb) as X|pose proof (ResampleProofs.sorted_nth _ _ _ SI b a _ _ G Eb Ea) as X]; cbn in X; lia. }
    destruct A as [B N0|B N0|i0 u0 E0 K0 N0|i0 u0 w0 _ E0 W0 B N0|i0 u0 w0 a b _ E0 W0 B _ _ _].
    - exfalso. pose proof (MONO i 0 _ _ E (ResampleProps.hd_nth time NE) ltac:(lia)). lia.
    - exfalso. assert (i < length time) by (apply nth_error_Some; congruence). assert (LK : nth_error time (length time - 1) = Some (last time 0%Z)) by (apply (ResampleProps.last_nth lin time NE)).
      pose proof (MONO (length time - 1) i _ _ LK E ltac:(lia)). lia.
    - assert (i0 = i) by (eapply SAME; eauto; lia). subst. congruence.
    - exfalso. pose proof (MONO i0 i _ _ E0 E ltac:(lia)). pose proof (MONO i (Datatypes.S i0) _ _ E W0 ltac:(lia)). lia.
    - exfalso. pose proof (MONO i0 i _ _ E0 E ltac:(lia)). pose proof (MONO i (Datatypes.S i0) _ _ E W0 ltac:(lia)). lia. }
  destruct H as [k d d' L1 L2 H|k d d' L1 L2 H]; exists k, d, d'; (split; [auto|]); intros i t y q t' E Y Q K;
    destruct (H q t' Q) as (y' & Y' & A); rewrite (ONE d _ t' y y' i t E K Y L1 A) in Y'; exact Y'.
Qed.
Print Assumptions C26_own_times.

(** ** Examples *)
Definition pe_old : meta := Meta (strs "pulse_schedule") KStruct
  [Meta (strs "ids_properties") KStruct [lf "homogeneous_time" INT 0];
   Meta (strs "ec") KStruct [Meta (strs "launcher") KAoS
     [lf "name" STR 0; Meta (strs "power") KStruct [lf "data" FLT 1; lf "time" FLT 1]; Meta (strs "mode") KStruct [lf "data" INT 1; lf "time" FLT 1]]];
   Meta (strs "event") KAoS [lf "time_stamp" FLT 0]; lf "time" FLT 1].
Definition pe_new : meta := Meta (strs "pulse_schedule") KStruct
  [Meta (strs "ids_properties") KStruct [lf "homogeneous_time" INT 0];
   Meta (strs "ec") KStruct [Meta (strs "beam") KAoS [lf "name" STR 0; lf "power_launched" FLT 1; lf "mode" INT 1]; lf "time" FLT 1];
   Meta (strs "event") KAoS [lf "time_stamp" FLT 0]; lf "time" FLT 1].
Definition pe_map : nmap :=
  VmapModel.set_path (strs "ec/launcher/mode/time") None (VmapModel.set_path (strs "ec/launcher/power/time") None
  (VmapModel.set_path (strs "ec/launcher/mode/data") (Some (strs "ec/beam/mode")) (VmapModel.set_path (strs "ec/launcher/power/data") (Some (strs "ec/beam/power_launched"))
  (VmapModel.set_path (strs "ec/launcher/name") (Some (strs "ec/beam/name")) (VmapModel.set_path (strs "ec/launcher") (Some (strs "ec/beam")) VmapModel.empty_map))))).
Definition pe_launcher (nm : string) (t d : list flt) (tm dm : list Z) : node := NStruct
  [(strs "name", NLeaf (Some (VStr (strs nm))));
   (strs "power", NStruct [(strs "data", NLeaf (Some (VFltA [length d] d))); (strs "time", NLeaf (Some (VFltA [length t] t)))]);
   (strs "mode", NStruct [(strs "data", NLeaf (Some (VIntA [length dm] dm))); (strs "time", NLeaf (Some (VFltA [length tm] tm)))])].
Definition pe_src : node := NStruct
  [(strs "ids_properties", NStruct [(strs "homogeneous_time", NLeaf (Some (VInt 0)))]);
   (strs "ec", NStruct [(strs "launcher", NAoS [pe_launcher "a" [10; 20]%Z [100; 200]%Z [10; 30]%Z [1; 2]%Z; pe_launcher "b" [20; 40]%Z [300; 500]%Z [40]%Z [3]%Z])]);
   (strs "event", NAoS [NStruct [(strs "time_stamp", NLeaf (Some (VFlt 15%Z)))]])].
Definition pe_ref (s : string) : attrs :=
  {| a_dynamic := true; a_coords := [{| c_size := None; c_refs := match parse (strs s) with Ok p => [p] | Err _ => [] end |}]; a_same := []; a_alts := [] |}.
Definition pe_at (p : list str) : attrs :=
  if list_eqb str_eqb p (map strs ["ec"; "launcher"; "power"; "data"]%string) then pe_ref "ec/launcher(i1)/power/time"
  else if list_eqb str_eqb p (map strs ["ec"; "launcher"; "mode"; "data"]%string) then pe_ref "ec/launcher(i1)/mode/time"
  else {| a_dynamic := false; a_coords := []; a_same := []; a_alts := [] |}.
Definition pe_run (m m' : meta) (r : nmap) (n : node) (at_ : list str -> attrs) : cst * result cexn unit :=
  pulse_3to4 m m' n r true (fun _ => []) (fun _ => None) (fun _ => None) Some ex_cast (fun _ => []) (fun _ _ => true) (fun f => Ok f) (fun _ => None) at_ ResampleProps.mid
    {| c_tree := NStruct []; c_shared := [] |}.

Definition pe_launched (nm : string) (d : list flt) (m : list Z) : node := NStruct
  [(strs "name", NLeaf (Some (VStr (strs nm)))); (strs "power_launched", NLeaf (Some (VFltA [length d] d))); (strs "mode", NLeaf (Some (VIntA [length m] m)))].
Example C26_converted_example : let (st, r) := pe_run pe_old pe_new pe_map pe_src pe_at in r = Ok tt /\
  c_tree st = NStruct
    [(strs "ids_properties", NStruct [(strs "homogeneous_time", NLeaf (Some (VInt 0)))]);
     (strs "ec", NStruct [(strs "time", NLeaf (Some (VFltA [4] [10; 20; 30; 40]%Z)));
       (strs "beam", NAoS [pe_launched "a" [100; 200; 200; 200]%Z [1; 1; 2; 2]%Z; pe_launched "b" [300; 300; 400; 500]%Z [3; 3; 3; 3]%Z])]);
     (strs "event", NAoS [NStruct [(strs "time_stamp", NLeaf (Some (VFlt 15%Z)))]])].
Proof. vm_compute. auto. Qed.
Lemma pe_bases : bases_ok pe_old pe_new pe_src pe_map.
Proof.
  assert (NR : forall p, ~ rule_at pe_map p) by (intros p [H|H]; exact (H eq_refl)).
  split; [auto|]. intros x q (NK & _ & c & n & N & NE) ST.
  assert (x = strs "ec") as ->.
  { inversion N as [|nm0 cs0 fs0 c0 ch0 l0 m0 n0 IC AC R0|]; subst. repeat (destruct IC as [<-|IC]); auto; try contradiction; exfalso; apply NK; vm_compute; tauto. }
  assert (q = [Child (strs "ec")]) as ->.
  { destruct ST as [([M|(_ & M)] & IX & _ & mt & LT)|(_ & _ & NI)].
    - vm_compute in M. discriminate.
    - change (loc_names [Child (strs "ec")]) with [strs "ec"] in M. eapply (loc_unique pe_new); [by_check|exact LT| | |exact (eq_sym IX)].
      + eapply (lo_child _ _ (Meta (strs "ec") KStruct _)); [right; left; reflexivity|]. constructor.
      + rewrite <- M. reflexivity.
    - exfalso. apply NI. vm_compute. auto. }
  clear c n N NE NK ST. split; [|split].
  - eexists. split; [|]. 
    + eapply (lo_child _ _ (Meta (strs "ec") KStruct _)); [right; left; reflexivity|]. eapply (lo_child _ _ (lf "time" FLT 1)); [right; left; reflexivity|]. constructor.
    + reflexivity.
  - intros (s & t & m & n & _ & _ & _ & _ & R & _). exact (NR _ R).
  - intros s t P R _ (M & _ & _ & mt & LT) (r & E).
    assert (TN : loc_names t = [] \/ loc_names t = [strs "ec"] \/ loc_names t = [strs "ec"; strs "time"]).
    { destruct t as [|[a|i] t]; [auto| |discriminate]. injection E as <- E. destruct t as [|[a|i] t]; [auto| |discriminate]. injection E as <- E. destruct t as [|? ?]; [auto|discriminate]. }
    assert (EN : forall p o, entry pe_map p = Some (Some o) -> In o (map strs ["ec/beam/mode"; "ec/beam/power_launched"; "ec/beam/name"; "ec/beam"]%string)).
    { intros p o H. apply alookup_In in H. vm_compute in H. vm_compute. repeat (destruct H as [H|H]; [injection H; intros; subst; tauto || discriminate|]). contradiction. }
    destruct M as [M|(_ & M)].
    + apply EN in M. destruct TN as [T|[T|T]]; rewrite T in M; vm_compute in M; repeat (destruct M as [M|M]; [discriminate|]); contradiction.
    + assert (PM : exists m n, node_at pe_old pe_src s m n /\ mkind m <> KStruct).
      { destruct P as [(v & m & (dt & nd & K) & N & _)|(k & m & els & N & K & _)]; exists m; eexists; (split; [exact N|rewrite K; discriminate]). }
      destruct PM as (m & n & N & K). apply node_at_loc_ok in N. rewrite <- M in TN.
      assert (AP : ~ is_elem s -> False).
      { intros NEL. pose proof (loc_at_path _ _ _ N NEL) as AP. apply paths_complete in AP.
        destruct TN as [T|[T|T]]; rewrite T in AP; vm_compute in AP; repeat (destruct AP as [AP|AP]; [injection AP; intros; subst; try (apply K; reflexivity); try discriminate|]); auto; try contradiction; discriminate. }
      apply AP. intros (a & i & ->). destruct (loc_at_path_elem _ _ _ _ N ltac:(by_check)) as (m1 & _ & _ & -> & _). apply K. reflexivity.
Qed.
Example C26_converted_hypotheses : versions_ok pe_old pe_new pe_map /\ str_ok pe_old /\ casts_arrays ex_cast /\ stored_values pe_old pe_src /\ conf pe_old pe_src /\
  bases_ok pe_old pe_new pe_src pe_map /\ conf pe_new (NStruct []).
Proof.
  split; [|split; [by_check|split; [apply ex_casts|split; [|split; [by_check|split; [apply pe_bases|by_check]]]]]].
  - split; [by_check|]. split; [by_check|]. split; [reflexivity|]. split; [reflexivity|]. split; [by_check|]. apply fits_b_sound. vm_compute. reflexivity.
  - apply stored_b_sound; [by_check|vm_compute; reflexivity].
Qed.

(** ** The sign flip of a resampled quantity is lost *)
(** The rule of _apply_3to4_conversion (362-372) multiplies values by -1 after they have been copied (750-752).  The callback (754-755) then assigns
    the values of the source, interpolated, so that the quantity arrives without the change of sign. *)
Definition sf_map : nmap := VmapModel.set_post (strs "ec/launcher/power/data") H_cocos pe_map.
Definition sf_src : node := NStruct
  [(strs "ids_properties", NStruct [(strs "homogeneous_time", NLeaf (Some (VInt 0)))]);
   (strs "ec", NStruct [(strs "launcher", NAoS [pe_launcher "a" [10; 20]%Z [100; 200]%Z [10; 20]%Z [1; 2]%Z])])].
Theorem C26_sign_flip_lost_refuted : exists sm tm rm src at_ s t v w, versions_ok sm tm rm /\ conf sm src /\ leaf_at sm src s v /\ goes_to tm rm s t /\
  alookup (slashed (loc_names s)) (VmapModel.m_post rm) = Some H_cocos /\ dynamic sm src at_ (strs "ec") s /\ negate v = Some w /\
  let (st, r) := pe_run sm tm rm src at_ in r = Ok tt /\ leaf_at tm (c_tree st) t v /\ ~ leaf_at tm (c_tree st) t w.
Proof.
  exists pe_old, pe_new, sf_map, sf_src, pe_at, [Child (strs "ec"); Child (strs "launcher"); Elem 0; Child (strs "power"); Child (strs "data")],
    [Child (strs "ec"); Child (strs "beam"); Elem 0; Child (strs "power_launched")], (VFltA [2] [100; 200]%Z). eexists.
  assert (W : wf_meta pe_new) by by_check.
  assert (SN : exists m, node_at pe_old sf_src [Child (strs "ec"); Child (strs "launcher"); Elem 0; Child (strs "power"); Child (strs "data")] m (NLeaf (Some (VFltA [2] [100; 200]%Z))) /\ mkind m = KLeaf FLT 1).
  { eexists. split.
    - eapply (na_child _ _ _ (Meta (strs "ec") KStruct _)); [right; left; reflexivity|reflexivity|].
      eapply (na_child _ _ _ (Meta (strs "launcher") KAoS _)); [left; reflexivity|reflexivity|]. eapply na_elem; [reflexivity|].
      eapply (na_child _ _ _ (Meta (strs "power") KStruct _)); [right; left; reflexivity|reflexivity|].
      eapply (na_child _ _ _ (lf "data" FLT 1)); [left; reflexivity|reflexivity|]. constructor.
    - reflexivity. }
  destruct SN as (m & SN & K).
  split; [|split; [by_check|split; [|split; [|split; [reflexivity|split; [|split; [reflexivity|]]]]]]].
  - split; [by_check|]. split; [by_check|]. split; [reflexivity|]. split; [reflexivity|]. split; [by_check|]. apply fits_b_sound. vm_compute. reflexivity.
  - exists m. split; [exists FLT, 1; auto|]. split; auto. simpl. discriminate.
  - split; [left; reflexivity|]. split; [reflexivity|]. split; [intros (a & i & E); apply (f_equal (@rev TreeModel.step)) in E; rewrite rev_app_distr in E; discriminate|].
    eexists. eapply (lo_child _ _ (Meta (strs "ec") KStruct _)); [right; left; reflexivity|]. eapply (lo_child _ _ (Meta (strs "beam") KAoS _)); [left; reflexivity|].
    apply lo_elem. eapply (lo_child _ _ (lf "power_launched" FLT 1)); [right; left; reflexivity|]. constructor.
  - split; [|split; [eauto|split]].
    + intros H. vm_compute in H. repeat (destruct H as [H|H]; [discriminate|]). contradiction.
    + eexists. exists [strs "ec"; strs "launcher"; strs "power"]. split; [left; vm_compute; reflexivity|reflexivity].
    + exists m, FLT. eauto.
  - destruct (pe_run pe_old pe_new sf_map sf_src pe_at) as [st r] eqn:E.
    vm_compute in E. injection E as <- <-. cbn [c_tree].
    match goal with |- _ /\ leaf_at _ ?n _ _ /\ _ => assert (C : conf pe_new n) by by_check end.
    split; auto. split; [apply fval_leaf; auto|intros L; apply fval_leaf in L; auto; vm_compute in L; discriminate].
Qed.
Print Assumptions C26_sign_flip_lost_refuted.
