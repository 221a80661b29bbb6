(** One time slice of the equilibrium: the nodes that are made are the critical points. *)
From Verif Require Import Base PathModel PathSpec TreeModel TreeSpec TreeProofs TreeProofs2 TreeProofs4 ValModel ValProofs ValProofs2 ValProofs5 PrimModel PrimSpec PrimProps ConvModel ConvSpec ConvProofs ConvProofs2 ConvProofs3 ConvProofs4 ConvProofs5 ConvProgress ConvProps ProvModel TargetOps EqModel EqSpec EqProofs.
From Verif Require ConvShare2.

Section Read.
Variable sm : meta.
Variable src : node.
Variable str_of : pyval -> str.
Variable parse_float : str -> option flt.
Variable parse_cpx : str -> option (flt * flt).
Variable flt_of_int : Z -> option flt.
Variable np_cast : dtype -> pyval -> result pexn value.
Variable array_items : value -> list pyval.
Hypothesis Wsm : wf_meta sm.
Hypothesis Csrc : conf sm src.
Hypothesis PR : stored_values sm src.
Hypothesis np_same : forall dt v, typed_array dt v -> np_cast dt (PArr v) = Ok v.
Notation V := (fval sm src).
Notation K := (cnt sm src).

Definition reads {A} (c : CM A) (a : A) : Prop := forall s, c s = (s, Ok a).
Lemma src_look : forall l m', loc_ok sm l m' -> opened K l -> exists n', look sm src l = Some (m', n') /\ conf m' n'.
Proof.
  intros l m' L O. eapply (opened_look sm Wsm {| c_tree := src; c_shared := [] |} V K); eauto. split; auto.
Qed.
Lemma src_leaf : forall l dt nd, leaf_ok sm l dt nd -> opened K l -> dt <> STR ->
  reads (src_filled sm src l) (filled V l) /\
  exists v, reads (src_value sm src l) v /\ val_ok dt nd v /\ stored dt nd v = V l /\ not_node (of_value v) /\
    assigned str_of parse_float parse_cpx flt_of_int np_cast array_items dt nd (of_value v) = Ok v /\
    (nd = 0 -> match V l with Some w => v = w | None => v = default_value dt 0 end).
Proof.
  intros l dt nd (nm & cs & L) O NS. destruct (src_look l _ L O) as (n' & LK & C). destruct n' as [?|?|old]; [inversion C..|].
  assert (VL : V l = if leaf_has_value nd old then old else None) by (unfold fval; rewrite LK; reflexivity).
  split.
  - intros s. unfold src_filled, source_at. rewrite LK. unfold filled. rewrite VL. simpl. destruct (leaf_has_value nd old) eqn:H; [|reflexivity]. destruct old; [reflexivity|discriminate].
  - exists (leaf_value (Meta nm (KLeaf dt nd) cs) (NLeaf old)). split; [intros s; unfold src_value, source_at; rewrite LK; reflexivity|].
    assert (VO : val_ok dt nd (leaf_value (Meta nm (KLeaf dt nd) cs) (NLeaf old))).
    { inversion C as [|? ? ? ? ? VO| |]; subst; [|exact VO]. simpl. destruct nd as [|nd]; destruct dt; try congruence; try constructor;
        replace (S nd) with (length (repeat 0 (S nd))) at 1 by apply repeat_length; constructor; try discriminate; reflexivity. }
    split; [exact VO|]. split; [|split; [|split]].
    + rewrite VL. destruct old as [v|]; cbn [leaf_value mkind] in *.
      * unfold stored. destruct nd as [|nd]; [|cbn [Nat.eqb andb]; reflexivity]. cbn [Nat.eqb andb].
        assert (HV : leaf_has_value 0 (Some v) = true) by (destruct v; reflexivity). rewrite HV in *.
        assert (E : is_empty dt v = false).
        { destruct (is_empty dt v) eqn:E; auto. exfalso. apply is_empty_spec in E. apply fval_leaf in VL; auto. destruct VL as (m' & _ & NA & _).
          pose proof (node_at_loc_ok _ _ _ _ _ NA) as L'. assert (m' = Meta nm (KLeaf dt 0) cs) as -> by (eapply loc_ok_fun; eauto). eapply PR; eauto. }
        rewrite E, HV. reflexivity.
      * cbn [leaf_has_value]. destruct nd; destruct dt; try congruence; reflexivity.
    + destruct VO; exact I.
    + apply cast_same; auto.
    + intros ->. rewrite VL. destruct old as [v|]; [|reflexivity]. assert (HV : leaf_has_value 0 (Some v) = true) by (destruct v; reflexivity). rewrite HV. reflexivity.
Qed.
Lemma src_number : forall l, leaf_ok sm l FLT 0 -> opened K l -> reads (src_negated sm src l) (fneg (number V l)).
Proof.
  intros l L O. destruct (src_leaf l FLT 0 L O ltac:(discriminate)) as (_ & v & R & VO & _ & _ & _ & D). specialize (D eq_refl).
  intros s. unfold src_negated, cbind. rewrite R. unfold number. inversion VO as [| |f| | | | |]; subst.
  - destruct (V l) as [w|]; [|cbn in D; injection D as ->; reflexivity]. subst w. reflexivity.
  - destruct sh; [congruence|discriminate].
Qed.
Lemma src_len : forall l, aos_ok sm l -> opened K l -> reads (src_length sm src l) (K l).
Proof.
  intros l (nm & cs & L) O s. destruct (src_look l _ L O) as (n' & LK & C). destruct n' as [?|els|?]; [inversion C| |inversion C].
  unfold src_length, source_at. rewrite LK. unfold cnt, fsize. rewrite LK. reflexivity.
Qed.
End Read.

Section Slice.
Variables (sm tm : meta).
Variable src : node.
Variable deepcopy : bool.
Variable str_of : pyval -> str.
Variable parse_float : str -> option flt.
Variable parse_cpx : str -> option (flt * flt).
Variable flt_of_int : Z -> option flt.
Variable np_cast : dtype -> pyval -> result pexn value.
Variable array_items : value -> list pyval.
Hypothesis Wsm : wf_meta sm.
Hypothesis Wtm : wf_meta tm.
Hypothesis Stm : str_ok tm.
Hypothesis Csrc : conf sm src.
Hypothesis PR : stored_values sm src.
Hypothesis np_typed : forall dt p v, np_cast dt p = Ok v -> typed_array dt v.
Hypothesis np_same : forall dt v, typed_array dt v -> np_cast dt (PArr v) = Ok v.
Notation V := (fval sm src).
Notation K := (cnt sm src).
Notation put_critical := (put_critical tm str_of parse_float parse_cpx flt_of_int np_cast array_items).
Notation put_point := (put_point sm tm src str_of parse_float parse_cpx flt_of_int np_cast array_items).
Notation put_psi := (put_psi sm tm src str_of parse_float parse_cpx flt_of_int np_cast array_items).
Notation put_line := (put_line sm tm src deepcopy str_of parse_float parse_cpx flt_of_int np_cast array_items).
Notation more_points := (more_points sm tm src str_of parse_float parse_cpx flt_of_int np_cast array_items).

(** the nodes *)
Variable V0 : loc -> option value.
Variable N0 : loc -> nat.
Variable nl : loc.
Variables (nm : str) (cs : list meta).
Hypothesis Lnl : loc_ok tm nl (Meta nm KAoS cs).
Hypothesis Onl : opened N0 nl.
Notation M := (Meta nm KStruct cs).
Hypothesis Hct : leaf_ok M (names ["critical_type"%string]) INT 0.
Hypothesis Hrz : rz_ok M [] 0.
Hypothesis Hpsi : leaf_ok M (names ["psi"%string]) FLT 0.
Hypothesis Hline : rz_ok M (names ["levelset"%string]) 1.
Notation pdo := (pdo tm V0 N0 nl).
Notation pdo_put := (pdo_put tm str_of parse_float parse_cpx flt_of_int np_cast array_items Wtm Stm np_typed V0 N0 nl nm cs Lnl Onl).

Lemma pdo_read : forall A B (c : CM A) (f : A -> CM B) a p b p', reads c a -> pdo (f a) p b p' -> pdo (cbind c f) p b p'.
Proof. intros A B c f a p b p' R H s S. unfold cbind. rewrite R. apply H. auto. Qed.

Lemma pdo_critical : forall pts i z, i < length pts -> (0 <= z <= 2)%Z ->
  pdo (put_critical (nl ++ [Elem i]) z) pts tt (setp pts i (names ["critical_type"%string]) (Some (VInt z))).
Proof.
  intros pts i z LT HZ. destruct Hct as (n0 & c0 & L). assert (z = 0 \/ z = 1 \/ z = 2)%Z as Z3 by lia.
  assert (E : Some (VInt z) = stored INT 0 (VInt z)) by (destruct Z3 as [-> | [-> | ->]]; reflexivity). rewrite E.
  eapply pdo_put; eauto; try exact I.
Qed.
Lemma pdo_point : forall pts i sl, i < length pts -> rz_ok sm sl 0 -> opened K sl ->
  pdo (put_point (nl ++ [Elem i]) sl) pts tt (setp (setp pts i (names ["r"%string]) (V (sl ++ names ["r"%string]))) i (names ["z"%string]) (V (sl ++ names ["z"%string]))).
Proof.
  intros pts i sl LT (SR & SZ) O. destruct Hrz as ((n1 & c1 & L1) & (n2 & c2 & L2)). unfold EqModel.put_point.
  destruct (src_leaf sm src str_of parse_float parse_cpx flt_of_int np_cast array_items Wsm Csrc PR np_same _ FLT 0 SR (opened_names _ _ _ O) ltac:(discriminate)) as (_ & v & RV & _ & SV & NN & AV & _).
  destruct (src_leaf sm src str_of parse_float parse_cpx flt_of_int np_cast array_items Wsm Csrc PR np_same _ FLT 0 SZ (opened_names _ _ _ O) ltac:(discriminate)) as (_ & w & RW & _ & SW & NW & AW & _).
  eapply pdo_read; [exact RV|]. eapply pdo_bind; [eapply pdo_put; eauto|]. eapply pdo_read; [exact RW|]. rewrite <- SV, <- SW. eapply pdo_put; eauto. unfold setp. rewrite list_set_length. auto.
Qed.
Lemma pdo_line : forall pts i sl, i < length pts -> rz_ok sm sl 1 -> opened K sl ->
  pdo (put_line (nl ++ [Elem i]) sl) pts tt (setp (setp pts i (names ["levelset"; "r"]%string) (V (sl ++ names ["r"%string]))) i (names ["levelset"; "z"]%string) (V (sl ++ names ["z"%string]))).
Proof.
  intros pts i sl LT (SR & SZ) O. destruct Hline as ((n1 & c1 & L1) & (n2 & c2 & L2)). unfold EqModel.put_line.
  destruct (src_leaf sm src str_of parse_float parse_cpx flt_of_int np_cast array_items Wsm Csrc PR np_same _ FLT 1 SR (opened_names _ _ _ O) ltac:(discriminate)) as (_ & v & RV & _ & SV & NN & AV & _).
  destruct (src_leaf sm src str_of parse_float parse_cpx flt_of_int np_cast array_items Wsm Csrc PR np_same _ FLT 1 SZ (opened_names _ _ _ O) ltac:(discriminate)) as (_ & w & RW & _ & SW & NW & AW & _).
  eapply pdo_read; [exact RV|]. eapply pdo_bind; [eapply pdo_put; eauto|]. eapply pdo_read; [exact RW|]. rewrite <- SV, <- SW. eapply pdo_put; eauto. unfold setp. rewrite list_set_length. auto.
Qed.
Lemma pdo_psi : forall pts i l, i < length pts -> leaf_ok sm l FLT 0 -> opened K l ->
  pdo (put_psi (nl ++ [Elem i]) l) pts tt (setp pts i (names ["psi"%string]) (negated V l)).
Proof.
  intros pts i l LT L O. destruct Hpsi as (n1 & c1 & L1). unfold EqModel.put_psi. eapply pdo_read; [apply (src_number sm src str_of parse_float parse_cpx flt_of_int np_cast array_items Wsm Csrc PR np_same); auto|].
  replace (negated V l) with (stored FLT 0 (VFlt (fneg (number V l)))).
  - eapply pdo_put; eauto; try exact I; reflexivity.
  - unfold negated, stored. cbn [Nat.eqb andb is_empty]. destruct (feq (fneg (number V l)) EMPTY_FLOAT); reflexivity.
Qed.

(** two descriptions of a node agree *)
Ltac eval_eqb := repeat match goal with |- context [loc_eqb (names ?a) (names ?b)] =>
  let c := eval vm_compute in (loc_eqb (names a) (names b)) in change (loc_eqb (names a) (names b)) with c; cbv iota end.
Ltac chain := let r := fresh "r" in let E := fresh "E" in
  intros r; unfold point_data, upd, blank;
  repeat match goal with |- context [loc_eqb r ?x] => destruct (loc_eqb r x) eqn:E;
    [apply ConvShare2.loc_eqb_spec in E; subst r; eval_eqb; reflexivity|clear E] end; reflexivity.

Lemma list_set_last : forall A (l : list A) x y, list_set (length l) x (l ++ [y]) = l ++ [x].
Proof. intros A l x y. induction l as [|a l IH]; simpl; [reflexivity|rewrite IH; reflexivity]. Qed.
Lemma setp_last : forall pts f r o, setp (pts ++ [f]) (length pts) r o = pts ++ [upd f r o].
Proof. intros pts f r o. unfold setp. rewrite list_set_last, app_nth2, Nat.sub_diag by lia. reflexivity. Qed.
Lemma same_refl : forall a, same_points a a. Proof. induction a; constructor; auto. Qed.
Lemma same_app : forall a b c d, same_points a b -> same_points c d -> same_points (a ++ c) (b ++ d).
Proof. intros. apply Forall2_app; auto. Qed.

Variable i : nat.
Hypothesis Oi : opened K (slice i).
Hypothesis EQ3 : equilibrium3 sm.

Lemma pdo_more : forall s pts, separatrix_ok sm s ->
  pdo (more_points nl (slice i ++ names [s]) (K (in_slice i [s; "x_point"%string]))) pts tt (pts ++ map (point_data V) (other_saddles K i s)).
Proof.
  intros s pts SO. destruct (SO i) as (SP & (xn & xc & SX) & SXP & _). unfold other_saddles, EqModel.more_points.
  assert (ALL : forall js, (forall j, In j js -> j < K (in_slice i [s; "x_point"%string])) -> forall pts,
    pdo (citer (fun i0 => doc k <- length_of tm nl; doc _ <- resize_keep tm nl (S k); (let e := nl ++ [Elem k] in
      doc _ <- put_critical e 1; doc _ <- put_point e ((slice i ++ names [s]) ++ [Child (strs "x_point"); Elem i0]); put_psi e ((slice i ++ names [s]) ++ names ["psi"%string]))) js)
      pts tt (pts ++ map (point_data V) (map (fun j => saddle i s (Some (x_point i s j)) false) js))).
  { clear pts. induction js as [|j js IH]; intros LT pts; [simpl; rewrite app_nil_r; apply pdo_ret|].
    cbn [map]. change (point_data V (saddle i s (Some (x_point i s j)) false) :: map (point_data V) (map (fun j => saddle i s (Some (x_point i s j)) false) js))
      with ([point_data V (saddle i s (Some (x_point i s j)) false)] ++ map (point_data V) (map (fun j => saddle i s (Some (x_point i s j)) false) js)).
    rewrite app_assoc. cbn [citer]. eapply pdo_bind; [|apply IH; intros; apply LT; right; auto].
    eapply pdo_bind; [eapply pdo_length; eauto|]. eapply pdo_bind; [eapply (pdo_grow tm parse_float parse_cpx flt_of_int); eauto|]. cbv zeta.
    assert (LN : length pts < length (pts ++ [blank])) by (rewrite app_length; simpl; lia).
    eapply pdo_bind; [apply (pdo_critical (pts ++ [blank]) (length pts) 1); [auto|lia]|]. rewrite setp_last.
    assert (OX : opened K (x_point i s j)).
    { unfold x_point. apply opened_elem; [apply opened_names; auto|]. apply LT. left. auto. }
    eapply pdo_bind; [eapply (pdo_point _ (length pts) (x_point i s j)); [rewrite app_length; simpl; lia|apply SXP|exact OX]|]. rewrite !setp_last.
    eapply pdo_same; [eapply (pdo_psi _ (length pts) (in_slice i [s; "psi"%string])); [rewrite app_length; simpl; lia|exact SP|apply opened_names; auto]|]. rewrite setp_last.
    apply same_app; [apply same_refl|]. constructor; [|constructor]. unfold saddle. cbn [pt_type pt_at pt_psi pt_line at_point on_line]. chain. }
  apply ALL. intros j J. apply in_seq in J. lia.
Qed.

(** the axis *)
Lemma pdo_axis : forall rest z, (0 <= z <= 2)%Z -> pdo
  (doc _ <- put_critical (nl ++ [Elem 0]) z;
   doc _ <- put_point (nl ++ [Elem 0]) (in_slice i ["global_quantities"; "magnetic_axis"]%string);
   put_psi (nl ++ [Elem 0]) (in_slice i ["global_quantities"; "psi_axis"]%string)) (blank :: rest) tt
  (point_data V {| pt_type := z; pt_at := Some (in_slice i ["global_quantities"; "magnetic_axis"]%string); pt_psi := in_slice i ["global_quantities"; "psi_axis"]%string; pt_line := None |} :: rest).
Proof.
  intros rest z HZ. destruct EQ3 as (_ & Q & _). destruct (Q i) as (Q1 & Q2 & Q3 & _).
  eapply pdo_bind; [apply (pdo_critical (blank :: rest) 0 z); [simpl; lia|auto]|]. cbn [setp list_set nth].
  eapply pdo_bind; [eapply (pdo_point _ 0 (in_slice i ["global_quantities"; "magnetic_axis"]%string)); [simpl; lia|exact Q3|apply opened_names; auto]|].
  eapply pdo_same; [eapply (pdo_psi _ 0 (in_slice i ["global_quantities"; "psi_axis"]%string)); [simpl; lia|exact Q1|apply opened_names; auto]|].
  constructor; [|apply same_refl]. cbn [setp list_set nth pt_type pt_at pt_psi pt_line at_point on_line]. chain.
Qed.
(** the first point of a separatrix and the others *)
Definition second (q : nat) (a : loc -> option value) (p : list (loc -> option value)) : Prop := exists b c, p = b ++ a :: c /\ length b = q.
Lemma setp_at : forall b a c r o, setp (b ++ a :: c) (length b) r o = b ++ upd a r o :: c.
Proof. intros b a c r o. unfold setp. rewrite app_nth2, Nat.sub_diag by lia. cbn [nth]. induction b as [|x b IH]; [reflexivity|]. cbn [length app list_set]. rewrite IH. reflexivity. Qed.
Lemma pdo_saddles : forall s b c, separatrix_ok sm s ->
  pdo (doc _ <- put_critical (nl ++ [Elem (length b)]) 1;
       doc k <- src_length sm src (in_slice i [s; "x_point"%string]);
       doc _ <- (if 0 <? k then put_point (nl ++ [Elem (length b)]) (x_point i s 0) else cret tt);
       doc _ <- more_points nl (in_slice i [s]) k;
       doc _ <- put_psi (nl ++ [Elem (length b)]) (in_slice i [s; "psi"%string]);
       put_line (nl ++ [Elem (length b)]) (in_slice i [s; "outline"%string])) (b ++ blank :: c) tt
      (b ++ point_data V (first_saddle K i s) :: c ++ map (point_data V) (other_saddles K i s)).
Proof.
  intros s b c SO. destruct (SO i) as (SP & SX & SXP & SL).
  assert (LEN : forall a d, length b < length (b ++ a :: d)) by (intros; rewrite app_length; simpl; lia).
  eapply pdo_bind; [apply (pdo_critical _ (length b) 1); [apply LEN|lia]|]. rewrite setp_at.
  eapply pdo_read; [eapply (src_len sm src Wsm Csrc); [exact SX|apply opened_names; auto]|].
  assert (TAIL : forall a, pdo (doc _ <- more_points nl (in_slice i [s]) (K (in_slice i [s; "x_point"%string]));
       doc _ <- put_psi (nl ++ [Elem (length b)]) (in_slice i [s; "psi"%string]);
       put_line (nl ++ [Elem (length b)]) (in_slice i [s; "outline"%string])) (b ++ a :: c) tt
       (b ++ upd (upd (upd a (names ["psi"%string]) (negated V (in_slice i [s; "psi"%string]))) (names ["levelset"; "r"]%string) (V (in_slice i [s; "outline"%string] ++ names ["r"%string])))
                 (names ["levelset"; "z"]%string) (V (in_slice i [s; "outline"%string] ++ names ["z"%string])) :: c ++ map (point_data V) (other_saddles K i s))).
  { intros a. eapply pdo_bind; [apply (pdo_more s _ SO)|]. rewrite <- app_assoc. cbn [app].
    eapply pdo_bind; [eapply (pdo_psi _ (length b) (in_slice i [s; "psi"%string])); [apply LEN|exact SP|apply opened_names; auto]|]. rewrite setp_at.
    eapply pdo_same; [eapply (pdo_line _ (length b) (in_slice i [s; "outline"%string])); [apply LEN|exact SL|apply opened_names; auto]|]. rewrite !setp_at. apply same_refl. }
  unfold first_saddle. destruct (0 <? K (in_slice i [s; "x_point"%string])) eqn:E.
  - apply Nat.ltb_lt in E.
    eapply pdo_bind; [eapply (pdo_point _ (length b) (x_point i s 0)); [apply LEN|apply SXP|unfold x_point; apply opened_elem; [apply opened_names; auto|auto]]|].
    rewrite !setp_at. eapply pdo_same; [apply TAIL|]. apply same_app; [apply same_refl|]. constructor; [|apply same_refl].
    unfold saddle. cbn [pt_type pt_at pt_psi pt_line at_point on_line]. chain.
  - eapply pdo_bind; [apply pdo_ret|]. eapply pdo_same; [apply TAIL|]. apply same_app; [apply same_refl|]. constructor; [|apply same_refl].
    unfold saddle. cbn [pt_type pt_at pt_psi pt_line at_point on_line]. chain.
Qed.
Lemma pdo_limiter : forall b c z, (0 <= z <= 2)%Z ->
  pdo (doc _ <- put_critical (nl ++ [Elem (length b)]) z;
       doc _ <- put_point (nl ++ [Elem (length b)]) (in_slice i ["boundary_separatrix"; "active_limiter_point"]%string);
       doc _ <- put_psi (nl ++ [Elem (length b)]) (in_slice i ["boundary_separatrix"; "psi"]%string);
       put_line (nl ++ [Elem (length b)]) (in_slice i ["boundary_separatrix"; "outline"]%string)) (b ++ blank :: c) tt
      (b ++ point_data V {| pt_type := z; pt_at := Some (in_slice i ["boundary_separatrix"; "active_limiter_point"]%string);
                            pt_psi := in_slice i ["boundary_separatrix"; "psi"]%string; pt_line := Some (in_slice i ["boundary_separatrix"; "outline"]%string) |} :: c).
Proof.
  intros b c z HZ. destruct EQ3 as (_ & Q & SO). destruct (Q i) as (_ & _ & _ & _ & Q5). destruct (SO i) as (SP & _ & _ & SL).
  assert (LEN : forall a d, length b < length (b ++ a :: d)) by (intros; rewrite app_length; simpl; lia).
  eapply pdo_bind; [apply (pdo_critical _ (length b) z); [apply LEN|auto]|]. rewrite setp_at.
  eapply pdo_bind; [eapply (pdo_point _ (length b)); [apply LEN|exact Q5|apply opened_names; auto]|]. rewrite !setp_at.
  eapply pdo_bind; [eapply (pdo_psi _ (length b)); [apply LEN|exact SP|apply opened_names; auto]|]. rewrite setp_at.
  eapply pdo_same; [eapply (pdo_line _ (length b)); [apply LEN|exact SL|apply opened_names; auto]|]. rewrite !setp_at.
  apply same_app; [apply same_refl|]. constructor; [|apply same_refl]. cbn [pt_type pt_at pt_psi pt_line at_point on_line]. chain.
Qed.

Lemma pdo_eq : forall A (c d : CM A) p a p', (forall s, c s = d s) -> pdo d p a p' -> pdo c p a p'.
Proof. intros A c d p a p' E H s S. rewrite E. apply H. auto. Qed.
Lemma bind_assoc : forall A B C (c : CM A) (f : A -> CM B) (g : B -> CM C) s, cbind (cbind c f) g s = cbind c (fun a => cbind (f a) g) s.
Proof. intros. unfold cbind. destruct (c s) as [s1 [a|e]]; auto. Qed.
Lemma bind_ext : forall A B (c : CM A) (f g : A -> CM B) s, (forall a s', f a s' = g a s') -> cbind c f s = cbind c g s.
Proof. intros A B c f g s H. unfold cbind. destruct (c s) as [s1 [a|e]]; auto. Qed.

Variable secondary : bool.
Hypothesis SEC : secondary = true -> has_secondary sm.
(** what follows the resize, 1273-1318 *)
Definition fill_nodes (h1 h2 : bool) : CM unit :=
  let ts := slice i in
  let node := nl in
  let gq := ts ++ names ["global_quantities"%string] in
  let bs := ts ++ names ["boundary_separatrix"%string] in
  let b2 := ts ++ names ["boundary_secondary_separatrix"%string] in
  doc pa <- src_negated sm src (gq ++ names ["psi_axis"%string]);
  doc pb <- src_negated sm src (gq ++ names ["psi_boundary"%string]);
  let low := flt_lt pa pb in
  doc _ <- put_critical (node ++ [Elem 0]) (if low then 0 else 2)%Z;
  doc _ <- put_point (node ++ [Elem 0]) (gq ++ names ["magnetic_axis"%string]);
  doc _ <- put_psi (node ++ [Elem 0]) (gq ++ names ["psi_axis"%string]);
  doc _ <- (if h1 then
    doc ty <- src_value sm src (bs ++ names ["type"%string]);
    doc _ <- (if match ty with VInt z => (z =? 0)%Z | _ => false end then
      doc _ <- put_critical (node ++ [Elem 1]) (if low then 2 else 0)%Z;
      put_point (node ++ [Elem 1]) (bs ++ names ["active_limiter_point"%string])
    else
      doc _ <- put_critical (node ++ [Elem 1]) 1;
      doc k <- src_length sm src (bs ++ names ["x_point"%string]);
      doc _ <- (if 0 <? k then put_point (node ++ [Elem 1]) (bs ++ [Child (strs "x_point"); Elem 0]) else cret tt);
      more_points node bs k);
    doc _ <- put_psi (node ++ [Elem 1]) (bs ++ names ["psi"%string]);
    put_line (node ++ [Elem 1]) (bs ++ names ["outline"%string])
   else cret tt);
  if h2 then
    doc _ <- put_critical (node ++ [Elem 2]) 1;
    doc k <- src_length sm src (b2 ++ names ["x_point"%string]);
    doc _ <- (if 0 <? k then
      doc _ <- put_point (node ++ [Elem 2]) (b2 ++ [Child (strs "x_point"); Elem 0]);
      more_points node b2 k
     else cret tt);
    doc _ <- put_psi (node ++ [Elem 2]) (b2 ++ names ["psi"%string]);
    put_line (node ++ [Elem 2]) (b2 ++ names ["outline"%string])
  else cret tt.
Lemma pdo_fill : let h1 := has_primary V i in let h2 := has_second V secondary i in
  pdo (fill_nodes h1 h2) (repeat blank (if h1 then (if h2 then 3 else 2) else 1)) tt (map (point_data V) (critical_points V K secondary i)).
Proof.
  cbv zeta. pose proof EQ3 as (_ & Q & SO). destruct (Q i) as (Q1 & Q2 & Q3 & Q4 & Q5).
  assert (OI : forall p, opened K (in_slice i p)) by (intros p; apply opened_names; auto).
  unfold fill_nodes. cbv zeta.
  eapply pdo_read; [apply (src_number sm src str_of parse_float parse_cpx flt_of_int np_cast array_items Wsm Csrc PR np_same _ Q1 (OI _))|].
  eapply pdo_read; [apply (src_number sm src str_of parse_float parse_cpx flt_of_int np_cast array_items Wsm Csrc PR np_same _ Q2 (OI _))|].
  change (flt_lt _ _) with (axis_low V i) at 1.
  assert (AX : forall rest B (c : CM B) b p', pdo c (point_data V (axis V i) :: rest) b p' ->
     pdo (doc _ <- put_critical (nl ++ [Elem 0]) (if axis_low V i then 0 else 2)%Z;
          doc _ <- put_point (nl ++ [Elem 0]) (in_slice i ["global_quantities"; "magnetic_axis"]%string);
          doc _ <- put_psi (nl ++ [Elem 0]) (in_slice i ["global_quantities"; "psi_axis"]%string); c) (blank :: rest) b p').
  { intros rest B c b p' H. eapply pdo_eq; [|eapply pdo_bind with (f := fun _ => c); [apply (pdo_axis rest (if axis_low V i then 0 else 2)%Z); destruct (axis_low V i); lia|exact H]].
    intros s. symmetry. etransitivity; [apply bind_assoc|]. apply bind_ext. intros _ s1. apply bind_assoc. }
  assert (START : exists rest, repeat blank (if has_primary V i then if has_second V secondary i then 3 else 2 else 1) = blank :: rest /\
            rest = repeat blank (if has_primary V i then if has_second V secondary i then 2 else 1 else 0)).
  { eexists. split; [|reflexivity]. destruct (has_primary V i), (has_second V secondary i); reflexivity. }
  destruct START as (rest & -> & ER). apply AX. subst rest. clear AX.
  assert (SEC2 : forall b c, length b = 2 -> secondary = true -> pdo
    (doc _ <- put_critical (nl ++ [Elem 2]) 1;
     doc k <- src_length sm src ((slice i ++ names ["boundary_secondary_separatrix"%string]) ++ names ["x_point"%string]);
     doc _ <- (if 0 <? k then doc _ <- put_point (nl ++ [Elem 2]) ((slice i ++ names ["boundary_secondary_separatrix"%string]) ++ [Child (strs "x_point"); Elem 0]);
                              more_points nl (slice i ++ names ["boundary_secondary_separatrix"%string]) k else cret tt);
     doc _ <- put_psi (nl ++ [Elem 2]) ((slice i ++ names ["boundary_secondary_separatrix"%string]) ++ names ["psi"%string]);
     put_line (nl ++ [Elem 2]) ((slice i ++ names ["boundary_secondary_separatrix"%string]) ++ names ["outline"%string])) (b ++ blank :: c) tt
     (b ++ point_data V (first_saddle K i "boundary_secondary_separatrix") :: c ++ map (point_data V) (other_saddles K i "boundary_secondary_separatrix"))).
  { intros b c LB SE. pose proof (pdo_saddles "boundary_secondary_separatrix" b c (SEC SE)) as X. rewrite LB in X. eapply pdo_eq; [|exact X].
    intros s. apply bind_ext. intros _ s1. apply bind_ext. intros k s2. destruct k as [|k].
    - cbn [Nat.ltb Nat.leb]. unfold cbind at 1. unfold cbind at 3. reflexivity.
    - cbn [Nat.ltb Nat.leb]. apply bind_assoc. }
  unfold critical_points. destruct (has_primary V i) eqn:H1.
  - (* a separatrix *)
    assert (PRIM : forall c B (g : CM B) b p', pdo g (point_data V (axis V i) :: point_data V (primary V K i) :: c ++ map (point_data V) (if negb (limiter V i) then other_saddles K i "boundary_separatrix" else [])) b p' ->
      pdo (doc _ <- (doc ty <- src_value sm src ((slice i ++ names ["boundary_separatrix"%string]) ++ names ["type"%string]);
        doc _ <- (if match ty with VInt z => (z =? 0)%Z | _ => false end then
          doc _ <- put_critical (nl ++ [Elem 1]) (if axis_low V i then 2 else 0)%Z;
          put_point (nl ++ [Elem 1]) ((slice i ++ names ["boundary_separatrix"%string]) ++ names ["active_limiter_point"%string])
        else
          doc _ <- put_critical (nl ++ [Elem 1]) 1;
          doc k <- src_length sm src ((slice i ++ names ["boundary_separatrix"%string]) ++ names ["x_point"%string]);
          doc _ <- (if 0 <? k then put_point (nl ++ [Elem 1]) ((slice i ++ names ["boundary_separatrix"%string]) ++ [Child (strs "x_point"); Elem 0]) else cret tt);
          more_points nl (slice i ++ names ["boundary_separatrix"%string]) k);
        doc _ <- put_psi (nl ++ [Elem 1]) ((slice i ++ names ["boundary_separatrix"%string]) ++ names ["psi"%string]);
        put_line (nl ++ [Elem 1]) ((slice i ++ names ["boundary_separatrix"%string]) ++ names ["outline"%string])); g)
       (point_data V (axis V i) :: blank :: c) b p').
    { intros c B g b p' H. eapply pdo_bind; [|exact H].
      destruct (src_leaf sm src str_of parse_float parse_cpx flt_of_int np_cast array_items Wsm Csrc PR np_same _ INT 0 Q4 (OI _) ltac:(discriminate)) as (_ & v & RV & _ & _ & _ & _ & D).
      specialize (D eq_refl). eapply pdo_read; [exact RV|]. unfold primary.
      assert (LIM : match v with VInt z => (z =? 0)%Z | _ => false end = limiter V i).
      { unfold limiter. destruct (fval sm src (in_slice i ["boundary_separatrix"; "type"]%string)) as [w|]; subst v; reflexivity. }
      rewrite LIM. destruct (limiter V i); cbn [negb map].
      - rewrite app_nil_r. eapply pdo_eq; [|apply (pdo_limiter [point_data V (axis V i)] c (if axis_low V i then 2 else 0)%Z); destruct (axis_low V i); lia].
        intros s. apply bind_assoc.
      - eapply pdo_eq; [|apply (pdo_saddles "boundary_separatrix" [point_data V (axis V i)] c SO)].
        intros s. etransitivity; [apply bind_assoc|]. apply bind_ext. intros _ s1. etransitivity; [apply bind_assoc|]. apply bind_ext. intros k s2. apply bind_assoc. }
    destruct (has_second V secondary i) eqn:H2.
    + apply PRIM. assert (SE : secondary = true) by (unfold has_second in H2; destruct secondary; auto; rewrite andb_false_r in H2; discriminate).
      eapply pdo_same; [apply (SEC2 [point_data V (axis V i); point_data V (primary V K i)] _ eq_refl SE)|].
      cbn [map app andb]. rewrite !map_app. destruct (limiter V i); cbn [negb map app]; apply same_refl.
    + apply PRIM. eapply pdo_same; [apply pdo_ret|]. cbn [map app andb]. rewrite !map_app, app_nil_r. destruct (limiter V i); cbn [negb map app]; apply same_refl.
  - assert (H2 : has_second V secondary i = false) by (unfold has_second; rewrite H1; reflexivity). rewrite H2.
    eapply pdo_bind; [apply pdo_ret|]. eapply pdo_same; [apply pdo_ret|]. cbn [map app andb]. apply same_refl.
Qed.
End Slice.
