(** C47: the contour tree of a converted equilibrium (imas/ids_convert.py:1254-1318). *)
From Verif Require Import Base PathModel PathSpec TreeModel TreeSpec TreeProofs TreeProofs2 TreeProofs4 TreeCheck ValModel ValProofs ValProofs2 ValProofs5 PrimModel PrimSpec PrimProps ConvModel ConvSpec ConvProofs ConvProofs2 ConvProofs3 ConvProofs4 ConvProofs5 ConvProgress ConvExamples ConvProps ProvModel TargetOps ProvProps EqModel EqSpec EqProofs EqProofs2.
From Verif Require ConvShare2.

Section C47.
Variables (sm tm : meta).
Variable src : node.
Variable deepcopy : bool.
Variable str_of : pyval -> str.
Variable parse_float : str -> option flt.
Variable parse_cpx : str -> option (flt * flt).
Variable flt_of_int : Z -> option flt.
Variable np_cast : dtype -> pyval -> result pexn value.
Variable array_items : value -> list pyval.
Hypothesis Wsm : wf_meta sm.
Hypothesis Wtm : wf_meta tm.
Hypothesis Stm : str_ok tm.
Hypothesis Csrc : conf sm src.
Hypothesis PR : stored_values sm src.
Hypothesis NC : casts_arrays np_cast.
Hypothesis EQ3 : equilibrium3 sm.
Hypothesis EQ4 : equilibrium4 tm.
Variable secondary : bool.
Hypothesis SEC : (secondary = true /\ has_secondary sm) \/ (secondary = false /\ no_secondary sm).
Notation V := (fval sm src).
Notation K := (cnt sm src).
Notation does := (does tm).
Notation boundary_slice := (boundary_slice sm tm src deepcopy str_of parse_float parse_cpx flt_of_int np_cast array_items).
Notation boundary_3to4 := (boundary_3to4 sm tm src deepcopy str_of parse_float parse_cpx flt_of_int np_cast array_items).

Definition has_axis (W : loc -> option value) (i : nat) : bool := filled W (in_slice i ["global_quantities"; "psi_axis"]%string).
Notation pts i := (map (point_data V) (critical_points V K secondary i)).
Definition after_v (i : nat) (W : loc -> option value) : loc -> option value := if has_axis V i then ov W (tree_nodes i) (pts i) else W.
Definition after_n (i : nat) (N : loc -> nat) : loc -> nat := if has_axis V i then on N (tree_nodes i) (length (pts i)) else N.

Lemma does_reads : forall A B (c : CM A) (f : A -> CM B) a W N b W' N', reads c a -> does (f a) W N b W' N' -> does (cbind c f) W N b W' N'.
Proof. intros A B c f a W N b W' N' R H s S. unfold cbind. rewrite R. apply H. auto. Qed.

Lemma slice_ok : forall i, exists nm cs, loc_ok sm (slice i) (Meta nm KStruct cs).
Proof. intros i. destruct EQ3 as ((nm & cs & L) & _). exists nm, cs. change (slice i) with (names ["time_slice"%string] ++ [Elem i]). eapply loc_ok_app; eauto. constructor. constructor. Qed.
Lemma opened_slice : forall N i, i < N (names ["time_slice"%string]) -> opened N (slice i).
Proof. intros N i LT. change (slice i) with (names ["time_slice"%string] ++ [Elem i]). apply opened_elem; auto. apply (opened_child N []), opened_nil. Qed.
Lemma has_sec : forall i, i < K (names ["time_slice"%string]) -> src_has sm src (slice i) (strs "boundary_secondary_separatrix") = secondary.
Proof.
  intros i LT. destruct (slice_ok i) as (nm & cs & L). destruct (src_look sm src Wsm Csrc _ _ L (opened_slice K i LT)) as (n' & LK & _).
  unfold src_has, source_attr, source_at. rewrite LK. remember (strs "boundary_secondary_separatrix") as x eqn:EX.
  destruct (child_meta x cs) as [c|] eqn:CM.
  - destruct SEC as [(-> & _)|(_ & NS)]; auto. exfalso. apply child_meta_Some in CM as (IC & MN).
    apply (NS i c). change (in_slice i ["boundary_secondary_separatrix"%string]) with (slice i ++ [Child (strs "boundary_secondary_separatrix")]).
    rewrite <- EX. eapply loc_ok_app; eauto. rewrite <- MN. constructor; auto. constructor.
  - destruct SEC as [(_ & HS)|(-> & _)]; auto. exfalso. destruct (HS i) as ((n1 & c1 & LP) & _).
    change (in_slice i ["boundary_secondary_separatrix"; "psi"]%string) with (slice i ++ [Child (strs "boundary_secondary_separatrix"); Child (strs "psi")]) in LP.
    apply loc_ok_split in LP as (m1 & L1 & L2). assert (m1 = Meta nm KStruct cs) as -> by (eapply (loc_ok_fun sm); [exact Wsm|exact L1|exact L]). rewrite <- EX in L2.
    apply loc_ok_child in L2 as (nm0 & cs0 & c & E & IC & MN & _). injection E; intros; subst nm0 cs0.
    assert (child_meta x cs = Some c) by (apply child_meta_iff; [assert (W1 : wf_meta (Meta nm KStruct cs)) by (eapply (loc_wf sm); [exact Wsm|exact L]); inversion W1; auto|split; auto; congruence]). congruence.
Qed.

Lemma does_slice : forall W N i, i < K (names ["time_slice"%string]) -> i < N (names ["time_slice"%string]) ->
  does (boundary_slice (slice i) (slice i)) W N tt (after_v i W) (after_n i N).
Proof.
  intros W N i LK LN. destruct NC as (NT & NS). pose proof EQ3 as (_ & Q & SO). destruct (Q i) as (Q1 & _). destruct (SO i) as (SP & _).
  pose proof (opened_slice K i LK) as OK. pose proof (opened_slice N i LN) as ON.
  assert (OI : forall p, opened K (in_slice i p)) by (intros p; apply opened_names; auto).
  unfold EqModel.boundary_slice. cbv zeta.
  destruct (src_leaf sm src str_of parse_float parse_cpx flt_of_int np_cast array_items Wsm Csrc PR NS _ FLT 0 Q1 (OI _) ltac:(discriminate)) as (R1 & _).
  eapply does_reads; [exact R1|]. unfold after_v, after_n, has_axis. destruct (filled V (in_slice i ["global_quantities"; "psi_axis"]%string)); cbn [negb]; [|apply does_ret].
  destruct (src_leaf sm src str_of parse_float parse_cpx flt_of_int np_cast array_items Wsm Csrc PR NS _ FLT 0 SP (OI _) ltac:(discriminate)) as (R2 & _).
  eapply does_reads; [exact R2|]. fold (has_primary V i).
  change (filled V (in_slice i ["boundary_separatrix"; "psi"]%string)) with (has_primary V i).
  rewrite (has_sec i LK).
  eapply does_reads with (a := has_second V secondary i).
  { unfold has_second. destruct (has_primary V i); [|intros s; reflexivity]. cbn [andb]. destruct secondary eqn:ES; [|intros s; reflexivity]. cbn [andb].
    destruct SEC as [(_ & HS)|(F & _)]; [|discriminate]. destruct (HS i) as (S2 & _).
    apply (src_leaf sm src str_of parse_float parse_cpx flt_of_int np_cast array_items Wsm Csrc PR NS _ FLT 0 S2 (OI _) ltac:(discriminate)). }
  destruct EQ4 as (_ & TN & TP). destruct (TN i) as (nm & cs & LT).
  eapply does_bind; [eapply (does_getattrs tm Wtm Stm W N ["contour_tree"; "node"]%string (slice i)); [exact LT|exact ON]|].
  change (slice i ++ names ["contour_tree"; "node"]%string) with (tree_nodes i).
  assert (OT : opened N (tree_nodes i)) by (apply (opened_names N ["contour_tree"; "node"]%string (slice i)); auto).
  eapply does_bind; [eapply (does_resize tm Wtm W N (tree_nodes i)); [exact LT|exact OT]|].
  assert (SUB : forall r dt nd, leaf_ok tm (tree_nodes i ++ [Elem 0] ++ r) dt nd -> leaf_ok (Meta nm KStruct cs) r dt nd).
  { intros r dt nd (n0 & c0 & L0). rewrite app_assoc in L0. apply loc_ok_split in L0 as (m1 & L1 & L2). exists n0, c0.
    assert (m1 = Meta nm KStruct cs) as ->; auto. eapply (loc_ok_fun tm); [auto|exact L1|]. eapply loc_ok_app; eauto. constructor. constructor. }
  destruct (TP i 0) as (T1 & (T2 & T3) & T4 & (T5 & T6)).
  pose proof (pdo_fill sm tm src deepcopy str_of parse_float parse_cpx flt_of_int np_cast array_items Wsm Wtm Stm Csrc PR NT NS W N (tree_nodes i) nm cs LT OT
    (SUB _ _ _ T1) (conj (SUB (names ["r"%string]) _ _ T2) (SUB (names ["z"%string]) _ _ T3)) (SUB _ _ _ T4) (conj (SUB (names ["levelset"; "r"]%string) _ _ T5) (SUB (names ["levelset"; "z"]%string) _ _ T6)) i OK EQ3 secondary) as P.
  cbv zeta in P. unfold pdo in P. rewrite repeat_length in P.
  apply P. intros SE. destruct SEC as [(_ & HS)|(F & _)]; [auto|congruence].
Qed.

(** ** All time slices *)
Lemma nodes_apart : forall i j l, within (tree_nodes i) l -> within (tree_nodes j) l -> i = j.
Proof. intros i j l (r & E1) (r' & E2). rewrite E1 in E2. unfold tree_nodes, in_slice, slice in E2. cbn [app] in E2. injection E2; auto. Qed.
Definition changed (js : list nat) (W W' : loc -> option value) (N N' : loc -> nat) : Prop :=
  (forall i, In i js -> has_axis V i = true -> forall r, W' (tree_nodes i ++ r) = ov W (tree_nodes i) (pts i) (tree_nodes i ++ r) /\ N' (tree_nodes i ++ r) = on N (tree_nodes i) (length (pts i)) (tree_nodes i ++ r)) /\
  (forall l, (forall i, In i js -> has_axis V i = true -> ~ within (tree_nodes i) l) -> W' l = W l /\ N' l = N l).
Lemma ov_inside : forall W W' nl p r, ov W nl p (nl ++ r) = ov W' nl p (nl ++ r).
Proof. intros. unfold ov. rewrite strip_app. reflexivity. Qed.
Lemma on_inside : forall N N' nl k r, on N nl k (nl ++ r) = on N' nl k (nl ++ r).
Proof. intros. unfold on. rewrite strip_app. reflexivity. Qed.
Lemma does_loop : forall js W N, NoDup js -> (forall i, In i js -> i < K (names ["time_slice"%string]) /\ i < N (names ["time_slice"%string])) ->
  exists W' N', does (citer (fun i => boundary_slice (slice i) (slice i)) js) W N tt W' N' /\ changed js W W' N N'.
Proof.
  induction js as [|j js IH]; intros W N ND LT.
  - exists W, N. split; [apply does_ret|]. split; [intros i []|]. auto.
  - inversion ND as [|? ? NI ND']; subst.
    assert (TS : after_n j N (names ["time_slice"%string]) = N (names ["time_slice"%string])).
    { unfold after_n. destruct (has_axis V j); auto. }
    destruct (IH (after_v j W) (after_n j N) ND') as (W' & N' & D & C1 & C2).
    { intros i I. rewrite TS. apply LT. right. auto. }
    exists W', N'. split.
    + cbn [citer]. eapply does_bind; [apply does_slice; apply LT; left; auto|exact D].
    + split.
      * intros i I H r. destruct (in_dec Nat.eq_dec i js) as [IJ|NJ].
        -- destruct (C1 i IJ H r) as (A & B). rewrite A, B. split; [apply ov_inside|apply on_inside].
        -- destruct I as [<-|I]; [|contradiction].
           destruct (C2 (tree_nodes j ++ r)) as (A & B).
           { intros i I _ WI. apply NI. rewrite (nodes_apart j i (tree_nodes j ++ r)); auto. exists r. auto. }
           rewrite A, B. unfold after_v, after_n. rewrite H. auto.
      * intros l NW. destruct (C2 l) as (A & B); [intros i I; apply NW; right; auto|]. rewrite A, B. unfold after_v, after_n.
        destruct (has_axis V j) eqn:H; auto. unfold ov, on. rewrite (proj2 (strip_none _ _) (NW j (or_introl eq_refl) H)). auto.
Qed.

(** ** The statement *)
(** the values and sizes of the source; a slice is converted if it is in both and has a value of psi on the axis *)
Definition observed (W : loc -> option value) (L : loc -> nat) : Prop :=
  (forall l v, W l = Some v <-> leaf_at sm src l v) /\ (forall l, elements sm src l (L l)).
Definition converted (W : loc -> option value) (s : cst) (i : nat) : Prop :=
  (exists k, elements sm src (names ["time_slice"%string]) k /\ i < k) /\ (exists k, elements tm (c_tree s) (names ["time_slice"%string]) k /\ i < k) /\ has_axis W i = true.

Theorem C47_contour_tree : forall W L s, observed W L -> conf tm (c_tree s) -> exists s', boundary_3to4 s = (s', Ok tt) /\ conf tm (c_tree s') /\
  (forall i, converted W s i -> elements tm (c_tree s') (tree_nodes i) (length (critical_points W L secondary i)) /\
     forall q p r v, nth_error (critical_points W L secondary i) q = Some p ->
       (leaf_at tm (c_tree s') (tree_nodes i ++ [Elem q] ++ r) v <-> point_data W p r = Some v)) /\
  (forall l v, (forall i, converted W s i -> ~ within (tree_nodes i) l) -> (leaf_at tm (c_tree s') l v <-> leaf_at tm (c_tree s) l v)) /\
  (forall l k, (forall i, converted W s i -> ~ within (tree_nodes i) l) -> (elements tm (c_tree s') l k <-> elements tm (c_tree s) l k)).
Proof.
  intros W L s (OV & OL) C.
  assert (EV : forall l, W l = V l).
  { intros l. destruct (V l) as [v|] eqn:E; [apply fval_leaf in E; auto; apply OV; auto|]. destruct (W l) as [v|] eqn:E2; auto. apply OV in E2. apply fval_leaf in E2; auto. congruence. }
  assert (EL : forall l, L l = K l) by (intros l; pose proof (OL l) as H; apply elements_cnt in H; auto).
  assert (EN : forall l, number W l = number V l) by (intros l; unfold number; rewrite EV; reflexivity).
  assert (EF : forall l, filled W l = filled V l) by (intros l; unfold filled; rewrite EV; reflexivity).
  assert (EP : forall i, critical_points W L secondary i = critical_points V K secondary i).
  { intros i. unfold critical_points, has_second, has_primary, axis, primary, first_saddle, other_saddles, limiter, axis_low. rewrite !EN, !EF, !EL, !EV. reflexivity. }
  assert (ED : forall p r, point_data W p r = point_data V p r).
  { intros p r. unfold point_data, at_point, on_line, negated. rewrite EN. destruct (pt_at p), (pt_line p); rewrite ?EV; reflexivity. }
  set (V4 := fval tm (c_tree s)). set (N4 := cnt tm (c_tree s)).
  destruct (does_loop (seq 0 (Nat.min (K (names ["time_slice"%string])) (N4 (names ["time_slice"%string])))) V4 N4) as (W' & N' & D & CH1 & CH2).
  { apply seq_NoDup. } { intros i I. apply in_seq in I. lia. }
  assert (RUN : does boundary_3to4 V4 N4 tt W' N').
  { unfold EqModel.boundary_3to4. destruct EQ3 as (TS & _). destruct EQ4 as ((n4 & c4 & T4) & _).
    assert (O3 : forall N, opened N (names ["time_slice"%string])) by (intros N; apply (opened_child N []), opened_nil).
    eapply does_reads; [apply (src_len sm src Wsm Csrc _ TS (O3 _))|].
    eapply does_bind; [eapply (does_getattr tm Wtm Stm V4 N4 []); [constructor|apply opened_nil|exact T4]|].
    eapply does_bind; [eapply (does_length tm Wtm V4 N4 (names ["time_slice"%string])); [exact T4|auto]|]. exact D. }
  destruct (RUN s (sees_start tm s C)) as (s' & E & C' & F & G).
  exists s'. split; auto. split; auto.
  assert (CV : forall i, converted W s i <-> In i (seq 0 (Nat.min (K (names ["time_slice"%string])) (N4 (names ["time_slice"%string])))) /\ has_axis V i = true).
  { intros i. unfold converted. assert (HA : has_axis W i = has_axis V i) by apply EF. rewrite HA, in_seq. split.
    - intros ((k & A & B) & (k' & A' & B') & H). apply elements_cnt in A, A'; auto. unfold N4. split; auto. lia.
    - intros (B & H). split; [exists (K (names ["time_slice"%string])); split; [apply elements_cnt; auto|lia]|]. split; auto.
      exists (N4 (names ["time_slice"%string])). split; [apply elements_cnt; auto|lia]. }
  split; [|split].
  - intros i I. apply CV in I as (I & H). split.
    + apply elements_cnt; auto. rewrite G. destruct (CH1 i I H []) as (_ & X). rewrite app_nil_r in X. rewrite X, on_here, map_length, EP. reflexivity.
    + intros q p r v NP. rewrite EP in NP. rewrite <- fval_leaf by auto. rewrite F. destruct (CH1 i I H ([Elem q] ++ r)) as (X & _). rewrite X.
      unfold ov. rewrite strip_app. cbn [app]. rewrite nth_error_map, NP. cbn [option_map]. rewrite ED. reflexivity.
  - intros l v NW. rewrite <- !fval_leaf by auto. rewrite F. destruct (CH2 l) as (X & _); [intros i I H; apply NW, CV; auto|]. rewrite X. reflexivity.
  - intros l k NW. rewrite !elements_cnt by auto. rewrite G. destruct (CH2 l) as (_ & X); [intros i I H; apply NW, CV; auto|]. rewrite X. reflexivity.
Qed.
End C47.
Print Assumptions C47_contour_tree.

(** ** Examples *)
Fixpoint walk (m : meta) (l : loc) : option meta :=
  match l with
  | [] => Some m
  | Child x :: l => match m with Meta _ KStruct cs => match child_meta x cs with Some c => walk c l | None => None end | _ => None end
  | Elem _ :: l => match m with Meta nm KAoS cs => walk (Meta nm KStruct cs) l | _ => None end
  end.
Lemma walk_ok : forall l m m', walk m l = Some m' -> loc_ok m l m'.
Proof.
  induction l as [|[x|i] l IH]; intros [nm k cs] m' H; cbn [walk] in H.
  - injection H as <-. constructor.
  - destruct k; try discriminate. destruct (child_meta x cs) as [c|] eqn:E; [|discriminate]. apply child_meta_Some in E as (I & <-). constructor; auto.
  - destruct k; try discriminate. constructor. auto.
Qed.
Ltac walked := eexists; eexists; apply walk_ok; vm_compute; reflexivity.
Definition rz (nd : nat) : list meta := [lf "r" FLT nd; lf "z" FLT nd].
Definition eq_sep (n : string) : meta := Meta (strs n) KStruct
  [lf "type" INT 0; lf "psi" FLT 0; Meta (strs "x_point") KAoS (rz 0); Meta (strs "outline") KStruct (rz 1); Meta (strs "active_limiter_point") KStruct (rz 0)].
Definition eq_v3 (more : list meta) : meta := Meta (strs "equilibrium") KStruct [Meta (strs "time_slice") KAoS
  ([Meta (strs "global_quantities") KStruct [lf "psi_axis" FLT 0; lf "psi_boundary" FLT 0; Meta (strs "magnetic_axis") KStruct (rz 0)]; eq_sep "boundary_separatrix"] ++ more)].
Definition eq_3 : meta := eq_v3 [eq_sep "boundary_secondary_separatrix"].
Definition eq_4 : meta := Meta (strs "equilibrium") KStruct [Meta (strs "time_slice") KAoS
  [lf "time" FLT 0; Meta (strs "contour_tree") KStruct [Meta (strs "node") KAoS (lf "critical_type" INT 0 :: lf "psi" FLT 0 :: rz 0 ++ [Meta (strs "levelset") KStruct (rz 1)])]]].
Definition fl (z : Z) : node := NLeaf (Some (VFlt z)).
Definition f1 : Z := 4607182418800017408%Z.  (* 1.0 *)
Definition f2 : Z := 4611686018427387904%Z.  (* 2.0 *)
Definition m1 : Z := fneg f1.
Definition m2 : Z := fneg f2.
Definition at_rz (r z : Z) : list (str * node) := [(strs "r", fl r); (strs "z", fl z)].
Definition line (r : list Z) : list (str * node) := [(strs "r", NLeaf (Some (VFltA [length r] r)))].
Definition quantities (axis_ : Z) (boundary : list Z) : str * node :=
  (strs "global_quantities", NStruct ((strs "psi_axis", fl axis_) :: map (fun b => (strs "psi_boundary", fl b)) boundary ++ [(strs "magnetic_axis", NStruct (at_rz f1 f2))])).
Definition separatrix (n : string) (psi : Z) (x : list Z) : str * node :=
  (strs n, NStruct [(strs "psi", fl psi); (strs "x_point", NAoS (map (fun a => NStruct (at_rz a f1)) x)); (strs "outline", NStruct (line [f1; f2]))]).
(** two X-points on the separatrix, one on the second; then a slice without an axis *)
Definition eq_src : node := NStruct [(strs "time_slice", NAoS
  [NStruct [quantities f1 [f2]; separatrix "boundary_separatrix" f2 [f1; f2]; separatrix "boundary_secondary_separatrix" f2 [f2]]; NStruct []])].
(** psi at the boundary is missing; at the separatrix it is higher than at the axis *)
Definition eq_src2 : node := NStruct [(strs "time_slice", NAoS [NStruct [quantities f1 []; separatrix "boundary_separatrix" f2 []]])].
Definition eq_tgt (k : nat) : cst := {| c_tree := NStruct [(strs "time_slice", NAoS (repeat (NStruct []) k))]; c_shared := [] |}.
Definition eq_run (src : node) (k : nat) : cst * result cexn unit :=
  boundary_3to4 eq_3 eq_4 src true (fun _ => []) (fun _ => None) (fun _ => None) Some ex_cast (fun _ => []) (eq_tgt k).

Definition eq_values (n : node) (ls : list loc) : list (option value) := map (fval eq_4 n) ls.
Example C47_example : let (st, r) := eq_run eq_src 2 in r = Ok tt /\
  map (cnt eq_4 (c_tree st)) [tree_nodes 0; tree_nodes 1] = [4; 0] /\
  eq_values (c_tree st) (map (fun q => tree_nodes 0 ++ [Elem q] ++ names ["critical_type"%string]) [0; 1; 2; 3]) = [Some (VInt 2); Some (VInt 1); Some (VInt 1); Some (VInt 1)] /\
  eq_values (c_tree st) (map (fun q => tree_nodes 0 ++ [Elem q] ++ names ["psi"%string]) [0; 1; 2; 3]) = [Some (VFlt m1); Some (VFlt m2); Some (VFlt m2); Some (VFlt m2)] /\
  eq_values (c_tree st) (map (fun q => tree_nodes 0 ++ [Elem q] ++ names ["r"%string]) [0; 1; 2; 3]) = [Some (VFlt f1); Some (VFlt f1); Some (VFlt f2); Some (VFlt f2)] /\
  eq_values (c_tree st) (map (fun q => tree_nodes 0 ++ [Elem q] ++ names ["levelset"; "r"]%string) [0; 1; 2; 3]) = [None; Some (VFltA [2] [f1; f2]); Some (VFltA [2] [f1; f2]); None].
Proof. vm_compute. auto 10. Qed.
Lemma eq_sep_ok : forall n more, (n = "boundary_separatrix" \/ n = "boundary_secondary_separatrix" /\ more = [eq_sep n])%string -> separatrix_ok (eq_v3 more) n.
Proof.
  intros n more [-> |(-> & ->)] i; (split; [walked|split; [walked|split; [intros j; split; walked|split; walked]]]).
Qed.
Example C47_hypotheses : wf_meta eq_3 /\ wf_meta eq_4 /\ str_ok eq_4 /\ conf eq_3 eq_src /\ stored_values eq_3 eq_src /\ casts_arrays ex_cast /\
  equilibrium3 eq_3 /\ equilibrium4 eq_4 /\ has_secondary eq_3 /\ equilibrium3 (eq_v3 []) /\ no_secondary (eq_v3 []) /\ conf eq_4 (c_tree (eq_tgt 2)) /\
  observed eq_3 eq_src (fval eq_3 eq_src) (cnt eq_3 eq_src) /\ converted eq_3 eq_4 eq_src (fval eq_3 eq_src) (eq_tgt 2) 0.
Proof.
  assert (W3 : wf_meta eq_3) by by_check. assert (W4 : wf_meta eq_4) by by_check. assert (C3 : conf eq_3 eq_src) by by_check. assert (C4 : conf eq_4 (c_tree (eq_tgt 2))) by by_check.
  split; [auto|]. split; [auto|]. split; [by_check|]. split; [auto|]. split; [apply stored_b_sound; [auto|vm_compute; reflexivity]|]. split; [apply ex_casts|].
  assert (E3 : forall more, equilibrium3 (eq_v3 more)).
  { intros more. split; [walked|]. split; [intros i; split; [walked|split; [walked|split; [split; walked|split; [walked|split; walked]]]]|]. apply eq_sep_ok; auto. }
  split; [apply E3|]. split; [split; [walked|split; [intros i; walked|]]|].
  { intros i q. split; [walked|split; [split; walked|split; [walked|split; walked]]]. }
  split; [apply eq_sep_ok; auto|]. split; [apply E3|]. split; [|split; [auto|split; [split|]]].
  - intros i m' L. change (in_slice i ["boundary_secondary_separatrix"%string]) with (slice i ++ [Child (strs "boundary_secondary_separatrix")]) in L.
    apply loc_ok_split in L as (m0 & L1 & L2). assert (Wm : wf_meta (eq_v3 [])) by by_check.
    assert (exists cs, m0 = Meta (strs "time_slice") KStruct cs /\ existsb (fun c => str_eqb (mname c) (strs "boundary_secondary_separatrix")) cs = false) as (cs & -> & NE).
    { eexists. split; [eapply (loc_ok_fun _ _ _ Wm L1); apply walk_ok; vm_compute; reflexivity|]. vm_compute. reflexivity. }
    apply loc_ok_child in L2 as (nm0 & cs0 & c & E & IC & MN & _). inversion E as [[E1 E2]]. subst cs0.
    assert (T : existsb (fun c => str_eqb (mname c) (strs "boundary_secondary_separatrix")) cs = true).
    { apply existsb_exists. exists c. split; auto. rewrite MN. apply str_eqb_refl. }
    congruence.
  - intros l v. apply fval_leaf; auto.
  - intros l. apply elements_cnt; auto.
  - split; [exists 2; split; [apply elements_cnt; auto|lia]|]. split; [exists 2; split; [apply elements_cnt; auto|lia]|]. vm_compute. reflexivity.
Qed.

(** Not true: the axis is marked as a minimum of psi only if psi is lower there than at the separatrix.  If psi_boundary is missing from the
    source, the comparison uses the value of an empty node; the axis always counts as a minimum, whatever psi at the separatrix says. *)
Theorem C47_axis_kind_refuted : exists st a b, eq_run eq_src2 1 = (st, Ok tt) /\
  leaf_at eq_4 (c_tree st) (tree_nodes 0 ++ [Elem 0] ++ names ["psi"%string]) (VFlt a) /\ leaf_at eq_4 (c_tree st) (tree_nodes 0 ++ [Elem 1] ++ names ["psi"%string]) (VFlt b) /\
  flt_lt b a = true /\ leaf_at eq_4 (c_tree st) (tree_nodes 0 ++ [Elem 0] ++ names ["critical_type"%string]) (VInt 0).
Proof.
  destruct (eq_run eq_src2 1) as (st, r) eqn:E. assert (C : conf eq_4 (c_tree st)) by (vm_compute in E; injection E as <- _; by_check). assert (W4 : wf_meta eq_4) by by_check.
  exists st, m1, m2. rewrite <- !fval_leaf by auto. vm_compute in E. injection E as <- <-. repeat split; vm_compute; reflexivity.
Qed.
Print Assumptions C47_axis_kind_refuted.
(** What is true: with psi on the axis and at the boundary in the source, the axis is a minimum exactly if psi, in the convention of version 4, is lower there. *)
Theorem C47_axis_kind : forall V i a b, V (in_slice i ["global_quantities"; "psi_axis"]%string) = Some (VFlt a) -> V (in_slice i ["global_quantities"; "psi_boundary"]%string) = Some (VFlt b) ->
  forall K secondary, nth_error (critical_points V K secondary i) 0 = Some (axis V i) /\
  (point_data V (axis V i) (names ["critical_type"%string]) = Some (VInt 0) <-> flt_lt (fneg a) (fneg b) = true) /\
  (point_data V (axis V i) (names ["critical_type"%string]) = Some (VInt 2) <-> flt_lt (fneg a) (fneg b) = false).
Proof.
  intros V i a b A B K secondary. split; [reflexivity|]. unfold axis, axis_low, number. rewrite A, B.
  destruct (flt_lt (fneg a) (fneg b)); split; split; intros H; try reflexivity; try discriminate.
Qed.
Print Assumptions C47_axis_kind.
