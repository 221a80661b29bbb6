(** From the maps of a pair of versions to the values that a conversion keeps. *)
From Verif Require Import Base PathModel PathSpec PathProofs3 TreeModel TreeSpec TreeProofs TreeProofs4 ValProofs PrimModel ConvModel ConvSpec ConvProofs ConvProofs2 ConvProofs3 ConvProofs4 ConvProofs5 ConvProgress ConvProps ConvProps7 ConvProps8 ConvMaps.
From Verif Require VmapModel VmapProofs VmapProofs2 VmapProofs3 VmapProofs4.
From Verif Require Import VmapSpec EndSpec EndProofs EndProofs2 EndProofs3.
From Coq Require Import Permutation.
Import VmapModel(fields, e_path, e_type, elem, nmap, maps, o2n, n2o, build_map, m_post_ids).

(** ** The rules of [build_map] are rules for paths, not for the IDS as a whole *)
Definition quiet (s : maps) : Prop := m_post_ids (o2n s) = [] /\ m_post_ids (n2o s) = [].
Lemma add_rename_quiet : forall op np p q s s', VmapModel.add_rename op np p q s = Ok s' -> quiet s -> quiet s'.
Proof.
  unfold VmapModel.add_rename. intros op np p q s s' H Q. destruct (alookup p op) as [oi|]; [|discriminate]. destruct (alookup q np) as [ni|]; [|discriminate].
  destruct (VmapModel.get_tbp ni np); [|discriminate]. cbn in H. destruct (VmapModel.get_ctxpath q np); [|discriminate]. cbn in H.
  destruct (VmapModel.get_tbp oi op); [|discriminate]. cbn in H. destruct (VmapModel.get_ctxpath p op); [|discriminate]. cbn in H. inversion H; subst. exact Q.
Qed.
Lemma add_below_quiet : forall op np p q ps s s', VmapModel.add_below op np p q ps s = Ok s' -> quiet s -> quiet s'.
Proof.
  intros op np p q. induction ps as [|k ps IH]; intros s s' A Q; cbn [VmapModel.add_below] in A; [inversion A; subst; auto|].
  destruct (ValModel.starts_with p k && VmapModel.has (VmapModel.replace_prefix p q k) np); [|eapply IH; eauto].
  destruct (VmapModel.add_rename op np k (VmapModel.replace_prefix p q k) s) as [s1|] eqn:E; [|discriminate]. cbn in A. eapply IH; eauto. eapply add_rename_quiet; eauto.
Qed.
Lemma check_quiet : forall a b s t s', VmapModel.check_data_type a b s = Ok (t, s') -> quiet s -> quiet s'.
Proof.
  unfold VmapModel.check_data_type. intros a b s t s' H Q.
  repeat match type of H with
  | (if ?c then _ else _) = _ => destruct c
  | match ?c with _ => _ end = _ => destruct c
  | rbind ?c _ = _ => destruct c; cbn [rbind] in H
  | Err _ = Ok _ => discriminate
  end; inversion H; subst; exact Q.
Qed.
Lemma step_quiet : forall op np v e s s', VmapModel.nbc_step op np v e s = Ok s' -> quiet s -> quiet s'.
Proof.
  unfold VmapModel.nbc_step. intros op np v e s s' H Q.
  destruct (VmapModel.e_nbc e) as [n|]; [|inversion H; subst; auto]. cbn zeta in H.
  destruct (VmapModel.n_versions n) as [| |vs]; [discriminate|inversion H; subst; auto|].
  destruct (negb (VmapModel.sortedZ vs)); [discriminate|]. destruct (last vs 0 <=? v)%Z; [inversion H; subst; auto|].
  destruct (VmapModel.one_of _ (VmapModel.n_desc n)).
  - destruct (VmapModel.n_prev n) as [names|]; [|discriminate]. destruct (negb (length names =? length vs)); [discriminate|].
    destruct (VmapModel.select_name v vs names) as [prev|]; [|discriminate].
    destruct (VmapModel.get_old_path np _ prev s) as [p|]; [|discriminate]. cbn [rbind] in H.
    destruct (alookup p op) as [oi|]; [|inversion H; subst; auto].
    destruct (VmapModel.check_data_type oi e s) as [[t s1]|] eqn:K; [|discriminate]. cbn [rbind] in H. apply check_quiet in K; auto.
    destruct t; [|inversion H; subst; auto].
    destruct (VmapModel.add_rename op np p _ s1) as [s2|] eqn:R; [|discriminate]. cbn [rbind] in H. apply add_rename_quiet in R; auto.
    destruct (VmapModel.is_structure oi); [eapply add_below_quiet; eauto|inversion H; subst; auto].
  - repeat (destruct (VmapModel.one_of _ (VmapModel.n_desc n)); [first [inversion H; subst; exact Q|
      destruct (VmapModel.process_parent_renames np _ s) as [p|]; [|discriminate]; cbn [rbind] in H; inversion H; subst; exact Q]|]).
    inversion H; subst; exact Q.
Qed.
Lemma map_missing_quiet : forall l m, m_post_ids (VmapModel.map_missing l m) = m_post_ids m.
Proof.
  intros l m. unfold VmapModel.map_missing. generalize (VmapModel.skip_loop (VmapModel.parents_of_keys m) (VmapModel.sort_paths l) []). intros k. revert m.
  induction k as [|x k IH]; intros m; [reflexivity|]. cbn [fold_left]. rewrite IH. reflexivity.
Qed.
Theorem build_quiet : forall order old new v s, build_map order old new v = Ok s -> quiet s.
Proof.
  unfold build_map. intros order old new v s H.
  destruct (VmapModel.nbc_loop _ _ v new {| o2n := VmapModel.empty_map; n2o := VmapModel.empty_map |}) as [s1|] eqn:L; [|discriminate]. cbn [rbind] in H.
  assert (Q1 : quiet s1).
  { assert (G : forall op np l s0 s1, VmapModel.nbc_loop op np v l s0 = Ok s1 -> quiet s0 -> quiet s1).
    { intros op np. induction l as [|e l IH]; intros s0 s2 E Q; cbn [VmapModel.nbc_loop] in E; [inversion E; subst; auto|].
      destruct (VmapModel.nbc_step op np v e s0) as [s3|] eqn:K; [|discriminate]. cbn [rbind] in E. eapply IH; eauto. eapply step_quiet; eauto. }
    eapply G; eauto. split; reflexivity. }
  destruct (VmapModel.common_loop _ _ _ s1) as [s2|] eqn:K; [|discriminate]. cbn [rbind] in H.
  assert (Q2 : quiet s2).
  { assert (G : forall op np l s0 s2, VmapModel.common_loop op np l s0 = Ok s2 -> quiet s0 -> quiet s2).
    { intros op np. induction l as [|e l IH]; intros s0 s3 E Q; cbn [VmapModel.common_loop] in E; [inversion E; subst; auto|].
      destruct (VmapModel.in_map e (n2o s0) || VmapModel.in_map e (o2n s0)); [eapply IH; eauto|].
      destruct (alookup e op) as [oi|]; [|discriminate]. destruct (alookup e np) as [ni|]; [|discriminate].
      destruct (VmapModel.check_data_type oi ni s0) as [[t s4]|] eqn:C; [|discriminate]. cbn [rbind] in E. eapply IH; eauto. eapply check_quiet; eauto. }
    eapply G; eauto. }
  inversion H; subst. unfold quiet, VmapModel.on_o2n, VmapModel.on_n2o. cbn [o2n n2o]. rewrite !map_missing_quiet. exact Q2.
Qed.

(** ** What a conversion keeps *)
(** location t of the target is the place of location s of the source, when C relates the paths of the two versions *)
Definition stands_for (tm : meta) (C : str -> str -> Prop) (s t : loc) : Prop :=
  C (slashed (loc_names s)) (slashed (loc_names t)) /\ loc_idx s = loc_idx t /\ ~ is_elem t /\ exists mt, loc_ok tm t mt.
(** nothing that is filled is inside something that changes in another way than its path *)
Definition untouched (sm : meta) (src : node) (ch : str -> Prop) : Prop :=
  forall s, (exists v, leaf_at sm src s v) \/ (exists k, aos_at sm src s k) -> forall a b, loc_names s = a ++ b -> a <> [] -> ~ ch (slashed a).

Section Bridge.
Variables (sm tm : meta) (src : node) (rm : nmap) (C : str -> str -> Prop) (ch : str -> Prop).
Hypothesis V : versions_ok sm tm rm.
Hypothesis Hmap : forall p q m mt, at_path sm p m -> at_path tm q mt -> p <> [] -> q <> [] -> ~ removed rm p -> (mapped rm p q <-> C (slashed p) (slashed q)).
Hypothesis Hrem : forall p q m mt, at_path sm p m -> at_path tm q mt -> p <> [] -> q <> [] -> removed rm p -> C (slashed p) (slashed q) ->
  exists a b, p = a ++ b /\ a <> [] /\ ch (slashed a).
Hypothesis Hrule : forall p, rule_at rm p -> ch (slashed p).
Hypothesis Hempty : forall p, C p [] -> False.
Hypothesis U : untouched sm src ch.

Lemma bridge_rules : no_rules sm src rm.
Proof. intros s PR (a & b & E & N & R). exact (U s PR a b E N (Hrule _ R)). Qed.
Lemma bridge_goes : forall s t, (exists v, leaf_at sm src s v) \/ (exists k, aos_at sm src s k) ->
  (~ removed rm (loc_names s) /\ goes_to tm rm s t) <-> stands_for tm C s t.
Proof.
  intros s t PR. destruct V as (W1 & W2 & K1 & K2 & SO & F).
  destruct (present_meta sm tm src W1 K1 K2 s PR) as (m' & n' & N & K & NE & NN & NNN & AP & L).
  split.
  - intros (NR & G). pose proof G as (M & I & NT & mt & LT). pose proof (loc_at_path _ _ _ LT NT) as B.
    assert (QN : loc_names t <> []).
    { destruct (ft_target _ _ _ F _ _ AP NNN NR (not_ruled_above rm _ (bridge_rules _ PR)) (or_introl K)) as (q & mq & MP & QN & AQ & _).
      assert (q = loc_names t) as <-; auto. eapply mapped_fun; eauto. }
    split; [|split; [exact I|split; eauto]]. apply (Hmap _ _ _ _ AP B NNN QN NR). exact M.
  - intros (CC & I & NT & mt & LT). pose proof (loc_at_path _ _ _ LT NT) as B.
    assert (QN : loc_names t <> []) by (intros E; rewrite E in CC; exact (Hempty _ CC)).
    assert (NR : ~ removed rm (loc_names s)).
    { intros R. destruct (Hrem _ _ _ _ AP B NNN QN R CC) as (a & b & E & NA & CH). exact (U s PR a b E NA CH). }
    split; auto. split; [|split; [exact I|split; eauto]]. apply (Hmap _ _ _ _ AP B NNN QN NR). exact CC.
Qed.
End Bridge.
