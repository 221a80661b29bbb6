(** The two maps of a pair of versions fit their metadata. *)
From Verif Require Import Base DataTypeModel PathModel PathSpec PathProofs3 TreeModel TreeSpec ConvSpec ConvProofs3 ConvProofs4 ConvProgress ConvProps ConvProps7 ConvProps8 ConvMaps.
From Verif Require VmapModel VmapProofs VmapProofs2 VmapProofs3 VmapProofs4.
From Verif Require Import VmapSpec EndSpec EndProofs EndProofs2.
From Coq Require Import Permutation.
Import VmapModel(fields, e_path, e_type, elem, nmap, maps, o2n, n2o, build_map).

Section Versions.
Variables (sm tm : meta) (old new : fields) (v : Z).
Hypothesis Cond : VmapProofs4.conditions old new v.
Hypothesis Hsame : same_quantity old new v.
Hypothesis Hins : types_inside old new v.
Hypothesis Wsm : wf_meta sm.
Hypothesis Wtm : wf_meta tm.
Hypothesis Ds : described sm old.
Hypothesis Dt : described tm new.
Notation origin := (origin old new v).
Notation moved := (moved old new v).
Definition corrb (p q : list str) (b : bool) : Prop :=
  p <> [] /\ q <> [] /\ (exists m, at_path sm p m) /\ (exists mt, at_path tm q mt) /\ origin (slashed q) (slashed p) b.
Definition back (q p : list str) (b : bool) : Prop := corrb p q b.

Let Wo : wf_fields old. Proof. apply Cond. Qed.
Let Wn : wf_fields new. Proof. apply Cond. Qed.
Let Hplain : plain_names new v. Proof. apply Cond. Qed.
Let Hone : one_successor old new v. Proof. apply Cond. Qed.
Let Hcap : no_capture old new v. Proof. apply Cond. Qed.

Lemma origin_plain : forall y P b, origin y P b -> no_slash y -> no_slash P.
Proof.
  intros y P b O N. inversion O as [n H1 H2|n prev H1 H2 H3|q p b' n H1 H2 H3|q p b' n prev H1 H2 H3 H4]; subst.
  - exact N.
  - eapply Hplain; eauto.
  - exfalso. exact (VmapProofs.not_plain _ _ N).
  - exfalso. exact (VmapProofs.not_plain _ _ N).
Qed.
Lemma origin_up : forall Q y P b, origin (Q ++ slash :: y) P b -> no_slash y ->
  exists P0 n b0, P = P0 ++ slash :: n /\ no_slash n /\ origin Q P0 b0 /\ (b0 = true -> b = true).
Proof.
  intros Q y P b O N. inversion O as [n H1 H2 E1 E2|n prev H1 H2 H3 E1 E2|q p b' n H1 H2 H3 E1 E2|q p b' n prev H1 H2 H3 H4 E1 E2].
  - exfalso. subst n. exact (VmapProofs.not_plain _ _ H1).
  - exfalso. subst n. exact (VmapProofs.not_plain _ _ H1).
  - destruct (VmapProofs.split_unique _ _ _ _ H2 N E1) as (-> & ->). exists p, y, b. auto.
  - destruct (VmapProofs.split_unique _ _ _ _ H2 N E1) as (-> & ->). exists p, prev, b'. split; auto. split; auto. eapply Hplain; eauto.
Qed.
Lemma corrb_up : forall p q b, corrb p q b -> exists p' x q' y, p = p' ++ [x] /\ q = q' ++ [y] /\
  ((p' = [] /\ q' = []) \/ exists b0, corrb p' q' b0 /\ (b0 = true -> b = true)).
Proof.
  intros p q b (N & M & (m & A) & (mt & B) & O).
  destruct p as [|x p'] using rev_ind; [congruence|]. destruct q as [|y q'] using rev_ind; [congruence|]. clear IHp' IHq'.
  exists p', x, q', y. split; auto. split; auto.
  assert (Fp := ds_names _ _ Ds _ _ A). assert (Fq := ds_names _ _ Dt _ _ B). apply Forall_app in Fp as (_ & Fx). apply Forall_app in Fq as (_ & Fy).
  assert (Nx : no_slash x) by (apply name_no_slash; inversion Fx; auto). assert (Ny : no_slash y) by (apply name_no_slash; inversion Fy; auto). clear Fx Fy.
  destruct q' as [|y0 q'].
  - left. split; auto. destruct p' as [|x0 p']; auto. exfalso. cbn [app] in O. assert (E : slashed [y] = y) by reflexivity. rewrite E in O.
    apply origin_plain in O; auto. change (x0 :: p' ++ [x]) with ((x0 :: p') ++ [x]) in O. rewrite slashed_snoc in O by discriminate. exact (VmapProofs.not_plain _ _ O).
  - right. remember (y0 :: q') as q0 eqn:E0. assert (N0 : q0 <> []) by (subst; discriminate). clear E0 y0 q'.
    rewrite (slashed_snoc q0) in O by auto. destruct (origin_up _ _ _ _ O Ny) as (P0 & n & b0 & E & Nn & O' & I).
    destruct p' as [|x0 p']; [exfalso; cbn in E; rewrite E in Nx; exact (VmapProofs.not_plain _ _ Nx)|].
    remember (x0 :: p') as p0 eqn:E0. assert (N1 : p0 <> []) by (subst; discriminate). clear E0 x0 p'.
    rewrite slashed_snoc in E by auto. destruct (VmapProofs.split_unique _ _ _ _ Nx Nn E) as (<- & <-).
    exists b0. split; auto. split; auto. split; auto. split; [eapply at_path_prefix; eauto|]. split; [eapply at_path_prefix; eauto|auto].
Qed.

Lemma exists_old : forall p m, at_path sm p m -> p <> [] -> exists_in old (slashed p).
Proof. intros p m A N. destruct (ds_field _ _ Ds p m A N) as (e & H). exists e. exact H. Qed.
Lemma exists_new : forall p m, at_path tm p m -> p <> [] -> exists_in new (slashed p).
Proof. intros p m A N. destruct (ds_field _ _ Dt p m A N) as (e & H). exists e. exact H. Qed.
Lemma at_old : forall k, exists_in old k -> exists p m, p <> [] /\ at_path sm p m /\ k = slashed p.
Proof. intros k (e & I & <-). destruct (ds_meta _ _ Ds e I) as (p & m & N & A & E & _). eauto. Qed.
Lemma at_new : forall k, exists_in new k -> exists p m, p <> [] /\ at_path tm p m /\ k = slashed p.
Proof. intros k (e & I & <-). destruct (ds_meta _ _ Dt e I) as (p & m & N & A & E & _). eauto. Qed.
Lemma corrb_moved : forall p q, corrb p q true -> moved (slashed p) (slashed q).
Proof. intros p q (N & M & (m & A) & (mt & B) & O). split; [eapply exists_old; eauto|]. split; [eapply exists_new; eauto|auto]. Qed.
Lemma inj_s : forall p p' m m', at_path sm p m -> at_path sm p' m' -> slashed p = slashed p' -> p = p'.
Proof. intros p p' m m' A A' E. exact (slashed_inj _ _ (ds_names _ _ Ds _ _ A) (ds_names _ _ Ds _ _ A') E). Qed.
Lemma inj_t : forall p p' m m', at_path tm p m -> at_path tm p' m' -> slashed p = slashed p' -> p = p'.
Proof. intros p p' m m' A A' E. exact (slashed_inj _ _ (ds_names _ _ Dt _ _ A) (ds_names _ _ Dt _ _ A') E). Qed.

(** a path that stays is not the old path of anything else *)
Lemma unmoved_old : forall k, origin k k false -> exists_in new k -> forall q, ~ moved k q.
Proof.
  intros k O N q M. destruct (proj2 Hcap _ _ M N) as (p' & (_ & _ & O')). destruct (VmapProofs.origin_fun old new v Wn _ _ _ O _ _ O') as (_ & X). discriminate.
Qed.
Lemma unmoved_new : forall k, origin k k false -> forall p, ~ moved p k.
Proof. intros k O p (_ & _ & O'). destruct (VmapProofs.origin_fun old new v Wn _ _ _ O _ _ O') as (_ & X). discriminate. Qed.
Lemma corrb_inj : forall p p' q b b', corrb p q b -> corrb p' q b' -> p = p' /\ b = b'.
Proof.
  intros p p' q b b' (N & M & (m & A) & (mt & B) & O) (N' & _ & (m' & A') & _ & O').
  destruct (VmapProofs.origin_fun old new v Wn _ _ _ O _ _ O') as (E & ->). split; auto. eapply inj_s; eauto.
Qed.
Lemma corrb_fun : forall p q q' b b', corrb p q b -> corrb p q' b' -> q = q'.
Proof.
  intros p q q' b b' C C'. assert (D := C). assert (D' := C'). destruct C as (N & M & (m & A) & (mt & B) & O), C' as (_ & M' & _ & (mt' & B') & O').
  eapply inj_t; eauto. destruct b, b'.
  - exact (Hone _ _ _ (corrb_moved _ _ D) (corrb_moved _ _ D')).
  - exfalso. assert (E := origin_unmoved old new v _ _ O'). rewrite E in O'.
    apply (unmoved_old _ O' ltac:(rewrite <- E; eapply exists_new; eauto) _ (corrb_moved _ _ D)).
  - exfalso. assert (E := origin_unmoved old new v _ _ O). rewrite E in O.
    apply (unmoved_old _ O ltac:(rewrite <- E; eapply exists_new; eauto) _ (corrb_moved _ _ D')).
  - rewrite (origin_unmoved old new v _ _ O), (origin_unmoved old new v _ _ O'). reflexivity.
Qed.

Variable order : list str -> list str.
Variable s : maps.
Hypothesis Ord : forall l, Permutation (order l) l.
Hypothesis Built : build_map order old new v = Ok s.
Notation old_moved := (VmapProofs3.old_moved old new v).
Notation new_moved := (VmapProofs3.new_moved old new v).
Notation retyped := (VmapProofs3.retyped old new v).

Lemma entries : (forall q x, VmapProofs2.entry (n2o s) q = Some x <-> (exists p, x = Some p /\ moved p q) \/ (x = None /\ (retyped q \/ lost_top new old new_moved q)))
  /\ (forall p x, VmapProofs2.entry (o2n s) p = Some x <-> (exists q, x = Some q /\ moved p q) \/ (x = None /\ (retyped p \/ lost_top old new old_moved p))).
Proof. destruct Cond as (C1 & C2 & C3 & C4 & C5 & C6 & C7 & C8). eapply VmapProofs3.build_exact; eauto. Qed.
Lemma rules : (forall k, typed (o2n s) k -> old_changes old new v k) /\ (forall k, typed (n2o s) k -> new_changes old new v k) /\
  (forall a e, In a old -> In e new -> (exists b, origin (e_path e) (e_path a) b) -> same_type a e \/ (typed (o2n s) (e_path a) /\ typed (n2o s) (e_path e))).
Proof.
  destruct Cond as (C1 & C2 & C3 & C4 & C5 & C6 & C7 & C8). destruct (rules_exact old new v C1 C2 C3 C4 C5 C6 C7 Hsame Hins C8 order s Ord Built) as (R1 & R2 & R3).
  split; [|split; auto].
  - intros k T. destruct (R1 k T) as (e & b & I & O & H). exists (e_path e), e, b. auto.
  - intros k T. destruct (R2 k T) as (e & p & b & I & E & O & H). exists p, e, b. auto.
Qed.
Lemma retyped_changes : forall k, retyped k -> changes_to old new v k k.
Proof.
  intros k ((a & b & Ia & Ib & Ea & Eb & NS) & NO & NN). exists b, false. split; auto. split; auto. split.
  - apply Hsame; [exists a; auto|exists b; auto|]. intros q M. apply NO. exists q. exact M.
  - right. exists a. split; auto.
Qed.
Lemma kinds_of : forall p q b, corrb p q b -> exists m mt, at_path sm p m /\ at_path tm q mt /\ (mkind mt = mkind m \/ (rule_at (o2n s) p /\ rule_at (n2o s) q)).
Proof.
  intros p q b (N & M & (m & A) & (mt & B) & O). exists m, mt. split; auto. split; auto.
  destruct (ds_field _ _ Ds p m A N) as (a & Ia & Ea). destruct (ds_field _ _ Dt q mt B M) as (e & Ie & Ee).
  destruct (proj2 (proj2 rules) a e Ia Ie) as [(t & T1 & T2)|H]; [exists b; rewrite Ea, Ee; exact O| |right; rewrite Ea, Ee in H; exact H].
  left. destruct (ds_meta _ _ Ds a Ia) as (p1 & m1 & N1 & A1 & E1 & X1). destruct (ds_meta _ _ Dt e Ie) as (q1 & mt1 & M1 & B1 & F1 & Y1).
  assert (p = p1) as <- by (eapply inj_s; eauto; congruence). assert (q = q1) as <- by (eapply inj_t; eauto; congruence).
  assert (m1 = m) as -> by (exact (at_path_fun sm p _ _ Wsm A1 A)). assert (mt1 = mt) as -> by (exact (at_path_fun tm q _ _ Wtm B1 B)). apply type_of_inj. congruence.
Qed.

Lemma up_old : forall p x q b, corrb (p ++ [x]) q b -> exists q' y, q = q' ++ [y] /\ ((p = [] /\ q' = []) \/ exists b0, corrb p q' b0 /\ (b0 = true -> b = true)).
Proof. intros p x q b C. destruct (corrb_up _ _ _ C) as (p' & x' & q' & y & E & -> & H). apply app_inj_tail in E as (-> & _). eauto. Qed.
Lemma up_new : forall q y p b, back (q ++ [y]) p b -> exists p' x, p = p' ++ [x] /\ ((q = [] /\ p' = []) \/ exists b0, back q p' b0 /\ (b0 = true -> b = true)).
Proof.
  intros q y p b C. destruct (corrb_up _ _ _ C) as (p' & x' & q' & y' & -> & E & H). apply app_inj_tail in E as (-> & _). exists p', x'. split; auto.
  destruct H as [(-> & ->)|H]; [auto|]. right. exact H.
Qed.
Lemma go_old : forall p m t, at_path sm p m -> p <> [] -> moved (slashed p) t -> exists q, t = slashed q /\ corrb p q true.
Proof. intros p m t A N (_ & E & O). destruct (at_new t E) as (q & mt & M & B & ->). exists q. split; auto. repeat split; eauto. Qed.
Lemma go_new : forall q mt t, at_path tm q mt -> q <> [] -> moved t (slashed q) -> exists p, t = slashed p /\ back q p true.
Proof. intros q m t A N (E & _ & O). destruct (at_old t E) as (p & mt & M & B & ->). exists p. split; auto. repeat split; eauto. Qed.
Lemma stay_old : forall p q, corrb p q false -> p = q /\ ~ renamed moved (slashed p).
Proof.
  intros p q (N & M & (m & A) & (mt & B) & O). assert (E := origin_unmoved old new v _ _ O).
  assert (p = q). { symmetry. exact (slashed_inj _ _ (ds_names _ _ Dt _ _ B) (ds_names _ _ Ds _ _ A) E). } subst q. split; auto.
  intros (t & MV). eapply (unmoved_old _ O); eauto. eapply exists_new; eauto.
Qed.
Lemma stay_new : forall q p, back q p false -> q = p /\ ~ renamed (fun a b => moved b a) (slashed q).
Proof.
  intros q p C. assert (C' := C). apply stay_old in C' as (-> & _). split; auto. destruct C as (_ & _ & _ & _ & O). intros (t & MV). eapply (unmoved_new _ O); eauto.
Qed.
Lemma keep_old : forall p m, at_path sm p m -> p <> [] -> exists_in new (slashed p) -> ~ renamed moved (slashed p) -> corrb p p false.
Proof.
  intros p m A N E NR. assert (O : origin (slashed p) (slashed p) false).
  { apply Hsame; auto; [eapply exists_old; eauto|]. intros q M. apply NR. exists q. exact M. }
  destruct (at_new _ E) as (q & mt & M & B & Eq). assert (p = q) as <- by exact (slashed_inj _ _ (ds_names _ _ Ds _ _ A) (ds_names _ _ Dt _ _ B) Eq).
  repeat split; eauto.
Qed.
Lemma keep_new : forall q mt, at_path tm q mt -> q <> [] -> exists_in old (slashed q) -> ~ renamed (fun a b => moved b a) (slashed q) -> back q q false.
Proof.
  intros q m A N E NR.
  destruct (at_old _ E) as (p & mt & M & B & Eq). assert (q = p) as <- by exact (slashed_inj _ _ (ds_names _ _ Dt _ _ A) (ds_names _ _ Ds _ _ B) Eq).
  apply (keep_old q mt); auto; [eapply exists_new; eauto|]. intros (t & MV). destruct (proj2 Hcap _ _ MV ltac:(eapply exists_new; eauto)) as (p' & M').
  apply NR. exists p'. exact M'.
Qed.
Hypothesis Ksm : mkind sm = KStruct.
Hypothesis Ktm : mkind tm = KStruct.
Lemma at_old_new : forall p q b, corrb p q b -> p <> [] /\ q <> [] /\ exists m mt, at_path sm p m /\ at_path tm q mt /\ (mkind mt = mkind m \/ rule_at (o2n s) p).
Proof. intros p q b C. destruct (kinds_of _ _ _ C) as (m & mt & A & B & K). destruct C as (N & M & _). split; auto. split; auto. exists m, mt. tauto. Qed.
Lemma at_new_old : forall q p b, back q p b -> q <> [] /\ p <> [] /\ exists m mt, at_path tm q m /\ at_path sm p mt /\ (mkind mt = mkind m \/ rule_at (n2o s) q).
Proof.
  intros q p b C. destruct (kinds_of _ _ _ C) as (m & mt & A & B & K). destruct C as (N & M & _). split; auto. split; auto. exists mt, m. intuition auto.
Qed.
Let Hinj : forall p p' q, corr corrb p q -> corr corrb p' q -> p = p'.
Proof. intros p p' q (b & C) (b' & C'). apply (corrb_inj _ _ _ _ _ C C'). Qed.
Let Hfun : forall p q q', corr corrb p q -> corr corrb p q' -> q = q'.
Proof. intros p q q' (b & C) (b' & C'). exact (corrb_fun _ _ _ _ _ C C'). Qed.
Theorem old_fits : fits sm tm (o2n s) /\ structures_ok sm tm (o2n s).
Proof.
  split; [eapply (half_fits sm tm old new (o2n s) corrb moved retyped)|eapply (half_structures sm tm old new (o2n s) corrb moved retyped)]; auto;
    first [exact at_old_new|apply entries|exact go_old|exact corrb_moved|exact stay_old|exact up_old|exact keep_old|intros p q M; apply M].
Qed.
Theorem new_fits : fits tm sm (n2o s) /\ structures_ok tm sm (n2o s).
Proof.
  split; [eapply (half_fits tm sm new old (n2o s) back (fun a b => moved b a) retyped)|eapply (half_structures tm sm new old (n2o s) back (fun a b => moved b a) retyped)]; auto;
    first [exact at_new_old|apply entries|exact go_new|exact (fun q p => corrb_moved p q)|exact stay_new|exact up_new|exact keep_new|intros p q M; apply M
          |intros p p' q (b & C) (b' & C'); exact (corrb_fun _ _ _ _ _ C C')|intros p q q' (b & C) (b' & C'); exact (proj1 (corrb_inj _ _ _ _ _ C C'))].
Qed.
Theorem old_mapped : forall p q m, at_path sm p m -> p <> [] -> Forall is_name q -> (~ removed (o2n s) p /\ mapped (o2n s) p q) <-> (corr corrb p q /\ ~ removed (o2n s) p).
Proof.
  eapply (half_mapped sm tm old new (o2n s) corrb moved retyped); auto;
    first [exact at_old_new|apply entries|exact go_old|exact corrb_moved|exact stay_old|exact up_old|exact keep_old|intros p q M; apply M].
Qed.
Theorem new_mapped : forall q p m, at_path tm q m -> q <> [] -> Forall is_name p -> (~ removed (n2o s) q /\ mapped (n2o s) q p) <-> (corr back q p /\ ~ removed (n2o s) q).
Proof.
  eapply (half_mapped tm sm new old (n2o s) back (fun a b => moved b a) retyped); auto;
    first [exact at_new_old|apply entries|exact go_new|exact (fun q p => corrb_moved p q)|exact stay_new|exact up_new|exact keep_new|intros p q M; apply M].
Qed.
(** what is removed although it has a counterpart changes its type *)
Theorem old_removed : forall p q, removed (o2n s) p -> corr corrb p q -> exists a b, p = a ++ b /\ a <> [] /\ changes_to old new v (slashed a) (slashed a).
Proof.
  intros p q R C. destruct (removed_why sm tm old new (o2n s) corrb moved retyped Dt at_old_new (proj2 entries) corrb_moved stay_old up_old p R) as (a & b & E & N & T); eauto.
  exists a, b. split; auto. split; auto. apply retyped_changes. exact T.
Qed.
Theorem new_removed : forall q p, removed (n2o s) q -> corr back q p -> exists a b, q = a ++ b /\ a <> [] /\ changes_to old new v (slashed a) (slashed a).
Proof.
  intros q p R C. destruct (removed_why tm sm new old (n2o s) back (fun a b => moved b a) retyped Ds at_new_old (proj1 entries) (fun q p => corrb_moved p q) stay_new up_new q R) as (a & b & E & N & T); eauto.
  exists a, b. split; auto. split; auto. apply retyped_changes. exact T.
Qed.
(** a part of a path corresponds to a part of the other *)
Lemma up_old_all : forall p r q b, p <> [] -> corrb (p ++ r) q b -> exists q' r' b0, q = q' ++ r' /\ corrb p q' b0.
Proof. intros p r q b N C. destruct (up_all corrb up_old r p q b N C) as (q' & r' & E & b0 & C0 & _). eauto. Qed.
Lemma up_new_all : forall q r p b, q <> [] -> corrb p (q ++ r) b -> exists p' r' b0, p = p' ++ r' /\ corrb p' q b0.
Proof. intros q r p b N C. destruct (up_all back up_new r q p b N C) as (p' & r' & E & b0 & C0 & _). eauto. Qed.
Lemma corrb_iff : forall p q, (exists m, at_path sm p m) -> (exists mt, at_path tm q mt) -> p <> [] -> q <> [] ->
  corr corrb p q <-> counterpart old new v (slashed p) (slashed q).
Proof.
  intros p q (m & A) (mt & B) N M. split.
  - intros (b & C). destruct C as (_ & _ & _ & _ & O). split; [eapply exists_old; eauto|]. split; [eapply exists_new; eauto|eauto].
  - intros (_ & _ & b & O). exists b. repeat split; eauto.
Qed.
End Versions.
