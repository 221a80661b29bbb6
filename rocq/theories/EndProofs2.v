(** The map of two versions agrees with the correspondence between their quantities. *)
From Verif Require Import Base DataTypeModel PathModel PathSpec PathProofs3 TreeModel TreeSpec ConvSpec ConvProofs3 ConvProofs4 ConvProgress ConvMaps.
From Verif Require VmapModel VmapProofs VmapProofs2 VmapProofs3.
From Verif Require Import VmapSpec EndSpec EndProofs.
From Coq Require Import Permutation.
Import VmapModel(fields, e_path, e_type, elem, nmap, maps, o2n, n2o, build_map).

Lemma name_no_slash : forall x, is_name x -> no_slash x.
Proof. intros x H. apply name_no; try reflexivity; try discriminate. exact H. Qed.
Lemma slashed_app : forall p r, p <> [] -> r <> [] -> slashed (p ++ r) = slashed p ++ slash :: slashed r.
Proof.
  unfold slashed. induction p as [|y p IH]; intros r N M; [congruence|]. destruct p as [|z p].
  - destruct r as [|w r]; [congruence|]. reflexivity.
  - specialize (IH r ltac:(discriminate) M). change ((y :: z :: p) ++ r) with (y :: z :: (p ++ r)). change ((z :: p) ++ r) with (z :: (p ++ r)) in IH.
    cbn [join_with]. cbn [join_with] in IH. rewrite IH. rewrite <- app_assoc. reflexivity.
Qed.
Lemma slashed_snoc : forall p x, p <> [] -> slashed (p ++ [x]) = slashed p ++ slash :: x.
Proof. intros p x N. rewrite slashed_app; auto. discriminate. Qed.
Lemma slashed_inside : forall p p1, Forall is_name p -> Forall is_name p1 -> p <> [] -> inside (slashed p1) (slashed p) -> exists p2, p1 = p ++ p2 /\ p2 <> [].
Proof.
  assert (NS : forall l, Forall is_name l -> forall x, In x l -> ~ In "/"%char x) by (intros l F x I; rewrite Forall_forall in F; apply name_no_slash; auto).
  intros p p1 F F1 N (r & E).
  assert (R : slashed (split_on "/"%char r) = r) by apply join_split.
  assert (R' : split_on "/"%char r <> []) by apply split_on_nonnil.
  exists (split_on "/"%char r). split; auto.
  assert (N1 : p1 <> []). { intros ->. destruct (slashed p); discriminate. }
  rewrite <- (split_join "/"%char p1 N1 (NS _ F1)). change (join_with "/"%char p1) with (slashed p1). rewrite E. rewrite <- R at 1. rewrite <- slashed_app by auto.
  unfold slashed. apply split_join; [destruct p; [congruence|discriminate]|]. intros x I. apply in_app_or in I as [I|I]; [exact (NS p F x I)|exact (split_on_no_sep _ _ _ I)].
Qed.
Lemma type_of_inj : forall k k', type_of k = type_of k' -> k = k'.
Proof.
  intros [| |dt nd] [| |dt' nd'] H; unfold type_of in H; try reflexivity; try discriminate; try (destruct dt; discriminate); try (destruct dt'; discriminate).
  injection H as H1 H2. apply Nnat.Nat2N.inj in H2. destruct dt, dt'; try discriminate; congruence.
Qed.

(** ** One of the two maps *)
Section Half.
Variables (sm tm : meta) (here there : fields).
Variable rm : nmap.
(** the counterpart, and whether the path changes; the renames; common quantities whose types differ *)
Variable corrb : list str -> list str -> bool -> Prop.
Variable goes : str -> str -> Prop.
Variable ret : str -> Prop.
Definition renamed (k : str) : Prop := exists q, goes k q.
Definition corr (p q : list str) : Prop := exists b, corrb p q b.
Hypothesis Ds : described sm here.
Hypothesis Dt : described tm there.
Hypothesis Wh : wf_fields here.
Hypothesis Hat : forall p q b, corrb p q b -> p <> [] /\ q <> [] /\ exists m mt, at_path sm p m /\ at_path tm q mt /\ (mkind mt = mkind m \/ rule_at rm p).
Hypothesis Hent : forall k x, VmapProofs2.entry rm k = Some x <->
  (exists q, x = Some q /\ goes k q) \/ (x = None /\ (ret k \/ lost_top here there renamed k)).
Hypothesis Hgo : forall p m t, at_path sm p m -> p <> [] -> goes (slashed p) t -> exists q, t = slashed q /\ corrb p q true.
Hypothesis Hgo' : forall p q, corrb p q true -> goes (slashed p) (slashed q).
Hypothesis Hstay : forall p q, corrb p q false -> p = q /\ ~ renamed (slashed p).
Hypothesis Hup : forall p x q b, corrb (p ++ [x]) q b -> exists q' y, q = q' ++ [y] /\ ((p = [] /\ q' = []) \/ exists b0, corrb p q' b0 /\ (b0 = true -> b = true)).
Hypothesis Hfun : forall p q q', corr p q -> corr p q' -> q = q'.
Hypothesis Hkeep : forall p m, at_path sm p m -> p <> [] -> exists_in there (slashed p) -> ~ renamed (slashed p) -> corrb p p false.
Hypothesis Hone : forall p q q', goes p q -> goes p q' -> q = q'.
Hypothesis Hends : forall p q, goes p q -> exists_in here p.

Lemma here_at : forall p m, at_path sm p m -> p <> [] -> exists_in here (slashed p).
Proof. intros p m A N. destruct (ds_field _ _ Ds p m A N) as (e & H). exists e. exact H. Qed.
Lemma at_there : forall k, exists_in there k -> exists p m, p <> [] /\ at_path tm p m /\ k = slashed p.
Proof. intros k (e & I & <-). destruct (ds_meta _ _ Dt e I) as (p & m & N & A & E & _). eauto. Qed.
Lemma at_here : forall k, exists_in here k -> exists p m, p <> [] /\ at_path sm p m /\ k = slashed p.
Proof. intros k (e & I & <-). destruct (ds_meta _ _ Ds e I) as (p & m & N & A & E & _). eauto. Qed.
Lemma same_entry : forall p, entry rm p = VmapProofs2.entry rm (slashed p).
Proof. reflexivity. Qed.

Lemma up_all : forall r p q b, p <> [] -> corrb (p ++ r) q b -> exists q' r', q = q' ++ r' /\ exists b0, corrb p q' b0 /\ (b0 = true -> b = true).
Proof.
  induction r as [|x r IH] using rev_ind; intros p q b N C.
  - rewrite app_nil_r in C. exists q, []. rewrite app_nil_r. split; auto. exists b. auto.
  - rewrite app_assoc in C. destruct (Hup _ _ _ _ C) as (q1 & y & -> & [(E & _)|(b1 & C1 & I1)]); [destruct p; [congruence|discriminate]|].
    destruct (IH _ _ _ N C1) as (q2 & r2 & -> & b2 & C2 & I2). exists q2, (r2 ++ [y]). rewrite app_assoc. split; auto. exists b2. split; auto.
Qed.
Lemma counterpart_above : forall p r, p <> [] -> (exists q, corr (p ++ r) q) -> exists q, corr p q.
Proof. intros p r N (q & b & C). destruct (up_all r p q b N C) as (q' & r' & _ & b0 & C0 & _). exists q', b0. exact C0. Qed.

(** what has no counterpart is removed *)
Lemma lost_here : forall p m, at_path sm p m -> p <> [] -> ~ (exists q, corr p q) -> lost here there renamed (slashed p).
Proof.
  intros p m A N NC.
  assert (NR : ~ renamed (slashed p)). { intros (t & G). destruct (Hgo p m t A N G) as (q & _ & C). apply NC. exists q, true. exact C. }
  split; [eapply here_at; eauto|]. split; [intros X; apply NC; exists p, false; eapply Hkeep; eauto|]. split; auto.
  intros k IN (t & G). destruct (at_here k (Hends _ _ G)) as (p1 & m1 & N1 & A1 & Ek). rewrite Ek in IN, G.
  destruct (slashed_inside p p1 (ds_names _ _ Ds _ _ A) (ds_names _ _ Ds _ _ A1) N IN) as (p2 & E2 & _). subst p1.
  destruct (Hgo (p ++ p2) m1 t A1 N1 G) as (q & _ & C). apply NC. eapply counterpart_above; eauto. exists q, true. exact C.
Qed.
Lemma not_lost : forall p, (exists q, corr p q) -> ~ lost here there renamed (slashed p).
Proof.
  intros p (q & b & C) (_ & L2 & L3 & _). destruct (Hat _ _ _ C) as (N & M & m & mt & A & B & _). destruct b.
  - apply L3. exists (slashed q). apply Hgo'. exact C.
  - destruct (Hstay _ _ C) as (-> & _). apply L2. destruct (ds_field _ _ Dt q mt B M) as (e & H). exists e. exact H.
Qed.
Lemma no_counterpart : forall p m, at_path sm p m -> p <> [] -> ~ (exists q, corr p q) -> removed rm p.
Proof.
  induction p as [|x p IH] using rev_ind; intros m A N NC; [congruence|].
  assert (L := lost_here _ _ A N NC).
  destruct (at_path_prefix _ _ _ _ A) as (mp & Ap).
  assert (Top : (p = [] \/ exists q, corr p q) -> removed rm (p ++ [x])).
  { intros T. exists (p ++ [x]), []. rewrite app_nil_r. split; auto. split; auto. rewrite same_entry. apply Hent. right. split; auto. right. split; auto.
    intros k IN LK. destruct LK as (EH & LK). destruct (at_here k EH) as (a & ma & Na & Aa & ->).
    destruct (slashed_inside a (p ++ [x]) (ds_names _ _ Ds _ _ Aa) (ds_names _ _ Ds _ _ A) Na IN) as (b & E & NB).
    destruct b as [|y b] using rev_ind; [congruence|]. rewrite app_assoc in E. apply app_inj_tail in E as (Ep & _).
    destruct T as [-> |T]; [destruct a; [congruence|discriminate]|]. subst p. apply (not_lost a); [eapply counterpart_above; eauto|]. split; auto. }
  destruct p as [|y p]; [apply Top; auto|]. assert (Np : y :: p <> []) by discriminate. remember (y :: p) as p0 eqn:E0. clear E0 y p.
  destruct (entry rm p0) as [[t|]|] eqn:E.
  - apply Top. right. rewrite same_entry in E. apply Hent in E as [(q & Eq & G)|(Eq & _)]; [|discriminate]. injection Eq as <-.
    destruct (Hgo _ _ _ Ap Np G) as (q & _ & C). exists q, true. exact C.
  - exists p0, [x]. auto.
  - assert (NR : ~ renamed (slashed p0)).
    { intros (q & G). assert (VmapProofs2.entry rm (slashed p0) = Some (Some q)) by (apply Hent; left; eauto). rewrite same_entry in E. congruence. }
    destruct (VmapProofs.exists_dec there (slashed p0)) as [X|X].
    + apply Top. right. exists p0, false. eapply Hkeep; eauto.
    + apply removed_more. eapply IH; eauto. intros (q & b & C). destruct b.
      * apply NR. exists (slashed q). apply Hgo'. exact C.
      * destruct (Hstay _ _ C) as (-> & _). destruct (Hat _ _ _ C) as (_ & M & m1 & mt & _ & B & _). apply X. destruct (ds_field _ _ Dt q mt B M) as (e & H). exists e. exact H.
Qed.
(** and what has one is removed only if a type changes *)
Lemma removed_why : forall p, removed rm p -> (exists q, corr p q) -> exists a b, p = a ++ b /\ a <> [] /\ ret (slashed a).
Proof.
  intros p (a & b & -> & N & E) C. rewrite same_entry in E. apply Hent in E as [(q & Eq & _)|(_ & [R|(L & _)])]; [discriminate|exists a, b; auto|].
  exfalso. apply (not_lost a); [eapply counterpart_above; eauto|exact L].
Qed.

Lemma Gsome : forall p m t, at_path sm p m -> p <> [] -> entry rm p = Some (Some t) -> exists q, t = slashed q /\ corr p q.
Proof.
  intros p m t A N E. rewrite same_entry in E. apply Hent in E as [(q & Eq & G)|(Eq & _)]; [|discriminate]. injection Eq as ->.
  destruct (Hgo _ _ _ A N G) as (q' & Eq & C). exists q'. split; auto. exists true. exact C.
Qed.
Lemma Gcorr : forall p q, corr p q -> entry rm p = Some (Some (slashed q)) \/ (p = q /\ entry rm p = None) \/ entry rm p = Some None.
Proof.
  intros p q (b & C). destruct b.
  - left. rewrite same_entry. apply Hent. left. exists (slashed q). auto.
  - right. destruct (Hstay _ _ C) as (-> & NR). destruct (entry rm q) as [[t|]|] eqn:E; auto. exfalso.
    rewrite same_entry in E. apply Hent in E as [(q' & _ & G)|(Eq & _)]; [|discriminate]. apply NR. exists q'. exact G.
Qed.
Lemma Gnone : forall p m, at_path sm p m -> p <> [] -> ~ removed rm p -> entry rm p = None -> corr p p.
Proof.
  intros p m A N NR E.
  assert (NN : ~ renamed (slashed p)).
  { intros (q & G). assert (VmapProofs2.entry rm (slashed p) = Some (Some q)) by (apply Hent; left; eauto). rewrite same_entry in E. congruence. }
  destruct (VmapProofs.exists_dec there (slashed p)) as [X|X]; [exists false; eapply Hkeep; eauto|].
  exfalso. apply NR. eapply no_counterpart; eauto. intros (q & b & C). destruct b.
  - apply NN. exists (slashed q). apply Hgo'. exact C.
  - destruct (Hstay _ _ C) as (-> & _). destruct (Hat _ _ _ C) as (_ & M & m1 & mt & _ & B & _). apply X. destruct (ds_field _ _ Dt q mt B M) as (e & H). exists e. exact H.
Qed.
Lemma Gbelow : forall a b t q, entry rm a = Some (Some t) -> a <> [] -> corr (a ++ b) q -> entry rm (a ++ b) <> None.
Proof.
  intros a b t q E N (c & C) EN. rewrite same_entry in E. apply Hent in E as [(q' & Eq & G)|(Eq & _)]; [|discriminate]. injection Eq as ->.
  destruct (up_all b a q c N C) as (q1 & r1 & -> & b0 & C0 & I). destruct b0.
  - rewrite (I eq_refl) in C. assert (VmapProofs2.entry rm (slashed (a ++ b)) = Some (Some (slashed (q1 ++ r1)))) by (apply Hent; left; exists (slashed (q1 ++ r1)); auto).
    rewrite same_entry in EN. congruence.
  - destruct (Hstay _ _ C0) as (_ & NR). apply NR. exists q'. exact G.
Qed.
Lemma G1 : forall p q, corr p q -> p <> [] /\ q <> [] /\ exists m mt, at_path sm p m /\ at_path tm q mt /\ (mkind mt = mkind m \/ rule_at rm p \/ entry rm p = Some None).
Proof. intros p q (b & C). destruct (Hat _ _ _ C) as (N & M & m & mt & A & B & K). split; auto. split; auto. exists m, mt. tauto. Qed.
Lemma Gup : forall p x q, corr (p ++ [x]) q -> exists q' y, q = q' ++ [y] /\ ((p = [] /\ q' = []) \/ corr p q').
Proof. intros p x q (b & C). destruct (Hup _ _ _ _ C) as (q' & y & E & [H|(b0 & C0 & _)]); exists q', y; split; auto. right. exists b0. exact C0. Qed.

Hypothesis Wsm : wf_meta sm.
Hypothesis Wtm : wf_meta tm.
Hypothesis Ksm : mkind sm = KStruct.
Hypothesis Hinj : forall p p' q, corr p q -> corr p' q -> p = p'.
Theorem half_fits : fits sm tm rm.
Proof.
  eapply (fits_of_corr sm tm rm corr); auto.
  - apply Ds.
  - apply Dt.
  - exact G1.
  - exact Gup.
  - exact Gsome.
  - exact Gcorr.
  - exact Gnone.
  - exact Gbelow.
Qed.
Theorem half_structures : structures_ok sm tm rm.
Proof.
  eapply (structures_of_corr sm tm rm corr); auto.
  - apply Ds.
  - apply Dt.
  - exact G1.
  - exact Gup.
  - exact Gsome.
  - exact Gcorr.
  - exact Gnone.
  - exact Gbelow.
Qed.
(** what arrives where *)
Theorem half_mapped : forall p q m, at_path sm p m -> p <> [] -> Forall is_name q -> (~ removed rm p /\ mapped rm p q) <-> (corr p q /\ ~ removed rm p).
Proof.
  intros p q m A N F. split.
  - intros (NR & M). split; auto. eapply (mapped_corr sm tm rm corr); eauto; [apply Dt|exact G1|exact Gsome|exact Gnone].
  - intros (C & NR). split; auto. eapply (corr_mapped sm tm rm corr); eauto; [exact G1|exact Gcorr].
Qed.
End Half.
