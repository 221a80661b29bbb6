(** A rename map that agrees with a correspondence between the paths of two versions fits them. *)
From Verif Require Import Base PathModel PathSpec PathProofs3 TreeModel TreeSpec TreeProofs TreeProofs4 ValProofs ValProofs2 ConvSpec ConvProofs3 ConvProofs4 ConvProgress ConvProps8.
From Verif Require VmapModel.
Import VmapModel(nmap).

Lemma at_path_snoc : forall m p x m', at_path m (p ++ [x]) m' -> exists mp, at_path m p mp /\ In m' (mchildren mp) /\ mname m' = x.
Proof.
  intros m p. revert m. induction p as [|y p IH]; intros m x m' H.
  - apply at_path_inv in H as (c & I & E & H). inversion H; subst. exists m. split; [constructor|auto].
  - apply at_path_inv in H as (c & I & E & H). destruct (IH _ _ _ H) as (mp & A & B & D). exists mp. split; auto. rewrite <- E. constructor; auto.
Qed.
Lemma at_path_prefix : forall m a b m', at_path m (a ++ b) m' -> exists ma, at_path m a ma.
Proof.
  intros m a. revert m. induction a as [|y a IH]; intros m b m' H; [exists m; constructor|].
  apply at_path_inv in H as (c & I & E & H). destruct (IH _ _ _ H) as (mp & A). exists mp. rewrite <- E. constructor; auto.
Qed.
Lemma arrays_snoc : forall p m pre x mp, wf_meta m -> at_path m p mp -> p <> [] ->
  arrays m pre (p ++ [x]) = arrays m pre p ++ match mkind mp with KAoS => [pre ++ p] | _ => [] end.
Proof.
  induction p as [|y p IH]; intros m pre x mp W H N; [congruence|]. apply at_path_inv in H as (c & I & E & H).
  assert (CM : child_meta y (mchildren m) = Some c) by (apply child_meta_iff; [apply wf_nodup; auto|auto]).
  destruct p as [|z p].
  - inversion H; subst. cbn [app arrays]. rewrite CM. cbn [arrays app]. rewrite app_nil_r. reflexivity.
  - change ((y :: z :: p) ++ [x]) with (y :: ((z :: p) ++ [x])). 
    assert (X : forall t, t <> [] -> arrays m pre (y :: t) = (match mkind c with KAoS => [pre ++ [y]] | _ => [] end) ++ arrays c (pre ++ [y]) t).
    { intros [|? ?] NT; [congruence|]. cbn [arrays]. rewrite CM. reflexivity. }
    rewrite !X by discriminate. rewrite (IH c (pre ++ [y]) x mp); auto; [|eapply wf_child; eauto|discriminate].
    replace ((pre ++ [y]) ++ z :: p) with (pre ++ y :: z :: p) by (rewrite <- app_assoc; reflexivity). apply app_assoc.
Qed.

Section Maps.
Variables (sm tm : meta).
Variable rm : nmap.
Variable corr : list str -> list str -> Prop.
Notation entry := (entry rm).
Notation mapped := (mapped rm).
Notation rule_at := (rule_at rm).
Notation removed := (removed rm).
Hypothesis Wsm : wf_meta sm.
Hypothesis Wtm : wf_meta tm.
Hypothesis Ksm : mkind sm = KStruct.
Hypothesis Ns : forall p m', at_path sm p m' -> Forall is_name p.
Hypothesis Nt : forall p m', at_path tm p m' -> Forall is_name p.
(** the correspondence is between quantities of the two versions, level by level, and one to one *)
Hypothesis G1 : forall p q, corr p q -> p <> [] /\ q <> [] /\ exists m mt, at_path sm p m /\ at_path tm q mt /\ (mkind mt = mkind m \/ rule_at p \/ entry p = Some None).
Hypothesis Ginj : forall p p' q, corr p q -> corr p' q -> p = p'.
Hypothesis Gfun : forall p q q', corr p q -> corr p q' -> q = q'.
Hypothesis Gup : forall p x q, corr (p ++ [x]) q -> exists q' y, q = q' ++ [y] /\ ((p = [] /\ q' = []) \/ corr p q').
(** the map agrees with it *)
Hypothesis Gsome : forall p m t, at_path sm p m -> p <> [] -> entry p = Some (Some t) -> exists q, t = slashed q /\ corr p q.
Hypothesis Gcorr : forall p q, corr p q -> entry p = Some (Some (slashed q)) \/ (p = q /\ entry p = None) \/ entry p = Some None.
Hypothesis Gnone : forall p m, at_path sm p m -> p <> [] -> ~ removed p -> entry p = None -> corr p p.
Hypothesis Gbelow : forall a b t q, entry a = Some (Some t) -> a <> [] -> corr (a ++ b) q -> entry (a ++ b) <> None.

Lemma not_removed : forall p, p <> [] -> ~ removed p -> entry p <> Some None.
Proof. intros p N NR E. apply NR. exists p, []. rewrite app_nil_r. auto. Qed.
Lemma not_removed_prefix : forall a b, ~ removed (a ++ b) -> ~ removed a.
Proof. intros a b NR R. apply NR, removed_more. auto. Qed.
Lemma corr_mapped : forall p q, corr p q -> ~ removed p -> mapped p q.
Proof.
  intros p q C NR. destruct (G1 _ _ C) as (NP & _). destruct (Gcorr _ _ C) as [E|[(E & E')|E]]; [left; auto|right; auto|]. exfalso. apply (not_removed p); auto.
Qed.
Lemma mapped_corr : forall p m q, at_path sm p m -> p <> [] -> ~ removed p -> mapped p q -> Forall is_name q -> corr p q.
Proof.
  intros p m q A N NR [E|(E & <-)] F.
  - destruct (Gsome _ _ _ A N E) as (q' & ES & C). assert (q = q') as ->; auto. destruct (G1 _ _ C) as (_ & _ & m1 & mt & _ & B & _). eapply slashed_inj; eauto.
  - eapply Gnone; eauto.
Qed.
Lemma has_corr : forall p m, at_path sm p m -> p <> [] -> ~ removed p -> exists q, corr p q.
Proof.
  intros p m A N NR. destruct (entry p) as [[t|]|] eqn:E.
  - destruct (Gsome _ _ _ A N E) as (q & _ & C). eauto.
  - exfalso. apply (not_removed p); auto.
  - exists p. eapply Gnone; eauto.
Qed.
Lemma corr_prefix : forall b a q, a <> [] -> corr (a ++ b) q -> exists q0 q1, q = q0 ++ q1 /\ length q1 = length b /\ corr a q0.
Proof.
  induction b as [|x b IH] using rev_ind; intros a q N C.
  - rewrite app_nil_r in C. exists q, []. rewrite app_nil_r. auto.
  - rewrite app_assoc in C. destruct (Gup _ _ _ C) as (q' & y & -> & [(E & _)|C']); [destruct a; [congruence|discriminate]|].
    destruct (IH a q' N C') as (q0 & q1 & -> & L & C2). exists q0, (q1 ++ [y]). rewrite app_assoc, !app_length, L. auto.
Qed.
Lemma self_prefix : forall a b, a <> [] -> corr (a ++ b) (a ++ b) -> corr a a.
Proof.
  intros a b N C. destruct (corr_prefix b a _ N C) as (q0 & q1 & E & L & C').
  assert (length a = length q0) by (apply (f_equal (@length _)) in E; rewrite !app_length in E; lia).
  assert (a = q0 /\ b = q1) as (-> & _); auto. clear - E H. revert q0 E H. induction a as [|x a IH]; intros [|y q0] E H; cbn in *; try lia; auto. injection E as -> E. destruct (IH q0 E) as (-> & ->); auto.
Qed.
Lemma plain_prefix : forall a b, a <> [] -> corr (a ++ b) (a ++ b) -> ~ removed (a ++ b) -> entry (a ++ b) = None -> entry a = None.
Proof.
  intros a b N C NR E. destruct (entry a) as [[t|]|] eqn:EA; auto.
  - exfalso. eapply Gbelow; eauto.
  - exfalso. apply NR. exists a, b. auto.
Qed.
Lemma kinds : forall p q m mt, corr p q -> ~ removed p -> at_path sm p m -> at_path tm q mt -> ~ rule_at p -> mkind mt = mkind m.
Proof.
  intros p q m mt C NR A B NU. destruct (G1 _ _ C) as (NP & NQ & m1 & m2 & A1 & B1 & K).
  assert (m = m1) as -> by (eapply (at_path_fun sm p); eauto). assert (mt = m2) as -> by (eapply (at_path_fun tm q); eauto). destruct K as [K|[K|K]]; auto; [contradiction|]. exfalso. apply (not_removed p); auto.
Qed.
Lemma corr_arrays : forall p q, corr p q -> ~ removed p -> (forall a b, p = a ++ b -> b <> [] -> a <> [] -> ~ rule_at a) ->
  Forall2 mapped (arrays sm [] p) (arrays tm [] q).
Proof.
  induction p as [|x p IH] using rev_ind; intros q C NR NU.
  - destruct (G1 _ _ C) as (N & _). congruence.
  - destruct (Gup _ _ _ C) as (q' & y & -> & [(-> & ->)|C']); [constructor|].
    destruct (G1 _ _ C') as (NP & NQ & mp & mq & AP & AQ & _).
    rewrite (arrays_snoc p sm [] x mp), (arrays_snoc q' tm [] y mq) by auto.
    assert (NR' : ~ removed p) by (eapply not_removed_prefix; eauto).
    assert (NU' : ~ rule_at p) by (apply (NU p [x]); auto; discriminate).
    apply Forall2_app.
    + apply IH; auto. intros a b E NB NA. apply (NU a (b ++ [x])); auto; [rewrite E, <- app_assoc; reflexivity|destruct b; discriminate].
    + rewrite (kinds p q' mp mq); auto. destruct (mkind mp); constructor; auto. apply corr_mapped; auto.
Qed.

Theorem fits_of_corr : fits sm tm rm.
Proof.
  constructor.
  - exact Ns.
  - exact Nt.
  - intros p m' A N NR NU _. destruct (has_corr _ _ A N NR) as (q & C). destruct (G1 _ _ C) as (_ & NQ & m1 & mt & A1 & B1 & _).
    exists q, mt. split; [apply corr_mapped; auto|]. split; auto. split; auto. split; [|apply corr_arrays; auto].
    intros NU'. eapply kinds; eauto.
  - intros p m' A NR NU _ E a b -> NA. assert (N : a ++ b <> []) by (destruct a; [congruence|discriminate]).
    eapply plain_prefix; eauto.
  - intros p1 p2 m1 m2 q A1 A2 K1 K2 R1 R2 _ _ M1 M2.
    assert (X : forall p m, at_path sm p m -> ~ removed p -> mapped p q -> p <> [] -> exists q', slashed q' = slashed q /\ corr p q').
    { intros p m A NR [E|(E & <-)] N; [|exists p; split; auto; eapply Gnone; eauto]. destruct (Gsome _ _ _ A N E) as (q' & ES & C). eauto. }
    assert (Z : forall m, at_path sm [] m -> mkind m = KStruct) by (intros m A; inversion A; subst; auto).
    destruct p1 as [|x1 p1]; [exfalso; auto|]. destruct p2 as [|x2 p2]; [exfalso; auto|].
    destruct (X _ _ A1 R1 M1 ltac:(discriminate)) as (q1 & E1 & C1). destruct (X _ _ A2 R2 M2 ltac:(discriminate)) as (q2 & E2 & C2).
      assert (q1 = q2) as ->; [|eapply Ginj; eauto]. destruct (G1 _ _ C1) as (_ & _ & ? & ? & _ & B1 & _). destruct (G1 _ _ C2) as (_ & _ & ? & ? & _ & B2 & _).
      eapply slashed_inj; eauto. congruence.
  - intros p0 r m' s q0 m0 A N0 NR RU E MP B. assert (N : p0 ++ r <> []) by (destruct p0; [congruence|discriminate]).
    destruct (Gsome _ _ _ A N E) as (q & -> & C). destruct (corr_prefix r p0 q N0 C) as (q0' & q1 & -> & L & C0).
    destruct (G1 _ _ C) as (_ & _ & ? & ? & _ & B1 & _).
    assert (q0 = q0') as ->; [|exists q1; eauto].
    destruct (Gcorr _ _ C0) as [E0|[(E0 & E1)|E0]].
    + destruct MP as [M|(M & _)]; [|congruence]. rewrite E0 in M. injection M as M. symmetry. destruct (G1 _ _ C0) as (_ & _ & ? & ? & _ & B2 & _). eapply slashed_inj; eauto.
    + destruct MP as [M|(_ & M)]; congruence.
    + destruct MP as [M|(M & _)]; congruence.
Qed.

Lemma walk_self : forall p q, walk tm rm p q -> p = [] \/ (corr p p /\ ~ removed p /\ entry p = None) -> q = p.
Proof.
  intros p q WK. induction WK as [|p q N E _|p nm q WK IH E X|p nm q WK IH E X]; intros H.
  - reflexivity.
  - destruct H as [->|(_ & _ & E')]; [congruence|congruence].
  - destruct H as [H|(C & NR & _)]; [destruct p; discriminate|]. rewrite IH; auto. destruct p as [|x p]; auto. right.
    assert (C' : corr (x :: p) (x :: p)) by (apply (self_prefix (x :: p) [nm]); [discriminate|exact C]).
    split; auto. split; [apply (not_removed_prefix (x :: p) [nm]); exact NR|]. apply (plain_prefix (x :: p) [nm]); auto; discriminate.
  - destruct H as [H|(C & NR & _)]; [destruct p; discriminate|]. exfalso. assert (q = p) as ->.
    { apply IH. destruct p as [|x p]; auto. right.
      assert (C' : corr (x :: p) (x :: p)) by (apply (self_prefix (x :: p) [nm]); [discriminate|exact C]).
      split; auto. split; [apply (not_removed_prefix (x :: p) [nm]); exact NR|]. apply (plain_prefix (x :: p) [nm]); auto; discriminate. }
    apply X. destruct (G1 _ _ C) as (_ & _ & m & mt & _ & B & _). eauto.
Qed.
Theorem structures_of_corr : structures_ok sm tm rm.
Proof.
  intros p nm m' q mq A K NR NU E WK B. assert (N : p ++ [nm] <> []) by (destruct p; discriminate).
  assert (C : corr (p ++ [nm]) (p ++ [nm])) by (eapply Gnone; eauto).
  assert (q = p) as ->.
  { apply walk_self; auto. destruct p as [|x p]; auto. right.
    assert (C' : corr (x :: p) (x :: p)) by (apply (self_prefix (x :: p) [nm]); [discriminate|exact C]).
    split; auto. split; [apply (not_removed_prefix (x :: p) [nm]); exact NR|]. apply (plain_prefix (x :: p) [nm]); auto; discriminate. }
  rewrite <- K. eapply kinds; eauto. intros R. apply NU. exists (p ++ [nm]), []. rewrite app_nil_r. auto.
Qed.
End Maps.
