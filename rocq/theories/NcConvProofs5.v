(** What has to exist in the data dictionary of the IDS for a file to be read. *)
From Verif Require Import Base TreeModel TreeSpec ConvSpec ConvProofs3 NcMetaModel NcMetaProofs2 NcFileModel NcConvModel NcConvSpec NcConvProofs2.
From Verif Require VmapModel NcFileProofs3.
From Coq Require Import Permutation.
Import VmapModel(nmap).

Lemma update_split_place : forall f q cs fs idx fs', update_split cs fs q idx f = Ok fs' -> q <> [] -> (forall x, In x (removelast q) -> snd x = false) ->
  exists c, meta_at (Meta [] KStruct cs) (map fst q) = Some c.
Proof.
  intros f. induction q as [|[nm b] q IH]; intros cs fs idx fs' H NE FL; [congruence|]. cbn [update_split] in H. cbn [map fst meta_at mchildren].
  destruct (List.find (fun d => str_eqb (mname d) nm) cs) as [c|] eqn:E; [|discriminate].
  destruct q as [|y q]; [cbn; eauto|].
  assert (b = false) as -> by (apply (FL (nm, b)); now left).
  set (ch := match alookup nm fs with Some ch => ch | None => new_node c end) in *. destruct ch as [fs0|els|v]; try discriminate.
  destruct (update_split (mchildren c) fs0 (y :: q) idx f) as [fs1|] eqn:U; [|discriminate].
  destruct (IH (mchildren c) fs0 idx fs1 U) as (c1 & M); [discriminate|intros x I; apply FL; now right|]. exists c1. cbn [map fst meta_at mchildren] in *. exact M.
Qed.
Lemma flags_false : forall p m, wf_meta m -> (forall a b ca, p = a ++ b -> a <> [] -> b <> [] -> at_path m a ca -> mkind ca <> KAoS) -> forall x, In x (removelast (combine p (aos_flags m p))) -> snd x = false.
Proof.
  induction p as [|nm p IH]; intros m W H x I; [destruct I|]. cbn [aos_flags] in I. destruct (List.find (fun d => str_eqb (mname d) nm) (mchildren m)) as [d|] eqn:E.
  - apply find_some in E. destruct E as [Id En]. apply str_eqb_eq in En. cbn [combine] in I.
    assert (NP : combine p (aos_flags d p) <> [] -> p <> []) by (destruct p; cbn; congruence).
    destruct (combine p (aos_flags d p)) as [|z l] eqn:CB; [destruct I|].
    assert (N : p <> []) by (apply NP; discriminate).
    destruct I as [<-|I].
    + cbn [snd]. destruct (mkind d) eqn:KD; auto. exfalso. apply (H [nm] p d); auto; [discriminate|]. rewrite <- En. econstructor; eauto. constructor.
    + apply (IH d (wf_child m d W Id)); [|rewrite CB; exact I]. intros a b ca E Na Nb A. apply (H (nm :: a) b ca); [now rewrite E|discriminate|exact Nb|]. rewrite <- En. econstructor; eauto.
  - assert (G : forall (l : list str) (k : list str) y, In y (combine k (map (fun _ => false) l)) -> snd y = false). { intros l k y J. destruct y as [y1 y2]. apply in_combine_r in J. apply in_map_iff in J. destruct J as (w & <- & _). reflexivity. }
    assert (R : forall (A : Type) (l : list A) y, In y (removelast l) -> In y l). { intros A l. induction l as [|a [|b l] IHl]; intros y J; [destruct J|destruct J|]. destruct J as [<-|J]; [now left|right; apply IHl; exact J]. }
    apply R in I. eapply G. exact I.
Qed.
Lemma map_flags : forall (l : list (str * bool)) x, In x (removelast (map (fun y => (fst y, false)) l)) -> snd x = false.
Proof.
  intros l x I. assert (R : forall (A : Type) (k : list A) y, In y (removelast k) -> In y k). { intros A k. induction k as [|a [|b k] IHl]; intros y J; [destruct J|destruct J|]. destruct J as [<-|J]; [now left|right; apply IHl; exact J]. }
  apply R in I. apply in_map_iff in I. destruct I as (y & <- & _). reflexivity.
Qed.
Lemma conv_vars_each : forall m r m' rm cast g h l fs fs', conv_vars m r m' rm cast g h l fs = Ok fs' -> forall v, In v l -> exists a b, conv_var m r m' rm cast g h v a = Ok b.
Proof.
  intros m r m' rm cast g h. induction l as [|w l IH]; intros fs fs' H v I; [destruct I|]. cbn [conv_vars] in H. destruct (conv_var m r m' rm cast g h w fs) as [f1|] eqn:E; [|discriminate]. cbn [rbind] in H.
  destruct I as [<-|I]; eauto.
Qed.
Lemma conv_place : forall m r m' rm cast g h v a b c, wf_meta m -> wf_meta m' -> conv_var m r m' rm cast g h v a = Ok b -> at_path m (vpath v) c -> mkind c <> KStruct ->
  ConvSpec.entry rm (vpath v) = None -> alookup (slashed (vpath v)) (VmapModel.m_type rm) = None ->
  (forall x y cx, vpath v = x ++ y -> x <> [] -> y <> [] -> at_path m x cx -> mkind cx <> KAoS) -> exists c', at_path m' (vpath v) c'.
Proof.
  intros m r m' rm cast g h v a b c W W' H A KC E T AR. unfold conv_var, var_meta in H. fold (vpath v) in H. rewrite (proj2 (meta_at_path (vpath v) m c W) A) in H. cbn [option_map] in H.
  assert (TG : target_of m m' rm (vpath v) = Ok (Some (combine (vpath v) (aos_flags m (vpath v))))). { unfold target_of. unfold ConvSpec.entry, slashed in E. unfold slash_path. rewrite E. unfold slashed in T. now rewrite T. }
  assert (NP : combine (vpath v) (aos_flags m (vpath v)) <> []). { intros Q. apply (f_equal (map fst)) in Q. rewrite names_flags in Q. exact (split_on_nonnil _ _ Q). }
  assert (PL : forall q f fs fs', update_split (mchildren m') fs q [] f = Ok fs' -> q <> [] -> map fst q = vpath v -> (forall x, In x (removelast q) -> snd x = false) -> exists c', at_path m' (vpath v) c').
  { intros q f fs fs' U Nq Eq Fq. destruct (update_split_place f q (mchildren m') fs [] fs' U Nq Fq) as (c1 & M). rewrite Eq in M. exists c1. apply (proj1 (meta_at_path _ m' c1 W')). destruct (vpath v) as [|x p] eqn:EV; [exfalso; exact (split_on_nonnil _ _ EV)|exact M]. }
  rewrite TG in H. cbn [rbind] in H.
  pose proof (flags_false (vpath v) m W AR) as FF.
  assert (NM : forall l : list (str * bool), l <> [] -> map (fun x => (fst x, false)) l <> []) by (intros []; cbn; congruence).
  assert (EM : map fst (map (fun x : str * bool => (fst x, false)) (combine (vpath v) (aos_flags m (vpath v)))) = vpath v) by (rewrite map_map; cbn [fst]; apply names_flags).
  destruct (mkind c) as [| |dt nd]; [congruence| |].
  - eapply PL; [exact H|exact NP|apply names_flags|exact FF].
  - destruct (v_sparse v); [eapply PL; [exact H|exact NP|apply names_flags|exact FF]|]. destruct (pget (vpath v) (nc_aos r)); [eapply PL; [exact H|exact NP|apply names_flags|exact FF]|].
    eapply PL; [exact H|apply NM; exact NP|exact EM|apply map_flags].
Qed.
(** a file that is read has no quantities outside arrays of structures that have no place *)
Lemma get_conv_place : forall m r units m' units' rm cast g n', wf_meta m -> wf_meta m' -> get_conv m r units m' units' rm cast g = Ok n' ->
  forall v c, In v (g_vars g) -> at_path m (vpath v) c -> mkind c <> KStruct -> ConvSpec.entry rm (vpath v) = None -> alookup (slashed (vpath v)) (VmapModel.m_type rm) = None ->
  (forall x y cx, vpath v = x ++ y -> x <> [] -> y <> [] -> at_path m x cx -> mkind cx <> KAoS) -> exists c', at_path m' (vpath v) c'.
Proof.
  intros m r units m' units' rm cast g n' W W' H v c Iv A KC E T AR. unfold get_conv in H. destruct (read_homogeneous m' r units' g) as [h|]; [|discriminate]. cbn [rbind] in H.
  destruct (validate_variables m r units g h) as [u|]; [|discriminate]. cbn [rbind] in H. destruct (conv_vars m r m' rm cast g h (sorted_vars g) []) as [fs|] eqn:C; [|discriminate].
  assert (Is : In v (sorted_vars g)) by (apply (Permutation_in _ (Permutation_sym (NcFileProofs3.sorted_perm g))); exact Iv).
  destruct (conv_vars_each _ _ _ _ _ _ _ _ _ _ C v Is) as (a & b & CV). exact (conv_place m r m' rm cast g h v a b c W W' CV A KC E T AR).
Qed.
