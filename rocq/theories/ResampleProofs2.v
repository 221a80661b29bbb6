(** Resampling a whole tree, and the resampling of pulse_schedule quantities. *)
From Coq Require Import Sorting.Sorted.
From Verif Require Import Base TreeModel TreeSpec TreeProofs StoreProofs2 ResampleModel ResampleSpec ResampleProofs.
From Verif Require Import ValProofs.

Section Tree.
Variable dynamic : list str -> bool.
Variable time_index : list str -> option nat.
Variables old new : list flt.
Notation rnode := (resample_node dynamic time_index old new).

Definition changes (names : list str) : bool := dynamic names && negb (str_eqb (last names []) (strs "time")).
Definition becomes (names : list str) (x x' : item) : Prop :=
  match x with
  | ISize k => x' = ISize k
  | ILeaf v => exists v', x' = ILeaf v' /\ filled_value v' /\
                 (if changes names then resample_value old new (time_index names) v = Ok v' else v' = v)
  end.
Definition to_struct (names : list str) (cs : list meta) (fs : list (str * node)) : result rexn (list (str * node)) :=
  (fix go cs fs := match cs with
                   | [] => Ok fs
                   | d :: t => match alookup (mname d) fs with
                               | Some ch => if has_value d ch then do ch' <- rnode d (names ++ [mname d]) ch; go t (aset (mname d) ch' fs)
                                            else go t fs
                               | None => go t fs
                               end
                   end) cs fs.

Lemma to_struct_fields : forall names cs fs fs', NoDup (map mname cs) -> to_struct names cs fs = Ok fs' ->
  (forall k, ~ In k (map mname cs) -> alookup k fs' = alookup k fs) /\
  (forall d, In d cs -> match alookup (mname d) fs with
                        | None => alookup (mname d) fs' = None
                        | Some ch => if has_value d ch then exists ch', rnode d (names ++ [mname d]) ch = Ok ch' /\ alookup (mname d) fs' = Some ch'
                                     else alookup (mname d) fs' = Some ch
                        end).
Proof.
  intros names. induction cs as [|d t IH]; intros fs fs' ND H; [inversion H; subst; split; [auto|intros ? []]|].
  inversion ND as [|? ? NI ND']; subst. cbn [to_struct] in H. fold (to_struct names) in H.
  destruct (alookup (mname d) fs) as [ch|] eqn:A.
  - destruct (has_value d ch) eqn:HV.
    + destruct (rnode d (names ++ [mname d]) ch) as [ch'|e] eqn:R; cbn [rbind] in H; [|discriminate].
      destruct (IH _ _ ND' H) as [I1 I2]. split.
      * intros k K. cbn in K. rewrite I1 by tauto. apply alookup_aset_other. intros ->. tauto.
      * intros d' [<-|D].
        { rewrite A, HV. exists ch'. split; auto. rewrite I1 by auto. apply alookup_aset_same. }
        specialize (I2 d' D). rewrite alookup_aset_other in I2; auto. intros E. apply NI. rewrite <- E. now apply List.in_map.
    + destruct (IH _ _ ND' H) as [I1 I2]. split.
      * intros k K. cbn in K. apply I1. tauto.
      * intros d' [<-|D]; [rewrite A, HV, I1; auto|now apply I2].
  - destruct (IH _ _ ND' H) as [I1 I2]. split.
    + intros k K. cbn in K. apply I1. tauto.
    + intros d' [<-|D]; [rewrite A, I1; auto|now apply I2].
Qed.

Lemma rnode_struct : forall nm cs names fs, rnode (Meta nm KStruct cs) names (NStruct fs) = (do fs' <- to_struct names cs fs; Ok (NStruct fs')).
Proof. reflexivity. Qed.
Lemma rnode_aos : forall nm cs names els, rnode (Meta nm KAoS cs) names (NAoS els) =
  (do els' <- rmap (fun e => do fs' <- to_struct names cs (node_fields e); Ok (NStruct fs')) els; Ok (NAoS els')).
Proof. reflexivity. Qed.

Definition ok_at (m : meta) : Prop := forall names n n', wf_meta m -> conf m n -> (is_leaf m -> last names [] = mname m) -> rnode m names n = Ok n' ->
  forall l x', holds m n' l x' <-> exists x, holds m n l x /\ becomes (names ++ loc_names l) x x'.

Lemma struct_ok : forall nm cs, (forall c, In c cs -> ok_at c) -> ok_at (Meta nm KStruct cs).
Proof.
  intros nm cs IH names n n' W C _ R l x'. destruct (conf_struct_inv _ _ _ C) as (fs & ->). rewrite rnode_struct in R.
  destruct (to_struct names cs fs) as [fs'|e] eqn:T; cbn [rbind] in R; [|discriminate]. inversion R; subst n'. clear R.
  assert (ND : NoDup (map mname cs)) by (inversion W; auto).
  assert (WC : forall c, In c cs -> wf_meta c) by (inversion W; auto).
  assert (CC : forall c ch, In c cs -> alookup (mname c) fs = Some ch -> conf c ch) by (inversion C; auto).
  destruct (to_struct_fields _ _ _ _ ND T) as [_ F]. rewrite holds_struct. split.
  - intros (d & ch' & l' & -> & D & A & H). specialize (F d D). destruct (alookup (mname d) fs) as [ch|] eqn:A0; [|congruence].
    pose proof (CC d ch D A0) as Cch. destruct (has_value d ch) eqn:HV.
    + destruct F as (ch'' & R & A'). assert (ch'' = ch') by congruence. subst ch''.
      apply (IH d D _ _ _ (WC d D) Cch (fun _ => last_last _ _ _) R) in H. destruct H as (x & H & B).
      exists x. split; [apply holds_struct; exists d, ch, l'; auto|]. cbn [loc_names flat_map]. rewrite <- app_assoc in B. exact B.
    + assert (ch' = ch) by congruence. subst. exfalso. apply holds_nonempty in H. apply (has_value_nonempty d ch Cch) in H. congruence.
  - intros (x & H & B). apply holds_struct in H. destruct H as (d & ch & l' & -> & D & A & H). specialize (F d D). rewrite A in F.
    pose proof (CC d ch D A) as Cch. assert (HV : has_value d ch = true) by (apply (has_value_nonempty d ch Cch); eapply holds_nonempty; eauto).
    rewrite HV in F. destruct F as (ch' & R & A'). exists d, ch', l'. split; auto. split; auto. split; auto.
    apply (IH d D _ _ _ (WC d D) Cch (fun _ => last_last _ _ _) R). exists x. split; auto. rewrite <- app_assoc. exact B.
Qed.

Theorem tree_ok : forall m, ok_at m.
Proof.
  intros m. meta_induction m. destruct k as [| |dt nd].
  - now apply struct_ok.
  - intros names x n' W C _ R l x'. destruct (conf_aos_inv _ _ _ C) as (els & ->). rewrite rnode_aos in R.
    destruct (rmap _ els) as [els'|e] eqn:T; cbn [rbind] in R; [|discriminate]. inversion R; subst n'. clear R.
    apply rmap_ok in T. pose proof (forall2_length _ _ _ _ _ T) as LE. pose proof (forall2_nth _ _ _ _ _ T) as NT.
    assert (WS : wf_meta (Meta n KStruct cs)) by (inversion W; subst; constructor; auto; discriminate).
    assert (CE : forall e, In e els -> conf (Meta n KStruct cs) e) by (inversion C; auto).
    assert (STEP : forall i e e', nth_error els i = Some e -> nth_error els' i = Some e' ->
              forall l x', holds (Meta n KStruct cs) e' l x' <-> exists x, holds (Meta n KStruct cs) e l x /\ becomes (names ++ loc_names l) x x').
    { intros i e e' E E'. destruct (proj1 (NT i) _ E) as (e'' & E'' & R). assert (e'' = e') by congruence. subst e''.
      assert (Ce : conf (Meta n KStruct cs) e) by (apply CE; eapply nth_error_In; eauto). destruct (conf_struct_inv _ _ _ Ce) as (fs & ->).
      cbn [node_fields] in R. rewrite <- (rnode_struct n) in R.
      apply (struct_ok n cs ltac:(assumption) names _ _ WS Ce); [|exact R]. intros (dt & nd & E0). discriminate. }
    rewrite holds_aos. split.
    + intros [(-> & -> & G)|(i & e' & l' & -> & E' & H)].
      * exists (ISize (length els)). split; [apply holds_aos; left; split; auto; split; auto; lia|]. cbn. now rewrite LE.
      * destruct (proj2 (NT i) _ E') as (e & E & _). apply (STEP i e e' E E') in H. destruct H as (y & H & B).
        exists y. split; [apply holds_aos; right; exists i, e, l'; auto|exact B].
    + intros (y & H & B). apply holds_aos in H. destruct H as [(-> & -> & G)|(i & e & l' & -> & E & H)].
      * left. cbn in B. subst x'. rewrite LE in *. auto.
      * right. destruct (proj1 (NT i) _ E) as (e' & E' & _). exists i, e', l'. split; auto. split; auto. apply (STEP i e e' E E'). exists y. auto.
  - intros names x n' W C LN R l x'.
    specialize (LN (ex_intro _ dt (ex_intro _ nd eq_refl))). cbn [mname] in LN.
    assert (CL : x = NLeaf None \/ exists v, x = NLeaf (Some v)) by (clear - C; inversion C; subst; eauto).
    destruct CL as [->|(v & ->)]; cbn [resample_node] in R.
    + inversion R; subst n'. rewrite holds_leaf. split; [intros (_ & w & E & _); discriminate|].
      intros (y & H & _). apply holds_leaf in H. destruct H as (_ & w & E & _). discriminate.
    + destruct (has_value (Meta n (KLeaf dt nd) cs) (NLeaf (Some v))) eqn:HV.
      2:{ cbn [andb] in R. inversion R; subst n'.
          assert (NF : forall l y, ~ holds (Meta n (KLeaf dt nd) cs) (NLeaf (Some v)) l y).
          { intros l0 y H. apply holds_nonempty in H. apply (has_value_nonempty _ _ C) in H. congruence. }
          split; [intros H; now apply NF in H|intros (y & H & _); now apply NF in H]. }
      assert (FV : filled_value v).
      { apply (has_value_nonempty _ _ C) in HV. destruct HV as (l0 & [(w & H)|(k & H)]).
        - apply (holds_leaf n dt nd cs (Some v) l0 (ILeaf w)) in H. destruct H as (_ & u & E & E' & F). congruence.
        - apply (holds_leaf n dt nd cs (Some v) l0 (ISize k)) in H. destruct H as (_ & u & E & E' & F). congruence. }
      cbn [andb] in R. assert (CH : changes names = (dynamic names && negb (str_eqb n (strs "time")))%bool) by (unfold changes; rewrite <- LN; reflexivity).
      rewrite <- CH in R. split.
      * intros H. exists (ILeaf v).
        assert (L0 : l = []) by (destruct (changes names); [destruct (resample_value old new (time_index names) v); cbn in R; [|discriminate]|]; inversion R; subst n'; apply holds_leaf in H; tauto).
        subst l. split; [apply holds_leaf; split; auto; exists v; auto|]. cbn [loc_names flat_map]. rewrite app_nil_r. cbn [becomes].
        destruct (changes names); [destruct (resample_value old new (time_index names) v) as [v'|]; cbn [rbind] in R; [|discriminate]|]; inversion R; subst n'; apply holds_leaf in H; destruct H as (_ & w & E & -> & F); exists w; split; auto; split; auto; congruence.
      * intros (y & H & B). apply holds_leaf in H. destruct H as (-> & w & E & -> & F). cbn [loc_names flat_map] in B. rewrite app_nil_r in B.
        cbn [becomes] in B. destruct B as (v' & -> & F' & B). assert (w = v) by congruence. subst w.
        destruct (changes names); [rewrite B in R; cbn [rbind] in R|]; inversion R; subst n'; apply holds_leaf; split; auto; [exists v'; auto|subst v'; exists v; auto].
Qed.

(** every filled leaf to be resampled was resampled *)
Definition leaves_ok (m : meta) : Prop := forall names n n', wf_meta m -> conf m n -> (is_leaf m -> last names [] = mname m) -> rnode m names n = Ok n' ->
  forall l v, leaf_at m n l v -> changes (names ++ loc_names l) = true -> exists v', resample_value old new (time_index (names ++ loc_names l)) v = Ok v'.
Lemma struct_leaves : forall nm cs, (forall c, In c cs -> leaves_ok c) -> leaves_ok (Meta nm KStruct cs).
Proof.
  intros nm cs IH names n n' W C _ R l v H CH. destruct (conf_struct_inv _ _ _ C) as (fs & ->). rewrite rnode_struct in R.
  destruct (to_struct names cs fs) as [fs'|e] eqn:T; cbn [rbind] in R; [|discriminate].
  assert (ND : NoDup (map mname cs)) by (inversion W; auto). assert (WC : forall c, In c cs -> wf_meta c) by (inversion W; auto).
  assert (CC : forall c ch, In c cs -> alookup (mname c) fs = Some ch -> conf c ch) by (inversion C; auto).
  destruct (to_struct_fields _ _ _ _ ND T) as [_ F]. apply (holds_struct nm cs fs l (ILeaf v)) in H. destruct H as (d & ch & l' & -> & D & A & H).
  specialize (F d D). rewrite A in F. assert (HV : has_value d ch = true) by (apply (has_value_nonempty d ch (CC d ch D A)); eapply (holds_nonempty d ch l' (ILeaf v)); exact H).
  rewrite HV in F. destruct F as (ch' & Rc & _).
  pose proof (IH d D (names ++ [mname d]) ch ch' (WC d D) (CC d ch D A) (fun _ => last_last _ _ _) Rc l' v H) as X. rewrite <- app_assoc in X. apply X. exact CH.
Qed.
Theorem resample_leaf_ok : forall m, leaves_ok m.
Proof.
  intros m. meta_induction m. destruct k as [| |dt nd].
  - now apply struct_leaves.
  - intros names x n' W C _ R l v H CH. destruct (conf_aos_inv _ _ _ C) as (els & ->). rewrite rnode_aos in R.
    destruct (rmap _ els) as [els'|e] eqn:T; cbn [rbind] in R; [|discriminate]. apply rmap_ok in T.
    assert (WS : wf_meta (Meta n KStruct cs)) by (inversion W; subst; constructor; auto; discriminate).
    assert (CE : forall e, In e els -> conf (Meta n KStruct cs) e) by (inversion C; auto).
    apply (holds_aos n cs els l (ILeaf v)) in H. destruct H as [(_ & E & _)|(i & e & l' & -> & E & H)]; [discriminate|].
    destruct (proj1 (forall2_nth _ _ _ _ _ T i) _ E) as (e' & _ & Re).
    assert (Ce : conf (Meta n KStruct cs) e) by (apply CE; eapply nth_error_In; eauto). destruct (conf_struct_inv _ _ _ Ce) as (fs & ->).
    cbn [node_fields] in Re. rewrite <- (rnode_struct n) in Re.
    apply (struct_leaves n cs ltac:(assumption) names _ _ WS Ce ltac:(intros (? & ? & ?); discriminate) Re l' v H). exact CH.
  - intros names x n' W C LN R l v H CH. specialize (LN (ex_intro _ dt (ex_intro _ nd eq_refl))). cbn [mname] in LN.
    destruct (conf_leaf_inv _ _ _ _ _ C) as [->|(w & -> & V)]; apply (holds_leaf n dt nd cs _ l (ILeaf v)) in H; destruct H as (-> & u & E & E' & FU); [discriminate|].
    assert (w = v) by congruence. subst w. cbn [loc_names flat_map] in *. rewrite app_nil_r in *. cbn [resample_node] in R.
    assert (HV : has_value (Meta n (KLeaf dt nd) cs) (NLeaf (Some v)) = true).
    { apply (has_value_nonempty _ _ C). exists []. left. exists v. apply (holds_leaf n dt nd cs (Some v) [] (ILeaf v)). split; auto. exists v. split; auto. split; auto. congruence. }
    rewrite HV in R. cbn [andb] in R.
    assert (CH' : (dynamic names && negb (str_eqb n (strs "time")))%bool = true) by (rewrite <- LN; exact CH). rewrite CH' in R.
    destruct (resample_value old new (time_index names) v) as [v'|]; cbn [rbind] in R; [eauto|discriminate].
Qed.

(** if every filled leaf to be resampled can be, the tree can be *)
Definition goes_through (m : meta) : Prop := forall names n, wf_meta m -> conf m n -> (is_leaf m -> last names [] = mname m) ->
  (forall l v, leaf_at m n l v -> changes (names ++ loc_names l) = true -> exists v', resample_value old new (time_index (names ++ loc_names l)) v = Ok v') ->
  exists n', rnode m names n = Ok n'.
Lemma to_struct_total : forall names cs fs, NoDup (map mname cs) ->
  (forall d ch, In d cs -> alookup (mname d) fs = Some ch -> has_value d ch = true -> exists ch', rnode d (names ++ [mname d]) ch = Ok ch') ->
  exists fs', to_struct names cs fs = Ok fs'.
Proof.
  intros names. induction cs as [|d t IH]; intros fs ND H; [exists fs; reflexivity|]. inversion ND as [|? ? NI ND']; subst.
  cbn [to_struct]. fold (to_struct names). destruct (alookup (mname d) fs) as [ch|] eqn:A.
  - destruct (has_value d ch) eqn:HV.
    + destruct (H d ch (or_introl eq_refl) A HV) as (ch' & R). rewrite R. cbn [rbind]. apply IH; auto. intros d' c' D A' HV'.
      rewrite alookup_aset_other in A'; [apply H; auto; now right|]. intros E. apply NI. rewrite <- E. now apply List.in_map.
    + apply IH; auto. intros. apply H; auto; now right.
  - apply IH; auto. intros. apply H; auto; now right.
Qed.
Lemma struct_total : forall nm cs, (forall c, In c cs -> goes_through c) -> goes_through (Meta nm KStruct cs).
Proof.
  intros nm cs IH names n W C _ H. destruct (conf_struct_inv _ _ _ C) as (fs & ->). rewrite rnode_struct.
  assert (ND : NoDup (map mname cs)) by (inversion W; auto). assert (WC : forall c, In c cs -> wf_meta c) by (inversion W; auto).
  assert (CC : forall c ch, In c cs -> alookup (mname c) fs = Some ch -> conf c ch) by (inversion C; auto).
  destruct (to_struct_total names cs fs ND) as (fs' & E); [|rewrite E; cbn [rbind]; eauto].
  intros d ch D A HV. apply (IH d D); auto; [intros _; apply last_last|].
  intros l v L CH. rewrite <- app_assoc in *. apply (H (Child (mname d) :: l) v); [|exact CH]. apply (holds_struct nm cs fs _ (ILeaf v)). exists d, ch, l. auto.
Qed.
Theorem tree_total : forall m, goes_through m.
Proof.
  intros m. meta_induction m. destruct k as [| |dt nd].
  - now apply struct_total.
  - intros names x W C _ H. destruct (conf_aos_inv _ _ _ C) as (els & ->). rewrite rnode_aos.
    assert (WS : wf_meta (Meta n KStruct cs)) by (inversion W; subst; constructor; auto; discriminate).
    assert (CE : forall e, In e els -> conf (Meta n KStruct cs) e) by (inversion C; auto).
    match goal with |- context [rmap ?f els] => destruct (rmap_total _ _ f els) as (r & E); [|rewrite E; cbn [rbind]; eauto] end.
    intros e I. pose proof (CE e I) as Ce. destruct (conf_struct_inv _ _ _ Ce) as (fs & ->). cbn [node_fields]. 
    apply In_nth_error in I. destruct I as (i & Ei).
    destruct (struct_total n cs ltac:(assumption) names _ WS Ce ltac:(intros (? & ? & ?); discriminate)) as (n' & E).
    + intros l v L CH. apply (H (Elem i :: l) v); [|exact CH]. apply (holds_aos n cs els _ (ILeaf v)). right. exists i, (NStruct fs), l. auto.
    + rewrite rnode_struct in E. eauto.
  - intros names x W C LN H. specialize (LN (ex_intro _ dt (ex_intro _ nd eq_refl))). cbn [mname] in LN.
    destruct (conf_leaf_inv _ _ _ _ _ C) as [->|(v & -> & V)]; cbn [resample_node]; [eauto|].
    destruct (has_value (Meta n (KLeaf dt nd) cs) (NLeaf (Some v))) eqn:HV; cbn [andb]; [|eauto].
    destruct (dynamic names && negb (str_eqb n (strs "time")))%bool eqn:CH; [|eauto].
    destruct (H [] v) as (v' & E).
    + apply (holds_leaf n dt nd cs (Some v) [] (ILeaf v)). split; auto. exists v. split; auto. split; auto.
      apply (has_value_nonempty _ _ C) in HV. destruct HV as (l0 & [(w & X)|(k & X)]).
      * apply (holds_leaf n dt nd cs (Some v) l0 (ILeaf w)) in X. destruct X as (_ & u & E & E' & F). congruence.
      * apply (holds_leaf n dt nd cs (Some v) l0 (ISize k)) in X. destruct X as (_ & u & E & E' & F). congruence.
    + cbn [loc_names flat_map]. rewrite app_nil_r. rewrite <- LN in CH. exact CH.
    + cbn [loc_names flat_map] in E. rewrite app_nil_r in E. rewrite E. cbn [rbind]. eauto.
Qed.
End Tree.
