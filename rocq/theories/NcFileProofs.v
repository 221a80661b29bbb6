(** Arrays of the netCDF model and the filled nodes of a tree by path and index. *)
From Verif Require Import Base TreeModel TreeSpec TreeProofs ValProofs ValProofs5 StoreProofs2 NcMetaModel NcMetaSpec NcMetaProofs NcFileModel.
From Coq Require Import Lia.

(** * Arrays *)
Lemma in_range_length : forall sh ix, in_range sh ix = true -> length ix = length sh.
Proof. induction sh as [|n sh IH]; intros [|i ix] H; cbn in *; try discriminate; auto. apply Bool.andb_true_iff in H. f_equal. now apply IH. Qed.
Lemma in_range_app : forall a b x y, length x = length a -> in_range (a ++ b) (x ++ y) = in_range a x && in_range b y.
Proof.
  induction a as [|n a IH]; intros b [|i x] y L; cbn in *; try discriminate; auto. rewrite IH by lia. now rewrite Bool.andb_assoc.
Qed.
Lemma indices_range : forall sh ix, In ix (indices sh) <-> in_range sh ix = true.
Proof.
  induction sh as [|n sh IH]; intros ix; cbn [indices in_range].
  - split; [intros [<-|[]]; reflexivity|destruct ix; [now left|discriminate]].
  - rewrite in_flat_map. split.
    + intros (i & S & I). apply in_seq in S. apply in_map_iff in I. destruct I as (t & <- & I). apply IH in I. rewrite I.
      assert (i <? n = true) by (apply Nat.ltb_lt; lia). now rewrite H.
    + destruct ix as [|i ix]; [discriminate|]. intros H. apply Bool.andb_true_iff in H. destruct H as [H1 H2]. apply Nat.ltb_lt in H1. exists i. split; [apply in_seq; lia|].
      apply List.in_map. now apply IH.
Qed.

Lemma map_add_seq : forall k n a, map (Nat.add k) (seq a n) = seq (k + a) n.
Proof. induction n as [|n IH]; intros a; cbn; auto. f_equal. rewrite IH. f_equal. lia. Qed.
Lemma blocks_seq : forall P n a, flat_map (fun i => map (Nat.add (i * P)) (seq 0 P)) (seq a n) = seq (a * P) (n * P).
Proof.
  induction n as [|n IH]; intros a; cbn [seq flat_map]; auto. rewrite IH, map_add_seq. replace (S n * P) with (P + n * P) by lia. rewrite seq_app. f_equal; f_equal; lia.
Qed.
Lemma ravel_indices : forall sh, map (ravel sh) (indices sh) = seq 0 (prod sh).
Proof.
  induction sh as [|n sh IH]; auto. cbn [indices]. change (prod (n :: sh)) with (n * prod sh). change (seq 0 (n * prod sh)) with (seq (0 * prod sh) (n * prod sh)). rewrite <- (blocks_seq (prod sh) n 0).
  rewrite !flat_map_concat_map, concat_map, !map_map. f_equal. apply map_ext. intros i. rewrite map_map. cbn [ravel]. rewrite <- IH, map_map. reflexivity.
Qed.
Lemma map_nth_seq : forall A (l : list A) d, map (fun i => nth i l d) (seq 0 (length l)) = l.
Proof.
  induction l as [|x l IH]; intros d; auto. cbn [length seq map nth]. f_equal. rewrite <- (IH d) at 2. rewrite <- seq_shift, map_map. reflexivity.
Qed.

Lemma value_cells_length : forall dt nd v, val_ok dt nd v -> length (value_cells v) = prod (value_shape v).
Proof. intros dt nd v V. destruct V; cbn [value_cells value_shape]; auto; rewrite ?map_length; auto. cbn. lia. Qed.
Lemma value_cells_spec : forall dt nd v, val_ok dt nd v -> map (value_cell v) (indices (value_shape v)) = value_cells v.
Proof.
  intros dt nd v V. unfold value_cell. rewrite <- (map_map (ravel (value_shape v)) (fun i => nth i (value_cells v) (CInt 0))). rewrite ravel_indices, <- (value_cells_length dt nd v V).
  apply map_nth_seq.
Qed.
Lemma indices_ext : forall A sh (f g : list nat -> A), (forall ix, in_range sh ix = true -> f ix = g ix) -> map f (indices sh) = map g (indices sh).
Proof. intros A sh f g H. apply map_ext_in. intros ix I. apply H. now apply indices_range. Qed.

Lemma build_value : forall dt nd v f, val_ok dt nd v -> (forall ix, in_range (value_shape v) ix = true -> f ix = value_cell v ix) ->
  build dt nd (value_shape v) f = v.
Proof.
  intros dt nd v f V F. pose proof (value_cells_spec dt nd v V) as C.
  assert (R : forall A (g : cell -> A), map (fun ix => g (f ix)) (indices (value_shape v)) = map g (value_cells v)).
  { intros A g. rewrite <- C, map_map. apply indices_ext. intros ix I. now rewrite F. }
  destruct V; cbn [value_shape] in *; try (cbn [build]; rewrite (F []) by reflexivity; reflexivity).
  - cbn [build]. rewrite (R _ cell_str). cbn [value_cells]. rewrite map_map. f_equal. apply map_id.
  - destruct sh as [|a sh]; [congruence|]. cbn [build length]. rewrite (R _ cell_int). cbn [value_cells]. rewrite map_map. f_equal. apply map_id.
  - destruct sh as [|a sh]; [congruence|]. cbn [build length]. rewrite (R _ cell_flt). cbn [value_cells]. rewrite map_map. f_equal. apply map_id.
  - destruct sh as [|a sh]; [congruence|]. cbn [build length]. rewrite (R _ cell_cpx). cbn [value_cells]. rewrite map_map. f_equal. rewrite <- (map_id d) at 2. apply map_ext. intros []; reflexivity.
Qed.
Lemma build_ext : forall dt nd sh f g, (nd = 0 -> sh = []) -> (forall ix, in_range sh ix = true -> f ix = g ix) -> build dt nd sh f = build dt nd sh g.
Proof.
  intros dt nd sh f g Z H. destruct nd as [|nd]; cbn [build].
  - rewrite (Z eq_refl) in H. rewrite (H []) by reflexivity. reflexivity.
  - assert (R : forall A (k : cell -> A), map (fun ix => k (f ix)) (indices sh) = map (fun ix => k (g ix)) (indices sh)) by (intros A k; apply indices_ext; intros ix I; now rewrite H).
    destruct dt; now rewrite R.
Qed.

Lemma list_eqb_eq : forall a b, list_eqb a b = true <-> a = b.
Proof.
  induction a as [|x a IH]; intros [|y b]; cbn; split; intros H; try discriminate; auto.
  - apply Bool.andb_true_iff in H. destruct H as [H1 H2]. apply Nat.eqb_eq in H1. apply IH in H2. now subst.
  - inversion H; subst. now rewrite Nat.eqb_refl, (proj2 (IH b) eq_refl).
Qed.

(** the shape of a filled value *)
Lemma val_ok_shape : forall dt nd v, val_ok dt nd v -> length (value_shape v) = nd.
Proof. intros dt nd v V. destruct V; reflexivity. Qed.
Lemma prod_pos : forall sh, (forall k, In k sh -> k > 0) <-> prod sh <> 0.
Proof.
  induction sh as [|a sh IH]; cbn [prod fold_right].
  - split; [lia|intros _ k []].
  - change (fold_right Nat.mul 1 sh) with (prod sh). split.
    + intros H. assert (prod sh <> 0) by (apply IH; intros k K; apply H; now right). specialize (H a (or_introl eq_refl)). nia.
    + intros H k [<-|K]; [destruct a; [now rewrite Nat.mul_0_l in H|lia]|]. apply IH; auto. intros Q. rewrite Q, Nat.mul_0_r in H. congruence.
Qed.
Lemma filled_shape : forall dt nd v, val_ok dt nd v -> filled_value v -> forall k, In k (value_shape v) -> k > 0.
Proof.
  intros dt nd v V F. apply prod_pos. rewrite <- (value_cells_length dt nd v V). destruct V; cbn [value_cells filled_value] in *; rewrite ?map_length; try (cbn; lia);
  match goal with H : ?x <> [] |- length ?x <> 0 => destruct x; [congruence|cbn; lia] end.
Qed.
Lemma filled_shape_inv : forall dt nd v, val_ok dt nd v -> (forall k, In k (value_shape v) -> k > 0) -> filled_value v.
Proof.
  intros dt nd v V H. apply prod_pos in H. rewrite <- (value_cells_length dt nd v V) in H. destruct V; cbn [value_cells filled_value] in *; auto; rewrite ?map_length in H;
  intros ->; cbn in H; congruence.
Qed.

(** * Locations by path and index *)
Definition loc_index (l : loc) : list nat := flat_map (fun s => match s with Child _ => [] | Elem i => [i] end) l.
Lemma loc_index_app : forall a b, loc_index (a ++ b) = loc_index a ++ loc_index b.
Proof. intros. unfold loc_index. apply flat_map_app. Qed.
Definition content_item (x : item) : content := match x with ILeaf v => FLeaf v | ISize k => FAoS k end.

Lemma conf_child : forall nm cs fs c ch, conf (Meta nm KStruct cs) (NStruct fs) -> In c cs -> alookup (mname c) fs = Some ch -> conf c ch.
Proof. intros nm cs fs c ch C I A. inversion C; subst. eauto. Qed.

Lemma filled_iter_spec : forall m, wf_meta m -> forall n names idx p ix x, conf m n -> (forall dt nd, mkind m <> KLeaf dt nd) ->
  (In (p, ix, content_item x) (filled_iter m n names idx) <->
   exists l, l <> [] /\ p = names ++ loc_names l /\ ix = idx ++ loc_index l /\ holds m n l x).
Proof.
  induction m as [nm k cs IH] using ValProofs.meta_ind'. intros W n names idx p ix x C NL.
  assert (IHc : forall c, In c cs -> forall n names idx p ix x, conf c n -> (forall dt nd, mkind c <> KLeaf dt nd) ->
    (In (p, ix, content_item x) (filled_iter c n names idx) <-> exists l, l <> [] /\ p = names ++ loc_names l /\ ix = idx ++ loc_index l /\ holds c n l x)).
  { intros c I. apply IH; auto. inversion W; subst. auto. }
  clear IH.
  assert (OF : forall fs idx, conf (Meta nm KStruct cs) (NStruct fs) ->
    (In (p, ix, content_item x) (flat_map (fun c => match alookup (mname c) fs with
        | None => []
        | Some ch => if has_value c ch then
            match ch with
            | NLeaf (Some v) => [(names ++ [mname c], idx, FLeaf v)]
            | NLeaf None => []
            | NStruct _ => (names ++ [mname c], idx, FStruct) :: filled_iter c ch (names ++ [mname c]) idx
            | NAoS els => (names ++ [mname c], idx, FAoS (length els)) :: filled_iter c ch (names ++ [mname c]) idx
            end else [] end) cs) <->
     exists l, l <> [] /\ p = names ++ loc_names l /\ ix = idx ++ loc_index l /\ holds (Meta nm KStruct cs) (NStruct fs) l x)).
  { clear n idx C. intros fs idx C. rewrite in_flat_map. split.
    - intros (c & I & H). destruct (alookup (mname c) fs) as [ch|] eqn:A; [|destruct H]. destruct (has_value c ch) eqn:HV; [|destruct H].
      pose proof (conf_child _ _ _ _ _ C I A) as Cc.
      assert (X : forall l, p = (names ++ [mname c]) ++ loc_names l -> ix = idx ++ loc_index l -> holds c ch l x ->
        exists l, l <> [] /\ p = names ++ loc_names l /\ ix = idx ++ loc_index l /\ holds (Meta nm KStruct cs) (NStruct fs) l x).
      { intros l -> -> H'. exists (Child (mname c) :: l). split; [discriminate|]. split; [now rewrite <- app_assoc|]. split; auto. apply holds_struct. exists c, ch, l. auto. }
      destruct ch as [fs'|els|[v|]]; cbn [In] in H.
      + destruct H as [H|H]; [destruct x; discriminate|]. apply IHc in H; auto; [|inversion Cc; subst; discriminate]. destruct H as (l & _ & E1 & E2 & E3). eauto.
      + destruct H as [H|H]; [|apply IHc in H; auto; [|inversion Cc; subst; discriminate]; destruct H as (l & _ & E1 & E2 & E3); eauto].
        destruct x as [v|k']; [discriminate|]. cbn [content_item] in H. inversion H; subst. apply (X []); [now rewrite app_nil_r|now rewrite app_nil_r|].
        inversion Cc; subst. apply holds_aos. left. cbn in HV. repeat split; auto. destruct els; [discriminate|cbn; lia].
      + destruct H as [H|[]]. destruct x as [v'|k']; [|discriminate]. cbn [content_item] in H. inversion H; subst. apply (X []); [now rewrite app_nil_r|now rewrite app_nil_r|].
        destruct c as [cn ck cc]. inversion Cc; subst. apply holds_leaf. split; auto. exists v'. repeat split; auto. apply has_value_nonempty in HV; auto.
        destruct HV as (l & [(w & Hw)|(k' & Hk)]).
        * apply (holds_leaf cn dt nd cc (Some v') l (ILeaf w)) in Hw. destruct Hw as (_ & u & E & E' & F). congruence.
        * apply (holds_leaf cn dt nd cc (Some v') l (ISize k')) in Hk. destruct Hk as (_ & u & E & E' & F). discriminate.
      + destruct H.
    - intros (l & NE & -> & -> & H). apply holds_struct in H. destruct H as (c & ch & l' & -> & I & A & H). exists c. split; auto. rewrite A.
      pose proof (conf_child _ _ _ _ _ C I A) as Cc.
      assert (HV : has_value c ch = true) by (apply has_value_nonempty; [exact Cc|eapply holds_nonempty; eauto]). rewrite HV.
      change (loc_names (Child (mname c) :: l')) with (mname c :: loc_names l'). change (loc_index (Child (mname c) :: l')) with (loc_index l').
      destruct c as [cn ck cc]. inversion Cc; subst.
      + apply holds_leaf in H. destruct H as (_ & w & E & _). discriminate.
      + apply holds_leaf in H. destruct H as (-> & w & E & -> & F). inversion E; subst. cbn [loc_names flat_map loc_index]. rewrite app_nil_r. now left.
      + right. apply IHc; auto; [discriminate|]. exists l'. split; [|split; [now rewrite <- app_assoc|auto]]. intros ->. apply holds_struct in H. destruct H as (? & ? & ? & E & _). discriminate.
      + assert (D := H). apply holds_aos in D. destruct D as [(-> & -> & G)|(i & e & l2 & -> & _)].
        * left. cbn [loc_names flat_map loc_index content_item]. now rewrite app_nil_r.
        * right. apply IHc; auto; [discriminate|]. eexists. split; [|split; [|split; [reflexivity|exact H]]]; [discriminate|now rewrite <- app_assoc]. }
  cbn [filled_iter]. destruct k as [| |dt nd].
  - inversion C; subst. apply OF. exact C.
  - inversion C as [| | |n0 cs0 els CE]; subst. rewrite in_flat_map. split.
    + intros ([i e] & I & H). apply enum_In in I. cbn [fst snd] in H. assert (Ce : conf (Meta nm KStruct cs) e) by (apply CE; eapply nth_error_In; eauto).
      inversion Ce as [| |n1 cs1 fs1 CF1 CF2 CF3|]; subst. cbn [node_fields] in H. apply OF in H; [|exact Ce]. destruct H as (l & NE & -> & -> & H). exists (Elem i :: l). split; [discriminate|]. split; auto. split; [cbn; now rewrite <- app_assoc|].
      apply holds_aos. right. exists i, (NStruct fs1), l. auto.
    + intros (l & NE & -> & -> & H). apply holds_aos in H. destruct H as [(-> & _)|(i & e & l' & -> & A & H)]; [congruence|].
      exists (i, e). split; [now apply enum_In|]. cbn [fst snd]. assert (Ce : conf (Meta nm KStruct cs) e) by (apply CE; eapply nth_error_In; eauto).
      inversion Ce; subst. cbn [node_fields]. apply OF; auto. exists l'. split; [intros ->; apply holds_struct in H; destruct H as (? & ? & ? & E & _); discriminate|].
      split; auto. split; [cbn; now rewrite <- app_assoc|auto].
  - exfalso. eapply NL. reflexivity.
Qed.
