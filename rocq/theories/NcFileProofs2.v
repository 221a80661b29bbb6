(** What the eager reader builds: every node of the dictionary has the contents that the variables of the file give for its path and index. *)
From Verif Require Import Base TreeModel TreeSpec TreeProofs ValProofs StoreProofs2 NcMetaModel NcMetaSpec NcMetaProofs NcMetaProofs2 NcFileModel NcFileProofs.
From Verif Require HashModel HashProofs2 HashProofs3.
From Coq Require Import Lia Permutation.

(** * Trees that look the same: absent children are the same as empty ones *)
Definition field (d : meta) (fs : fields) : node := match alookup (mname d) fs with Some ch => ch | None => new_node d end.
Inductive same : meta -> node -> node -> Prop :=
| sm_leaf : forall nm dt nd cs v, same (Meta nm (KLeaf dt nd) cs) (NLeaf v) (NLeaf v)
| sm_struct : forall nm cs fs fs', (forall c, In c cs -> same c (field c fs) (field c fs')) -> same (Meta nm KStruct cs) (NStruct fs) (NStruct fs')
| sm_aos : forall nm cs els els', length els = length els' ->
    (forall i a b, nth_error els i = Some a -> nth_error els' i = Some b -> same (Meta nm KStruct cs) a b) -> same (Meta nm KAoS cs) (NAoS els) (NAoS els').

Lemma new_empty : forall c l x, ~ holds c (new_node c) l x.
Proof.
  intros [nm [| |dt nd] cs] l x H; unfold new_node in H; cbn in H.
  - apply holds_struct in H. destruct H as (d & ch & l' & _ & _ & A & _). discriminate.
  - apply holds_aos in H. destruct H as [(_ & _ & G)|(i & e & l' & _ & A & _)]; [cbn in G; lia|]. destruct i; discriminate.
  - apply holds_leaf in H. destruct H as (_ & w & E & _). discriminate.
Qed.
Lemma holds_field : forall nm cs fs l x, holds (Meta nm KStruct cs) (NStruct fs) l x <-> exists d l', l = Child (mname d) :: l' /\ In d cs /\ holds d (field d fs) l' x.
Proof.
  intros nm cs fs l x. rewrite holds_struct. unfold field. split.
  - intros (d & ch & l' & -> & I & A & H). exists d, l'. rewrite A. auto.
  - intros (d & l' & -> & I & H). destruct (alookup (mname d) fs) as [ch|] eqn:A; [exists d, ch, l'; auto|]. now apply new_empty in H.
Qed.
Lemma same_holds : forall m a b, same m a b -> forall l x, holds m a l x <-> holds m b l x.
Proof.
  induction m as [nm k cs IH] using meta_ind'. intros a b S l x. inversion S as [|? ? fa fb F|? ? els els' LE FE]; subst.
  - tauto.
  - rewrite !holds_field. split; intros (d & l' & -> & I & Q); exists d, l'; (split; [reflexivity|]); (split; [exact I|]); apply (IH d I _ _ (F d I)) in Q; exact Q.
  - assert (ST : forall a b, same (Meta nm KStruct cs) a b -> forall l x, holds (Meta nm KStruct cs) a l x <-> holds (Meta nm KStruct cs) b l x).
    { intros a b S' l' x'. inversion S' as [|? ? fa fb F|]; subst. rewrite !holds_field. split; intros (d & l2 & -> & I & Q); exists d, l2; (split; [reflexivity|]); (split; [exact I|]); apply (IH d I _ _ (F d I)) in Q; exact Q. }
    rewrite !holds_aos. rewrite LE. split; (intros [Q|(i & e & l' & -> & A & Q)]; [now left|right]).
    + destruct (nth_error els' i) as [b|] eqn:B; [|apply nth_error_None in B; rewrite <- LE in B; apply nth_error_None in B; congruence].
      exists i, b, l'. split; auto. split; auto. apply (ST _ _ (FE _ _ _ A B)). exact Q.
    + destruct (nth_error els i) as [b|] eqn:B; [|apply nth_error_None in B; rewrite LE in B; apply nth_error_None in B; congruence].
      exists i, b, l'. split; auto. split; auto. apply (ST _ _ (FE _ _ _ B A)). exact Q.
Qed.

(** * Names without dots *)
Definition nodot (s : str) : Prop := ~ In "."%char s.
Inductive clean : meta -> Prop := cl : forall nm k cs, (forall c, In c cs -> nodot (mname c) /\ clean c) -> clean (Meta nm k cs).
Lemma dotted_inj : forall p q, p <> [] -> q <> [] -> Forall nodot p -> Forall nodot q -> dotted p = dotted q -> p = q.
Proof.
  intros p q NP NQ FP FQ E. unfold dotted in E. rewrite Forall_forall in FP, FQ.
  rewrite <- (split_join "."%char p NP FP), E. now apply split_join.
Qed.
Lemma split_dotted : forall p, p <> [] -> Forall nodot p -> split_on "."%char (dotted p) = p.
Proof. intros p N F. rewrite Forall_forall in F. now apply split_join. Qed.

Lemma split_len_app : forall c a b, length (split_on c (a ++ c :: b)) = length (split_on c a) + length (split_on c b).
Proof.
  induction a as [|x a IH]; intros b; cbn [app split_on].
  - rewrite (proj2 (Ascii.eqb_eq c c) eq_refl). reflexivity.
  - destruct (Ascii.eqb x c); [cbn [length]; now rewrite IH|]. specialize (IH b). pose proof (split_on_nonnil c (a ++ c :: b)). pose proof (split_on_nonnil c a).
    destruct (split_on c (a ++ c :: b)); [congruence|]. destruct (split_on c a); [congruence|]. cbn [length] in *. lia.
Qed.
Lemma split_count_dots : forall l, length l <= length (split_on "."%char (dotted l)).
Proof.
  unfold dotted. induction l as [|x l IH]; [cbn; lia|]. destruct l as [|y l].
  - cbn [join_with]. pose proof (split_on_nonnil "."%char x). destruct (split_on "."%char x); [congruence|cbn; lia].
  - change (join_with "."%char (x :: y :: l)) with (x ++ "."%char :: join_with "."%char (y :: l)). rewrite split_len_app. pose proof (split_on_nonnil "."%char x). destruct (split_on "."%char x); [congruence|]. cbn [length] in *. lia.
Qed.

(** * The contents given by the variables of a file *)
Section Den.
Variable r : ncmeta.
Variable g : group.
Variable h : bool.
Definition in_vars (vs : list ncvar) (nm : str) : option ncvar := List.find (fun v => str_eqb (v_name v) nm) vs.
Definition val_at (vs : list ncvar) (p : path) (dt : dtype) (nd : nat) (idx : list nat) : option value :=
  match in_vars vs (dotted p) with Some v => match leaf_value g v dt nd idx with Ok x => x | Err _ => None end | None => None end.
Definition size_at (vs : list ncvar) (p : path) (idx : list nat) : nat :=
  match in_vars vs (dotted p) with Some v => match aos_size r g h v p idx with Ok k => k | Err _ => 0 end | None => 0 end.

Fixpoint den (vs : list ncvar) (c : meta) (p : path) (idx : list nat) {struct c} : node :=
  match c with
  | Meta _ k cs =>
    let below idx := NStruct (map (fun d => (mname d, den vs d (p ++ [mname d]) idx)) cs) in
    match k with
    | KLeaf dt nd => NLeaf (val_at vs p dt nd idx)
    | KStruct => below idx
    | KAoS => NAoS (map (fun i => below (idx ++ [i])) (seq 0 (size_at vs p idx)))
    end
  end.
Definition den_fields (vs : list ncvar) (cs : list meta) (p : path) (idx : list nat) : fields := map (fun d => (mname d, den vs d (p ++ [mname d]) idx)) cs.

Lemma den_field : forall vs cs p idx d, NoDup (map mname cs) -> In d cs -> field d (den_fields vs cs p idx) = den vs d (p ++ [mname d]) idx.
Proof.
  intros vs cs p idx d ND I. unfold field, den_fields. induction cs as [|c cs IH]; [destruct I|]. cbn [map alookup]. cbn [map] in ND. inversion ND as [|? ? NI ND']; subst.
  destruct I as [->|I].
  - rewrite str_eqb_refl. reflexivity.
  - destruct (str_eqb (mname c) (mname d)) eqn:E; [apply str_eqb_eq in E; exfalso; apply NI; rewrite E; now apply List.in_map|].
    destruct (str_eqb (mname d) (mname c)) eqn:E'; [apply str_eqb_eq in E'; rewrite E', str_eqb_refl in E; discriminate|]. now apply IH.
Qed.

Lemma in_vars_app : forall vs v nm, in_vars (vs ++ [v]) nm = match in_vars vs nm with Some x => Some x | None => if str_eqb (v_name v) nm then Some v else None end.
Proof. intros vs v nm. unfold in_vars. induction vs as [|x vs IH]; cbn; [destruct (str_eqb (v_name v) nm); auto|]. destruct (str_eqb (v_name x) nm); auto. Qed.
Lemma in_vars_some : forall vs nm v, in_vars vs nm = Some v -> In v vs /\ v_name v = nm.
Proof. intros vs nm v H. apply find_some in H. destruct H as [H E]. apply str_eqb_eq in E. auto. Qed.
Lemma in_vars_none : forall vs nm, in_vars vs nm = None <-> ~ In nm (map v_name vs).
Proof.
  intros vs nm. split.
  - intros H Q. apply in_map_iff in Q. destruct Q as (v & E & I). pose proof (find_none _ _ H v I) as N. cbn in N. rewrite E, str_eqb_refl in N. discriminate.
  - intros H. destruct (in_vars vs nm) as [v|] eqn:E; auto. apply in_vars_some in E. destruct E as [I <-]. exfalso. apply H. now apply List.in_map.
Qed.

Lemma find_name : forall cs d, NoDup (map mname cs) -> In d cs -> List.find (fun c => str_eqb (mname c) (mname d)) cs = Some d.
Proof.
  induction cs as [|c cs IH]; intros d ND I; [destruct I|]. cbn [map] in ND. inversion ND as [|? ? NI ND']; subst. cbn [List.find]. destruct I as [->|I].
  - now rewrite str_eqb_refl.
  - destruct (str_eqb (mname c) (mname d)) eqn:E; [|auto]. apply str_eqb_eq in E. exfalso. apply NI. rewrite E. now apply List.in_map.
Qed.

Definition splits (names p P : path) : Prop := names ++ p = P.
(** the path of a variable *)
Definition path_of_var (v : ncvar) (P : path) : Prop := split_on "."%char (v_name v) = P.
(** a new variable for another path changes nothing *)
Lemma den_other : forall vs v P, path_of_var v P -> forall c, wf_meta c -> clean c -> forall q idx, q <> [] -> Forall nodot q ->
  (forall t c', meta_at c t = Some c' -> mkind c' <> KStruct -> q ++ t <> P) -> den (vs ++ [v]) c q idx = den vs c q idx.
Proof.
  intros vs v P EP. induction c as [nm k cs IH] using meta_ind'. intros W CL q idx NE F NP. inversion W as [? ? ? ND WC LF]; subst. inversion CL as [? ? ? CC]; subst.
  assert (NV : k <> KStruct -> str_eqb (v_name v) (dotted q) = false).
  { intros K. destruct (str_eqb (v_name v) (dotted q)) eqn:E; auto. apply str_eqb_eq in E. exfalso. apply (NP [] (Meta nm k cs) eq_refl K). rewrite app_nil_r, <- EP, E. symmetry. now apply split_dotted. }
  assert (B : forall idx, map (fun d => (mname d, den (vs ++ [v]) d (q ++ [mname d]) idx)) cs = map (fun d => (mname d, den vs d (q ++ [mname d]) idx)) cs).
  { intros idx'. apply map_ext_in. intros d I. f_equal. destruct (CC d I) as [N1 N2]. apply IH; auto.
    - destruct q; discriminate.
    - apply Forall_app. split; auto.
    - intros t c' M K. rewrite <- app_assoc. apply (NP (mname d :: t) c'); auto. cbn [meta_at mchildren]. rewrite find_name; auto. }
  cbn [den]. destruct k as [| |dt nd].
  - now rewrite B.
  - unfold size_at. rewrite in_vars_app, NV by discriminate. destruct (in_vars vs (dotted q)); f_equal; apply map_ext; intros i; now rewrite B.
  - unfold val_at. rewrite in_vars_app, NV by discriminate. now destruct (in_vars vs (dotted q)).
Qed.

(** nothing is stored below a path *)
Lemma den_empty : forall vs c q idx, wf_meta c -> (forall t, in_vars vs (dotted (q ++ t)) = None) -> same c (new_node c) (den vs c q idx).
Proof.
  intros vs. induction c as [nm k cs IH] using meta_ind'. intros q idx W E. inversion W as [? ? ? ND WC LF]; subst. unfold new_node. cbn [mkind den]. destruct k as [| |dt nd].
  - constructor. intros c I. change (map _ cs) with (den_fields vs cs q idx). rewrite den_field; auto. change (field c []) with (new_node c). apply IH; auto. intros t. rewrite <- app_assoc. apply E.
  - unfold size_at. specialize (E []). rewrite app_nil_r in E. rewrite E. cbn. constructor; auto. intros i a b A. destruct i; discriminate.
  - unfold val_at. specialize (E []). rewrite app_nil_r in E. rewrite E. constructor.
Qed.

Lemma map_index_ok : forall A (f : nat -> A -> result fexn A) l i l', map_index f i l = Ok l' ->
  length l' = length l /\ forall j x, nth_error l j = Some x -> exists y, f (i + j) x = Ok y /\ nth_error l' j = Some y.
Proof.
  induction l as [|a l IH]; intros i l' H; cbn [map_index] in H.
  - inversion H; subst. split; auto. intros [|j] x Q; discriminate.
  - destruct (f i a) as [y|e] eqn:E; [|discriminate]. cbn [rbind] in H. destruct (map_index f (S i) l) as [t|e] eqn:T; [|discriminate]. cbn [rbind] in H. inversion H; subst.
    apply IH in T. destruct T as [L T]. split; [cbn; lia|]. intros [|j] x Q; cbn in Q.
    + inversion Q; subst. exists y. rewrite Nat.add_0_r. auto.
    + destruct (T j x Q) as (z & Z1 & Z2). exists z. rewrite Nat.add_succ_r. auto.
Qed.
Lemma field_aset_same : forall d fs x, field d (aset (mname d) x fs) = x.
Proof. intros. unfold field. now rewrite alookup_aset_same. Qed.
Lemma field_aset_other : forall d nm fs x, mname d <> nm -> field d (aset nm x fs) = field d fs.
Proof. intros. unfold field. rewrite alookup_aset_other; auto. Qed.

(** reading one variable *)
Section Step.
Variable vs : list ncvar.
Variable v : ncvar.
Variable P : path.
Hypothesis EP : path_of_var v P.
Hypothesis NEW : ~ In (v_name v) (map v_name vs).

Lemma update_den : forall p cs fs idx names fs' c0, NoDup (map mname cs) -> (forall c, In c cs -> wf_meta c) -> (forall c, In c cs -> nodot (mname c) /\ clean c) ->
  splits names p P -> p <> [] -> Forall nodot names -> meta_at (Meta [] KStruct cs) p = Some c0 -> mkind c0 <> KStruct ->
  (mkind c0 = KAoS -> forall t, t <> [] -> in_vars vs (dotted (P ++ t)) = None) ->
  (forall c, In c cs -> same c (field c fs) (den vs c (names ++ [mname c]) idx)) ->
  update_at cs fs p idx FKey (read_node r g h v P) = Ok fs' ->
  forall c, In c cs -> same c (field c fs') (den (vs ++ [v]) c (names ++ [mname c]) idx).
Proof.
  induction p as [|nm p IH]; intros cs fs idx names fs' c0 ND WC CL EN NE FN M K0 LATE S U c I; [congruence|].
  cbn [update_at] in U. cbn [meta_at mchildren] in M. destruct (List.find (fun d => str_eqb (mname d) nm) cs) as [d|] eqn:Fd; [|discriminate].
  assert (Hd : In d cs /\ mname d = nm) by (apply find_some in Fd; destruct Fd as [F1 F2]; apply str_eqb_eq in F2; auto). destruct Hd as [Id Nd]. subst nm.
  fold (field d fs) in U.
  destruct (str_dec (mname c) (mname d)) as [E|NEQ].
  2:{ (* another child *)
    assert (U' : exists x, fs' = aset (mname d) x fs).
    { destruct (match p with [] => read_node r g h v P idx d (field d fs) | _ :: _ => _ end) as [x|e]; [|discriminate]. cbn [rbind] in U. inversion U. eauto. }
    destruct U' as [x ->]. rewrite field_aset_other by auto. destruct (CL c I) as [C1 C2]. rewrite (den_other vs v P EP); auto.
    - destruct names; discriminate.
    - apply Forall_app. auto.
    - intros t c' _ _ Q. rewrite <- app_assoc in Q. cbn [app] in Q. unfold splits in EN. rewrite <- EN in Q. apply app_inv_head in Q. congruence. }
  assert (c = d) by (pose proof (find_name cs c ND I) as X; pose proof (find_name cs d ND Id) as Y; rewrite E in X; congruence). subst c. clear E I.
  destruct (CL d Id) as [C1 C2]. pose proof (WC d Id) as Wd. pose proof (S d Id) as Sd.
  assert (NP : names ++ [mname d] <> []) by (destruct names; discriminate).
  assert (FP : Forall nodot (names ++ [mname d])) by (apply Forall_app; auto).
  destruct p as [|nm2 p].
  - (* this node *)
    cbn [meta_at] in M. inversion M; subst c0. destruct (read_node r g h v P idx d (field d fs)) as [x|e] eqn:R; [|discriminate]. cbn [rbind] in U. inversion U; subst fs'.
    rewrite field_aset_same. unfold splits in EN. rewrite EN in *. clear EN. destruct d as [dn dk dc]. unfold read_node in R. cbn [mkind] in *.
    assert (EV : str_eqb (v_name v) (dotted P) = true) by (apply str_eqb_eq; unfold dotted; rewrite <- EP; symmetry; apply join_split).
    assert (OV : in_vars vs (dotted P) = None) by (apply in_vars_none; apply str_eqb_eq in EV; now rewrite <- EV).
    destruct dk as [| |dt nd]; [congruence| |].
    + destruct (aos_size r g h v P idx) as [k|e] eqn:Z; [|discriminate]. cbn [rbind] in R. inversion R; subst x. cbn [den]. unfold size_at. rewrite in_vars_app, OV, EV, Z.
      constructor; [now rewrite repeat_length, map_length, seq_length|]. intros i a b A B. apply nth_error_In in A. apply repeat_spec in A. subst a.
      rewrite nth_error_map in B. destruct (nth_error (seq 0 k) i) as [j|]; [|discriminate]. cbn in B. inversion B; subst b. inversion Wd as [? ? ? ND' WC' _]; subst. constructor. intros c Ic.
      change (map (fun d => (mname d, den (vs ++ [v]) d (P ++ [mname d]) (idx ++ [j]))) dc) with (den_fields (vs ++ [v]) dc P (idx ++ [j])). rewrite den_field; auto.
      change (field c []) with (new_node c). apply den_empty; auto. intros t. rewrite in_vars_app, <- app_assoc. cbn [app]. rewrite LATE by (auto; discriminate).
      destruct (str_eqb (v_name v) (dotted (P ++ mname c :: t))) eqn:Q; auto. exfalso. apply str_eqb_eq in EV, Q. rewrite EV in Q. unfold dotted in Q. apply (f_equal (split_on "."%char)) in Q.
      rewrite split_join in Q.
      2:{ exact NP. }
      2:{ intros s Hs. rewrite Forall_forall in FP. now apply FP. }
      pose proof (split_count_dots (P ++ mname c :: t)) as L. unfold dotted in L. rewrite <- Q in L. rewrite app_length in L. cbn in L. lia.
    + destruct (leaf_value g v dt nd idx) as [o|e] eqn:Z; [|discriminate]. cbn [rbind] in R. inversion R; subst x. cbn [den]. unfold val_at. rewrite in_vars_app, OV, EV, Z.
      destruct o as [y|]; [constructor|]. cbn [den] in Sd. unfold val_at in Sd. rewrite OV in Sd. exact Sd.
  - (* below this node *)
    assert (MB : meta_at (Meta [] KStruct (mchildren d)) (nm2 :: p) = Some c0) by exact M.
    destruct d as [dn dk dc]. cbn [mchildren mname] in *. inversion Wd as [? ? ? ND' WC' LF]; subst. inversion C2 as [? ? ? CC]; subst.
    assert (OTHER : forall vs', den_fields vs' dc (names ++ [dn]) idx = den_fields vs' dc (names ++ [dn]) idx) by reflexivity. clear OTHER.
    assert (EN2 : splits (names ++ [dn]) (nm2 :: p) P) by (unfold splits; rewrite <- app_assoc; exact EN).
    assert (NV : str_eqb (v_name v) (dotted (names ++ [dn])) = false).
    { destruct (str_eqb (v_name v) (dotted (names ++ [dn]))) eqn:Q; auto. exfalso. apply str_eqb_eq in Q. unfold splits in EN2. rewrite <- EP, Q, (split_dotted _ NP FP) in EN2.
      apply (f_equal (@length str)) in EN2. rewrite app_length in EN2. cbn in EN2. lia. }
    destruct (field (Meta dn dk dc) fs) as [fsd|els|lv] eqn:Fi; [| |discriminate].
    + destruct (update_at dc fsd (nm2 :: p) idx FKey (read_node r g h v P)) as [fs2|e] eqn:U2; [|discriminate]. cbn [rbind] in U. inversion U; subst fs'.
      change dn with (mname (Meta dn dk dc)) at 1. rewrite field_aset_same. inversion Sd as [|? ? ? ? SF EK EQ|]; subst. cbn [den] in *.
      match goal with H : NStruct _ = NStruct _ |- _ => inversion H; subst | _ => idtac end.
      constructor. intros c Ic. change (map _ dc) with (den_fields (vs ++ [v]) dc (names ++ [dn]) idx). rewrite den_field; auto.
      eapply (IH dc fsd idx (names ++ [dn]) fs2 c0); eauto; [discriminate|]. intros c1 I1. rewrite <- (den_field vs dc (names ++ [dn]) idx c1); auto.
    + destruct (map_index (fun i e => do fs'' <- update_at dc (node_fields e) (nm2 :: p) (idx ++ [i]) FKey (read_node r g h v P); Ok (NStruct fs'')) 0 els) as [els'|e] eqn:U2; [|discriminate].
      cbn [rbind] in U. inversion U; subst fs'.
      change dn with (mname (Meta dn dk dc)) at 1. rewrite field_aset_same. inversion Sd as [| |? ? ? els2 LE FE EK EQ]; subst. cbn [den] in *.
      match goal with H : NAoS _ = NAoS _ |- _ => inversion H; subst | _ => idtac end.
      assert (SZ : size_at (vs ++ [v]) (names ++ [dn]) idx = size_at vs (names ++ [dn]) idx) by (unfold size_at; rewrite in_vars_app, NV; now destruct (in_vars vs (dotted (names ++ [dn])))).
      rewrite map_length, seq_length in LE. apply map_index_ok in U2. destruct U2 as [L2 U2]. constructor; [rewrite map_length, seq_length, SZ; congruence|].
      intros i a b A B. rewrite nth_error_map in B. destruct (nth_error (seq 0 (size_at (vs ++ [v]) (names ++ [dn]) idx)) i) as [j|] eqn:J; [|discriminate]. cbn in B. inversion B; subst b.
      assert (LI : i < length els) by (rewrite <- L2; apply nth_error_Some; congruence).
      assert (EJ : j = i) by (rewrite SZ, <- LE in J; rewrite (seq_nth_error _ 0 i LI) in J; cbn in J; congruence). subst j.
      destruct (nth_error els i) as [x|] eqn:X; [|apply nth_error_None in X; lia]. destruct (U2 i x X) as (y & Y1 & Y2). rewrite Y2 in A. inversion A; subst y. cbn [Nat.add] in Y1.
      destruct (update_at dc (node_fields x) (nm2 :: p) (idx ++ [i]) FKey (read_node r g h v P)) as [fx|e] eqn:U3; [|discriminate]. cbn [rbind] in Y1. inversion Y1; subst a.
      assert (SX : same (Meta dn KStruct dc) x (NStruct (den_fields vs dc (names ++ [dn]) (idx ++ [i])))).
      { apply (FE i); auto. rewrite nth_error_map, seq_nth_error by lia. reflexivity. }
      inversion SX as [|? ? fx0 ? SF|]; subst. constructor. intros c Ic. change (map _ dc) with (den_fields (vs ++ [v]) dc (names ++ [dn]) (idx ++ [i])). rewrite den_field; auto.
      eapply (IH dc fx0 (idx ++ [i]) (names ++ [dn]) fx c0); eauto; [discriminate|]. intros c1 I1. rewrite <- (den_field vs dc (names ++ [dn]) (idx ++ [i]) c1); auto.
Qed.
End Step.
End Den.
