(** Trees given by contents for every path and index, and what the reader does to them. *)
From Verif Require Import Base TreeModel TreeSpec TreeProofs ValProofs StoreProofs2 ConvSpec ConvProofs3 NcMetaModel NcMetaProofs2 NcFileModel NcFileProofs NcFileProofs2 NcConvModel.
From Coq Require Import Lia.

Section Gen.
Variable val : path -> dtype -> nat -> list nat -> option value.
Variable size : path -> list nat -> nat.
Fixpoint gen (c : meta) (p : path) (idx : list nat) {struct c} : node :=
  match c with
  | Meta _ k cs =>
    let below idx := NStruct (map (fun d => (mname d, gen d (p ++ [mname d]) idx)) cs) in
    match k with
    | KLeaf dt nd => NLeaf (val p dt nd idx)
    | KStruct => below idx
    | KAoS => NAoS (map (fun i => below (idx ++ [i])) (seq 0 (size p idx)))
    end
  end.
Definition gen_fields (cs : list meta) (p : path) (idx : list nat) : fields := map (fun d => (mname d, gen d (p ++ [mname d]) idx)) cs.
Lemma gen_field : forall cs p idx d, NoDup (map mname cs) -> In d cs -> field d (gen_fields cs p idx) = gen d (p ++ [mname d]) idx.
Proof.
  intros cs p idx d ND I. unfold field, gen_fields. induction cs as [|c cs IH]; [destruct I|]. cbn [map alookup]. cbn [map] in ND. inversion ND as [|? ? NI ND']; subst.
  destruct I as [->|I].
  - rewrite str_eqb_refl. reflexivity.
  - destruct (str_eqb (mname d) (mname c)) eqn:E; [apply str_eqb_eq in E; exfalso; apply NI; rewrite <- E; now apply List.in_map|]. now apply IH.
Qed.
(** the indices of a location are within the sizes of the arrays *)
Fixpoint in_sizes (p : path) (idx : list nat) (l : loc) : Prop :=
  match l with
  | [] => True
  | Child x :: t => in_sizes (p ++ [x]) idx t
  | Elem i :: t => i < size p idx /\ in_sizes p (idx ++ [i]) t
  end.
Definition item_of (c1 : meta) (q : path) (ix : list nat) (x : item) : Prop :=
  match x with
  | ILeaf v => exists dt nd, mkind c1 = KLeaf dt nd /\ val q dt nd ix = Some v /\ filled_value v
  | ISize k => mkind c1 = KAoS /\ size q ix = k /\ k > 0
  end.
Lemma gen_holds : forall c, wf_meta c -> forall p idx l x, holds c (gen c p idx) l x <->
  exists c1, loc_ok c l c1 /\ in_sizes p idx l /\ ~ is_elem l /\ item_of c1 (p ++ loc_names l) (idx ++ loc_idx l) x.
Proof.
  induction c as [nm k cs IH] using meta_ind'. intros W p idx l x. inversion W as [? ? ? ND WC LF]; subst.
  assert (ST : forall idx l, holds (Meta nm KStruct cs) (NStruct (gen_fields cs p idx)) l x <->
    exists c1, loc_ok (Meta nm KStruct cs) l c1 /\ in_sizes p idx l /\ ~ is_elem l /\ item_of c1 (p ++ loc_names l) (idx ++ loc_idx l) x).
  { intros idx' l'. rewrite holds_field. split.
    - intros (d & t & -> & I & H). rewrite gen_field in H by auto. apply (IH d I (WC d I)) in H. destruct H as (c1 & L & S1 & E & X). exists c1. split; [now constructor|]. split; [exact S1|]. split.
      + intros (a & i & Q). destruct a as [|y a]; cbn in Q; [discriminate|]. apply (f_equal (fun z => tl z)) in Q. cbn in Q. subst t. apply E. exists a, i. reflexivity.
      + cbn [loc_names loc_idx flat_map app]. rewrite <- app_assoc in X. exact X.
    - intros (c1 & L & S1 & E & X). destruct l' as [|[y|i] t].
      + inversion L; subst. exfalso. destruct x as [v|k']; [destruct X as (dt & nd & K & _); discriminate|destruct X as (K & _); discriminate].
      + apply loc_ok_child in L. destruct L as (nm' & cs' & d & Em & I & <- & L). inversion Em; subst nm' cs'. exists d, t. split; auto. split; auto. rewrite gen_field by auto.
        apply (IH d I (WC d I)). exists c1. split; auto. split; [exact S1|]. split; [eapply not_elem_tail; eauto|].
        cbn [loc_names loc_idx flat_map app] in X. rewrite <- app_assoc. exact X.
      + apply loc_ok_elem in L. destruct L as (nm' & cs' & Em & _). discriminate. }
  destruct k as [| |dt nd]; cbn [gen].
  - apply ST.
  - rewrite holds_aos. rewrite map_length, seq_length. split.
    + intros [(-> & -> & G)|(i & e & t & -> & N & H)].
      * exists (Meta nm KAoS cs). split; [constructor|]. split; [exact I|]. split; [intros (a & i & Q); destruct a; discriminate|]. cbn. rewrite !app_nil_r. auto.
      * rewrite nth_error_map in N. destruct (nth_error (seq 0 (size p idx)) i) as [j|] eqn:J; [|discriminate]. cbn in N. inversion N; subst e. clear N.
        assert (Li : i < size p idx) by (rewrite <- (seq_length (size p idx) 0); apply nth_error_Some; congruence). rewrite seq_nth_error in J by auto. cbn in J. inversion J; subst j.
        apply ST in H. destruct H as (c1 & L & S1 & E & X). exists c1. split; [now constructor|]. split; [split; auto|]. split.
        { intros (a & i' & Q). destruct a as [|y a]; cbn in Q.
          - inversion Q; subst. inversion L; subst. destruct x as [v|k']; [destruct X as (dt & nd & K & _); discriminate|destruct X as (K & _); discriminate].
          - apply (f_equal (fun z => tl z)) in Q. cbn in Q. subst t. apply E. exists a, i'. reflexivity. }
        cbn [loc_names loc_idx flat_map app]. rewrite <- app_assoc in X. exact X.
    + intros (c1 & L & S1 & E & X). destruct l as [|[y|i] t].
      * inversion L; subst. left. cbn in X. rewrite !app_nil_r in X. destruct x as [v|k']; [destruct X as (dt & nd & K & _); discriminate|]. destruct X as (_ & <- & G). auto.
      * apply loc_ok_child in L. destruct L as (nm' & cs' & d & Em & _). discriminate.
      * apply loc_ok_elem in L. destruct L as (nm' & cs' & Em & L). inversion Em; subst nm' cs'. destruct S1 as [Li S1]. right. exists i, (NStruct (gen_fields cs p (idx ++ [i]))), t. split; auto. split.
        { rewrite nth_error_map, seq_nth_error by auto. reflexivity. }
        apply ST. exists c1. split; auto. split; auto. split; [eapply not_elem_tail; eauto|]. cbn [loc_names loc_idx flat_map app] in X. rewrite <- app_assoc. exact X.
  - rewrite holds_leaf. split.
    + intros (-> & w & Ev & -> & FV). exists (Meta nm (KLeaf dt nd) cs). split; [constructor|]. split; [exact I|]. split; [intros (a & i & Q); destruct a; discriminate|]. cbn. rewrite !app_nil_r. exists dt, nd. auto.
    + intros (c1 & L & _ & _ & X). destruct l as [|[y|i] t].
      * inversion L; subst. split; auto. cbn in X. rewrite !app_nil_r in X. destruct x as [v|k']; [|destruct X as (K & _); discriminate]. destruct X as (dt' & nd' & K & V & FV). inversion K; subst. eauto.
      * apply loc_ok_child in L. destruct L as (nm' & cs' & d & Em & _). discriminate.
      * apply loc_ok_elem in L. destruct L as (nm' & cs' & Em & _). discriminate.
Qed.
Lemma in_sizes_iff : forall l p idx, in_sizes p idx l <-> forall a i b, l = a ++ Elem i :: b -> i < size (p ++ loc_names a) (idx ++ loc_idx a).
Proof.
  induction l as [|[x|j] l IH]; intros p idx; cbn [in_sizes].
  - split; auto. intros _ a i b Q. destruct a; discriminate.
  - rewrite IH. split; intros H a i b Q.
    + destruct a as [|y a]; cbn in Q; [discriminate|]. assert (y = Child x) by congruence. subst y. apply (f_equal (fun z => tl z)) in Q. cbn in Q. specialize (H a i b Q). cbn [loc_names loc_idx flat_map app]. rewrite <- app_assoc in H. exact H.
    + specialize (H (Child x :: a) i b). cbn [loc_names loc_idx flat_map app] in H. rewrite <- app_assoc. apply H. cbn. now rewrite Q.
  - rewrite IH. split.
    + intros [L H] a i b Q. destruct a as [|y a]; cbn in Q.
      * inversion Q; subst. cbn. rewrite !app_nil_r. exact L.
      * assert (y = Elem j) by congruence. subst y. apply (f_equal (fun z => tl z)) in Q. cbn in Q. specialize (H a i b Q). cbn [loc_names loc_idx flat_map app]. rewrite <- app_assoc in H. exact H.
    + intros H. split.
      * specialize (H [] j l eq_refl). cbn in H. rewrite !app_nil_r in H. exact H.
      * intros a i b Q. specialize (H (Elem j :: a) i b). cbn [loc_names loc_idx flat_map app] in H. rewrite <- app_assoc. apply H. cbn. now rewrite Q.
Qed.
(** nothing is stored below a path *)
Lemma gen_empty : forall c q idx, wf_meta c -> (forall t dt nd ix, val (q ++ t) dt nd ix = None) -> (forall t ix, size (q ++ t) ix = 0) -> same c (new_node c) (gen c q idx).
Proof.
  induction c as [nm k cs IH] using meta_ind'. intros q idx W E1 E2. inversion W as [? ? ? ND WC LF]; subst. unfold new_node. cbn [mkind gen]. destruct k as [| |dt nd].
  - constructor. intros c I. change (map _ cs) with (gen_fields cs q idx). rewrite gen_field; auto. change (field c []) with (new_node c). apply IH; auto; intros t; intros; rewrite <- app_assoc; auto.
  - specialize (E2 []). rewrite app_nil_r in E2. rewrite E2. cbn. constructor; auto. intros i a b A. destruct i; discriminate.
  - specialize (E1 []). rewrite app_nil_r in E1. rewrite E1. constructor.
Qed.
End Gen.

Lemma loc_ok_name : forall nm nm' cs l c, loc_names l <> [] -> loc_ok (Meta nm KStruct cs) l c -> loc_ok (Meta nm' KStruct cs) l c.
Proof. intros nm nm' cs l c N L. inversion L; subst; [exfalso; apply N; reflexivity|constructor; auto]. Qed.

(** the flags of a path are those of the dictionary *)
Fixpoint flags_ok (cs : list meta) (p : list (str * bool)) : Prop :=
  match p with
  | [] => True
  | (nm, b) :: t => match t with
                    | [] => True
                    | _ => match List.find (fun d => str_eqb (mname d) nm) cs with
                           | Some d => (b = true <-> mkind d = KAoS) /\ flags_ok (mchildren d) t
                           | None => True
                           end
                    end
  end.
Lemma map_index_all : forall (Q : nat -> node -> Prop) (f : nat -> node -> result fexn node) l i,
  (forall j x, nth_error l j = Some x -> exists y, f (i + j) x = Ok y /\ Q (i + j) y) ->
  exists l', map_index f i l = Ok l' /\ length l' = length l /\ forall j y, nth_error l' j = Some y -> Q (i + j) y.
Proof.
  intros Q f. induction l as [|a l IH]; intros i H; cbn [map_index].
  - exists []. split; auto. split; auto. intros [|j] y N; discriminate.
  - destruct (H 0 a eq_refl) as (y & Y & QY). rewrite Nat.add_0_r in Y, QY. rewrite Y. cbn [rbind].
    destruct (IH (S i)) as (t & T & LT & QT). { intros j x N. destruct (H (S j) x N) as (z & Z & QZ). exists z. replace (S i + j) with (i + S j) by lia. auto. }
    rewrite T. cbn [rbind]. exists (y :: t). split; auto. split; [cbn; lia|]. intros [|j] w N; cbn in N; [inversion N; subst; now rewrite Nat.add_0_r|]. replace (i + S j) with (S i + j) by lia. auto.
Qed.

(** contents that are the same away from a path *)
Section Other.
Variables (val val' : path -> dtype -> nat -> list nat -> option value) (size size' : path -> list nat -> nat).
Variable P : path.
Hypothesis HV : forall q dt nd ix, q <> P -> val' q dt nd ix = val q dt nd ix.
Hypothesis HS : forall q ix, q <> P -> size' q ix = size q ix.
Lemma gen_other : forall c q idx, (forall t, q ++ t <> P) -> gen val' size' c q idx = gen val size c q idx.
Proof.
  induction c as [nm k cs IH] using meta_ind'. intros q idx N. assert (NQ : q <> P) by (specialize (N []); now rewrite app_nil_r in N).
  assert (B : forall idx, map (fun d => (mname d, gen val' size' d (q ++ [mname d]) idx)) cs = map (fun d => (mname d, gen val size d (q ++ [mname d]) idx)) cs).
  { intros idx'. apply map_ext_in. intros d I. f_equal. apply IH; auto. intros t. rewrite <- app_assoc. apply N. }
  cbn [gen]. destruct k as [| |dt nd].
  - now rewrite B.
  - rewrite HS by auto. f_equal. apply map_ext. intros i. now rewrite B.
  - now rewrite HV.
Qed.

Lemma update_gen : forall f c0 p cs fs idx names, NoDup (map mname cs) -> (forall c, In c cs -> wf_meta c) ->
  names ++ map fst p = P -> p <> [] -> meta_at (Meta [] KStruct cs) (map fst p) = Some c0 -> flags_ok cs p ->
  (forall c, In c cs -> same c (field c fs) (gen val size c (names ++ [mname c]) idx)) ->
  (forall l n, loc_ok (Meta [] KStruct cs) l c0 -> loc_names l = map fst p -> ~ is_elem l -> in_sizes size names idx l -> same c0 n (gen val size c0 P (idx ++ loc_idx l)) ->
     exists n', f (idx ++ loc_idx l) c0 n = Ok n' /\ same c0 n' (gen val' size' c0 P (idx ++ loc_idx l))) ->
  exists fs', update_split cs fs p idx f = Ok fs' /\ forall c, In c cs -> same c (field c fs') (gen val' size' c (names ++ [mname c]) idx).
Proof.
  intros f c0. induction p as [|[nm b] p IH]; intros cs fs idx names ND WC EN NE M FO Sm HF; [congruence|].
  cbn [map fst] in EN, M, HF. cbn [update_split]. cbn [meta_at mchildren] in M. cbn [flags_ok] in FO. destruct (List.find (fun d => str_eqb (mname d) nm) cs) as [d|] eqn:Fd; [|discriminate].
  assert (Hd : In d cs /\ mname d = nm) by (apply find_some in Fd; destruct Fd as [F1 F2]; apply str_eqb_eq in F2; auto). destruct Hd as [Id Nd]. subst nm. fold (field d fs).
  pose proof (Sm d Id) as Sd. pose proof (WC d Id) as Wd.
  assert (FIN : forall x, same d x (gen val' size' d (names ++ [mname d]) idx) -> forall c, In c cs -> same c (field c (aset (mname d) x fs)) (gen val' size' c (names ++ [mname c]) idx)).
  { intros x SX c I. destruct (str_dec (mname c) (mname d)) as [E|NEQ].
    - assert (c = d) by (pose proof (find_name cs c ND I) as X; pose proof (find_name cs d ND Id) as Y; rewrite E in X; congruence). subst c. rewrite field_aset_same. exact SX.
    - rewrite field_aset_other by auto. rewrite gen_other; auto. intros t Q. rewrite <- EN, <- app_assoc in Q. apply app_inv_head in Q. cbn in Q. congruence. }
  destruct p as [|[nm2 b2] p].
  - cbn [map meta_at] in M. apply (f_equal (fun z => match z with Some w => w | None => d end)) in M. subst c0. cbn [map] in HF.
    destruct (HF [Child (mname d)] (field d fs)) as (n' & F1 & F2).
    + destruct d as [dn dk dc]. apply lo_child with (c := Meta dn dk dc); [exact Id|constructor].
    + reflexivity.
    + intros (a & i & Q). destruct a as [|y [|z a]]; cbn in Q; discriminate.
    + exact I.
    + cbn [loc_idx flat_map]. rewrite app_nil_r, <- EN. exact Sd.
    + cbn [loc_idx flat_map] in F1, F2. rewrite app_nil_r in F1, F2. rewrite F1. cbn [rbind]. eexists. split; [reflexivity|]. apply FIN. cbn [map] in EN. rewrite EN. exact F2.
  - assert (MB : meta_at (Meta [] KStruct (mchildren d)) (map fst ((nm2, b2) :: p)) = Some c0) by exact M.
    destruct FO as [FB FO]. destruct d as [dn dk dc]. cbn [mchildren mname mkind] in *. inversion Wd as [? ? ? ND' WC' LF]; subst.
    assert (EN2 : (names ++ [dn]) ++ map fst ((nm2, b2) :: p) = names ++ dn :: map fst ((nm2, b2) :: p)) by (rewrite <- app_assoc; reflexivity).
    assert (NP : names ++ [dn] <> names ++ dn :: map fst ((nm2, b2) :: p)) by (intros Q; apply app_inv_head in Q; discriminate).
    destruct dk as [| |dt nd].
    + assert (b = false) by (destruct b; auto; destruct FB as [FB _]; specialize (FB eq_refl); discriminate). subst b.
      destruct (field (Meta dn KStruct dc) fs) as [fsd|els|lv] eqn:Fi; [|inversion Sd|inversion Sd].
      destruct (IH dc fsd idx (names ++ [dn])) as (fs2 & U & SU); auto; [discriminate| | |].
      * intros c Ic. inversion Sd as [|? ? ? ? SF|]; subst. rewrite <- (gen_field val size dc (names ++ [dn]) idx c); auto.
      * intros l n L1 L2 L3 L4. apply (HF (Child dn :: l) n).
        { change (loc_ok (Meta [] KStruct cs) (Child (mname (Meta dn KStruct dc)) :: l) c0). constructor; auto. eapply loc_ok_name; [|exact L1]. rewrite L2. discriminate. }
        { cbn [loc_names flat_map app]. now rewrite <- L2. }
        { intros (a & i & Q). destruct a as [|y a]; cbn in Q; [discriminate|]. apply (f_equal (fun z => tl z)) in Q. cbn in Q. subst l. apply L3. now exists a, i. }
        { exact L4. }
      * rewrite U. cbn [rbind]. eexists. split; [reflexivity|]. apply FIN. cbn [gen]. constructor. intros c Ic. change (map _ dc) with (gen_fields val' size' dc (names ++ [dn]) idx). rewrite gen_field; auto.
    + assert (b = true) by (apply FB; reflexivity). subst b.
      destruct (field (Meta dn KAoS dc) fs) as [fsd|els|lv] eqn:Fi; [inversion Sd| |inversion Sd]. cbn [gen] in Sd. inversion Sd as [| |? ? ? ? LE FE]; subst. rewrite map_length, seq_length in LE.
      destruct (map_index_all (fun i y => same (Meta dn KStruct dc) y (NStruct (gen_fields val' size' dc (names ++ [dn]) (idx ++ [i]))))
        (fun i e => do fs'' <- update_split dc (node_fields e) ((nm2, b2) :: p) (idx ++ [i]) f; Ok (NStruct fs'')) els 0) as (els' & U & LU & QU).
      * intros j x N. cbn [Nat.add]. assert (Lj : j < length els) by (apply nth_error_Some; congruence).
        assert (SX : same (Meta dn KStruct dc) x (NStruct (gen_fields val size dc (names ++ [dn]) (idx ++ [j])))). { apply (FE j); auto. rewrite nth_error_map, seq_nth_error by lia. reflexivity. }
        inversion SX as [|? ? fx ? SF|]; subst. cbn [node_fields].
        destruct (IH dc fx (idx ++ [j]) (names ++ [dn])) as (fs2 & U & SU); auto; [discriminate| | |].
        { intros c Ic. rewrite <- (gen_field val size dc (names ++ [dn]) (idx ++ [j]) c); auto. }
        { intros l n L1 L2 L3 L4. rewrite <- app_assoc. cbn [app]. apply (HF (Child dn :: Elem j :: l) n).
          - change (loc_ok (Meta [] KStruct cs) (Child (mname (Meta dn KAoS dc)) :: Elem j :: l) c0). constructor; auto. constructor. eapply loc_ok_name; [|exact L1]. rewrite L2. discriminate.
          - cbn [loc_names flat_map app]. now rewrite <- L2.
          - intros (a & i & Q). destruct a as [|y [|z a]]; cbn in Q; [discriminate| |].
            + assert (l = []) by congruence. subst l. discriminate.
            + apply (f_equal (fun z => tl (tl z))) in Q. cbn in Q. subst l. apply L3. now exists a, i.
          - cbn [in_sizes]. split; [lia|exact L4]. }
        rewrite U. cbn [rbind]. eexists. split; [reflexivity|]. constructor. intros c Ic. rewrite gen_field; auto.
      * rewrite U. cbn [rbind]. eexists. split; [reflexivity|]. apply FIN. cbn [gen]. rewrite HS by auto. constructor; [rewrite map_length, seq_length; lia|].
        intros i x y Nx Ny. rewrite nth_error_map in Ny. destruct (nth_error (seq 0 (size (names ++ [dn]) idx)) i) as [j|] eqn:J; [|discriminate]. cbn in Ny. inversion Ny; subst y.
        assert (Li : i < size (names ++ [dn]) idx) by (rewrite <- (seq_length (size (names ++ [dn]) idx) 0); apply nth_error_Some; congruence). rewrite seq_nth_error in J by auto. cbn in J. inversion J; subst j. apply (QU i x Nx).
    + exfalso. rewrite (LF _ _ eq_refl) in MB. discriminate.
Qed.
End Other.
