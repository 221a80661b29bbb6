(** When get and put succeed; get after put. *)
From Verif Require Import Base TreeModel TreeSpec TreeProofs ConvSpec ConvProofs3 ConvProofs4 VmapModel ValProofs ValProofs5
  StoreModel StoreSpec StoreProofs StoreProofs2 StoreProofs3 StoreProofs4.
From Verif Require PrimModel.

Section Progress.
Variable dynamic : list str -> bool.
Variable xml_tbp : list str -> str.
Variable maxoccur : list str -> option nat.
Variable nbc : option nmap.
Variable mode : Z.
Notation placed := (placed dynamic xml_tbp nbc mode).
Notation position := (position dynamic xml_tbp nbc mode).
Notation skipped := (skipped dynamic nbc mode).
Notation inv := (inv dynamic).
Hypothesis NB : forall ns, target_of nbc ns <> Bad.

Section Get.
Variable s : store.
Notation get_node := (get_node dynamic xml_tbp nbc mode s).

Lemma gather_total : forall cs f, (forall d, In d cs -> exists o, f d = Ok o) -> exists fs, gather cs f = Ok fs.
Proof.
  induction cs as [|d t IH]; intros f H; [exists []; reflexivity|]. destruct (H d (or_introl eq_refl)) as [o E].
  destruct (IH f (fun x I => H x (or_intror I))) as [r R]. unfold gather. rewrite E. cbn [rbind]. fold (gather t f). rewrite R. cbn. eauto.
Qed.
Lemma rmap_total : forall A B (f : A -> result exn B) l, (forall x, In x l -> exists y, f x = Ok y) -> exists r, rmap f l = Ok r.
Proof.
  induction l as [|x t IH]; intros H; [exists []; reflexivity|]. destruct (H x (or_introl eq_refl)) as [y E]. destruct IH as [r R]; [intros; apply H; now right|].
  exists (y :: r). change (rmap f (x :: t)) with (do y <- f x; do r <- rmap f t; Ok (y :: r)). now rewrite E, R.
Qed.

(** the values below the node have the right types *)
Definition well_typed (m : meta) (names rel : list str) (c : ctx) : Prop :=
  forall l m' dt nd c' q v, loc_ok m l m' -> mkind m' = KLeaf dt nd -> position false names rel l (c', q) -> s_data s (c ++ c', q) = Some v -> typed dt nd v = true.

Lemma get_node_total : forall m, named m -> forall p names rel c, inv p names rel ->
  (~ skipped (names ++ [mname m]) -> well_typed m (names ++ [mname m]) (rel ++ [mname m]) c) -> exists o, get_node m p c = Ok o.
Proof.
  intros m. induction m as [nm k cs IH] using meta_ind'. intros NM p names rel c I WT. rewrite get_node_unfold. cbv zeta.
  pose proof (omitted_spec dynamic nbc mode p names rel (Meta nm k cs) I) as OM.
  pose proof (locate_spec dynamic xml_tbp nbc mode p names rel (Meta nm k cs) I) as LO. cbv zeta in LO.
  cbn [mname] in *. set (ns := names ++ [nm]) in *. set (rl := rel ++ [nm]) in *.
  destruct (omitted dynamic mode p (Meta nm k cs)); [eauto|].
  destruct (locate dynamic xml_tbp nbc mode p (Meta nm k cs)) as [[pl|]|e]; cbn [rbind]; [|eauto|now destruct (NB ns)].
  destruct LO as [PL NG]. assert (NS : ~ skipped ns) by (intros [H|H]; auto). specialize (WT NS).
  inversion NM as [? ? ? N1 N2 N3]; subst.
  assert (IB := inv_below dynamic xml_tbp p names rel (Meta nm k cs) I N1). cbn [mname] in IB. fold ns rl in IB.
  assert (CH : forall rel' c0, inv (below dynamic p (Meta nm k cs)) ns rel' -> well_typed (Meta nm KStruct cs) ns rel' c0 ->
     exists fs, gather cs (fun d => get_node d (below dynamic p (Meta nm k cs)) c0) = Ok fs).
  { intros rel' c0 I' W. apply gather_total. intros d D. apply (IH d D (N3 d D) _ ns rel' c0 I'). intros ND l m' dt nd c' q v L K P S.
    apply (W (Child (mname d) :: l) m' dt nd c' q v); auto; now constructor. }
  destruct k as [| |dt nd]; unfold is_aos in *; cbn [mkind] in *.
  - destruct (CH rl c IB WT) as [fs G]. rewrite G. cbn. eauto.
  - destruct (s_size s (c, pl)) as [[|n]|]; eauto.
    destruct (rmap_total _ _ (fun i => do fs <- gather cs (fun d => get_node d (below dynamic p (Meta nm KAoS cs)) (c ++ [(pl, i)])); Ok (NStruct fs)) (seq 0 (S n))) as [r R].
    { intros i _. destruct (CH [] (c ++ [(pl, i)]) IB) as [fs G]; [|rewrite G; cbn; eauto].
      intros l m' dt nd c' q v L K P S. rewrite <- app_assoc in S. apply (WT (Elem i :: l) m' dt nd ((pl, i) :: c') q v); auto; now constructor. }
    rewrite R. cbn. eauto.
  - unfold read. destruct (s_data s (c, pl)) as [v|] eqn:S; [|cbn; eauto].
    rewrite (WT [] (Meta nm (KLeaf dt nd) cs) dt nd [] pl v); [cbn; eauto|constructor|reflexivity|now constructor|now rewrite app_nil_r].
Qed.

Lemma get_children_total : forall m, named m -> mkind m = KStruct -> well_typed m [] [] [] -> exists n, get_children dynamic xml_tbp nbc mode s m = Ok n.
Proof.
  intros [nm k cs] NM K WT. cbn in K. subst k. inversion NM as [? ? ? N1 N2 N3]; subst. unfold get_children. cbn [mchildren].
  destruct (gather_total cs (fun d => get_node d top [])) as [fs G]; [|rewrite G; cbn; eauto].
  intros d D. apply get_node_total with (names := []) (rel := []); [auto|apply inv_top|]. intros ND l m' dt nd c' q v L KK P S.
  apply (WT (Child (mname d) :: l) m' dt nd c' q v); auto; now constructor.
Qed.
End Get.

Section Put.
Variable is_slice verify : bool.
Notation put_node := (put_node dynamic xml_tbp maxoccur nbc mode is_slice verify).
Notation put_fields := (put_fields dynamic xml_tbp maxoccur nbc mode is_slice verify).
(** no array of structures is too long *)
Definition sizes_ok (m : meta) (n : node) (names : list str) : Prop :=
  verify = true -> forall l k x, aos_at m n l k -> maxoccur (names ++ loc_names l) = Some (S x) -> k <= S x.

Lemma seq_all_none : forall A (f : A -> out) l, (forall x, In x l -> snd (f x) = None) -> snd (seq_all f l) = None.
Proof.
  intros A f. induction l as [|x t IH]; intros H; auto. cbn. unfold seq_out. rewrite (H x (or_introl eq_refl)). cbn. apply IH. intros; apply H; now right.
Qed.

Lemma put_node_total : forall m, named m -> forall n p names rel c, conf m n -> inv p names rel -> sizes_ok m n (names ++ [mname m]) -> snd (put_node m n p c) = None.
Proof.
  intros m. induction m as [nm k cs IH] using meta_ind'. intros NM n p names rel c CF I SZ. rewrite put_node_unfold. cbv zeta.
  pose proof (locate_spec dynamic xml_tbp nbc mode p names rel (Meta nm k cs) I) as LO. cbv zeta in LO. cbn [mname] in *.
  destruct (omitted dynamic mode p (Meta nm k cs)); auto.
  destruct (locate dynamic xml_tbp nbc mode p (Meta nm k cs)) as [[pl|]|e]; [|auto|now destruct (NB (names ++ [nm]))].
  inversion NM as [? ? ? N1 N2 N3]; subst.
  assert (IB := inv_below dynamic xml_tbp p names rel (Meta nm k cs) I N1). cbn [mname] in IB.
  assert (PN : p_names p = names) by apply I.
  assert (CH : forall fs rel' c0, inv (below dynamic p (Meta nm k cs)) (names ++ [nm]) rel' -> conf (Meta nm KStruct cs) (NStruct fs) -> sizes_ok (Meta nm KStruct cs) (NStruct fs) (names ++ [nm]) ->
     snd (put_fields cs fs (below dynamic p (Meta nm k cs)) c0) = None).
  { intros fs rel' c0 I' CF' S'. apply seq_all_none. intros d D. destruct (alookup (mname d) fs) as [ch|] eqn:A; auto. destruct (has_value d ch); auto.
    inversion CF' as [| |? ? ? C1 _ _|]; subst. apply (IH d D (N3 d D) ch _ (p_names p ++ [nm]) rel' c0); auto.
    intros V l k0 x (m' & els & N & K & E & G) M. apply (S' V (Child (mname d) :: l) k0 x); [|cbn; rewrite <- app_assoc in M; exact M].
    exists m', els. split; auto. econstructor; eauto. }
  destruct k as [| |dt nd]; unfold is_aos in *; cbn [mkind] in *; inversion CF; subst; auto.
  - eapply CH; eauto.
  - destruct (verify && _) eqn:V.
    { exfalso. apply andb_true_iff in V. destruct V as [V W]. destruct (maxoccur (p_names p ++ [nm])) as [[|x]|] eqn:M; try discriminate. apply Nat.ltb_lt in W.
      assert (X : length els <= S x); [|lia]. apply (SZ V [] (length els) x); [|cbn; now rewrite app_nil_r].
      exists (Meta nm KAoS cs), els. split; [constructor|]. split; auto. split; auto. lia. }
    unfold seq_out. cbn [snd fst]. apply seq_all_none. intros [i e] Hi. apply enum_In in Hi. cbn [fst snd].
    assert (CE : conf (Meta nm KStruct cs) e) by (match goal with H : forall e, In e els -> _ |- _ => apply H; eapply nth_error_In; eauto end).
    inversion CE; subst. cbn [node_fields]. eapply CH; eauto. intros V' l k0 x (m' & es & N & K & E & G) M. apply (SZ V' (Elem i :: l) k0 x); [|exact M].
    exists m', es. split; auto. econstructor; eauto.
  - destruct (is_slice && _); auto.
Qed.

Lemma put_children_total : forall m fs, named m -> mkind m = KStruct -> conf m (NStruct fs) -> sizes_ok m (NStruct fs) [] ->
  snd (put_children dynamic xml_tbp maxoccur nbc mode is_slice verify m (NStruct fs)) = None.
Proof.
  intros [nm k cs] fs NM K CF SZ. cbn in K. subst k. inversion NM as [? ? ? N1 N2 N3]; subst. unfold put_children. cbn [mchildren node_fields].
  apply seq_all_none. intros d D. destruct (alookup (mname d) fs) as [ch|] eqn:A; auto. destruct (has_value d ch); auto.
  inversion CF as [| |? ? ? C1 _ _|]; subst. apply (put_node_total d (N3 d D) ch _ [] []); auto; [apply inv_top|].
  intros V l k0 x (m' & els & N & K & E & G) M. apply (SZ V (Child (mname d) :: l) k0 x); [|exact M].
  exists m', els. split; auto. econstructor; eauto.
Qed.
End Put.
End Progress.

Lemma holds_loc : forall m n l x, holds m n l x -> exists m', loc_ok m l m' /\ mkind m' <> KStruct.
Proof.
  intros m n l [v|k] H; cbn in H.
  - destruct H as (m' & (dt & nd & K) & N & F). exists m'. split; [eapply node_at_loc_ok; eauto|congruence].
  - destruct H as (m' & els & N & K & _). exists m'. split; [eapply node_at_loc_ok; eauto|congruence].
Qed.
Lemma holds_fun_leaf : forall m n l v w, wf_meta m -> holds m n l (ILeaf v) -> holds m n l (ILeaf w) -> v = w.
Proof.
  intros m n l v w W (m1 & _ & N1 & _) (m2 & _ & N2 & _). destruct (node_at_inj _ _ _ _ _ N1 W _ _ N2) as [_ E]. congruence.
Qed.
Lemma holds_fun_size : forall m n l v w, wf_meta m -> holds m n l (ISize v) -> holds m n l (ISize w) -> v = w.
Proof.
  intros m n l v w W (m1 & e1 & N1 & _ & E1 & _) (m2 & e2 & N2 & _ & E2 & _). destruct (node_at_inj _ _ _ _ _ N1 W _ _ N2) as [_ E]. congruence.
Qed.
