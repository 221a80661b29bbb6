(** get_children returns exactly what is stored at the positions of the nodes. *)
From Verif Require Import Base TreeModel TreeSpec TreeProofs ConvSpec ConvProofs3 VmapModel ValProofs ValProofs5 StoreModel StoreSpec StoreProofs StoreProofs2.
From Verif Require PrimModel.

Lemma rmap_ok : forall A B (f : A -> result exn B) l r, rmap f l = Ok r ->
  length r = length l /\ forall i x, nth_error l i = Some x -> exists y, f x = Ok y /\ nth_error r i = Some y.
Proof.
  intros A B f. induction l as [|x t IH]; intros r H.
  - cbn in H. inversion H; subst. split; auto. intros [|i] x E; discriminate.
  - change (rmap f (x :: t)) with (do y <- f x; do r <- rmap f t; Ok (y :: r)) in H.
    destruct (f x) as [y|] eqn:F; [|discriminate]. cbn [rbind] in H. destruct (rmap f t) as [r'|] eqn:R; [|discriminate]. cbn [rbind] in H.
    inversion H; subst. destruct (IH r' eq_refl) as [L N]. split; [cbn; lia|].
    intros [|i] z E; cbn in E; [inversion E; subst; exists y; auto|]. apply N in E. exact E.
Qed.

Lemma gather_ok : forall cs f fs, NoDup (map mname cs) -> gather cs f = Ok fs ->
  (forall d, In d cs -> exists o, f d = Ok o /\ alookup (mname d) fs = o) /\ (forall k, In k (akeys fs) -> In k (map mname cs)) /\ NoDup (akeys fs).
Proof.
  induction cs as [|d t IH]; intros f fs ND H; unfold gather in H.
  - inversion H; subst. split; [intros ? []|]. split; [intros ? []|constructor].
  - cbn in ND. inversion ND as [|? ? NI ND']; subst. destruct (f d) as [o|] eqn:F; [|discriminate]. cbn [rbind] in H.
    fold (gather t f) in H. destruct (gather t f) as [r|] eqn:R; [|discriminate]. cbn [rbind] in H. destruct (IH f r ND' R) as [A [B C]].
    inversion H; subst. clear H. assert (NK : ~ In (mname d) (akeys r)) by (intros K; apply NI; auto).
    split; [|split].
    + intros e [<-|E].
      * exists o. split; auto. destruct o as [n|].
        -- cbn. now rewrite str_eqb_refl.
        -- destruct (alookup (mname d) r) eqn:AL; auto. apply alookup_In in AL. destruct NK. unfold akeys. apply in_map_iff. eexists (_, _). split; [reflexivity|exact AL].
      * destruct (A e E) as (o' & FE & AL). exists o'. split; auto. destruct o as [n|]; auto. cbn [alookup].
        assert (NE : mname e <> mname d) by (intros X; apply NI; rewrite <- X; now apply List.in_map).
        destruct (str_eqb (mname e) (mname d)) eqn:Q; auto. apply str_eqb_eq in Q. contradiction.
    + intros k K. destruct o as [n|]; [destruct K as [<-|K]|]; [now left|right; auto|right; auto].
    + destruct o as [n|]; auto. cbn. constructor; auto.
Qed.

Lemma default_empty : forall dt, PrimModel.is_empty dt (default_value dt 0) = true.
Proof. destruct dt; vm_compute; reflexivity. Qed.

Section Get.
Variable dynamic : list str -> bool.
Variable xml_tbp : list str -> str.
Variable nbc : option nmap.
Variable mode : Z.
Variable s : store.
Notation placed := (placed dynamic xml_tbp nbc mode).
Notation position := (position dynamic xml_tbp nbc mode).
Notation skipped := (skipped dynamic nbc mode).
Notation get_node := (get_node dynamic xml_tbp nbc mode s).
Notation inv := (inv dynamic).

Definition bounded (names rel : list str) (c : ctx) (l : loc) : Prop :=
  forall a i b, l = a ++ Elem i :: b -> exists c' q n, position true names rel a (c', q) /\ s_size s (c ++ c', q) = Some n /\ i < n.
Definition stored (k : kind) (key : key) (x : item) : Prop :=
  match x with
  | ILeaf v => exists dt nd, k = KLeaf dt nd /\ s_data s key = Some v /\ filled_value v /\ (nd = 0 -> PrimModel.is_empty dt v = false)
  | ISize n => k = KAoS /\ s_size s key = Some n /\ n > 0
  end.
Definition in_store (m : meta) (names rel : list str) (c : ctx) (l : loc) (x : item) : Prop :=
  exists m' c' q, loc_ok m l m' /\ position (item_aos x) names rel l (c', q) /\ stored (mkind m') (c ++ c', q) x /\ bounded names rel c l.

Lemma in_store_struct : forall nm cs names rel c l x, in_store (Meta nm KStruct cs) names rel c l x <->
  exists d l', l = Child (mname d) :: l' /\ In d cs /\ ~ skipped (names ++ [mname d]) /\ in_store d (names ++ [mname d]) (rel ++ [mname d]) c l' x.
Proof.
  intros nm cs names rel c l x. split.
  - intros (m' & c' & q & LO & PO & ST & B). inversion LO; subst.
    + destruct x as [v|k]; cbn in ST; [destruct ST as (? & ? & ? & _)|destruct ST as (? & _)]; discriminate.
    + inversion PO; subst. do 2 eexists. split; [reflexivity|]. split; [eauto|]. split; auto. exists m', c', q. split; auto. split; auto. split; auto.
      intros a i b ->. destruct (B (Child (mname c0) :: a) i b eq_refl) as (c2 & q2 & n & P2 & S2 & L2). inversion P2; subst.
      exists c2, q2, n; auto.
  - intros (d & l' & -> & D & NS & (m' & c' & q & LO & PO & ST & B)). exists m', c', q. split; [now constructor|]. split; [now constructor|]. split; auto.
    intros a i b E. destruct a as [|st a]; [discriminate|]. inversion E; subst. destruct (B a i b eq_refl) as (c2 & q2 & n & P2 & S2 & L2).
    exists c2, q2, n. split; auto. now constructor.
Qed.

Lemma in_store_aos : forall nm cs names rel c l x p, placed true names rel p -> (in_store (Meta nm KAoS cs) names rel c l x <->
  exists n, s_size s (c, p) = Some n /\
  ((l = [] /\ x = ISize n /\ n > 0) \/ exists i l', l = Elem i :: l' /\ i < n /\ in_store (Meta nm KStruct cs) names [] (c ++ [(p, i)]) l' x)).
Proof.
  intros nm cs names rel c l x p PL. split.
  - intros (m' & c' & q & LO & PO & ST & B). inversion LO; subst.
    + destruct x as [v|k]; cbn in ST; [destruct ST as (? & ? & ? & _); discriminate|]. destruct ST as (_ & S & G). inversion PO; subst.
      assert (q = p) as -> by (eapply placed_fun; eauto). rewrite app_nil_r in S. exists k. split; auto.
    + inversion PO; subst. match goal with H : StoreSpec.placed _ _ _ _ true names rel ?a |- _ => assert (a = p) as -> by (eapply placed_fun; eauto) end.
      destruct (B [] i l0 eq_refl) as (c2 & q2 & n & P2 & S2 & L2). inversion P2; subst. assert (q2 = p) as -> by (eapply placed_fun; eauto).
      rewrite app_nil_r in S2. exists n. split; auto. right. exists i, l0. split; auto. split; auto. exists m', c0, q. split; auto. split; auto.
      split; [now rewrite <- app_assoc|]. intros a j b ->. destruct (B (Elem i :: a) j b eq_refl) as (c3 & q3 & n3 & P3 & S3 & L3). inversion P3; subst.
      match goal with H : StoreSpec.placed _ _ _ _ true names rel ?a |- _ => assert (a = p) as -> by (eapply placed_fun; eauto) end.
      do 3 eexists. split; [eassumption|]. rewrite <- app_assoc. split; eassumption.
  - intros (n & S & [(-> & -> & G)|(i & l' & -> & L & (m' & c' & q & LO & PO & ST & B))]).
    + exists (Meta nm KAoS cs), [], p. split; [constructor|]. split; [now constructor|]. split; [rewrite app_nil_r; cbn; auto|].
      intros [|a1 a] i b E; discriminate.
    + exists m', ((p, i) :: c'), q. split; [now constructor|]. split; [now constructor|]. rewrite <- app_assoc in ST. split; auto.
      intros a j b E. destruct a as [|st a]; inversion E; subst.
      * exists [], p, n. rewrite app_nil_r. split; [now constructor|auto].
      * destruct (B a j b eq_refl) as (c2 & q2 & n2 & P2 & S2 & L2). exists ((p, i) :: c2), q2, n2. rewrite <- app_assoc in S2. split; auto. now constructor.
Qed.

Lemma in_store_leaf : forall nm dt nd cs names rel c l x p, placed false names rel p -> (in_store (Meta nm (KLeaf dt nd) cs) names rel c l x <->
  l = [] /\ exists v, x = ILeaf v /\ s_data s (c, p) = Some v /\ filled_value v /\ (nd = 0 -> PrimModel.is_empty dt v = false)).
Proof.
  intros nm dt nd cs names rel c l x p PL. split.
  - intros (m' & c' & q & LO & PO & ST & B). inversion LO; subst. split; auto.
    destruct x as [v|k]; cbn in ST; [|destruct ST; discriminate]. destruct ST as (dt' & nd' & E & S & F & N). inversion E; subst. inversion PO; subst.
    assert (q = p) as -> by (eapply placed_fun; eauto). rewrite app_nil_r in S. exists v; auto.
  - intros (-> & v & -> & S & F & N). exists (Meta nm (KLeaf dt nd) cs), [], p. split; [constructor|]. split; [now constructor|].
    split; [exists dt, nd; rewrite app_nil_r; auto|]. intros [|a1 a] i b E; discriminate.
Qed.

Definition get_ok (m : meta) : Prop := named m -> wf_meta m -> forall p names rel c o, inv p names rel -> get_node m p c = Ok o ->
  forall l x, (exists n, o = Some n /\ holds m n l x) <-> ~ skipped (names ++ [mname m]) /\ in_store m (names ++ [mname m]) (rel ++ [mname m]) c l x.

Lemma gather_get : forall nm cs p names rel c fs, NoDup (map mname cs) -> (forall d, In d cs -> get_ok d) -> (forall d, In d cs -> named d) ->
  (forall d, In d cs -> wf_meta d) -> inv p names rel -> gather cs (fun d => get_node d p c) = Ok fs ->
  forall l x, holds (Meta nm KStruct cs) (NStruct fs) l x <-> in_store (Meta nm KStruct cs) names rel c l x.
Proof.
  intros nm cs p names rel c fs ND IH NM WF I G l x. apply gather_ok in G; auto. destruct G as [G _].
  rewrite holds_struct, in_store_struct. split.
  - intros (d & ch & l' & -> & D & A & H). destruct (G d D) as (o & E & A'). rewrite A in A'. subst o.
    exists d, l'. split; auto. split; auto. apply (IH d D (NM d D) (WF d D) p names rel c (Some ch) I E). eauto.
  - intros (d & l' & -> & D & NS & IS). destruct (G d D) as (o & E & A).
    destruct (proj2 (IH d D (NM d D) (WF d D) p names rel c o I E l' x) (conj NS IS)) as (ch & -> & H). exists d, ch, l'. auto.
Qed.

Lemma get_node_unfold : forall nm k cs p c, get_node (Meta nm k cs) p c =
    let m := Meta nm k cs in
    if omitted dynamic mode p m then Ok None else
    do r <- locate dynamic xml_tbp nbc mode p m;
    match r with
    | None => Ok None
    | Some pl =>
      match k with
      | KAoS =>
        match s_size s (c, pl) with
        | None | Some O => Ok None
        | Some n =>
          do els <- rmap (fun i => do fs <- gather cs (fun d => get_node d (below dynamic p m) (c ++ [(pl, i)])); Ok (NStruct fs)) (seq 0 n);
          Ok (Some (NAoS els))
        end
      | KStruct => do fs <- gather cs (fun d => get_node d (below dynamic p m) c); Ok (Some (NStruct fs))
      | KLeaf dt nd =>
        do v <- read s (c, pl) dt nd;
        Ok (match v with
            | None => None
            | Some v => if (nd =? 0) && PrimModel.is_empty dt v then None else Some (NLeaf (Some v))
            end)
      end
    end.
Proof. reflexivity. Qed.

Lemma get_node_ok : forall m, get_ok m.
Proof.
  intros m. induction m as [nm k cs IH] using meta_ind'. intros NM WF p names rel c o I R l x.
  rewrite get_node_unfold in R. cbv zeta in R.
  pose proof (omitted_spec dynamic nbc mode p names rel (Meta nm k cs) I) as OM.
  pose proof (locate_spec dynamic xml_tbp nbc mode p names rel (Meta nm k cs) I) as LO. cbv zeta in LO.
  cbn [mname] in *. set (ns := names ++ [nm]) in *. set (rl := rel ++ [nm]) in *.
  destruct (omitted dynamic mode p (Meta nm k cs)).
  { inversion R; subst. split; [intros (n & E & _); discriminate|intros [NS _]; contradiction]. }
  destruct (locate dynamic xml_tbp nbc mode p (Meta nm k cs)) as [[pl|]|e]; cbn [rbind] in R; [| |discriminate].
  2: { inversion R; subst. split; [intros (n & E & _); discriminate|]. intros [NS _]. destruct NS. now right. }
  destruct LO as [PL NG]. assert (NS : ~ skipped ns) by (intros [H|H]; auto).
  inversion NM as [? ? ? N1 N2 N3]; subst. inversion WF as [? ? ? W1 W2 W3]; subst.
  assert (IB := inv_below dynamic xml_tbp p names rel (Meta nm k cs) I N1). cbn [mname] in IB. fold ns rl in IB.
  assert (RED : forall P, (~ skipped ns /\ P) <-> P) by tauto. rewrite RED. clear RED.
  destruct k as [| |dt nd]; unfold is_aos in *; cbn [mkind] in *.
  - destruct (gather cs _) as [fs|] eqn:G; [|discriminate]. cbn [rbind] in R. inversion R; subst.
    assert (GG := gather_get nm cs _ _ _ c fs W1 IH N3 W2 IB G l x). rewrite <- GG.
    split; [intros (n & E & H); inversion E; subst; auto|intros H; exists (NStruct fs); auto].
  - rewrite (in_store_aos nm cs ns rl c l x pl PL). destruct (s_size s (c, pl)) as [[|n]|] eqn:SZ.
    + inversion R; subst. split; [intros (n & E & _); discriminate|]. intros (n & E & [(_ & _ & G)|(i & l' & _ & L & _)]); inversion E; subst; lia.
    + destruct (rmap _ _) as [els|] eqn:RM; [|discriminate]. cbn [rbind] in R. inversion R; subst. apply rmap_ok in RM. destruct RM as [LE NE].
      rewrite seq_length in LE.
      assert (EL : forall i, i < S n -> exists fs, gather cs (fun d => get_node d (below dynamic p (Meta nm KAoS cs)) (c ++ [(pl, i)])) = Ok fs /\ nth_error els i = Some (NStruct fs)).
      { intros i L. assert (E : nth_error (seq 0 (S n)) i = Some i).
        { rewrite (nth_error_nth' _ 0) by (now rewrite seq_length). rewrite seq_nth by auto. reflexivity. }
        apply NE in E. destruct E as (y & Ey & Ny). destruct (gather cs _) as [fs|]; [|discriminate]. cbn in Ey. inversion Ey; subst. eauto. }
      split.
      * intros (n' & E & H). inversion E; subst n'. apply holds_aos in H. exists (S n). split; auto.
        destruct H as [(-> & -> & G)|(i & e & l' & -> & A & H)]; [left; rewrite LE; auto with arith|].
        right. exists i, l'. split; auto. assert (L : i < S n) by (rewrite <- LE; apply nth_error_Some; congruence). split; auto.
        destruct (EL i L) as (fs & G & A'). rewrite A in A'. inversion A'; subst e.
        apply (gather_get nm cs _ _ _ _ fs W1 IH N3 W2 IB G); auto.
      * intros (n' & E & H). inversion E; subst n'. exists (NAoS els). split; auto. apply holds_aos.
        destruct H as [(-> & -> & G)|(i & l' & -> & L & H)]; [left; rewrite LE; auto|].
        right. destruct (EL i L) as (fs & G & A'). exists i, (NStruct fs), l'. split; auto. split; auto.
        apply (gather_get nm cs _ _ _ _ fs W1 IH N3 W2 IB G); auto.
    + inversion R; subst. split; [intros (n & E & _); discriminate|]. intros (n & E & _). discriminate.
  - rewrite (in_store_leaf nm dt nd cs ns rl c l x pl PL). unfold read in R. destruct (s_data s (c, pl)) as [v|] eqn:S.
    + destruct (typed dt nd v); [|discriminate]. cbn [rbind] in R. inversion R; subst. split.
      * intros (n & E & H). destruct ((nd =? 0) && PrimModel.is_empty dt v) eqn:Q; inversion E; subst. apply holds_leaf in H.
        destruct H as (-> & w & Ew & -> & F). inversion Ew; subst w. split; auto. exists v. split; auto. split; auto. split; auto.
        intros ->. exact Q.
      * intros (-> & w & -> & E & F & NE). inversion E; subst w. exists (NLeaf (Some v)). split; [|apply (holds_leaf nm dt nd cs (Some v) [] (ILeaf v)); split; auto; exists v; auto].
        destruct (Nat.eqb_spec nd 0); auto. cbn. rewrite NE; auto.
    + cbn [rbind] in R. split.
      * intros (n & E & H). subst o. destruct nd; [rewrite default_empty in R|]; cbn in R; discriminate.
      * intros (_ & v & _ & E & _). discriminate.
Qed.

Lemma get_children_ok : forall m n, named m -> wf_meta m -> mkind m = KStruct -> get_children dynamic xml_tbp nbc mode s m = Ok n ->
  forall l x, holds m n l x <-> in_store m [] [] [] l x.
Proof.
  intros [nm k cs] n NM WF K R l x. cbn in K. subst k. unfold get_children in R. cbn [mchildren] in R.
  destruct (gather cs _) as [fs|] eqn:G; [|discriminate]. cbn [rbind] in R. inversion R; subst. inversion NM; subst. inversion WF; subst.
  eapply gather_get; eauto using get_node_ok. apply inv_top.
Qed.
End Get.
