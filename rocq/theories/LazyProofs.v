(** The state of a lazily loaded IDS agrees with the fully loaded one. *)
From Verif Require Import Base TreeModel TreeSpec TreeProofs4 VmapModel StoreModel StoreProofs3 LazyModel LazySpec.
From Verif Require PrimModel.

Lemma index_spec : forall i n j, index i n = Some j -> j < n /\ (i = Z.of_nat j \/ (j < n /\ i = (- Z.of_nat (S (n - S j)))%Z)).
Proof.
  intros i n j H. unfold index in H. destruct (Z.ltb_spec i 0); destruct (_ && _)%bool eqn:E in H; try discriminate; inversion H; subst;
    apply andb_prop in E as [E1 E2]; apply Z.leb_le in E1; apply Z.ltb_lt in E2; split; try lia.
Qed.
Lemma index_none : forall i n, index i n = None -> (i < - Z.of_nat n \/ Z.of_nat n <= i)%Z.
Proof.
  intros i n H. unfold index in H. destruct (Z.ltb_spec i 0); destruct (_ && _)%bool eqn:E in H; try discriminate; apply andb_false_iff in E as [E|E];
    (apply Z.leb_gt in E || apply Z.ltb_ge in E); lia.
Qed.
Lemma reach_item : forall nm cs els i j y path l m' e', index i (length els) = Some j -> nth_error els j = Some y ->
  reach (Meta nm KStruct cs) y path l m' e' -> reach (Meta nm KAoS cs) (NAoS els) (Item i :: path) (Elem j :: l) m' e'.
Proof.
  intros nm cs els i j y path l m' e' I N R. apply index_spec in I as [L [->|[_ ->]]]; [econstructor; eauto|].
  assert (E : length els - S (length els - S j) = j) by lia. set (q := length els - S j) in *. rewrite <- E. econstructor; eauto; [now rewrite E|lia].
Qed.
Lemma child_meta_spec : forall m nm d, child_meta m nm = Some d -> In d (mchildren m) /\ mname d = nm.
Proof. intros m nm d H. apply find_some in H as [I E]. apply str_eqb_eq in E. auto. Qed.
Lemma child_meta_none : forall m nm, child_meta m nm = None -> ~ In nm (map mname (mchildren m)).
Proof. intros m nm H I. apply in_map_iff in I as (d & E & I). apply (List.find_none _ _ H) in I. subst. now rewrite str_eqb_refl in I. Qed.

Section Agree.
Variable dynamic : list str -> bool.
Variable xml_tbp : list str -> str.
Variable nbc : option nmap.
Variable mode : Z.
Variable s : store.
Notation get_node := (get_node dynamic xml_tbp nbc mode s).
Notation below := (below dynamic).
Notation load_child := (load_child dynamic xml_tbp nbc mode s).
Notation load_size := (load_size s).
Notation access := (access dynamic xml_tbp nbc mode s).

(** a child that has not been requested will be as in the fully loaded structure *)
Definition pending (d : meta) (p : pos) (c : option ctx) (e : node) : Prop :=
  match c with
  | None => e = new_node d
  | Some c => exists o, get_node d p c = Ok o /\ e = match o with Some x => x | None => new_node d end
  end.
Definition elem_ctx (c : option key) (i : nat) : option ctx := option_map (fun k => fst k ++ [(snd k, i)]) c.
Definition size_of (c : option key) : nat := match c with Some k => match s_size s k with Some n => n | None => 0 end | None => 0 end.

Inductive agree (B : loc -> Prop) : meta -> pos -> loc -> lnode -> node -> Prop :=
| ag_leaf : forall nm dt nd cs p at_ v w, v = w \/ (v = None /\ B at_) -> agree B (Meta nm (KLeaf dt nd) cs) p at_ (LLeaf v) (NLeaf w)
| ag_struct : forall nm cs p at_ c fs efs,
    (forall d ch, In d cs -> alookup (mname d) fs = Some ch -> agree B d (below p d) (at_ ++ [Child (mname d)]) ch (field d efs)) ->
    (forall d, In d cs -> alookup (mname d) fs = None -> pending d p c (field d efs)) ->
    agree B (Meta nm KStruct cs) p at_ (LStruct c fs) (NStruct efs)
| ag_unloaded : forall nm cs p at_ c els, length els = size_of c ->
    (forall i y, nth_error els i = Some y -> agree B (Meta nm KStruct cs) p (at_ ++ [Elem i]) (LStruct (elem_ctx c i) []) y) ->
    agree B (Meta nm KAoS cs) p at_ (LAoS c None) (NAoS els)
| ag_aos : forall nm cs p at_ c l els, length l = length els ->
    (forall i x y, nth_error l i = Some (Some x) -> nth_error els i = Some y -> agree B (Meta nm KStruct cs) p (at_ ++ [Elem i]) x y) ->
    (forall i y, nth_error l i = Some None -> nth_error els i = Some y -> agree B (Meta nm KStruct cs) p (at_ ++ [Elem i]) (LStruct (elem_ctx c i) []) y) ->
    agree B (Meta nm KAoS cs) p at_ (LAoS c (Some l)) (NAoS els).

Lemma agree_mono : forall (B B' : loc -> Prop), (forall l, B l -> B' l) -> forall m p at_ n e, agree B m p at_ n e -> agree B' m p at_ n e.
Proof.
  intros B B' I m p at_ n e H. induction H.
  - constructor. destruct H as [|[]]; auto.
  - constructor; auto.
  - constructor; auto.
  - constructor; auto.
Qed.

Lemma agree_new : forall B d p at_, agree B d p at_ (lnew d) (new_node d).
Proof.
  intros B [nm k cs] p at_. unfold lnew, new_node; cbn [mkind]. destruct k; constructor; cbn; auto.
  - intros; discriminate.
  - intros [|i] y E; discriminate.
Qed.

Lemma agree_gathered : forall B nm cs p at_ c fs, NoDup (map mname cs) -> gather cs (fun d => get_node d p c) = Ok fs ->
  agree B (Meta nm KStruct cs) p at_ (LStruct (Some c) []) (NStruct fs).
Proof.
  intros B nm cs p at_ c fs ND G. apply gather_ok in G as [G _]; auto. constructor; [intros; discriminate|].
  intros d D _. destruct (G d D) as (o & E & A). exists o. split; auto. unfold field. now rewrite A.
Qed.

Lemma load_child_agree : forall B open d p c e at_, wf_meta d -> pending d p c e ->
  match load_child open d p c with
  | (ch, None) => agree B d (below p d) at_ ch e
  | (ch, Some x) => open = false /\ x = Unavailable /\ ch = LLeaf None /\ exists nm dt nd cs v, d = Meta nm (KLeaf dt nd) cs /\ e = NLeaf v
  end.
Proof.
  intros B open [nm k cs] p [c|] e at_ WF PD; [|cbn in *; subst; apply agree_new].
  unfold LazyModel.load_child. cbn [pending] in PD. destruct PD as (o & G & ->). rewrite get_node_unfold in G. cbv zeta in G.
  destruct (omitted dynamic mode p (Meta nm k cs)); [inversion G; subst; apply agree_new|].
  destruct (locate dynamic xml_tbp nbc mode p (Meta nm k cs)) as [[pl|]|x]; cbn [rbind] in G; [|inversion G; subst; apply agree_new|discriminate].
  inversion WF as [? ? ? ND WC LF]; subst. cbn [mkind]. destruct k as [| |dt nd].
  - destruct (gather cs _) as [fs|] eqn:GA; [|discriminate]. cbn [rbind] in G. inversion G; subst. now apply agree_gathered.
  - destruct (s_size s (c, pl)) as [[|n]|] eqn:SZ.
    + inversion G; subst. constructor; [cbn; now rewrite SZ|intros [|i] y E; discriminate].
    + destruct (rmap _ _) as [els|] eqn:RM; [|discriminate]. cbn [rbind] in G. inversion G; subst. apply rmap_ok in RM as [LE NE]. rewrite seq_length in LE.
      constructor; [cbn; now rewrite SZ|]. intros i y E. assert (L : i < S n) by (rewrite <- LE; apply nth_error_Some; congruence).
      assert (Q : nth_error (seq 0 (S n)) i = Some i) by (rewrite (nth_error_nth' _ 0) by (now rewrite seq_length); rewrite seq_nth by auto; reflexivity).
      apply NE in Q as (z & Ez & Nz). rewrite E in Nz. inversion Nz; subst z. destruct (gather cs _) as [fs|] eqn:GA; [|discriminate]. cbn in Ez. inversion Ez; subst.
      cbn. now apply agree_gathered.
    + inversion G; subst. constructor; [cbn; now rewrite SZ|intros [|i] y E; discriminate].
  - destruct open.
    + destruct (read s (c, pl) dt nd) as [[v|]|] eqn:R; cbn [rbind] in G; try discriminate; inversion G; subst.
      * destruct ((nd =? 0) && PrimModel.is_empty dt v); constructor; auto.
      * apply agree_new.
    + split; auto. split; auto. split; auto. exists nm, dt, nd, cs.
      destruct (read s (c, pl) dt nd) as [[v|]|]; cbn [rbind] in G; try discriminate; inversion G; subst; [destruct ((nd =? 0) && PrimModel.is_empty dt v)|]; cbn; eauto.
Qed.

Lemma load_size_agree : forall B open nm cs p at_ c v els, agree B (Meta nm KAoS cs) p at_ (LAoS c v) (NAoS els) ->
  match load_size open c v with
  | Ok l => agree B (Meta nm KAoS cs) p at_ (LAoS c (Some l)) (NAoS els) /\ length l = length els
  | Err x => open = false /\ x = Unavailable
  end.
Proof.
  intros B open nm cs p at_ c v els H. inversion H; subst; cbn; [|auto].
  destruct c as [k|]; [destruct open|]; cbn; auto.
  - assert (LEN : length els = match s_size s k with Some n => n | None => 0 end) by assumption. split; [|rewrite repeat_length; congruence]. constructor; [rewrite repeat_length; congruence| |].
    + intros i x y N. apply nth_error_In, repeat_spec in N. discriminate.
    + intros i y _ N. auto.
  - assert (LEN : length els = 0) by assumption. split; [|congruence]. constructor; [cbn; congruence| |]; intros [|i]; discriminate.
Qed.

(** where an access has failed *)
Definition failed (m : meta) (e : node) (at_ : loc) (path : list acc) (l : loc) : Prop :=
  exists p1 p2 l1 m' v, path = p1 ++ p2 /\ reach m e p1 l1 m' (NLeaf v) /\ l = at_ ++ l1.
Lemma failed_attr : forall nm cs efs d at_ path l, In d cs -> failed d (field d efs) (at_ ++ [Child (mname d)]) path l ->
  failed (Meta nm KStruct cs) (NStruct efs) at_ (Attr (mname d) :: path) l.
Proof.
  intros nm cs efs d at_ path l D (p1 & p2 & l1 & m' & v & -> & R & ->). exists (Attr (mname d) :: p1), p2, (Child (mname d) :: l1), m', v.
  split; auto. split; [now constructor|]. now rewrite <- app_assoc.
Qed.
Lemma failed_item : forall nm cs els i j y at_ path l, index i (length els) = Some j -> nth_error els j = Some y ->
  failed (Meta nm KStruct cs) y (at_ ++ [Elem j]) path l -> failed (Meta nm KAoS cs) (NAoS els) at_ (Item i :: path) l.
Proof.
  intros nm cs els i j y at_ path l I N (p1 & p2 & l1 & m' & v & -> & R & ->). exists (Item i :: p1), p2, (Elem j :: l1), m', v.
  split; auto. split; [eapply reach_item; eauto|]. now rewrite <- app_assoc.
Qed.

Definition outcome (open : bool) (B : loc -> Prop) (m : meta) (e : node) (at_ : loc) (path : list acc) (look : bool) (r : result lexn obs) : Prop :=
  seen m e path look r \/ (open = false /\ r = Err Unavailable) \/
  (look = true /\ r = Ok (OValue None) /\ exists l m' v, reach m e path l m' (NLeaf v) /\ B (at_ ++ l)).

Lemma seen_attr : forall nm cs efs d path look r, In d cs -> seen d (field d efs) path look r ->
  seen (Meta nm KStruct cs) (NStruct efs) (Attr (mname d) :: path) look r.
Proof.
  intros nm cs efs d path look r D S. destruct S as [l m' e' R|p nm' q l m' e' -> R N|p i q l m' e' -> R N].
  - eapply seen_ok. constructor; eauto.
  - eapply (seen_no_attr _ _ _ _ (Attr (mname d) :: p)); eauto; [reflexivity|constructor; eauto].
  - eapply (seen_no_elem _ _ _ _ (Attr (mname d) :: p)); eauto; [reflexivity|constructor; eauto].
Qed.
Lemma seen_item : forall nm cs els i j y path look r, index i (length els) = Some j -> nth_error els j = Some y -> seen (Meta nm KStruct cs) y path look r ->
  seen (Meta nm KAoS cs) (NAoS els) (Item i :: path) look r.
Proof.
  intros nm cs els i j y path look r I NE S. destruct S as [l m' e' R|p nm' q l m' e' -> R N|p k q l m' e' -> R N].
  - eapply seen_ok. eapply reach_item; eauto.
  - eapply (seen_no_attr _ _ _ _ (Item i :: p)); eauto; [reflexivity|eapply reach_item; eauto].
  - eapply (seen_no_elem _ _ _ _ (Item i :: p)); eauto; [reflexivity|eapply reach_item; eauto].
Qed.
Lemma outcome_attr : forall open B nm cs efs d at_ path look r, In d cs -> outcome open B d (field d efs) (at_ ++ [Child (mname d)]) path look r ->
  outcome open B (Meta nm KStruct cs) (NStruct efs) at_ (Attr (mname d) :: path) look r.
Proof.
  intros open B nm cs efs d at_ path look r D [S|[U|(L & E & l & m' & v & R & BL)]]; [left; now apply seen_attr|right; now left|].
  right. right. split; auto. split; auto. exists (Child (mname d) :: l), m', v. split; [now constructor|]. now rewrite <- app_assoc in BL.
Qed.
Lemma outcome_item : forall open B nm cs els i j y at_ path look r, index i (length els) = Some j -> nth_error els j = Some y ->
  outcome open B (Meta nm KStruct cs) y (at_ ++ [Elem j]) path look r -> outcome open B (Meta nm KAoS cs) (NAoS els) at_ (Item i :: path) look r.
Proof.
  intros open B nm cs els i j y at_ path look r I N [S|[U|(L & E & l & m' & v & R & BL)]]; [left; eapply seen_item; eauto|right; now left|].
  right. right. split; auto. split; auto. exists (Elem j :: l), m', v. split; [eapply reach_item; eauto|]. now rewrite <- app_assoc in BL.
Qed.

Lemma wf_child : forall nm k cs d, wf_meta (Meta nm k cs) -> In d cs -> wf_meta d.
Proof. intros nm k cs d W. inversion W; auto. Qed.
Lemma wf_elem : forall nm cs, wf_meta (Meta nm KAoS cs) -> wf_meta (Meta nm KStruct cs).
Proof. intros nm cs W. inversion W; subst. constructor; auto. intros; discriminate. Qed.

Lemma set_field_agree : forall B nm cs p at_ c fs efs d ch, NoDup (map mname cs) -> In d cs ->
  agree B (Meta nm KStruct cs) p at_ (LStruct c fs) (NStruct efs) ->
  agree B d (below p d) (at_ ++ [Child (mname d)]) ch (field d efs) ->
  agree B (Meta nm KStruct cs) p at_ (LStruct c (aset (mname d) ch fs)) (NStruct efs).
Proof.
  intros B nm cs p at_ c fs efs d ch ND D H A. inversion H; subst. constructor.
  - intros x y X E. rewrite alookup_aset in E. destruct (str_eqb (mname x) (mname d)) eqn:Q.
    + apply str_eqb_eq in Q. symmetry in Q. assert (x = d) as ->.
      { clear -ND X D Q. induction cs as [|z t IH]; [destruct D|]. cbn in ND. inversion ND; subst.
        destruct X as [->|X], D as [->|D]; auto; [destruct H1; rewrite <- Q; now apply List.in_map|destruct H1; rewrite Q; now apply List.in_map]. }
      inversion E; subst. exact A.
    + auto.
  - intros x X E. rewrite alookup_aset in E. destruct (str_eqb (mname x) (mname d)); [discriminate|auto].
Qed.

Lemma access_agree : forall open path look B m p at_ n e, wf_meta m -> agree B m p at_ n e ->
  let r := access open m p path look n in
  (exists B', agree B' m p at_ (fst r) e /\ (forall l, B l -> B' l) /\
     forall l, B' l -> B l \/ (open = false /\ snd r = Err Unavailable /\ failed m e at_ path l)) /\
  outcome open B m e at_ path look (snd r).
Proof.
  intros open. induction path as [|[nm|i] path IH]; intros look B m p at_ n e W H; cbn [LazyModel.access]; cbv zeta.
  - assert (K : agree B m p at_ n e /\ outcome open B m e at_ [] false (Ok ONode)) by (split; auto; left; apply (seen_ok m e [] false [] m e); constructor).
    destruct look; [|destruct K; split; [exists B; split; auto|]; auto]. clear K. destruct n as [v|c fs|c v].
    + split; [exists B; auto|]. inversion H; subst. cbn [snd]. match goal with X : _ \/ _ |- _ => destruct X as [->|[-> BB]] end.
      * left. apply (seen_ok _ _ [] true [] _ _ (re_here _ (NLeaf w))).
      * right. right. split; auto. split; auto. eexists [], _, w. rewrite app_nil_r. split; [constructor|exact BB].
    + split; [exists B; auto|]. inversion H; subst. left. apply (seen_ok _ _ [] true [] _ _ (re_here _ (NStruct efs))).
    + assert (exists nm cs els, m = Meta nm KAoS cs /\ e = NAoS els) as (nm & cs & els & -> & ->) by (inversion H; subst; eauto 6).
      pose proof (load_size_agree B open nm cs p at_ c v els H) as LS. destruct (load_size open c v) as [l|x].
      * destruct LS as [A L]. split; [exists B; auto|]. left. cbn [snd]. rewrite L. apply (seen_ok _ _ [] true [] _ _ (re_here _ (NAoS els))).
      * destruct LS as (-> & ->). split; [exists B; auto|]. right. left. auto.
  - destruct n as [v|c fs|c v].
    1: { split; [exists B; auto|]. left. eapply (seen_no_attr _ _ _ _ [] nm path); [reflexivity|constructor|]. intros fs ->. inversion H. }
    2: { split; [exists B; auto|]. left. eapply (seen_no_attr _ _ _ _ [] nm path); [reflexivity|constructor|]. intros fs ->. inversion H. }
    assert (exists nm0 cs efs, m = Meta nm0 KStruct cs /\ e = NStruct efs) as (nm0 & cs & efs & -> & ->) by (inversion H; subst; eauto 6).
    destruct (child_meta (Meta nm0 KStruct cs) nm) as [d|] eqn:CM.
    2: { split; [exists B; auto|]. left. eapply (seen_no_attr _ _ _ _ [] nm path); [reflexivity|constructor|]. intros fs' _. now apply child_meta_none. }
    apply child_meta_spec in CM as [D <-]. cbn [mchildren] in D. pose proof (wf_child _ _ _ _ W D) as WD.
    assert (ND : NoDup (map mname cs)) by (inversion W; auto).
    assert (CONT : forall ch, agree B d (below p d) (at_ ++ [Child (mname d)]) ch (field d efs) ->
      let r := access open d (below p d) path look ch in
      (exists B', agree B' (Meta nm0 KStruct cs) p at_ (LStruct c (aset (mname d) (fst r) fs)) (NStruct efs) /\ (forall l, B l -> B' l) /\
         forall l, B' l -> B l \/ (open = false /\ snd r = Err Unavailable /\ failed (Meta nm0 KStruct cs) (NStruct efs) at_ (Attr (mname d) :: path) l)) /\
      outcome open B (Meta nm0 KStruct cs) (NStruct efs) at_ (Attr (mname d) :: path) look (snd r)).
    { intros ch A r. destruct (IH look B d (below p d) (at_ ++ [Child (mname d)]) ch (field d efs) WD A) as [(B' & A' & M & N) O]. fold r in A', N, O. split.
      - exists B'. split; [|split; auto].
        + eapply set_field_agree; eauto. eapply agree_mono; eauto.
        + intros l Bl. destruct (N l Bl) as [|(Op & U & F)]; auto. right. split; auto. split; auto. now apply failed_attr.
      - now apply outcome_attr. }
    destruct (alookup (mname d) fs) as [ch|] eqn:AL.
    + apply CONT. inversion H; subst; auto.
    + assert (PD : pending d p c (field d efs)) by (inversion H; subst; auto).
      pose proof (load_child_agree B open d p c _ (at_ ++ [Child (mname d)]) WD PD) as LC.
      destruct (load_child open d p c) as [ch [x|]].
      * destruct LC as (-> & -> & -> & nm1 & dt & nd & cs1 & v & -> & EV). cbn [mname] in *. split; [|right; left; auto].
        exists (fun l => B l \/ l = at_ ++ [Child nm1]). split; [|split; auto].
        -- cbn [fst]. apply (set_field_agree _ nm0 cs p at_ c fs efs (Meta nm1 (KLeaf dt nd) cs1)); auto.
           ++ eapply agree_mono; [|exact H]. auto.
           ++ rewrite EV. constructor. auto.
        -- intros l [Bl | ->]; auto. right. split; auto. split; auto. exists [Attr nm1], path, [Child nm1], (Meta nm1 (KLeaf dt nd) cs1), v. split; auto.
           split; auto. apply (re_attr nm0 cs efs (Meta nm1 (KLeaf dt nd) cs1) []); auto. rewrite EV. constructor.
      * apply CONT; auto.
  - destruct n as [v|c fs|c v].
    1: { split; [exists B; auto|]. left. eapply (seen_no_elem _ _ _ _ [] i path); [reflexivity|constructor|]. intros fs ->. inversion H. }
    1: { split; [exists B; auto|]. left. eapply (seen_no_elem _ _ _ _ [] i path); [reflexivity|constructor|]. intros els ->. inversion H. }
    assert (exists nm cs els, m = Meta nm KAoS cs /\ e = NAoS els) as (nm & cs & els & -> & ->) by (inversion H; subst; eauto 6).
    pose proof (load_size_agree B open nm cs p at_ c v els H) as LS. destruct (load_size open c v) as [l|x].
    2: { destruct LS as (-> & ->). split; [exists B; auto|]. right. left. auto. }
    destruct LS as [A L]. rewrite L. destruct (index i (length els)) as [j|] eqn:I.
    2: { split; [exists B; auto|]. left. eapply (seen_no_elem _ _ _ _ [] i path); [reflexivity|constructor|]. intros els' E. inversion E; subst. now apply index_none. }
    pose proof (index_spec _ _ _ I) as [Lj _]. destruct (nth_error els j) as [y|] eqn:NY; [|apply nth_error_None in NY; lia].
    cbn [mname mchildren]. set (el := match nth_error l j with Some (Some e) => e | _ => _ end).
    assert (AE : agree B (Meta nm KStruct cs) p (at_ ++ [Elem j]) el y).
    { inversion A; subst. unfold el. destruct (nth_error l j) as [[x|]|] eqn:NL; [eauto|eauto|apply nth_error_None in NL; lia]. }
    destruct (IH look B (Meta nm KStruct cs) p (at_ ++ [Elem j]) el y (wf_elem _ _ W) AE) as [(B' & A' & M & N) O].
    set (r := access open (Meta nm KStruct cs) p path look el) in *. cbn [fst snd]. split.
    + exists B'. split; [|split; auto].
      * apply (agree_mono B B' M) in A. inversion A; subst. constructor.
        -- now rewrite list_set_length.
        -- intros k x z. rewrite nth_error_list_set. destruct (Nat.eqb_spec j k) as [->|NE]; [|eauto]. destruct (nth_error l k); [|discriminate].
           intros E1 E2. inversion E1; subst. rewrite NY in E2. inversion E2; subst. exact A'.
        -- intros k z. rewrite nth_error_list_set. destruct (Nat.eqb_spec j k) as [->|NE]; [|eauto]. destruct (nth_error l k); discriminate.
      * intros k Bk. destruct (N k Bk) as [|(Op & U & F)]; auto. right. split; auto. split; auto. eapply failed_item; eauto.
    + eapply outcome_item; eauto.
Qed.

Lemma start_agree : forall B m e, wf_meta m -> mkind m = KStruct -> get_children dynamic xml_tbp nbc mode s m = Ok e ->
  agree B m top [] (l_tree lget) e.
Proof.
  intros B [nm k cs] e W K G. cbn in K. subst k. unfold get_children in G. cbn [mchildren] in G. destruct (gather cs _) as [fs|] eqn:GA; [|discriminate].
  cbn [rbind] in G. inversion G; subst. apply agree_gathered; auto. inversion W; auto.
Qed.
End Agree.
