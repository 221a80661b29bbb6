(** What is loaded, and when. *)
From Verif Require Import Base TreeModel TreeSpec TreeProofs4 VmapModel StoreModel StoreProofs3 LazyModel LazySpec LazyProofs.
From Verif Require PrimModel.

(** * The result of an access to a fully loaded IDS is unique *)
Lemma NoDup_names : forall cs (x d : meta), NoDup (map mname cs) -> In x cs -> In d cs -> mname x = mname d -> x = d.
Proof.
  induction cs as [|z t IH]; intros x d ND X D Q; [destruct D|]. cbn in ND. inversion ND as [|? ? NI ND']; subst.
  destruct X as [->|X], D as [->|D]; auto; destruct NI; [rewrite Q|rewrite <- Q]; now apply List.in_map.
Qed.

Lemma reach_fun : forall m e path l1 m1 e1 l2 m2 e2, wf_meta m -> reach m e path l1 m1 e1 -> reach m e path l2 m2 e2 -> l1 = l2 /\ m1 = m2 /\ e1 = e2.
Proof.
  intros m e path l1 m1 e1 l2 m2 e2 W H. revert l2 m2 e2 W. induction H; intros l2 m2 e2 W R2.
  - inversion R2; subst; auto.
  - inversion R2; subst. assert (d0 = d) as -> by (inversion W; eapply NoDup_names; eauto).
    match goal with X : reach d (field d fs) path ?a _ _ |- _ => destruct (IHreach _ _ _ (wf_child _ _ _ _ W H) X) as (-> & -> & ->); auto end.
  - inversion R2; subst.
    + assert (i0 = i) as -> by lia. match goal with X : nth_error els i = Some ?z |- _ => rewrite H in X; inversion X; subst end.
      match goal with X : reach _ y0 path ?a _ _ |- _ => destruct (IHreach _ _ _ (wf_elem _ _ W) X) as (-> & -> & ->); auto end.
    + lia.
  - inversion R2; subst.
    + lia.
    + assert (i0 = i) as -> by lia. match goal with X : nth_error els (length els - S i) = Some ?z |- _ => rewrite H in X; inversion X; subst end.
      match goal with X : reach _ y0 path ?a _ _ |- _ => destruct (IHreach _ _ _ (wf_elem _ _ W) X) as (-> & -> & ->); auto end.
Qed.
Lemma reach_split : forall p q m e l m' e', reach m e (p ++ q) l m' e' -> exists l1 l2 m1 e1, reach m e p l1 m1 e1 /\ reach m1 e1 q l2 m' e' /\ l = l1 ++ l2.
Proof.
  induction p as [|a p IH]; intros q m e l m' e' R; cbn in R.
  - exists [], l, m, e. split; [constructor|auto].
  - inversion R; subst.
    + match goal with X : reach _ _ (p ++ q) _ _ _ |- _ => destruct (IH _ _ _ _ _ _ X) as (l1 & l2 & m1 & e1 & A & C & ->) end.
      exists (Child (mname d) :: l1), l2, m1, e1. split; [now constructor|auto].
    + match goal with X : reach _ _ (p ++ q) _ _ _ |- _ => destruct (IH _ _ _ _ _ _ X) as (l1 & l2 & m1 & e1 & A & C & ->) end.
      exists (Elem i :: l1), l2, m1, e1. split; [econstructor; eauto|auto].
    + match goal with X : reach _ _ (p ++ q) _ _ _ |- _ => destruct (IH _ _ _ _ _ _ X) as (l1 & l2 & m1 & e1 & A & C & ->) end.
      eexists (Elem _ :: l1), l2, m1, e1. split; [econstructor; eauto|auto].
Qed.
Lemma reach_wf : forall m e p l m' e', reach m e p l m' e' -> wf_meta m -> wf_meta m'.
Proof. intros m e p l m' e' R. induction R; intros W; auto; apply IHR; eauto using wf_child, wf_elem. Qed.

(** a failing step *)
Definition stuck (m : meta) (e : node) (a : acc) (x : lexn) : Prop :=
  match a with
  | Attr nm => x = NoAttribute /\ forall fs, e = NStruct fs -> ~ In nm (map mname (mchildren m))
  | Item i => x = NoElement /\ forall els, e = NAoS els -> (i < - Z.of_nat (length els) \/ Z.of_nat (length els) <= i)%Z
  end.
Lemma stuck_no_reach : forall m e a q l m' e' x, stuck m e a x -> reach m e (a :: q) l m' e' -> False.
Proof.
  intros m e [nm|i] q l m' e' x [-> S] R; inversion R; subst.
  - apply (S fs eq_refl). now apply List.in_map.
  - destruct (S els eq_refl); [lia|]. assert (i0 < length els) by (apply nth_error_Some; congruence). lia.
  - destruct (S els eq_refl); lia.
Qed.
Lemma seen_cases : forall m e path look r, seen m e path look r ->
  (exists l m' e', reach m e path l m' e' /\ r = Ok (shown e' look)) \/
  (exists p a q l m' e' x, path = p ++ a :: q /\ reach m e p l m' e' /\ stuck m' e' a x /\ r = Err x).
Proof.
  intros m e path look r S. destruct S as [l m' e' R|p nm q l m' e' E R N|p i q l m' e' E R N].
  - left. eauto 6.
  - right. exists p, (Attr nm), q, l, m', e', NoAttribute. cbn. auto.
  - right. exists p, (Item i), q, l, m', e', NoElement. cbn. auto.
Qed.
Lemma seen_fun : forall m e path look r1 r2, wf_meta m -> seen m e path look r1 -> seen m e path look r2 -> r1 = r2.
Proof.
  assert (OS : forall m e p a q l m' e' x l2 m2 e2, wf_meta m -> reach m e (p ++ a :: q) l2 m2 e2 -> reach m e p l m' e' -> stuck m' e' a x -> False).
  { intros m e p a q l m' e' x l2 m2 e2 W R Rp S. apply reach_split in R as (k1 & k2 & n1 & f1 & A & C & _).
    destruct (reach_fun _ _ _ _ _ _ _ _ _ W A Rp) as (-> & -> & ->). eapply stuck_no_reach; eauto. }
  intros m e path look r1 r2 W S1 S2. apply seen_cases in S1, S2.
  destruct S1 as [(l1 & m1 & e1 & R1 & ->)|(p1 & a1 & q1 & l1 & m1 & e1 & x1 & E1 & R1 & T1 & ->)];
  destruct S2 as [(l2 & m2 & e2 & R2 & ->)|(p2 & a2 & q2 & l2 & m2 & e2 & x2 & E2 & R2 & T2 & ->)].
  - destruct (reach_fun _ _ _ _ _ _ _ _ _ W R1 R2) as (_ & _ & ->). reflexivity.
  - exfalso. subst path. eauto.
  - exfalso. subst path. eauto.
  - assert (X : (exists t, p2 = p1 ++ a1 :: t) \/ (exists t, p1 = p2 ++ a2 :: t) \/ (p1 = p2 /\ a1 = a2)).
    { rewrite E1 in E2. clear -E2. revert p2 E2. induction p1 as [|b p1 IH]; intros [|c p2] E; cbn in E.
      - right. right. inversion E; auto.
      - left. inversion E; subst. exists p2. reflexivity.
      - right. left. inversion E; subst. exists p1. reflexivity.
      - inversion E as [[E1 E2]]; subst c. destruct (IH p2 E2) as [(t & ->)|[(t & ->)|(-> & ->)]]; [left; exists t|right; left; exists t|right; right]; auto. }
    destruct X as [(t & ->)|[(t & ->)|(-> & ->)]].
    + exfalso. eapply (OS m e p1 a1 t l1 m1 e1 x1); eauto.
    + exfalso. eapply (OS m e p2 a2 t l2 m2 e2 x2); eauto.
    + f_equal. destruct a2; cbn in T1, T2; destruct T1 as [-> _], T2 as [-> _]; reflexivity.
Qed.

(** * Loading *)
Inductive litem := LValue (v : value) | LSize (n : nat).
Definition loaded (n : lnode) (l : loc) (x : litem) : Prop := match x with LValue v => loaded_value n l v | LSize k => loaded_size n l k end.

Lemma loaded_leaf : forall v l x, loaded (LLeaf v) l x -> l = [] /\ exists w, x = LValue w /\ v = Some w.
Proof. intros v l [w|k] H; cbn in H; inversion H; subst; eauto. Qed.
Lemma loaded_struct : forall c fs l x, loaded (LStruct c fs) l x <-> exists nm ch l', l = Child nm :: l' /\ alookup nm fs = Some ch /\ loaded ch l' x.
Proof.
  intros c fs l x. split.
  - destruct x; cbn; intros H; inversion H; subst; eauto 8.
  - intros (nm & ch & l' & -> & A & H). destruct x; cbn in *; econstructor; eauto.
Qed.
Lemma loaded_aos : forall c v l x, loaded (LAoS c v) l x <-> exists els, v = Some els /\
  ((l = [] /\ x = LSize (length els) /\ length els > 0) \/ exists i y l', l = Elem i :: l' /\ nth_error els i = Some (Some y) /\ loaded y l' x).
Proof.
  intros c v l x. split.
  - destruct x; cbn; intros H; inversion H; subst; eexists; split; eauto 8.
  - intros (els & -> & [(-> & -> & G)|(i & y & l' & -> & N & H)]); [now constructor|]. destruct x; cbn in *; econstructor; eauto.
Qed.
Lemma loaded_empty : forall c l x, ~ loaded (LStruct c []) l x.
Proof. intros c l x H. apply loaded_struct in H as (nm & ch & l' & _ & E & _). discriminate. Qed.

Section Loaded.
Variable dynamic : list str -> bool.
Variable xml_tbp : list str -> str.
Variable nbc : option nmap.
Variable mode : Z.
Variable s : store.
Notation load_child := (load_child dynamic xml_tbp nbc mode s).
Notation load_size := (load_size s).
Notation access := (access dynamic xml_tbp nbc mode s).
Notation agree := (agree dynamic xml_tbp nbc mode s).

Lemma load_child_loaded : forall open d p c ch x l y, load_child open d p c = (ch, x) -> loaded ch l y ->
  open = true /\ l = [] /\ exists v, ch = LLeaf (Some v).
Proof.
  assert (N : forall d l y, ~ loaded (lnew d) l y).
  { intros [nm k cs] l y H. unfold lnew in H. cbn in H. destruct k; [now apply loaded_empty in H|apply loaded_aos in H as (? & ? & _)|apply loaded_leaf in H as (_ & ? & _ & ?)]; discriminate. }
  intros open d p c ch x l y E H. unfold LazyModel.load_child in E.
  repeat match type of E with
  | context [match ?t with _ => _ end] => let Q := fresh "Q" in destruct t eqn:Q
  end; inversion E; subst; try (now apply N in H); try (now apply loaded_empty in H); try (apply loaded_aos in H as (? & ? & _); discriminate);
  apply loaded_leaf in H as (-> & w & -> & E'); try discriminate; inversion E'; subst; eauto.
Qed.

Lemma set_field_loaded : forall c nm ch fs l y, loaded (LStruct c (aset nm ch fs)) l y ->
  loaded (LStruct c fs) l y \/ exists l', l = Child nm :: l' /\ loaded ch l' y.
Proof.
  intros c nm ch fs l y H. apply loaded_struct in H as (nm' & x & l' & -> & A & H). rewrite alookup_aset in A.
  destruct (str_eqb nm' nm) eqn:Q; [apply str_eqb_eq in Q; subst; inversion A; subst; eauto|]. left. apply loaded_struct. eauto 6.
Qed.

(** nothing is loaded once the entry is closed *)
Lemma closed_loaded : forall path look m p n l y, loaded (fst (access false m p path look n)) l y -> loaded n l y.
Proof.
  assert (SZ : forall c v els l y, load_size false c v = Ok els -> loaded (LAoS c (Some els)) l y -> loaded (LAoS c v) l y).
  { intros c [e|] els l y E H; cbn in E; [inversion E; subst; auto|]. destruct c; [discriminate|]. inversion E; subst.
    apply loaded_aos in H as (e & E' & H). inversion E'; subst. destruct H as [(_ & _ & G)|([|i] & z & l' & _ & N & _)]; cbn in *; [lia|discriminate|discriminate]. }
  induction path as [|[nm|i] path IH]; intros look m p n l y H; cbn [LazyModel.access] in H.
  - destruct look; auto. destruct n as [v|c fs|c v]; auto. destruct (load_size false c v) as [els|] eqn:LS; auto. cbn in H. eauto.
  - destruct n as [v|c fs|c v]; auto. destruct (child_meta m nm) as [d|]; auto. destruct (alookup nm fs) as [ch|] eqn:A.
    + cbv zeta in H. cbn [fst] in H. apply set_field_loaded in H as [H|(l' & -> & H)]; auto. apply IH in H. apply loaded_struct. eauto 6.
    + destruct (load_child false d p c) as [ch [x|]] eqn:LC.
      * cbn [fst] in H. apply set_field_loaded in H as [H|(l' & -> & H)]; auto. destruct (load_child_loaded _ _ _ _ _ _ _ _ LC H); discriminate.
      * cbv zeta in H. cbn [fst] in H. apply set_field_loaded in H as [H|(l' & -> & H)]; auto. apply IH in H. destruct (load_child_loaded _ _ _ _ _ _ _ _ LC H); discriminate.
  - destruct n as [v|c fs|c v]; auto. destruct (load_size false c v) as [els|] eqn:LS; auto. destruct (index i (length els)) as [j|]; [|cbn in H; eauto].
    cbv zeta in H. cbn [fst] in H. apply (SZ _ _ _ _ _ LS). apply loaded_aos in H as (e & E & H). inversion E; subst e. clear E. rewrite list_set_length in H.
    apply loaded_aos. exists els. split; auto. destruct H as [H|(k & z & l' & -> & N & H)]; auto. right. rewrite nth_error_list_set in N.
    destruct (Nat.eqb_spec j k) as [->|NE]; [|eauto 6]. destruct (nth_error els k) as [[w|]|] eqn:NK; [| |discriminate]; inversion N; subst; apply IH in H; [eauto 8|now apply loaded_empty in H].
Qed.

Lemma asked_here : forall m e path, asked m e path [].
Proof. intros. exists [], path, m, e. split; auto. constructor. Qed.
Lemma asked_attr : forall nm cs efs d path l, In d cs -> asked d (field d efs) path l -> asked (Meta nm KStruct cs) (NStruct efs) (Attr (mname d) :: path) (Child (mname d) :: l).
Proof. intros nm cs efs d path l D (p1 & p2 & m' & e' & -> & R). exists (Attr (mname d) :: p1), p2, m', e'. split; auto. now constructor. Qed.
Lemma asked_item : forall nm cs els i j y path l, index i (length els) = Some j -> nth_error els j = Some y -> asked (Meta nm KStruct cs) y path l ->
  asked (Meta nm KAoS cs) (NAoS els) (Item i :: path) (Elem j :: l).
Proof. intros nm cs els i j y path l I N (p1 & p2 & m' & e' & -> & R). exists (Item i :: p1), p2, m', e'. split; auto. eapply reach_item; eauto. Qed.

(** only what has been asked for is loaded *)
Lemma only_asked : forall open path look B m p at_ n e l y, wf_meta m -> agree B m p at_ n e ->
  loaded (fst (access open m p path look n)) l y -> loaded n l y \/ asked m e path l.
Proof.
  intros open. induction path as [|[nm|i] path IH]; intros look B m p at_ n e l y W A H; cbn [LazyModel.access] in H.
  - destruct look; auto. destruct n as [v|c fs|c v]; auto. destruct (load_size open c v) as [els|] eqn:LS; auto. cbn [fst] in H.
    apply loaded_aos in H as (e0 & E & H). inversion E; subst e0. destruct H as [(-> & _)|(j & z & l' & -> & N & H)]; [right; apply asked_here|].
    unfold LazyModel.load_size in LS. destruct v as [o|]; [inversion LS; subst; left; apply loaded_aos; eauto 10|].
    destruct c; [destruct open; [|discriminate]|]; inversion LS; subst; [|destruct j; discriminate]. apply nth_error_In, repeat_spec in N. discriminate.
  - destruct n as [v|c fs|c v]; auto. destruct (child_meta m nm) as [d|] eqn:CM; auto.
    assert (exists nm0 cs efs, m = Meta nm0 KStruct cs /\ e = NStruct efs) as (nm0 & cs & efs & -> & ->) by (inversion A; subst; eauto 6).
    apply child_meta_spec in CM as [D <-]. cbn [mchildren] in D. pose proof (wf_child _ _ _ _ W D) as WD.
    destruct (alookup (mname d) fs) as [ch|] eqn:AL.
    + assert (AC : agree B d (below dynamic p d) (at_ ++ [Child (mname d)]) ch (field d efs)) by (inversion A; subst; auto).
      cbv zeta in H. cbn [fst] in H. apply set_field_loaded in H as [H|(l' & -> & H)]; auto.
      destruct (IH _ _ _ _ _ _ _ _ _ WD AC H) as [L|Q]; [left; apply loaded_struct; eauto 6|right; now apply asked_attr].
    + assert (PD : pending dynamic xml_tbp nbc mode s d p c (field d efs)) by (inversion A; subst; auto).
      pose proof (load_child_agree dynamic xml_tbp nbc mode s B open d p c _ (at_ ++ [Child (mname d)]) WD PD) as LA.
      destruct (load_child open d p c) as [ch [x|]] eqn:LC.
      * cbn [fst] in H. apply set_field_loaded in H as [H|(l' & -> & H)]; auto. destruct (load_child_loaded _ _ _ _ _ _ _ _ LC H) as (_ & -> & _).
        right. apply asked_attr; auto. apply asked_here.
      * cbv zeta in H. cbn [fst] in H. apply set_field_loaded in H as [H|(l' & -> & H)]; auto. right. apply asked_attr; auto.
        destruct (IH _ _ _ _ _ _ _ _ _ WD LA H) as [L|Q]; auto. destruct (load_child_loaded _ _ _ _ _ _ _ _ LC L) as (_ & -> & _). apply asked_here.
  - destruct n as [v|c fs|c v]; auto.
    assert (exists nm cs els, m = Meta nm KAoS cs /\ e = NAoS els) as (nm & cs & els & -> & ->) by (inversion A; subst; eauto 6).
    pose proof (load_size_agree dynamic xml_tbp nbc mode s B open nm cs p at_ c v els A) as LA.
    destruct (load_size open c v) as [ls|] eqn:LS; auto. destruct LA as [A1 L].
    assert (OLD : forall k z l', nth_error ls k = Some (Some z) -> loaded z l' y -> loaded (LAoS c v) (Elem k :: l') y).
    { intros k z l' N HZ. unfold LazyModel.load_size in LS. destruct v as [o|]; [inversion LS; subst; apply loaded_aos; eauto 10|].
      destruct c; [destruct open; [|discriminate]|]; inversion LS; subst; [|destruct k; discriminate]. apply nth_error_In, repeat_spec in N. discriminate. }
    destruct (index i (length ls)) as [j|] eqn:I.
    2: { cbn [fst] in H. apply loaded_aos in H as (e0 & E & H). inversion E; subst e0. destruct H as [(-> & _)|(k & z & l' & -> & N & H)]; [right; apply asked_here|left; eauto]. }
    cbv zeta in H. cbn [fst mname mchildren] in H. apply loaded_aos in H as (e0 & E & H). inversion E; subst e0. clear E.
    destruct H as [(-> & _)|(k & z & l' & -> & N & H)]; [right; apply asked_here|]. rewrite nth_error_list_set in N.
    destruct (Nat.eqb_spec j k) as [->|NE]; [|left; eauto].
    rewrite L in I. pose proof (index_spec _ _ _ I) as [Lk _]. destruct (nth_error els k) as [ye|] eqn:NY; [|apply nth_error_None in NY; lia].
    destruct (nth_error ls k) as [[w|]|] eqn:NK; [| |discriminate]; inversion N; subst.
    + assert (AE : agree B (Meta nm KStruct cs) p (at_ ++ [Elem k]) w ye) by (inversion A1; subst; eauto).
      destruct (IH _ _ _ _ _ _ _ _ _ (wf_elem _ _ W) AE H) as [Q|Q]; [left; eauto|right; eapply asked_item; eauto].
    + assert (AE : agree B (Meta nm KStruct cs) p (at_ ++ [Elem k]) (LStruct (elem_ctx c k) []) ye) by (inversion A1; subst; eauto).
      destruct (IH _ _ _ _ _ _ _ _ _ (wf_elem _ _ W) AE H) as [Q|Q]; [now apply loaded_empty in Q|right; eapply asked_item; eauto].
Qed.

(** a value or size that is seen has been loaded *)
Definition seen_item (r : result lexn obs) (x : litem) : Prop :=
  match x with LValue v => r = Ok (OValue (Some v)) | LSize n => r = Ok (OSize n) /\ n > 0 end.
Lemma seen_loaded : forall open path look B m p at_ n e x, wf_meta m -> agree B m p at_ n e ->
  seen_item (snd (access open m p path look n)) x -> exists l m' e', reach m e path l m' e' /\ loaded (fst (access open m p path look n)) l x.
Proof.
  intros open. induction path as [|[nm|i] path IH]; intros look B m p at_ n e x W A H; cbn [LazyModel.access] in *.
  - exists [], m, e. split; [constructor|]. destruct look; [|destruct x; cbn in H; [discriminate|destruct H; discriminate]].
    destruct n as [v|c fs|c v].
    + destruct x; cbn in H; [inversion H; subst; constructor|destruct H; discriminate].
    + destruct x; cbn in H; [discriminate|destruct H; discriminate].
    + destruct (load_size open c v) as [els|]; destruct x; cbn in H; try discriminate; try (destruct H; discriminate). destruct H as [E G]. inversion E; subst. cbn. now constructor.
  - destruct n as [v|c fs|c v]; try (destruct x; cbn in H; [discriminate|destruct H; discriminate]).
    assert (exists nm0 cs efs, m = Meta nm0 KStruct cs /\ e = NStruct efs) as (nm0 & cs & efs & -> & ->) by (inversion A; subst; eauto 6).
    destruct (child_meta (Meta nm0 KStruct cs) nm) as [d|] eqn:CM; [|destruct x; cbn in H; [discriminate|destruct H; discriminate]].
    apply child_meta_spec in CM as [D <-]. cbn [mchildren] in D. pose proof (wf_child _ _ _ _ W D) as WD.
    assert (CONT : forall ch, agree B d (below dynamic p d) (at_ ++ [Child (mname d)]) ch (field d efs) ->
      let r := access open d (below dynamic p d) path look ch in seen_item (snd r) x ->
      exists l m' e', reach (Meta nm0 KStruct cs) (NStruct efs) (Attr (mname d) :: path) l m' e' /\ loaded (LStruct c (aset (mname d) (fst r) fs)) l x).
    { intros ch AC r S. destruct (IH look B d _ _ ch _ x WD AC S) as (l & m' & e' & R & L). exists (Child (mname d) :: l), m', e'.
      split; [now constructor|]. apply loaded_struct. exists (mname d), (fst r), l. split; auto. split; auto. rewrite alookup_aset. now rewrite str_eqb_refl. }
    destruct (alookup (mname d) fs) as [ch|] eqn:AL.
    + apply CONT; auto. inversion A; subst; auto.
    + assert (PD : pending dynamic xml_tbp nbc mode s d p c (field d efs)) by (inversion A; subst; auto).
      pose proof (load_child_agree dynamic xml_tbp nbc mode s B open d p c _ (at_ ++ [Child (mname d)]) WD PD) as LA.
      destruct (load_child open d p c) as [ch [z|]]; [destruct x; cbn in H; [discriminate|destruct H; discriminate]|]. apply CONT; auto.
  - destruct n as [v|c fs|c v]; try (destruct x; cbn in H; [discriminate|destruct H; discriminate]).
    assert (exists nm cs els, m = Meta nm KAoS cs /\ e = NAoS els) as (nm & cs & els & -> & ->) by (inversion A; subst; eauto 6).
    pose proof (load_size_agree dynamic xml_tbp nbc mode s B open nm cs p at_ c v els A) as LA.
    destruct (load_size open c v) as [ls|]; [|destruct x; cbn in H; [discriminate|destruct H; discriminate]]. destruct LA as [A1 L].
    destruct (index i (length ls)) as [j|] eqn:I; [|destruct x; cbn in H; [discriminate|destruct H; discriminate]].
    rewrite L in I. pose proof (index_spec _ _ _ I) as [Lk _]. destruct (nth_error els j) as [ye|] eqn:NY; [|apply nth_error_None in NY; lia].
    cbv zeta in H |- *. cbn [fst snd mname mchildren] in *. set (el := match nth_error ls j with Some (Some e) => e | _ => _ end) in *.
    assert (AE : agree B (Meta nm KStruct cs) p (at_ ++ [Elem j]) el ye).
    { inversion A1; subst. unfold el. destruct (nth_error ls j) as [[z|]|] eqn:NL; [eauto|eauto|apply nth_error_None in NL; lia]. }
    destruct (IH look B _ _ _ el _ x (wf_elem _ _ W) AE H) as (l & m' & e' & R & LD). exists (Elem j :: l), m', e'. split; [eapply reach_item; eauto|].
    apply loaded_aos. eexists. split; [reflexivity|]. right. exists j. eexists. exists l. split; auto. split; [|exact LD]. rewrite nth_error_list_set, Nat.eqb_refl.
    destruct (nth_error ls j) eqn:NL; auto. apply nth_error_None in NL. lia.
Qed.
End Loaded.
