(** Deep copies: what is new, what is unchanged. *)
From Verif Require Import Base TreeModel TreeSpec TreeProofs TreeProofs4 PathModel HeapModel HeapSpec HeapProofs HeapProofs2 HeapProofs3 HeapProofs4.

Notation nobj h := (length (h_objs h)).
Notation nbuf h := (length (h_bufs h)).
Definition memoval (me : memo) (v : oid) : Prop := exists k, In (k, v) (mo me).
Definition memobuf (me : memo) (v : nat) : Prop := exists k, In (k, v) (mb me).
Lemma nlookup_In : forall x l v, nlookup x l = Some v -> In (x, v) l.
Proof. induction l as [|[k w] l IH]; simpl; intros v E; [discriminate|]. destruct (Nat.eqb_spec x k); [inversion E; subst; auto|auto]. Qed.
Lemma nlookup_None : forall x l v, nlookup x l = None -> ~ In (x, v) l.
Proof.
  induction l as [|[k w] l IH]; simpl; intros v E; auto. destruct (Nat.eqb_spec x k); [discriminate|]. intros [X|X]; [inversion X; congruence|].
  eapply IH; eauto.
Qed.

Definition keys_good (m : meta) (b : body) : Prop :=
  match b with
  | BStruct fs => (wf_meta m -> NoDup (akeys fs)) /\ forall k, In k (akeys fs) -> exists c, child_meta k (mchildren m) = Some c
  | _ => True
  end.

Record ext (n0 m0 : nat) (h : heap) (me : memo) (h' : heap) (me' : memo) : Prop := {
  e_len : nobj h <= nobj h';
  e_old : forall z, z < n0 -> get h' z = get h z;
  e_mid : forall z ob, get h z = Some ob -> exists ob', get h' z = Some ob' /\ o_path ob' = o_path ob /\ o_meta ob' = o_meta ob /\
            o_body ob' = o_body ob /\ (o_parent ob' = o_parent ob \/ (memoval me z /\ exists p, o_parent ob' = Some p /\ n0 <= p < nobj h'));
  e_bufs : exists l, h_bufs h' = h_bufs h ++ l;
  e_new : forall z ob, nobj h <= z -> get h' z = Some ob ->
     (exists w wo, get h w = Some wo /\ o_path ob = o_path wo /\ o_meta ob = o_meta wo /\ same_kind (o_body ob) (o_body wo)) /\
     (forall s y, in_body (o_body ob) s y -> y < nobj h' /\ (nobj h <= y \/ memoval me y)) /\
     (forall b, o_body ob = BPrim (Some (SBuf b)) -> m0 <= b < nbuf h') /\ keys_good (o_meta ob) (o_body ob);
  e_memo : forall k v, In (k, v) (mo me') -> In (k, v) (mo me) \/ nobj h <= v < nobj h';
  e_mbuf : forall k v, In (k, v) (mb me') -> In (k, v) (mb me) \/ nbuf h <= v < nbuf h' }.

Definition memo_in (n0 m0 : nat) (h : heap) (me : memo) : Prop :=
  (forall v, memoval me v -> n0 <= v < nobj h) /\ (forall v, memobuf me v -> m0 <= v < nbuf h).

Lemma ext_refl : forall n0 m0 h me, ext n0 m0 h me h me.
Proof.
  intros. constructor; auto.
  - intros z ob G. exists ob. auto 10.
  - exists []. now rewrite app_nil_r.
  - intros z ob L G. apply get_lt in G. lia.
Qed.
Lemma ext_lenb : forall n0 m0 h me h' me', ext n0 m0 h me h' me' -> nbuf h <= nbuf h'.
Proof. intros n0 m0 h me h' me' E. destruct (e_bufs _ _ _ _ _ _ E) as (l & ->). rewrite app_length. lia. Qed.
Lemma ext_memo_in : forall n0 m0 h me h' me', n0 <= nobj h -> m0 <= nbuf h -> ext n0 m0 h me h' me' -> memo_in n0 m0 h me -> memo_in n0 m0 h' me'.
Proof.
  intros n0 m0 h me h' me' Ln Lm E (H1 & H2). pose proof (e_len _ _ _ _ _ _ E). pose proof (ext_lenb _ _ _ _ _ _ E). split.
  - intros v (k & I). destruct (e_memo _ _ _ _ _ _ E _ _ I) as [I'|]; [|lia]. specialize (H1 v (ex_intro _ k I')). lia.
  - intros v (k & I). destruct (e_mbuf _ _ _ _ _ _ E _ _ I) as [I'|]; [|lia]. specialize (H2 v (ex_intro _ k I')). lia.
Qed.
Lemma ext_trans : forall n0 m0 h me h1 me1 h2 me2, n0 <= nobj h -> m0 <= nbuf h -> ext n0 m0 h me h1 me1 -> ext n0 m0 h1 me1 h2 me2 -> ext n0 m0 h me h2 me2.
Proof.
  intros n0 m0 h me h1 me1 h2 me2 Ln Lm E1 E2.
  pose proof (e_len _ _ _ _ _ _ E1) as L1. pose proof (e_len _ _ _ _ _ _ E2) as L2.
  pose proof (ext_lenb _ _ _ _ _ _ E1) as B1. pose proof (ext_lenb _ _ _ _ _ _ E2) as B2.
  assert (MV : forall z, memoval me1 z -> memoval me z \/ nobj h <= z).
  { intros z (k & I). destruct (e_memo _ _ _ _ _ _ E1 _ _ I) as [I'|]; [left; exists k; auto|right; lia]. }
  constructor.
  - lia.
  - intros z Hz. rewrite (e_old _ _ _ _ _ _ E2), (e_old _ _ _ _ _ _ E1); auto.
  - intros z ob G. destruct (e_mid _ _ _ _ _ _ E1 _ _ G) as (ob1 & G1 & A1 & A2 & A3 & A4).
    destruct (e_mid _ _ _ _ _ _ E2 _ _ G1) as (ob2 & G2 & C1 & C2 & C3 & C4). exists ob2. split; auto.
    split; [congruence|]. split; [congruence|]. split; [congruence|]. destruct C4 as [C4|(M & p & P1 & P2)].
    + rewrite C4. destruct A4 as [A4|(M & p & P1 & P2)]; auto. right. split; auto. exists p. split; auto. lia.
    + right. split; [|exists p; auto]. destruct (MV _ M) as [|X]; auto. apply get_lt in G. lia.
  - destruct (e_bufs _ _ _ _ _ _ E1) as (l1 & X1). destruct (e_bufs _ _ _ _ _ _ E2) as (l2 & X2). exists (l1 ++ l2). rewrite X2, X1. now rewrite app_assoc.
  - intros z ob Hz G. destruct (Nat.lt_ge_cases z (nobj h1)) as [Lz|Lz].
    + destruct (get_some h1 z Lz) as (ob1 & G1). destruct (e_mid _ _ _ _ _ _ E2 _ _ G1) as (ob2 & G2 & C1 & C2 & C3 & _).
      rewrite G2 in G. inversion G; subst ob2. rewrite C1, C2, C3. destruct (e_new _ _ _ _ _ _ E1 _ _ Hz G1) as (N1 & N2 & N3 & N4).
      split; auto. split; [|split; auto].
      * intros s y I. apply N2 in I as (I & I'). split; auto. lia.
      * intros b I. apply N3 in I. lia.
    + destruct (e_new _ _ _ _ _ _ E2 _ _ Lz G) as ((w & wo & Gw & P1 & P2 & P3) & N2 & N3 & N4). split; [|split; [|split; auto]].
      * destruct (Nat.lt_ge_cases w (nobj h)) as [Lw|Lw].
        -- destruct (get_some h w Lw) as (wo' & Gw'). destruct (e_mid _ _ _ _ _ _ E1 _ _ Gw') as (ob2 & G2 & C1 & C2 & C3 & _).
           rewrite G2 in Gw. inversion Gw; subst ob2. exists w, wo'. split; auto. split; [congruence|]. split; [congruence|]. congruence.
        -- destruct (e_new _ _ _ _ _ _ E1 _ _ Lw Gw) as ((w' & wo' & Gw' & Q1 & Q2 & Q3) & _). exists w', wo'.
           split; auto. split; [congruence|]. split; [congruence|]. eapply same_kind_trans; eauto.
      * intros s y I. apply N2 in I as (I & [I'|I']); split; auto; [left; lia|]. destruct (MV _ I'); auto.
  - intros k v I. destruct (e_memo _ _ _ _ _ _ E2 _ _ I) as [I'|]; [|lia]. destruct (e_memo _ _ _ _ _ _ E1 _ _ I') as [I''|]; auto. lia.
  - intros k v I. destruct (e_mbuf _ _ _ _ _ _ E2 _ _ I) as [I'|]; [|lia]. destruct (e_mbuf _ _ _ _ _ _ E1 _ _ I') as [I''|]; auto. lia.
Qed.

Lemma ext_set_parent : forall n0 m0 h me h' me' y p, n0 <= nobj h -> ext n0 m0 h me h' me' -> n0 <= y -> (nobj h <= y \/ memoval me y) ->
  n0 <= p < nobj h' -> ext n0 m0 h me (set_parent h' y p) me'.
Proof.
  intros n0 m0 h me h' me' y p Ln E Hy My Hp. constructor.
  - rewrite len_set_parent. apply (e_len _ _ _ _ _ _ E).
  - intros z Hz. rewrite get_set_parent. destruct (Nat.eqb_spec y z); [lia|]. apply (e_old _ _ _ _ _ _ E); auto.
  - intros z ob G. destruct (e_mid _ _ _ _ _ _ E _ _ G) as (ob1 & G1 & A1 & A2 & A3 & A4). rewrite get_set_parent, len_set_parent.
    destruct (Nat.eqb_spec y z) as [->|].
    + rewrite G1. simpl. eexists. split; [reflexivity|]. simpl. split; auto. split; auto. split; auto. right.
      destruct My as [X|X]; [apply get_lt in G; lia|]. split; auto. exists p. auto.
    + exists ob1. auto 10.
  - rewrite bufs_set_parent. apply (e_bufs _ _ _ _ _ _ E).
  - intros z ob Hz G. rewrite len_set_parent, bufs_set_parent.
    assert (exists ob', get h' z = Some ob' /\ o_path ob = o_path ob' /\ o_meta ob = o_meta ob' /\ o_body ob = o_body ob') as (ob' & G' & -> & -> & ->).
    { rewrite get_set_parent in G. destruct (Nat.eqb_spec y z) as [->|]; [|eauto]. destruct (get h' z) as [o|]; inversion G; subst. exists o. auto. }
    apply (e_new _ _ _ _ _ _ E _ _ Hz G').
  - rewrite len_set_parent. apply (e_memo _ _ _ _ _ _ E).
  - rewrite bufs_set_parent. apply (e_mbuf _ _ _ _ _ _ E).
Qed.

(** one new object *)
Definition copy_of (ob : obj) (b : body) : obj := {| o_parent := o_parent ob; o_path := o_path ob; o_meta := o_meta ob; o_body := b |}.
Lemma ext_alloc : forall n0 m0 h me h' me' x y ob b, n0 <= nobj h -> m0 <= nbuf h -> ext n0 m0 h me h' me' -> y = nobj h' ->
  get h' x = Some ob -> same_kind b (o_body ob) -> (forall s z, ~ in_body b s z) ->
  (forall bf, b = BPrim (Some (SBuf bf)) -> m0 <= bf < nbuf h') -> keys_good (o_meta ob) b ->
  ext n0 m0 h me (fst (alloc h' (copy_of ob b))) (memo_obj me' x y).
Proof.
  intros n0 m0 h me h' me' x y ob b Ln Lm E -> G K He Hb Hk.
  assert (E2 : ext n0 m0 h' me' (fst (alloc h' (copy_of ob b))) (memo_obj me' x (nobj h'))).
  { pose proof (e_len _ _ _ _ _ _ E). constructor.
    - rewrite len_alloc. lia.
    - intros z Hz. rewrite get_alloc. destruct (Nat.eqb_spec z (nobj h')); auto. lia.
    - intros z zo Gz. exists zo. rewrite get_alloc. pose proof (get_lt _ _ _ Gz). destruct (Nat.eqb_spec z (nobj h')); [lia|]. auto 10.
    - exists []. simpl. now rewrite app_nil_r.
    - intros z zo Hz Gz. rewrite get_alloc in Gz. destruct (Nat.eqb_spec z (nobj h')) as [->|]; [|apply get_lt in Gz; lia].
      inversion Gz; subst zo. simpl. split; [exists x, ob; auto|]. split; [intros s z I; elim (He s z I)|]. auto.
    - intros k v I. rewrite len_alloc. destruct I as [I|I]; auto. inversion I; subst. right. lia.
    - intros k v I. simpl. auto. }
  eapply ext_trans; eauto.
Qed.
Lemma ext_buf : forall n0 m0 h me b v, n0 <= nobj h -> m0 <= nbuf h ->
  ext n0 m0 h me (fst (alloc_buf h v)) (memo_buf me b (nbuf h)).
Proof.
  intros n0 m0 h me b v Ln Lm. constructor; simpl; auto.
  - intros z ob G. exists ob. auto 10.
  - eauto.
  - intros z ob L G. apply get_lt in G. simpl in G. lia.
  - intros k w [I|I]; auto. inversion I; subst. rewrite app_length. simpl. right. lia.
Qed.

Lemma child_meta_in : forall c cs, In c cs -> exists c', child_meta (mname c) cs = Some c'.
Proof.
  induction cs as [|a cs IH]; simpl; intros H; [tauto|]. destruct (str_eqb (mname c) (mname a)) eqn:E; eauto.
  destruct H as [->|H]; auto. rewrite str_eqb_refl in E. discriminate.
Qed.
Lemma ordered_in : forall m fs k x, In (k, x) (ordered_fields m fs) <-> alookup k fs = Some x /\ exists c, In c (mchildren m) /\ mname c = k.
Proof.
  intros m fs k x. unfold ordered_fields. rewrite in_flat_map. split.
  - intros (c & Hc & I). destruct (alookup (mname c) fs) as [y|] eqn:A; simpl in I; [|tauto]. destruct I as [I|[]]. inversion I; subst. eauto.
  - intros (A & c & Hc & <-). exists c. split; auto. rewrite A. simpl. auto.
Qed.
Lemma ordered_keys_nodup : forall m fs, wf_meta m -> NoDup (akeys (ordered_fields m fs)).
Proof.
  intros m fs W. inversion W as [n k cs Hn _ _]; subst. unfold ordered_fields. simpl. clear W.
  induction cs as [|c cs IH]; simpl; [constructor|]. inversion Hn as [|? ? N1 N2]; subst. unfold akeys in *. rewrite map_app.
  assert (Nc : ~ In (mname c) (map fst (flat_map (fun c => match alookup (mname c) fs with Some x => [(mname c, x)] | None => [] end) cs))).
  { intros I. apply in_map_iff in I as ((k', x) & E & I). simpl in E. subst k'. apply in_flat_map in I as (c' & Hc' & I).
    destruct (alookup (mname c') fs); simpl in I; [|tauto]. destruct I as [I|[]]. inversion I. apply N1. rewrite <- H0. now apply in_map. }
  destruct (alookup (mname c) fs); simpl; auto. constructor; auto.
Qed.
Lemma akeys_combine : forall {A} (ks : list str) (ys : list A), length ks = length ys -> akeys (combine ks ys) = ks.
Proof. unfold akeys. induction ks as [|k ks IH]; intros [|y ys] L; simpl in *; try discriminate; auto. f_equal. apply IH. lia. Qed.

Definition new_parents (n0 : nat) (h h' : heap) (ex : oid -> Prop) : Prop :=
  forall z, nobj h <= z < nobj h' -> ~ ex z -> exists p, parent h' z = Some p /\ n0 <= p < nobj h'.
Definition copy_ok (n0 m0 : nat) (h : heap) (me : memo) (x : oid) (h' : heap) (me' : memo) (y : oid) : Prop :=
  ext n0 m0 h me h' me' /\ y < nobj h' /\ (nobj h <= y \/ memoval me y) /\ new_parents n0 h h' (eq y) /\
  (nobj h <= y -> parent h' y = parent h x).

Lemma copy_list_ext : forall rec n0 m0,
  (forall h me x h' me' y, n0 <= nobj h -> m0 <= nbuf h -> memo_in n0 m0 h me -> rec h me x = Some (h', me', y) ->
     copy_ok n0 m0 h me x h' me' y) ->
  forall xs p h me h' me' ys, n0 <= nobj h -> m0 <= nbuf h -> memo_in n0 m0 h me -> n0 <= p < nobj h ->
  copy_list rec p h me xs = Some (h', me', ys) ->
  ext n0 m0 h me h' me' /\ length ys = length xs /\ (forall y, In y ys -> y < nobj h' /\ (nobj h <= y \/ memoval me y)) /\
  new_parents n0 h h' (fun _ => False).
Proof.
  intros rec n0 m0 Hrec. induction xs as [|x xs IH]; intros p h me h' me' ys Ln Lm Hm Hp E; cbn [copy_list] in E.
  - inversion E; subst. split; [apply ext_refl|]. split; auto. split; [intros y []|]. intros z L. lia.
  - destruct (rec h me x) as [((h1, me1), y)|] eqn:E1; [|discriminate].
    destruct (Hrec _ _ _ _ _ _ Ln Lm Hm E1) as (X1 & Ly & My & Np & Py).
    pose proof (e_len _ _ _ _ _ _ X1) as L1. pose proof (ext_lenb _ _ _ _ _ _ X1) as B1.
    assert (Hy : n0 <= y). { destruct My as [My|My]; [lia|]. apply Hm in My. lia. }
    assert (X1' : ext n0 m0 h me (set_parent h1 y p) me1) by (apply ext_set_parent; auto; lia).
    destruct (copy_list rec p (set_parent h1 y p) me1 xs) as [((h2, me2), ys')|] eqn:E2; [|discriminate]. inversion E; subst h' me' ys.
    assert (Hm1 : memo_in n0 m0 (set_parent h1 y p) me1) by (eapply ext_memo_in; eauto).
    apply IH in E2 as (X2 & Len & Hys & Np2); auto; try (rewrite ?len_set_parent, ?bufs_set_parent; lia).
    pose proof (e_len _ _ _ _ _ _ X2) as L2. rewrite len_set_parent in L2.
    split; [eapply ext_trans; eauto|]. split; [simpl; lia|]. split.
    + intros z [<-|Hz]; [split; [lia|auto]|]. destruct (Hys z Hz) as (A & B). split; auto. rewrite len_set_parent in B. destruct B as [B|(k & B)]; [left; lia|].
      destruct (e_memo _ _ _ _ _ _ X1 _ _ B) as [B'|]; [right; exists k; auto|left; lia].
    + intros z Lz _. destruct (Nat.lt_ge_cases z (nobj h1)) as [Lz1|Lz1].
      * (* present before the rest was copied *)
        assert (exists q, parent (set_parent h1 y p) z = Some q /\ n0 <= q < nobj h1) as (q & Eq & Lq).
        { rewrite parent_set_parent. destruct (Nat.eqb_spec y z) as [->|N].
          - destruct (get_some h1 z Lz1) as (ob & ->). simpl. exists p. split; auto. lia.
          - apply Np; auto. lia. }
        destruct (get_some (set_parent h1 y p) z) as (ob & G); [rewrite len_set_parent; auto|].
        destruct (e_mid _ _ _ _ _ _ X2 _ _ G) as (ob2 & G2 & _ & _ & _ & [P2|(_ & q2 & P2 & Lq2)]).
        -- exists q. unfold parent in *. rewrite G2, P2. rewrite G in Eq. split; auto. lia.
        -- exists q2. unfold parent. rewrite G2. auto.
      * apply Np2; [rewrite len_set_parent; lia|auto].
Qed.

Lemma deepcopy_ext : forall f n0 m0 h me x h' me' y, n0 <= nobj h -> m0 <= nbuf h -> memo_in n0 m0 h me ->
  deepcopy f h me x = Some (h', me', y) -> copy_ok n0 m0 h me x h' me' y.
Proof.
  induction f as [|f IH]; intros n0 m0 h me x h' me' y Ln Lm Hm E; cbn [deepcopy] in E; [discriminate|].
  destruct (nlookup x (mo me)) as [y0|] eqn:Lk.
  { injection E as <- <- <-. apply nlookup_In in Lk. assert (H : memoval me y0) by (exists x; auto). pose proof (proj1 Hm y0 H).
    split; [apply ext_refl|]. split; [lia|]. split; auto. split; [intros z L; lia|]. intros L. lia. }
  destruct (get h x) as [ob|] eqn:G; [|discriminate].
  assert (Leaf : forall b, same_kind b (o_body ob) -> (forall s z, ~ in_body b s z) -> (forall bf, b = BPrim (Some (SBuf bf)) -> m0 <= bf < nbuf h) ->
     keys_good (o_meta ob) b -> copy_ok n0 m0 h me x (fst (alloc h (copy_of ob b))) (memo_obj me x (nobj h)) (nobj h)).
  { intros b K He Hb Hk. split; [eapply ext_alloc; eauto using ext_refl|]. split; [rewrite len_alloc; lia|]. split; auto. split.
    - intros z L N. rewrite len_alloc in L. elim N. lia.
    - intros _. rewrite parent_alloc, Nat.eqb_refl. unfold parent. rewrite G. auto. }
  assert (Node : forall (xs : list oid) b0 (mkb : list oid -> body) h2 me2 ys, same_kind b0 (o_body ob) -> (forall s z, ~ in_body b0 s z) ->
     (forall bf, b0 <> BPrim (Some (SBuf bf))) -> keys_good (o_meta ob) b0 ->
     copy_list (deepcopy f) (nobj h) (fst (alloc h (copy_of ob b0))) me xs = Some (h2, me2, ys) ->
     same_kind (mkb ys) (o_body ob) -> (length ys = length xs -> keys_good (o_meta ob) (mkb ys)) -> (forall s z, in_body (mkb ys) s z -> In z ys) ->
     (forall bf, mkb ys <> BPrim (Some (SBuf bf))) ->
     copy_ok n0 m0 h me x (set_body h2 (nobj h) (mkb ys)) (memo_obj me2 x (nobj h)) (nobj h)).
  { intros xs b0 mkb h2 me2 ys K0 He0 Hb0 Hk0 E2 K Hk Hin Hb.
    assert (X0 : ext n0 m0 h me (fst (alloc h (copy_of ob b0))) me).
    { assert (X : ext n0 m0 h me (fst (alloc h (copy_of ob b0))) (memo_obj me x (nobj h))).
      { eapply ext_alloc; eauto using ext_refl. intros bf X. elim (Hb0 bf X). }
      destruct X as [a1 a2 a3 a4 a5 a6 a7]. constructor; auto. }
    pose proof E2 as E2'. apply (copy_list_ext (deepcopy f) n0 m0) in E2 as (X2 & Len & Hys & Np).
    2:{ intros. eapply IH; eauto. }
    2-5: rewrite ?len_alloc; simpl; try lia.
    2:{ eapply ext_memo_in; eauto. }
    pose proof (ext_trans _ _ _ _ _ _ _ _ Ln Lm X0 X2) as X3. pose proof (e_len _ _ _ _ _ _ X2) as L2. rewrite len_alloc in L2.
    assert (G2 : exists ob2, get h2 (nobj h) = Some ob2 /\ o_path ob2 = o_path ob /\ o_meta ob2 = o_meta ob /\ o_parent ob2 = o_parent ob).
    { destruct (e_mid _ _ _ _ _ _ X2 (nobj h) (copy_of ob b0)) as (ob2 & G2 & A1 & A2 & A3 & A4).
      - rewrite get_alloc, Nat.eqb_refl. auto.
      - exists ob2. simpl in *. repeat split; auto. destruct A4 as [A4|(M & _)]; auto. apply (proj1 Hm) in M. lia. }
    destruct G2 as (ob2 & G2 & A1 & A2 & A4).
    split; [|split; [rewrite len_set_body; lia|split; [auto|split]]].
    - constructor.
      + rewrite len_set_body. lia.
      + intros z Hz. rewrite get_set_body. destruct (Nat.eqb_spec (nobj h) z); [lia|]. apply (e_old _ _ _ _ _ _ X3); auto.
      + intros z zo Gz. rewrite get_set_body. pose proof (get_lt _ _ _ Gz). destruct (Nat.eqb_spec (nobj h) z); [lia|]. rewrite len_set_body.
        apply (e_mid _ _ _ _ _ _ X3); auto.
      + rewrite bufs_set_body. apply (e_bufs _ _ _ _ _ _ X3).
      + intros z zo Hz Gz. rewrite len_set_body, bufs_set_body. rewrite get_set_body in Gz. destruct (Nat.eqb_spec (nobj h) z) as [<-|N].
        * rewrite G2 in Gz. simpl in Gz. inversion Gz; subst zo. simpl. rewrite A1, A2. split; [exists x, ob; auto|].
          split; [|split; [intros bf X; elim (Hb bf X)|auto]].
          intros s z I. apply Hin in I. destruct (Hys z I) as (B1 & B2). rewrite len_alloc in B2. split; auto. destruct B2 as [B2|B2]; auto. left. lia.
        * exact (e_new _ _ _ _ _ _ X3 z zo Hz Gz).
      + intros k v [I|I]; rewrite len_set_body.
        * inversion I; subst. right. lia.
        * apply (e_memo _ _ _ _ _ _ X3) in I. auto.
      + intros k v I. rewrite bufs_set_body. apply (e_mbuf _ _ _ _ _ _ X3) in I. auto.
    - intros z L N. rewrite parent_set_body, len_set_body in *. apply Np; auto. rewrite len_alloc. lia.
    - intros _. rewrite parent_set_body. unfold parent. rewrite G2, G. auto. }
  destruct (o_body ob) as [fs|els|[[v|b]|]] eqn:B.
  - change (alloc h {| o_parent := o_parent ob; o_path := o_path ob; o_meta := o_meta ob; o_body := BStruct [] |})
      with (fst (alloc h (copy_of ob (BStruct []))), nobj h) in E.
    cbv beta iota zeta in E. set (ofs := ordered_fields (o_meta ob) fs) in *.
    destruct (copy_list (deepcopy f) (nobj h) (fst (alloc h (copy_of ob (BStruct [])))) me (map snd ofs)) as [((h2, me2), ys)|] eqn:E2; [|discriminate].
    injection E as <- <- <-. eapply (Node _ (BStruct []) (fun ys => BStruct (combine (map fst ofs) ys))); eauto; simpl; auto; try discriminate.
    + intros [k|i] z; simpl; auto.
    + split; [constructor|]. intros k [].
    + intros Len. rewrite map_length in Len. rewrite akeys_combine by (rewrite map_length; lia). split.
      * intros W. apply (ordered_keys_nodup _ fs W).
      * intros k I. apply in_map_iff in I as ((k', z) & Ek & I). simpl in Ek. subst k'. apply ordered_in in I as (_ & c & Hc & <-). now apply child_meta_in.
    + intros [k|i] z; simpl; [|tauto]. intros I. now apply in_combine_r in I.
  - change (alloc h {| o_parent := o_parent ob; o_path := o_path ob; o_meta := o_meta ob; o_body := BAoS [] |})
      with (fst (alloc h (copy_of ob (BAoS []))), nobj h) in E.
    cbv beta iota zeta in E.
    destruct (copy_list (deepcopy f) (nobj h) (fst (alloc h (copy_of ob (BAoS [])))) me els) as [((h2, me2), ys)|] eqn:E2; [|discriminate].
    injection E as <- <- <-. eapply (Node _ (BAoS []) BAoS); eauto; simpl; auto; try discriminate.
    + intros [k|i] z; simpl; auto. destruct i; discriminate.
    + intros [k|i] z; simpl; [tauto|]. intros I. eapply nth_error_In; eauto.
  - injection E as <- <- <-. apply Leaf; simpl; auto; try discriminate; try (intros [k|i] z; simpl; auto; fail).
  - destruct (nlookup b (mb me)) as [b'|] eqn:Lb.
    + injection E as <- <- <-. apply Leaf; simpl; auto; try (intros [k|i] z; simpl; auto; fail).
      intros bf X. inversion X; subst. apply (proj2 Hm). exists b. now apply nlookup_In.
    + destruct (nth_error (h_bufs h) b) as [v|] eqn:Nb; [|discriminate].
      change (alloc_buf h v) with (fst (alloc_buf h v), nbuf h) in E. cbv beta iota zeta in E. injection E as <- <- <-.
      pose proof (ext_buf n0 m0 h me b v Ln Lm) as X1. split.
      * assert (X : ext n0 m0 h me (fst (alloc (fst (alloc_buf h v)) (copy_of ob (BPrim (Some (SBuf (nbuf h))))))) (memo_obj (memo_buf me b (nbuf h)) x (nobj h))).
        { eapply ext_alloc; [exact Ln|exact Lm|exact X1|reflexivity|exact G|rewrite B; exact I| | |exact I].
          - intros [k|i] z; simpl; auto.
          - intros bf X. inversion X; subst. simpl. rewrite app_length. simpl. lia. }
        exact X.
      * split; [simpl; rewrite app_length; simpl; lia|]. split; auto. split.
        -- intros z L N. simpl in L. rewrite app_length in L. simpl in L. elim N. lia.
        -- intros _. unfold parent, get. simpl. rewrite nth_error_app2, Nat.sub_diag by lia. simpl. unfold get in G. now rewrite G.
  - injection E as <- <- <-. apply Leaf; simpl; auto; try discriminate; try (intros [k|i] z; simpl; auto; fail).
Qed.
