(** A decision procedure for [fits] (ConvSpec.v), to show that concrete rename maps meet it. *)
From Verif Require Import Base PathModel PathSpec PathProofs3 TreeModel TreeSpec TreeProofs TreeProofs4 ValProofs ConvSpec ConvProofs3.
From Verif Require VmapModel.
Import VmapModel(nmap).

Fixpoint paths (m : meta) : list (list str * meta) :=
  match m with
  | Meta _ _ cs => ([], m) :: flat_map (fun c => map (fun x => (mname c :: fst x, snd x)) (paths c)) cs
  end.
Lemma paths_complete : forall m p m', at_path m p m' -> In (p, m') (paths m).
Proof.
  intros m p m' H. induction H as [[nm k cs]|[nm k cs] c p m' I H IH]; simpl; auto.
  right. apply in_flat_map. exists c. split; auto. apply in_map_iff. exists (p, m'). auto.
Qed.
Lemma paths_sound : forall m p m', In (p, m') (paths m) -> at_path m p m'.
Proof.
  intros m. induction m as [nm k cs IH] using meta_ind'. intros p m' [E|I].
  - injection E as <- <-. constructor.
  - apply in_flat_map in I as (c & IC & I). apply in_map_iff in I as ([q mq] & E & I). injection E as <- <-. constructor; auto.
Qed.

Definition splits (p : list str) : list (list str * list str) := map (fun k => (firstn k p, skipn k p)) (seq 0 (S (length p))).
Lemma splits_complete : forall a b, In (a, b) (splits (a ++ b)).
Proof.
  intros. apply in_map_iff. exists (length a). rewrite firstn_app, skipn_app, firstn_all, skipn_all, Nat.sub_diag. simpl. rewrite app_nil_r. split; auto.
  change (In (length a) (seq 0 (S (length (a ++ b))))). apply in_seq. rewrite app_length. simpl. lia.
Qed.
Lemma splits_sound : forall a b p, In (a, b) (splits p) -> p = a ++ b.
Proof. intros a b p H. apply in_map_iff in H as (k & E & _). injection E as <- <-. symmetry. apply firstn_skipn. Qed.

Local Opaque splits.
Definition nilb {A} (l : list A) : bool := match l with [] => true | _ => false end.
Lemma nilb_ne : forall A (l : list A), nilb l = false <-> l <> []. Proof. destruct l; simpl; split; congruence. Qed.

Section Check.
Variables (sm tm : meta).
Variable rm : nmap.
Notation entry := (entry rm).
Notation mapped := (mapped rm).
Notation rule_at := (rule_at rm).
Notation removed := (removed rm).
Notation ruled := (ruled rm).

Definition mapped_b (p q : list str) : bool :=
  match entry p with Some (Some s) => str_eqb s (slashed q) | Some None => false | None => list_eqb str_eqb p q end.
Lemma mapped_b_spec : forall p q, mapped_b p q = true <-> mapped p q.
Proof.
  intros. unfold mapped_b, ConvSpec.mapped. destruct (entry p) as [[s|]|].
  - rewrite str_eqb_eq. split; [intros ->; auto|intros [H|(H & _)]; congruence].
  - split; [discriminate|intros [H|(H & _)]; discriminate].
  - rewrite list_eqb_str. split; [auto|intros [H|(_ & H)]; congruence].
Qed.
Definition rule_b (p : list str) : bool :=
  match alookup (slashed p) (VmapModel.m_type rm), alookup (slashed p) (VmapModel.m_post rm) with None, None => false | _, _ => true end.
Lemma rule_b_spec : forall p, rule_b p = true <-> rule_at p.
Proof.
  intros. unfold rule_b, ConvSpec.rule_at. destruct (alookup _ (VmapModel.m_type rm)), (alookup _ (VmapModel.m_post rm)); split; try discriminate; auto;
    try (intros _; left; discriminate); try (intros _; right; discriminate). intros [H|H]; congruence.
Qed.
Definition removed_b (p : list str) : bool :=
  existsb (fun x => negb (nilb (fst x)) && match entry (fst x) with Some None => true | _ => false end) (splits p).
Lemma removed_b_spec : forall p, removed_b p = true <-> removed p.
Proof.
  intros. unfold removed_b. rewrite existsb_exists. split.
  - intros ([a b] & I & H). apply andb_true_iff in H as (H1 & H2). simpl in *. apply negb_true_iff, nilb_ne in H1. exists a, b. split; [apply splits_sound; auto|].
    split; auto. destruct (entry a) as [[|]|]; congruence.
  - intros (a & b & -> & NA & E). exists (a, b). split; [apply splits_complete|]. simpl. apply nilb_ne in NA. rewrite NA, E. reflexivity.
Qed.
Definition ruled_b (p : list str) : bool := existsb (fun x => negb (nilb (fst x)) && rule_b (fst x)) (splits p).
Lemma ruled_b_spec : forall p, ruled_b p = true <-> ruled p.
Proof.
  intros. unfold ruled_b. rewrite existsb_exists. split.
  - intros ([a b] & I & H). apply andb_true_iff in H as (H1 & H2). simpl in *. apply negb_true_iff, nilb_ne in H1. exists a, b. split; [apply splits_sound; auto|].
    split; auto. apply rule_b_spec; auto.
  - intros (a & b & -> & NA & E). exists (a, b). split; [apply splits_complete|]. simpl. apply nilb_ne in NA. rewrite NA. apply rule_b_spec; auto.
Qed.
Definition above_b (p : list str) : bool := existsb (fun x => negb (nilb (fst x)) && negb (nilb (snd x)) && rule_b (fst x)) (splits p).
Lemma above_b_false : forall p, (forall a b, p = a ++ b -> b <> [] -> a <> [] -> ~ rule_at a) -> above_b p = false.
Proof.
  intros p H. destruct (above_b p) eqn:E; auto. exfalso. unfold above_b in E. apply existsb_exists in E as ([a b] & I & E). simpl in E.
  apply andb_true_iff in E as (E & E3). apply andb_true_iff in E as (E1 & E2). apply negb_true_iff, nilb_ne in E1, E2.
  apply (H a b); auto. - apply splits_sound; auto. - apply rule_b_spec; auto.
Qed.
Definition kind_b (a b : kind) : bool :=
  match a, b with
  | KStruct, KStruct | KAoS, KAoS => true
  | KLeaf d n, KLeaf d' n' => match d, d' with STR, STR | INT, INT | FLT, FLT | CPX, CPX => n =? n' | _, _ => false end
  | _, _ => false
  end.
Lemma kind_b_spec : forall a b, kind_b a b = true <-> a = b.
Proof.
  intros [| |d n] [| |d' n']; simpl; split; try discriminate; auto.
  - destruct d, d'; try discriminate; intros H; apply Nat.eqb_eq in H; congruence.
  - intros E. injection E as -> ->. destruct d'; apply Nat.eqb_refl.
Qed.
Definition plain_struct (p : list str) (m : meta) : bool := kind_b (mkind m) KStruct && negb (rule_b p).

Definition fits_b : bool :=
  forallb (fun x => forallb valid_field (fst x)) (paths sm) && forallb (fun x => forallb valid_field (fst x)) (paths tm) &&
  forallb (fun x => let (p, m') := x : list str * meta in
    nilb p || removed_b p || above_b p || (plain_struct p m' && match entry p with None => true | _ => false end) ||
    existsb (fun y => let (q, mt) := y : list str * meta in
      mapped_b p q && negb (nilb q) && (rule_b p || kind_b (mkind mt) (mkind m')) && list_eqb mapped_b (arrays sm [] p) (arrays tm [] q)) (paths tm)) (paths sm) &&
  forallb (fun x => let (p, m') := x : list str * meta in
    removed_b p || above_b p || plain_struct p m' || match entry p with None => false | _ => true end ||
    forallb (fun y => nilb (fst y) || match entry (fst y) with None => true | _ => false end) (splits p)) (paths sm) &&
  forallb (fun x => forallb (fun y => let (p1, m1) := x : list str * meta in let (p2, m2) := y : list str * meta in
    kind_b (mkind m1) KStruct || kind_b (mkind m2) KStruct || removed_b p1 || removed_b p2 || ruled_b p1 || ruled_b p2 || list_eqb str_eqb p1 p2 ||
    match entry p1, entry p2 with
    | Some (Some a), Some (Some b) => negb (str_eqb a b)
    | Some (Some a), None => negb (str_eqb a (slashed p2))
    | None, Some (Some b) => negb (str_eqb b (slashed p1))
    | _, _ => true
    end) (paths sm)) (paths sm) &&
  forallb (fun x => forallb (fun y => let (p0, r) := y : list str * list str in
    nilb p0 || nilb r || negb (rule_b p0) ||
    match entry (fst x) with
    | Some (Some s) => forallb (fun z => negb (mapped_b p0 (fst z)) ||
                         existsb (fun w => let (q, _) := w : list str * meta in
                           existsb (fun v => list_eqb str_eqb (fst v) (fst z)) (splits q) && str_eqb s (slashed q)) (paths tm)) (paths tm)
    | _ => true
    end) (splits (fst x))) (paths sm).

Theorem fits_b_sound : fits_b = true -> fits sm tm rm.
Proof.
  unfold fits_b. rewrite !andb_true_iff, !forallb_forall. intros (((((N1 & N2) & T) & P) & I) & S).
  assert (NT : forall p m', at_path tm p m' -> Forall is_name p).
  { intros p m' H. apply paths_complete in H. apply N2 in H. apply forallb_valid; auto. }
  constructor.
  - intros p m' H. apply paths_complete in H. apply N1 in H. apply forallb_valid; auto.
  - exact NT.
  - intros p m' A NP NR NU K. apply paths_complete in A. apply T in A. simpl in A.
    apply nilb_ne in NP. rewrite NP in A. destruct (removed_b p) eqn:RB; [apply removed_b_spec in RB; contradiction|].
    rewrite (above_b_false _ NU) in A. simpl in A. apply orb_true_iff in A as [A|A].
    + exfalso. apply andb_true_iff in A as (A & B). unfold plain_struct in A. apply andb_true_iff in A as (A & C). apply kind_b_spec in A.
      apply negb_true_iff in C. destruct K as [K|[K|K]]; [contradiction|apply rule_b_spec in K; congruence|]. destruct (entry p); congruence.
    + apply existsb_exists in A as ([q mt] & IQ & A). apply andb_true_iff in A as (A & A4). apply andb_true_iff in A as (A & A3). apply andb_true_iff in A as (A1 & A2).
      exists q, mt. split; [apply mapped_b_spec; auto|]. split; [apply nilb_ne, negb_true_iff; auto|]. split; [apply paths_sound; auto|]. split.
      * intros NRU. apply orb_true_iff in A3 as [A3|A3]; [apply rule_b_spec in A3; contradiction|apply kind_b_spec; auto].
      * clear - A4. revert A4. generalize (arrays sm [] p) (arrays tm [] q). induction l as [|x l IH]; intros [|y l'] H; simpl in H; try discriminate; auto.
        apply andb_true_iff in H as (H1 & H2). constructor; auto. apply mapped_b_spec; auto.
  - intros p m' A NR NU K E a b -> NA. apply paths_complete in A. apply P in A. simpl in A.
    destruct (removed_b (a ++ b)) eqn:RB; [apply removed_b_spec in RB; contradiction|].
    rewrite (above_b_false _ NU), E in A. simpl in A. rewrite orb_false_r in A. apply orb_true_iff in A as [A|A].
    + exfalso. unfold plain_struct in A. apply andb_true_iff in A as (A & C). apply kind_b_spec in A. apply negb_true_iff in C.
      destruct K as [K|K]; [contradiction|apply rule_b_spec in K; congruence].
    + rewrite forallb_forall in A. specialize (A _ (splits_complete a b)). simpl in A. apply nilb_ne in NA. rewrite NA in A. simpl in A. destruct (entry a); congruence.
  - intros p1 p2 m1 m2 q A1 A2 K1 K2 R1 R2 U1 U2 M1 M2. apply paths_complete in A1, A2. specialize (I _ A1). rewrite forallb_forall in I. specialize (I _ A2). simpl in I.
    assert (X1 : kind_b (mkind m1) KStruct = false) by (destruct (kind_b (mkind m1) KStruct) eqn:E; auto; apply kind_b_spec in E; contradiction).
    assert (X2 : kind_b (mkind m2) KStruct = false) by (destruct (kind_b (mkind m2) KStruct) eqn:E; auto; apply kind_b_spec in E; contradiction).
    assert (X3 : removed_b p1 = false) by (destruct (removed_b p1) eqn:E; auto; apply removed_b_spec in E; contradiction).
    assert (X4 : removed_b p2 = false) by (destruct (removed_b p2) eqn:E; auto; apply removed_b_spec in E; contradiction).
    assert (X5 : ruled_b p1 = false) by (destruct (ruled_b p1) eqn:E; auto; apply ruled_b_spec in E; contradiction).
    assert (X6 : ruled_b p2 = false) by (destruct (ruled_b p2) eqn:E; auto; apply ruled_b_spec in E; contradiction).
    rewrite X1, X2, X3, X4, X5, X6 in I. simpl in I. apply orb_true_iff in I as [I|I]; [apply list_eqb_str; auto|].
    destruct M1 as [M1|(M1 & ->)], M2 as [M2|(M2 & ->)]; auto; exfalso; rewrite M1, M2, str_eqb_refl in I; discriminate.
  - intros p0 r m' s q0 m0 A N0 NR RU E M0 AQ. apply paths_complete in A, AQ. specialize (S _ A). rewrite forallb_forall in S. specialize (S _ (splits_complete p0 r)).
    simpl in S. apply nilb_ne in N0, NR. apply rule_b_spec in RU. rewrite N0, NR, RU, E in S. simpl in S. rewrite forallb_forall in S. specialize (S _ AQ). simpl in S.
    apply mapped_b_spec in M0. rewrite M0 in S. simpl in S. apply existsb_exists in S as ([q mq] & IQ & S). apply andb_true_iff in S as (S1 & S2).
    apply existsb_exists in S1 as ([v1 v2] & IV & S1). simpl in S1. apply list_eqb_str in S1. subst v1. apply splits_sound in IV. subst q. apply str_eqb_eq in S2.
    exists v2. split; auto. eapply NT. apply paths_sound. exact IQ.
Qed.
End Check.
