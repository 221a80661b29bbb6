(** The search for coordinates ends and finds exactly what is needed; nodes by path. *)
From Verif Require Import Base TreeModel TreeSpec TreeProofs ValProofs ValProofs5 StoreProofs2 NcMetaModel NcMetaSpec NcMetaProofs NcMetaProofs2 NcMetaProofs3 NcMetaProofs4 NcFileModel NcFileSpec NcFileProofs NcFileProofs2 NcFileProofs4 NcFileProofs5 XarrayModel XarraySpec.
From Verif Require NcMetaProps.
From Coq Require Import Lia.

(** * Termination *)
Section Search.
Variable r : ncmeta.
Variable h : bool.
(** coordinates of paths that were not processed *)
Definition total (cs : list (path * list str)) (found : list path) : nat :=
  fold_right (fun x s => (if in_dec path_dec (fst x) found then 0 else length (snd x)) + s) 0 cs.
Lemma total_mono : forall cs found p, total cs (found ++ [p]) <= total cs found.
Proof.
  induction cs as [|[k l] cs IH]; intros found p; cbn [total fold_right fst snd]; [lia|]. change (fold_right _ 0 cs) with (total cs (found ++ [p])) at 1. change (fold_right _ 0 cs) with (total cs found).
  specialize (IH found p). destruct (in_dec path_dec k (found ++ [p])) as [I|N], (in_dec path_dec k found) as [I'|N']; try lia. exfalso. apply N. apply in_or_app. now left.
Qed.
Lemma total_step : forall cs found p l, ~ In p found -> pget p cs = Some l -> total cs (found ++ [p]) + length l <= total cs found.
Proof.
  unfold pget. induction cs as [|[k l'] cs IH]; intros found p l N G; cbn [dget] in G; [discriminate|].
  cbn [total fold_right fst snd]. change (fold_right _ 0 cs) with (total cs (found ++ [p])) at 1. change (fold_right _ 0 cs) with (total cs found).
  destruct (path_dec p k) as [<-|NE].
  - inversion G; subst l'. destruct (in_dec path_dec p (found ++ [p])) as [_|X]; [|exfalso; apply X, in_or_app; right; now left]. destruct (in_dec path_dec p found); [contradiction|]. pose proof (total_mono cs found p). lia.
  - specialize (IH found p l N G). destruct (in_dec path_dec k (found ++ [p])) as [I|X], (in_dec path_dec k found) as [I'|X']; try lia. exfalso. apply X. apply in_or_app. now left.
Qed.
Lemma next_length : forall p, length (next r h p) = length (match pget p (nc_coords r) with Some l => l | None => [] end).
Proof. intros p. unfold next. rewrite map_length. unfold get_coordinates. destruct (pget p (nc_coords r)); auto. destruct h; auto. apply map_length. Qed.
Lemma search_ends : forall fuel q found, length q + total (nc_coords r) found <= fuel -> search r h fuel q found <> None.
Proof.
  induction fuel as [|fuel IH]; intros [|p q] found L; cbn [search]; try discriminate; [cbn in L; lia|].
  cbn [length] in L. destruct (in_dec path_dec p found) as [I|N]; [apply IH; lia|]. apply IH. rewrite app_length, next_length.
  destruct (pget p (nc_coords r)) as [l|] eqn:G.
  - pose proof (total_step _ _ _ _ N G). lia.
  - pose proof (total_mono (nc_coords r) found p). cbn [length]. lia.
Qed.

(** * Exactness *)
Lemma NoDup_snoc : forall (l : list path) p, NoDup l -> ~ In p l -> NoDup (l ++ [p]).
Proof.
  induction l as [|x l IH]; intros p ND N; cbn [app]; [constructor; [intros []|constructor]|]. inversion ND; subst. constructor.
  - intros I. apply in_app_or in I. destruct I as [I|[->|[]]]; auto. apply N. now left.
  - apply IH; auto. intros I. apply N. now right.
Qed.
Lemma search_spec : forall (P : path -> Prop) fuel q found l, search r h fuel q found = Some l ->
  (forall p, In p q \/ In p found -> P p) -> (forall p p', P p -> In p' (next r h p) -> P p') -> NoDup found ->
  (forall p p', In p found -> In p' (next r h p) -> In p' found \/ In p' q) ->
  NoDup l /\ (forall p, In p l -> P p) /\ (forall p, In p q \/ In p found -> In p l) /\ (forall p p', In p l -> In p' (next r h p) -> In p' l).
Proof.
  intros P. induction fuel as [|fuel IH]; intros [|p q] found l H A B ND CL; cbn [search] in H; try discriminate.
  1,2: inversion H; subst found; split; auto; split; auto; split; [intros p [[]|I]; auto|]; intros p p' I I'; destruct (CL p p' I I') as [|[]]; auto.
  destruct (in_dec path_dec p found) as [I|N].
  - destruct (IH q found l H) as (R1 & R2 & R3 & R4); auto.
    + intros p' [J|J]; apply A; auto. left. now right.
    + intros p1 p2 J1 J2. destruct (CL p1 p2 J1 J2) as [|[<-|]]; auto.
    + split; auto. split; auto. split; auto. intros p' [[<-|J]|J]; auto.
  - destruct (IH (q ++ next r h p) (found ++ [p]) l H) as (R1 & R2 & R3 & R4); auto.
    + intros p' [J|J].
      * apply in_app_or in J. destruct J as [J|J]; [apply A; left; now right|]. apply (B p); auto. apply A. left. now left.
      * apply in_app_or in J. destruct J as [J|[<-|[]]]; apply A; auto. left. now left.
    + now apply NoDup_snoc.
    + intros p1 p2 J1 J2. apply in_app_or in J1. destruct J1 as [J1|[<-|[]]].
      * destruct (CL p1 p2 J1 J2) as [X|[<-|X]]; [left; apply in_or_app; now left|left; apply in_or_app; right; now left|right; apply in_or_app; now left].
      * right. apply in_or_app. now right.
    + split; auto. split; auto. split; auto. intros p' [[<-|J]|J]; apply R3; [right; apply in_or_app; right; now left|left; apply in_or_app; now left|right; apply in_or_app; now left].
Qed.

Lemma next_In : forall p q, In q (next r h p) <-> In (dotted q) (get_coordinates r h p) /\ Forall (fun s => ~ In "."%char s) q /\ q <> [].
Proof.
  intros p q. unfold next. rewrite in_map_iff. split.
  - intros (s & <- & I). unfold dotted. rewrite join_split. split; auto. split; [|apply split_on_nonnil]. apply Forall_forall. intros x. apply split_on_no_sep.
  - intros (I & F & N). exists (dotted q). split; auto. unfold dotted. apply split_join; auto. now apply Forall_forall.
Qed.
Lemma parents_In : forall k p q, k <= length p -> (In q (parents k p) <-> exists i, i < k /\ q = firstn i p).
Proof.
  induction k as [|k IH]; intros p q L; cbn [parents].
  - split; [intros []|intros (i & X & _); lia].
  - cbn [In]. rewrite IH by lia. split.
    + intros [<-|(i & X & ->)]; [exists k; auto|exists i; split; [lia|auto]].
    + intros (i & X & ->). destruct (Nat.eq_dec i k) as [->|N]; [now left|]. right. exists i. split; [lia|auto].
Qed.
Lemma parents_inside : forall p q, In q (parents (length p) p) <-> inside q p.
Proof.
  intros p q. rewrite parents_In by lia. split.
  - intros (i & L & ->). destruct (skipn i p) as [|x t] eqn:S'.
    + exfalso. assert (X : length (skipn i p) = 0) by now rewrite S'. rewrite skipn_length in X. lia.
    + exists x, t. rewrite <- S'. symmetry. apply firstn_skipn.
  - intros (x & t & ->). exists (length q). split; [rewrite app_length; cbn; lia|]. rewrite firstn_app, Nat.sub_diag, firstn_O, app_nil_r, firstn_all. reflexivity.
Qed.
End Search.

(** * Nodes of the dictionary by path *)
Lemma meta_at_app : forall q t m, meta_at m (q ++ t) = match meta_at m q with Some d => meta_at d t | None => None end.
Proof.
  induction q as [|nm q IH]; intros t m; cbn [app meta_at]; auto. destruct (List.find _ (mchildren m)) as [d|]; auto.
Qed.
Lemma leaf_childless : forall m p c, wf_meta m -> meta_at m p = Some c -> wf_meta c.
Proof.
  intros m p. revert m. induction p as [|nm p IH]; intros m c W M; cbn [meta_at] in M; [inversion M; now subst|].
  destruct (List.find _ (mchildren m)) as [d|] eqn:F; [|discriminate]. apply find_some in F. destruct F as [I _]. apply (IH d); auto. destruct m as [mn mk mc]. cbn [mchildren] in I. inversion W; subst. auto.
Qed.

Section Paths.
Variable at_ : path -> nattr.
Variable fuel : nat.
Variable m : meta.
Variable r : ncmeta.
Hypothesis W : wf_meta m.
Hypothesis R : nc_metadata at_ fuel m = Ok r.
Variable h : bool.

Lemma meta_ids : forall p c, p <> [] -> meta_at m p = Some c -> exists a n, in_ids m p c a n.
Proof. intros p c N M. destruct (meta_at_below p m [] None 0 c W N M) as (a & n & B). exists a, n. exact B. Qed.
Lemma in_ids_nonnil : forall p c a n, in_ids m p c a n -> p <> [].
Proof. intros p c a n I. destruct (below_path _ _ _ _ _ _ _ _ I) as (nm & t & -> & _). cbn [app]. discriminate. Qed.
Lemma dims_dec_aos : forall p c q, p <> [] -> meta_at m p = Some c -> inside q p ->
  (get_dimensions r h q <> [] <-> exists d a n, in_ids m q d a n /\ mkind d = KAoS).
Proof.
  intros p c q NP M (x & t & ->). rewrite meta_at_app in M. destruct (meta_at m q) as [d|] eqn:Q; [|discriminate]. split.
  - intros G. destruct (list_eq_dec str_dec q []) as [->|NQ].
    + exfalso. apply G. apply (NcMetaProps.C36_no_dimensions at_ fuel m r h [] W R). intros c' a' n' I. exfalso. now apply (in_ids_nonnil _ _ _ _ I).
    + destruct (meta_ids q d NQ Q) as (a & n & I). exists d, a, n. split; auto. destruct (mkind d) as [| |dt nd] eqn:K; auto; exfalso.
      * apply G. apply (NcMetaProps.C36_no_dimensions at_ fuel m r h q W R). intros c' a' n' I'. destruct (in_ids_fun m W _ _ _ _ _ _ _ I I') as (<- & _). exact K.
      * pose proof (leaf_childless m q d W Q) as Wd. destruct d as [dn dk dc]. cbn [mkind] in K. subst dk. inversion Wd as [? ? ? ? ? KL]; subst. cbn [meta_at mchildren] in M. rewrite (KL dt nd eq_refl) in M. discriminate.
  - intros (d' & a & n & I & K) E. pose proof (NcMetaProps.C36_rank at_ fuel m r h q d' a n W R I ltac:(congruence)) as L. rewrite E in L. unfold ndim in L. rewrite K in L. cbn in L. lia.
Qed.

Theorem search_exact : forall fu paths l, (forall p, In p paths -> p <> [] /\ exists c, meta_at m p = Some c) ->
  include_coordinate_paths r h fu paths = Some l ->
  NoDup l /\ forall p, In p l <-> needed m (get_coordinates r h) paths p.
Proof.
  intros fu paths l V H. unfold include_coordinate_paths in H.
  assert (ST : forall p, In p (start r h paths) <-> In p paths \/ exists p' c a n, In p' paths /\ inside p p' /\ in_ids m p c a n /\ mkind c = KAoS).
  { intros p. unfold start. rewrite in_app_iff, in_flat_map. split.
    - intros [I|(p' & I & J)]; [now left|]. right. unfold aos_parents in J. apply filter_In in J. destruct J as [J1 J2]. apply parents_inside in J1. destruct (V p' I) as (N & c & M).
      assert (G : get_dimensions r h p <> []) by (intros E; rewrite E in J2; discriminate). apply (dims_dec_aos p' c p N M J1) in G. destruct G as (d & a & n & I1 & I2). exists p', d, a, n. auto.
    - intros [I|(p' & c & a & n & I & J & K & L)]; [now left|]. right. exists p'. split; auto. unfold aos_parents. apply filter_In. split; [now apply parents_inside|]. destruct (V p' I) as (N & c' & M).
      pose proof (proj2 (dims_dec_aos p' c' p N M J) (ex_intro _ c (ex_intro _ a (ex_intro _ n (conj K L))))) as G. destruct (get_dimensions r h p); [congruence|reflexivity]. }
  destruct (search_spec r h (needed m (get_coordinates r h) paths) fu (start r h paths) [] l H) as (R1 & R2 & R3 & R4).
  - intros p [I|[]]. apply ST in I. destruct I as [I|(p' & c & a & n & I & J & K & L)]; [now apply ne_asked|]. eapply ne_aos; eauto.
  - intros p p' N I. apply next_In in I. destruct I as (I1 & I2 & I3). eapply ne_coordinate; eauto.
  - constructor.
  - intros p p' [].
  - split; auto. intros p. split; auto. intros N. induction N as [p I|p q c a n I J K L|p q N IH I F E].
    + apply R3. left. apply ST. now left.
    + apply R3. left. apply ST. right. exists p, c, a, n. auto.
    + apply (R4 p q IH). apply next_In. auto.
Qed.
End Paths.

(** * Nodes of the tree by path *)
Lemma new_node_empty : forall c, has_value c (new_node c) = false.
Proof.
  intros [nm k cs]. destruct k; cbn [new_node mkind has_value]; auto. induction cs; auto.
Qed.
Lemma conf_new_node : forall c, conf c (new_node c).
Proof.
  intros [nm k cs]. destruct k as [| |dt nd]; cbn [new_node mkind].
  - constructor; [intros c ch I A; discriminate|intros q []|constructor].
  - constructor. intros e [].
  - constructor.
Qed.
Lemma path_iter_ent : forall p c n idx ix x, wf_meta c -> conf c n ->
  (In (ix, x) (path_iter c n p idx) <-> exists ix', ix = idx ++ ix' /\ ent c n p ix' x).
Proof.
  induction p as [|nm p IH]; intros c n idx ix x W C.
  - cbn [path_iter]. split.
    + intros H. destruct (has_value c n) eqn:HV; [|destruct H]. destruct H as [H|[]]. inversion H; subst. exists []. rewrite app_nil_r. split; auto. now apply en_here.
    + intros (ix' & -> & E). apply ent_nil in E. destruct E as (-> & -> & HV). rewrite HV, app_nil_r. now left.
  - cbn [path_iter]. destruct c as [cn k cs]. cbn [mchildren]. inversion W as [? ? ? ND WC KL]; subst.
    assert (INTO : forall fs idx, conf (Meta cn KStruct cs) (NStruct fs) ->
      (In (ix, x) (match List.find (fun d => str_eqb (mname d) nm) cs with None => [] | Some d => path_iter d (match alookup nm fs with Some ch => ch | None => new_node d end) p idx end) <->
       exists ix', ix = idx ++ ix' /\ ent (Meta cn KStruct cs) (NStruct fs) (nm :: p) ix' x)).
    { clear idx C. intros fs idx C. split.
      - destruct (List.find _ cs) as [d|] eqn:F; [|intros []]. apply find_some in F. destruct F as [I E]. apply str_eqb_eq in E. subst nm. intros H.
        destruct (alookup (mname d) fs) as [ch|] eqn:A.
        + apply IH in H; [|auto|eapply conf_child; eauto]. destruct H as (ix' & -> & E). exists ix'. split; auto. eapply en_struct; eauto.
        + apply IH in H; auto; [|apply conf_new_node]. destruct H as (ix' & _ & E). apply ent_value in E. rewrite new_node_empty in E. discriminate.
      - intros (ix' & -> & E). inversion E as [|? ? ? d ch ? ? ? I A E'|]; subst.
        rewrite (find_name cs d ND I). rewrite A. apply IH; [auto|eapply conf_child; eauto|]. exists ix'. auto. }
    destruct n as [fs|els|v].
    + inversion C; subst. apply INTO. exact C.
    + inversion C as [| | |n0 cs0 els0 CE]; subst. rewrite in_flat_map. split.
      * intros ([i e] & I & H). apply enum_In in I. cbn [fst snd] in H. assert (Ce : conf (Meta cn KStruct cs) e) by (apply CE; eapply nth_error_In; eauto).
        inversion Ce as [| |n1 cs1 fs1 CF1 CF2 CF3|]; subst. cbn [node_fields] in H. apply INTO in H; [|exact Ce]. destruct H as (ix' & -> & E). exists (i :: ix'). split; [now rewrite <- app_assoc|]. eapply en_elem; eauto. discriminate.
      * intros (ix' & -> & E). inversion E as [| |? ? ? i e ? ix2 ? A E' _]; subst. exists (i, e). split; [now apply enum_In|]. cbn [fst snd]. assert (Ce : conf (Meta cn KStruct cs) e) by (apply CE; eapply nth_error_In; eauto).
        inversion Ce; subst. cbn [node_fields]. apply INTO; auto. exists ix2. split; auto. now rewrite <- app_assoc.
    + split; [intros []|]. intros (ix' & _ & E). inversion E.
Qed.
