(** C46: a conversion records where the data came from (imas/ids_convert.py:632-668). *)
From Verif Require Import Base PathModel PathSpec TreeModel TreeSpec TreeProofs TreeProofs4 TreeCheck ValModel ValProofs ValProofs2 ValProofs5 PrimModel PrimSpec PrimProps ConvModel ConvSpec ConvProofs ConvProofs2 ConvProofs3 ConvProofs4 ConvProofs5 ConvProgress ConvExamples ConvProps ProvModel TargetOps.

(** ** Specification *)
Section Spec.
Variable tm : meta.
Definition node_loc : loc := [Child (strs "ids_properties"); Child (strs "provenance"); Child (strs "node")].
Definition in_node (i : nat) (x : string) : loc := node_loc ++ [Elem i; Child (strs x)].
Definition in_reference (i j : nat) (x : string) : loc := in_node i "reference" ++ [Elem j; Child (strs x)].
(** the array of structures at l has k elements *)
Definition elements (n : node) (l : loc) (k : nat) : Prop := aos_at tm n l k \/ (k = 0 /\ ~ exists j, aos_at tm n l j).
(** the node is about the IDS as a whole: its path is not set, or empty *)
Definition about_all (n : node) (i : nat) : Prop := forall p, leaf_at tm n (in_node i "path") (VStr p) -> p = [].
(** where an entry goes: the first node about the whole IDS, or a new node at the end *)
Definition entry_node (n : node) (i : nat) : Prop :=
  exists k, elements n node_loc k /\ (forall j, j < i -> ~ about_all n j) /\ ((i < k /\ about_all n i) \/ i = k).

(** the versions of the data dictionary: no provenance; references; sources only *)
Definition no_provenance : Prop := exists nm cs, loc_ok tm [Child (strs "ids_properties")] (Meta nm KStruct cs) /\ ~ In (strs "provenance") (map mname cs).
Definition node_children (cs : list meta) : Prop := exists nm pn pcs, loc_ok tm node_loc (Meta nm KAoS cs) /\ loc_ok (Meta nm KStruct cs) [Child (strs "path")] (Meta pn (KLeaf STR 0) pcs).
Definition with_reference : Prop := exists cs nm rn rs n1 c1 n2 c2, node_children cs /\ loc_ok (Meta nm KStruct cs) [Child (strs "reference")] (Meta rn KAoS rs) /\
  loc_ok (Meta rn KStruct rs) [Child (strs "name")] (Meta n1 (KLeaf STR 0) c1) /\ loc_ok (Meta rn KStruct rs) [Child (strs "timestamp")] (Meta n2 (KLeaf STR 0) c2).
Definition with_sources : Prop := exists cs nm n1 c1, node_children cs /\ ~ In (strs "reference") (map mname cs) /\
  loc_ok (Meta nm KStruct cs) [Child (strs "sources")] (Meta n1 (KLeaf STR 1) c1).
End Spec.

Section C46.
Variable tm : meta.
Variable str_of : pyval -> str.
Variable parse_float : str -> option flt.
Variable parse_cpx : str -> option (flt * flt).
Variable flt_of_int : Z -> option flt.
Variable np_cast : dtype -> pyval -> result pexn value.
Variable array_items : value -> list pyval.
Hypothesis Wtm : wf_meta tm.
Hypothesis Stm : str_ok tm.
Hypothesis np_typed : forall dt p v, np_cast dt p = Ok v -> typed_array dt v.
Notation does := (does tm).
Notation sees := (sees tm).
Notation cnt := (cnt tm).
Notation add := (add_provenance tm str_of parse_float parse_cpx flt_of_int np_cast array_items).
Notation elements := (elements tm).
Notation about_all := (about_all tm).
Notation entry_node := (entry_node tm).

Lemma elements_cnt : forall n l k, conf tm n -> (elements n l k <-> cnt n l = k).
Proof.
  intros n l k C. unfold TargetOps.cnt, ProvProps.elements. split.
  - intros [A|(-> & NA)].
    + destruct A as (m' & els & N & K & L & G). destruct k as [|k]; [lia|].
      assert (A : aos_at tm n l (S k)) by (exists m', els; auto). apply fsize_aos in A; auto. rewrite A. reflexivity.
    + destruct (fsize tm n l) as [[|j]|] eqn:E; auto. exfalso. apply NA. exists (S j). apply fsize_aos; auto.
  - destruct k as [|k]; intros E.
    + right. split; auto. intros (j & A). assert (0 < j) by (destruct A as (? & ? & _ & _ & _ & G); lia). destruct j as [|j]; [lia|]. apply fsize_aos in A; auto. rewrite A in E. discriminate.
    + left. apply fsize_aos; auto. destruct (fsize tm n l); [congruence|discriminate].
Qed.

Definition empty_path (V : loc -> option value) (a : loc) (i : nat) : bool :=
  match V (a ++ [Elem i] ++ [Child (strs "path")]) with None | Some (VStr []) => true | _ => false end.
Fixpoint first_whole (V : loc -> option value) (a : loc) (i rest : nat) : option nat :=
  match rest with O => None | S r => if empty_path V a i then Some i else first_whole V a (S i) r end.

Lemma loc_ok_here : forall l m, loc_ok m l m -> True. Proof. auto. Qed.
Lemma lo_el : forall l nm cs i, loc_ok tm l (Meta nm KAoS cs) -> loc_ok tm (l ++ [Elem i]) (Meta nm KStruct cs).
Proof. intros. eapply loc_ok_app; eauto. constructor. constructor. Qed.

Lemma does_whole : forall nm cs pn pcs a, loc_ok tm a (Meta nm KAoS cs) -> loc_ok (Meta nm KStruct cs) [Child (strs "path")] (Meta pn (KLeaf STR 0) pcs) ->
  forall V N rest i, opened N a -> i + rest = N a -> does (whole_node tm a i rest) V N (first_whole V a i rest) V N.
Proof.
  intros nm cs pn pcs a L LP V N. remember (strs "path") as px eqn:EP. induction rest as [|r IH]; intros i O E; [apply does_ret|]. cbn [whole_node first_whole].
  rewrite <- EP. pose proof (lo_el _ _ _ i L) as LE.
  assert (OE : opened N (a ++ [Elem i])) by (apply opened_elem; auto; lia).
  eapply does_bind; [eapply does_getattr; eauto|]. intros s S.
  assert (LPP : loc_ok tm ((a ++ [Elem i]) ++ [Child px]) (Meta pn (KLeaf STR 0) pcs)) by (eapply loc_ok_app; eauto).
  destruct (does_read tm Wtm Stm V N _ _ _ _ _ LPP (opened_child _ _ _ OE) s S) as (s' & v & RD & S' & RA).
  unfold cbind. rewrite RD. rewrite <- app_assoc in RA. unfold empty_path. rewrite <- EP.
  assert (CASE : (v = VStr [] /\ (V (a ++ [Elem i] ++ [Child px]) = None \/ V (a ++ [Elem i] ++ [Child px]) = Some (VStr []))) \/ (v <> VStr [] /\ V (a ++ [Elem i] ++ [Child px]) = Some v)).
  { unfold reads_as in RA. destruct (V (a ++ [Elem i] ++ [Child px])) as [w|].
    - subst v. destruct w as [[|c0 s0]| | | | | | |]; auto; right; split; auto; discriminate.
    - destruct RA as [->|H]; [left; auto|exfalso; destruct v; discriminate H]. }
  destruct CASE as [(-> & CV)|(NV & ->)].
  - destruct CV as [-> | ->]; exists s'; auto.
  - destruct v as [[|c0 s0]| | | | | | |]; try congruence; apply IH; auto; lia.
Qed.

Lemma first_spec : forall V a rest i, match first_whole V a i rest with
  | Some k => i <= k < i + rest /\ empty_path V a k = true /\ forall j, i <= j < k -> empty_path V a j = false
  | None => forall j, i <= j < i + rest -> empty_path V a j = false end.
Proof.
  induction rest as [|r IH]; intros i; cbn [first_whole]; [intros j; lia|]. destruct (empty_path V a i) eqn:E; [repeat split; auto; try lia; intros; lia|].
  specialize (IH (S i)). destruct (first_whole V a (S i) r) as [k|].
  - destruct IH as (B & T & F). split; [lia|]. split; auto. intros j H. destruct (Nat.eq_dec j i) as [->|]; auto. apply F. lia.
  - intros j H. destruct (Nat.eq_dec j i) as [->|]; auto. apply IH. lia.
Qed.

(** the target node: what the loop finds *)
Definition the_node (V : loc -> option value) (k : nat) : nat := match first_whole V node_loc 0 k with Some i => i | None => k end.

Lemma about_empty : forall n i cs, conf tm n -> node_children tm cs -> (about_all n i <-> empty_path (fval tm n) node_loc i = true).
Proof.
  intros n i cs C (nm & pn & pcs & L & LP). unfold ProvProps.about_all, empty_path. change (node_loc ++ [Elem i] ++ [Child (strs "path")]) with (in_node i "path").
  split.
  - intros H. destruct (fval tm n (in_node i "path")) as [v|] eqn:E; auto. apply fval_leaf in E; auto.
    assert (VS : exists s, v = VStr s).
    { pose proof E as (m' & _ & NA & _). assert (CV : conf m' (NLeaf (Some v))) by (eapply node_at_conf; eauto). pose proof (node_at_loc_ok _ _ _ _ _ NA) as LO.
      assert (LPP : loc_ok tm (in_node i "path") (Meta pn (KLeaf STR 0) pcs)).
      { unfold in_node. change [Elem i; Child (strs "path")] with ([Elem i] ++ [Child (strs "path")]). rewrite app_assoc. eapply loc_ok_app; [apply lo_el|]; eauto. }
      assert (m' = Meta pn (KLeaf STR 0) pcs) as -> by (eapply loc_ok_fun; eauto).
      inversion CV as [|? ? ? ? ? VO| |]; subst. inversion VO; subst; eauto; destruct sh; try discriminate; congruence. }
    destruct VS as (s & ->). rewrite (H s E). reflexivity.
  - intros E p H. apply fval_leaf in H; auto. rewrite H in E. destruct p; auto. discriminate.
Qed.
Lemma the_node_entry : forall n cs i, conf tm n -> node_children tm cs -> (entry_node n i <-> i = the_node (fval tm n) (cnt n node_loc)).
Proof.
  intros n cs i C NC. unfold the_node, ProvProps.entry_node. pose proof (first_spec (fval tm n) node_loc (cnt n node_loc) 0) as FS.
  assert (AE : forall j, about_all n j <-> empty_path (fval tm n) node_loc j = true) by (intros j; apply (about_empty n j cs C NC)).
  split.
  - intros (k & E & LO & HI). apply elements_cnt in E; auto. rewrite E in FS |- *.
    destruct (first_whole (fval tm n) node_loc 0 k) as [f|].
    + destruct FS as (B & T & F). destruct (lt_eq_lt_dec i f) as [[LT|EQ]|GT]; auto.
      * exfalso. destruct HI as [(_ & H)| ->]; [|lia]. apply AE in H. rewrite F in H by lia. discriminate.
      * exfalso. apply (LO f GT). apply AE. auto.
    + destruct HI as [(LT & H)|]; auto. apply AE in H. rewrite FS in H by lia. discriminate.
  - intros ->. exists (cnt n node_loc). split; [apply elements_cnt; auto|].
    destruct (first_whole (fval tm n) node_loc 0 (cnt n node_loc)) as [f|].
    + destruct FS as (B & T & F). split; [|left; split; [lia|apply AE; auto]]. intros j LT H. apply AE in H. rewrite F in H by lia. discriminate.
    + split; auto. intros j LT H. apply AE in H. rewrite FS in H by lia. discriminate.
Qed.

(** the operations, on what can be seen *)
Definition sizes_after (V : loc -> option value) (N : loc -> nat) : loc -> nat :=
  if the_node V (N node_loc) =? N node_loc then upd N node_loc (S (N node_loc)) else N.
Definition values_ref (text stamp : str) (V : loc -> option value) (N : loc -> nat) : loc -> option value :=
  let i := the_node V (N node_loc) in
  upd (upd V (in_reference i (N (in_node i "reference")) "name") (Some (VStr text))) (in_reference i (N (in_node i "reference")) "timestamp") (Some (VStr stamp)).
Definition sizes_ref (V : loc -> option value) (N : loc -> nat) : loc -> nat :=
  let i := the_node V (N node_loc) in upd (sizes_after V N) (in_node i "reference") (S (N (in_node i "reference"))).
Definition values_src (text : str) (V : loc -> option value) (N : loc -> nat) : loc -> option value :=
  let i := the_node V (N node_loc) in upd V (in_node i "sources") (Some (VStrs (strings (V (in_node i "sources")) ++ [text]))).

Lemma the_node_le : forall V k, the_node V k <= k.
Proof. intros V k. unfold the_node. pose proof (first_spec V node_loc k 0) as FS. destruct (first_whole V node_loc 0 k) as [f|]; [lia|auto]. Qed.
Lemma in_node_other : forall i x, in_node i x <> node_loc.
Proof. intros i x E. apply (f_equal (@length _)) in E. unfold in_node in E. rewrite app_length in E. simpl in E. lia. Qed.
Lemma sizes_after_other : forall V N l, l <> node_loc -> sizes_after V N l = N l.
Proof. intros V N l NE. unfold sizes_after. destruct (_ =? _); auto. apply upd_other. auto. Qed.

Lemma has_named : forall x cs, match child_meta x cs with Some _ => true | None => false end = true <-> In x (map mname cs).
Proof.
  intros x cs. induction cs as [|c cs IH]; simpl; [split; [discriminate|tauto]|]. destruct (str_eqb x (mname c)) eqn:E.
  - apply str_eqb_eq in E. subst. split; auto.
  - rewrite IH. split; auto. intros [<-|I]; auto. rewrite str_eqb_refl in E. discriminate.
Qed.
Lemma child_named : forall nm k cs x m, loc_ok (Meta nm k cs) [Child x] m -> In x (map mname cs).
Proof. intros nm k cs x m H. apply loc_ok_child in H as (nm0 & cs0 & c & E & I & <- & _). injection E; intros; subst. apply in_map. auto. Qed.

Lemma child_any : forall a b cs x m, loc_ok (Meta a KStruct cs) [Child x] m -> loc_ok (Meta b KStruct cs) [Child x] m.
Proof. intros a b cs x m H. apply loc_ok_child in H as (nm0 & cs0 & c & E & I & <- & L). injection E; intros; subst. constructor; auto. Qed.

(** the common beginning: the node is found or made *)
Definition find_node : CM nat :=
  doc k <- length_of tm node_loc;
  doc o <- whole_node tm node_loc 0 k;
  match o with Some i => cret i | None => doc _ <- resize_keep tm node_loc (S k); cret k end.
Lemma opened_node_loc : forall N, opened N node_loc.
Proof. intros N. apply (opened_child N [Child (strs "ids_properties"); Child (strs "provenance")]). apply (opened_child N [Child (strs "ids_properties")]). apply (opened_child N []). apply opened_nil. Qed.
Lemma does_find : forall cs V N, node_children tm cs -> does find_node V N (the_node V (N node_loc)) V (sizes_after V N).
Proof.
  intros cs V N (nm & pn & pcs & L & LP). unfold find_node. pose proof (opened_node_loc N) as O.
  eapply does_bind; [apply (does_length tm Wtm V N _ _ _ L O)|].
  eapply does_bind; [eapply (does_whole nm cs pn pcs node_loc L LP V N); auto|].
  unfold sizes_after, the_node. pose proof (first_spec V node_loc (N node_loc) 0) as FS.
  destruct (first_whole V node_loc 0 (N node_loc)) as [f|].
  - rewrite (proj2 (Nat.eqb_neq f (N node_loc))) by lia. apply does_ret.
  - rewrite Nat.eqb_refl. eapply does_bind; [eapply (does_grow tm parse_float parse_cpx flt_of_int Wtm V N); eauto|]. apply does_ret.
Qed.
Definition populate (text stamp : str) (i : nat) : CM unit :=
  doc h <- has_child tm (node_loc ++ [Elem i]) (strs "reference");
  if h : bool then
    doc b <- getattr tm (node_loc ++ [Elem i]) (strs "reference");
    doc j <- length_of tm b;
    doc _ <- resize_keep tm b (S j);
    doc c <- getattr tm (b ++ [Elem j]) (strs "name"); doc _ <- assign tm str_of parse_float parse_cpx flt_of_int np_cast array_items c None (PStr text);
    doc d <- getattr tm (b ++ [Elem j]) (strs "timestamp"); assign tm str_of parse_float parse_cpx flt_of_int np_cast array_items d None (PStr stamp)
  else
    doc c <- getattr tm (node_loc ++ [Elem i]) (strs "sources"); append_str tm str_of c (PStr text).

Lemma cbind_assoc : forall A B C (c : CM A) (f : A -> CM B) (g : B -> CM C) s, cbind (cbind c f) g s = cbind c (fun a => cbind (f a) g) s.
Proof. intros. unfold cbind. destruct (c s) as [s1 [a|e]]; auto. Qed.
Lemma cbind_ext : forall A B (c : CM A) (f g : A -> CM B) s, (forall a s', f a s' = g a s') -> cbind c f s = cbind c g s.
Proof. intros A B c f g s H. unfold cbind. destruct (c s) as [s1 [a|e]]; auto. Qed.

Lemma does_add : forall cs text stamp V N V' N', node_children tm cs ->
  does (populate text stamp (the_node V (N node_loc))) V (sizes_after V N) tt V' N' -> does (add text stamp) V N tt V' N'.
Proof.
  intros cs text stamp V N V' N' NC P.
  pose proof NC as (nm & pn & pcs & L & LP). unfold node_loc in L.
  pose proof (loc_ok_split [Child (strs "ids_properties")] _ _ _ L) as (m1 & L1 & R1).
  pose proof (loc_ok_split [Child (strs "provenance")] _ _ _ R1) as (m2 & L2 & R2).
  pose proof (loc_ok_app _ _ _ _ _ L1 L2) as L12.
  assert (O1 : opened N [Child (strs "ids_properties")]) by (apply (opened_child N []), opened_nil).
  assert (O2 : opened N ([Child (strs "ids_properties")] ++ [Child (strs "provenance")])) by (apply opened_child; auto).
  unfold add_provenance.
  eapply does_bind; [eapply (does_getattr tm Wtm Stm V N []); [constructor|apply opened_nil|exact L1]|].
  change (@nil TreeModel.step ++ [Child (strs "ids_properties")]) with [Child (strs "ids_properties")].
  assert (M1 : exists n1 c1, m1 = Meta n1 KStruct c1) by (apply loc_ok_child in R1 as (n1 & c1 & _ & -> & _); eauto). destruct M1 as (n1 & c1 & ->).
  eapply does_bind; [eapply (does_has tm Wtm V N); eauto|].
  rewrite (proj2 (has_named _ _) (child_named _ _ _ _ _ L2)). cbn [negb].
  eapply does_bind; [eapply (does_getattr tm Wtm Stm V N); eauto|].
  eapply does_bind; [eapply (does_getattr tm Wtm Stm V N); eauto|].
  change (([Child (strs "ids_properties")] ++ [Child (strs "provenance")]) ++ [Child (strs "node")]) with node_loc.
  assert (Q : does (cbind find_node (populate text stamp)) V N tt V' N') by (eapply does_bind; [eapply does_find; eauto|exact P]).
  intros s S. destruct (Q s S) as (s' & E & S'). exists s'. split; auto. rewrite <- E. unfold find_node.
  symmetry. etransitivity; [apply cbind_assoc|]. apply cbind_ext. intros k s1. apply cbind_assoc.
Qed.

Lemma does_populate_ref : forall text stamp V N, with_reference tm -> text <> [] -> stamp <> [] ->
  does (populate text stamp (the_node V (N node_loc))) V (sizes_after V N) tt (values_ref text stamp V N) (sizes_ref V N).
Proof.
  intros text stamp V N (cs & nm0 & rn & rs & n1 & c1 & n2 & c2 & NC & LR & LN & LT) NT NS.
  pose proof NC as (nm & pn & pcs & L & LP).
  unfold values_ref, sizes_ref. set (i := the_node V (N node_loc)).
  assert (OI : opened (sizes_after V N) (node_loc ++ [Elem i])).
  { apply opened_elem; [apply opened_node_loc|]. unfold sizes_after. fold i. pose proof (the_node_le V (N node_loc)) as LE. fold i in LE.
    destruct (i =? N node_loc) eqn:E; [rewrite upd_same; lia|apply Nat.eqb_neq in E; lia]. }
  assert (LR' : loc_ok (Meta nm KStruct cs) [Child (strs "reference")] (Meta rn KAoS rs)).
  { eapply child_any; eauto. }
  pose proof (lo_el _ _ _ i L) as LI. unfold populate.
  eapply does_bind; [eapply (does_has tm Wtm V); eauto|].
  rewrite (proj2 (has_named _ _) (child_named _ _ _ _ _ LR)).
  eapply does_bind; [eapply (does_getattr tm Wtm Stm V); eauto|].
  assert (EB : (node_loc ++ [Elem i]) ++ [Child (strs "reference")] = in_node i "reference") by (unfold in_node; rewrite <- app_assoc; reflexivity).
  pose proof (opened_child _ _ (strs "reference") OI) as OB. pose proof (loc_ok_app _ _ _ _ _ LI LR') as LB. rewrite EB in *.
  set (b := in_node i "reference") in *. set (N1 := sizes_after V N) in *.
  eapply does_bind; [eapply (does_length tm Wtm V); eauto|].
  assert (EJ : N1 b = N b) by (apply sizes_after_other, in_node_other). rewrite EJ. set (j := N b).
  eapply does_bind; [eapply (does_grow tm parse_float parse_cpx flt_of_int Wtm V N1 b rn rs (S j)); auto; lia|].
  set (N2 := upd N1 b (S j)).
  assert (OJ : opened N2 (b ++ [Elem j])).
  { apply opened_elem; [|unfold N2; rewrite upd_same; lia]. eapply opened_grow; eauto. intros a. unfold N2. destruct (loc_dec a b) as [->|NE]; [rewrite upd_same; lia|rewrite upd_other; auto]. }
  pose proof (lo_el _ _ _ j LB) as LJ.
  assert (EN : forall x, (b ++ [Elem j]) ++ [Child (strs x)] = in_reference i j x) by (intros x; unfold in_reference; rewrite <- app_assoc; reflexivity).
  eapply does_bind; [eapply (does_getattr tm Wtm Stm V N2); eauto|].
  eapply does_bind.
  { eapply (does_assign tm str_of parse_float parse_cpx flt_of_int np_cast array_items Wtm Stm np_typed V N2 _ n1 STR 0 c1 None (PStr text) (VStr text)); auto.
    - eapply loc_ok_app; eauto.
    - apply opened_child. auto.
    - exact I. }
  assert (ST : forall t, t <> [] -> stored STR 0 (VStr t) = Some (VStr t)) by (intros [|? ?] H; [congruence|reflexivity]). rewrite ST by auto. rewrite EN.
  eapply does_bind; [eapply (does_getattr tm Wtm Stm _ N2); eauto|].
  rewrite EN. unfold b. fold b. rewrite <- (ST stamp) by auto.
  eapply (does_assign tm str_of parse_float parse_cpx flt_of_int np_cast array_items Wtm Stm np_typed _ N2 _ n2 STR 0 c2 None (PStr stamp) (VStr stamp)); auto.
  - rewrite <- EN. eapply loc_ok_app; eauto.
  - rewrite <- EN. apply opened_child. auto.
  - exact I.
Qed.
Lemma does_populate_src : forall text stamp V N, with_sources tm ->
  does (populate text stamp (the_node V (N node_loc))) V (sizes_after V N) tt (values_src text V N) (sizes_after V N).
Proof.
  intros text stamp V N (cs & nm0 & n1 & c1 & NC & NR & LS).
  pose proof NC as (nm & pn & pcs & L & LP).
  unfold values_src. set (i := the_node V (N node_loc)).
  assert (OI : opened (sizes_after V N) (node_loc ++ [Elem i])).
  { apply opened_elem; [apply opened_node_loc|]. unfold sizes_after. fold i. pose proof (the_node_le V (N node_loc)) as LE. fold i in LE.
    destruct (i =? N node_loc) eqn:E; [rewrite upd_same; lia|apply Nat.eqb_neq in E; lia]. }
  assert (LS' : loc_ok (Meta nm KStruct cs) [Child (strs "sources")] (Meta n1 (KLeaf STR 1) c1)).
  { eapply child_any; eauto. }
  pose proof (lo_el _ _ _ i L) as LI. unfold populate.
  eapply does_bind; [eapply (does_has tm Wtm V); eauto|].
  destruct (match child_meta (strs "reference") cs with Some _ => true | None => false end) eqn:H; [exfalso; apply NR, has_named; auto|].
  eapply does_bind; [eapply (does_getattr tm Wtm Stm V); eauto|].
  assert (EB : (node_loc ++ [Elem i]) ++ [Child (strs "sources")] = in_node i "sources") by (unfold in_node; rewrite <- app_assoc; reflexivity).
  pose proof (opened_child _ _ (strs "sources") OI) as OB. pose proof (loc_ok_app _ _ _ _ _ LI LS') as LB. rewrite EB in *.
  eapply (does_append tm str_of Wtm); eauto.
Qed.
Lemma does_nothing : forall text stamp V N, no_provenance tm -> does (add text stamp) V N tt V N.
Proof.
  intros text stamp V N (nm & cs & L & NP). unfold add_provenance.
  assert (O1 : opened N [Child (strs "ids_properties")]) by (apply (opened_child N []), opened_nil).
  eapply does_bind; [eapply (does_getattr tm Wtm Stm V N []); [constructor|apply opened_nil|exact L]|].
  change (@nil TreeModel.step ++ [Child (strs "ids_properties")]) with [Child (strs "ids_properties")].
  eapply does_bind; [eapply (does_has tm Wtm V N); eauto|].
  destruct (match child_meta (strs "provenance") cs with Some _ => true | None => false end) eqn:H; [exfalso; apply NP, has_named; auto|]. apply does_ret.
Qed.

Lemma sees_start : forall s, conf tm (c_tree s) -> sees s (fval tm (c_tree s)) (cnt (c_tree s)).
Proof. intros s C. split; auto. Qed.
Lemma first_whole_ext : forall V V' a rest i, (forall j, j < i + rest -> V (a ++ [Elem j] ++ [Child (strs "path")]) = V' (a ++ [Elem j] ++ [Child (strs "path")])) ->
  first_whole V a i rest = first_whole V' a i rest.
Proof.
  induction rest as [|r IH]; intros i H; cbn [first_whole]; auto. unfold empty_path. rewrite H by lia. rewrite (IH (S i)) by (intros; apply H; lia). reflexivity.
Qed.
(** ** The conversion into a version with references *)
Theorem C46_reference : with_reference tm -> forall text stamp s, text <> [] -> stamp <> [] -> conf tm (c_tree s) ->
  exists s' i j k, add text stamp s = (s', Ok tt) /\ conf tm (c_tree s') /\
    entry_node (c_tree s) i /\ elements (c_tree s) (in_node i "reference") j /\ elements (c_tree s) node_loc k /\
    leaf_at tm (c_tree s') (in_reference i j "name") (VStr text) /\ leaf_at tm (c_tree s') (in_reference i j "timestamp") (VStr stamp) /\
    (forall l v, l <> in_reference i j "name" -> l <> in_reference i j "timestamp" -> (leaf_at tm (c_tree s') l v <-> leaf_at tm (c_tree s) l v)) /\
    elements (c_tree s') (in_node i "reference") (S j) /\ elements (c_tree s') node_loc (Nat.max k (S i)) /\
    (forall l q, l <> node_loc -> l <> in_node i "reference" -> (elements (c_tree s') l q <-> elements (c_tree s) l q)).
Proof.
  intros WR text stamp s NT NS C. pose proof WR as (cs & _ & _ & _ & _ & _ & _ & _ & NC & _).
  destruct (does_add cs text stamp _ _ _ _ NC (does_populate_ref text stamp _ _ WR NT NS) s (sees_start s C)) as (s' & E & C' & F & G).
  set (V := fval tm (c_tree s)) in *. set (N := cnt (c_tree s)) in *. set (i := the_node V (N node_loc)) in *.
  exists s', i, (N (in_node i "reference")), (N node_loc). unfold values_ref, sizes_ref in F, G. fold i in F, G. set (j := N (in_node i "reference")) in *.
  assert (NE : in_reference i j "name" <> in_reference i j "timestamp").
  { unfold in_reference. intros H. apply app_inv_head in H. injection H as H. discriminate. }
  split; [exact E|]. split; [exact C'|]. split; [apply (the_node_entry _ cs); auto|]. split; [apply elements_cnt; auto|]. split; [apply elements_cnt; auto|].
  split; [|split; [|split; [|split; [|split]]]].
  - apply fval_leaf; auto. rewrite F, upd_other, upd_same; auto.
  - apply fval_leaf; auto. rewrite F, upd_same; auto.
  - intros l v N1 N2. rewrite <- !fval_leaf by auto. rewrite F, !upd_other by auto. reflexivity.
  - apply elements_cnt; auto. rewrite G, upd_same. reflexivity.
  - apply elements_cnt; auto. rewrite G, upd_other by (intros H; symmetry in H; revert H; apply in_node_other).
    unfold sizes_after. fold i. pose proof (the_node_le V (N node_loc)) as LE. fold i in LE.
    destruct (i =? N node_loc) eqn:Q; [apply Nat.eqb_eq in Q; rewrite upd_same; lia|apply Nat.eqb_neq in Q; lia].
  - intros l q N1 N2. rewrite !elements_cnt by auto. rewrite G, upd_other, sizes_after_other by auto. reflexivity.
Qed.

(** ** The conversion into a version with sources only *)
Theorem C46_sources : with_sources tm -> forall text stamp s, conf tm (c_tree s) ->
  exists s' i old k, add text stamp s = (s', Ok tt) /\ conf tm (c_tree s') /\
    entry_node (c_tree s) i /\ elements (c_tree s) node_loc k /\
    (leaf_at tm (c_tree s) (in_node i "sources") (VStrs old) \/ (old = [] /\ ~ exists v, leaf_at tm (c_tree s) (in_node i "sources") v)) /\
    leaf_at tm (c_tree s') (in_node i "sources") (VStrs (old ++ [text])) /\
    (forall l v, l <> in_node i "sources" -> (leaf_at tm (c_tree s') l v <-> leaf_at tm (c_tree s) l v)) /\
    elements (c_tree s') node_loc (Nat.max k (S i)) /\
    (forall l q, l <> node_loc -> (elements (c_tree s') l q <-> elements (c_tree s) l q)).
Proof.
  intros WR text stamp s C. pose proof WR as (cs & nm0 & n1 & c1 & NC & NR & LS).
  destruct (does_add cs text stamp _ _ _ _ NC (does_populate_src text stamp _ _ WR) s (sees_start s C)) as (s' & E & C' & F & G).
  set (V := fval tm (c_tree s)) in *. set (N := cnt (c_tree s)) in *. set (i := the_node V (N node_loc)) in *.
  unfold values_src in F. fold i in F.
  exists s', i, (strings (V (in_node i "sources"))), (N node_loc).
  split; [exact E|]. split; [exact C'|]. split; [apply (the_node_entry _ cs); auto|]. split; [apply elements_cnt; auto|].
  split; [|split; [|split; [|split]]].
  - unfold strings. destruct (V (in_node i "sources")) as [v|] eqn:EV; unfold V in EV.
    + left. pose proof EV as LV. apply fval_leaf in LV; auto. destruct NC as (nm & pn & pcs & L & LP).
      assert (LO : loc_ok tm (in_node i "sources") (Meta n1 (KLeaf STR 1) c1)).
      { unfold in_node. change [Elem i; Child (strs "sources")] with ([Elem i] ++ [Child (strs "sources")]). rewrite app_assoc. eapply loc_ok_app; [eapply lo_el; eauto|eapply child_any; eauto]. }
      pose proof LV as (m' & _ & NA & _). assert (CV : conf m' (NLeaf (Some v))) by (eapply node_at_conf; eauto). pose proof (node_at_loc_ok _ _ _ _ _ NA) as LO'.
      assert (m' = Meta n1 (KLeaf STR 1) c1) as -> by (eapply loc_ok_fun; eauto).
      inversion CV as [|? ? ? ? ? VO| |]; subst. inversion VO; subst; auto.
    + right. split; auto. intros (v & H). apply fval_leaf in H; auto. congruence.
  - apply fval_leaf; auto. rewrite F, upd_same; auto.
  - intros l v N1. rewrite <- !fval_leaf by auto. rewrite F, !upd_other by auto. reflexivity.
  - apply elements_cnt; auto. rewrite G.
    unfold sizes_after. fold i. pose proof (the_node_le V (N node_loc)) as LE. fold i in LE.
    destruct (i =? N node_loc) eqn:Q; [apply Nat.eqb_eq in Q; rewrite upd_same; lia|apply Nat.eqb_neq in Q; lia].
  - intros l q N1. rewrite !elements_cnt by auto. rewrite G, sizes_after_other by auto. reflexivity.
Qed.

(** ** A version without provenance: nothing changes *)
Theorem C46_no_provenance : no_provenance tm -> forall text stamp s, conf tm (c_tree s) ->
  exists s', add text stamp s = (s', Ok tt) /\ conf tm (c_tree s') /\
    (forall l v, leaf_at tm (c_tree s') l v <-> leaf_at tm (c_tree s) l v) /\ (forall l k, aos_at tm (c_tree s') l k <-> aos_at tm (c_tree s) l k).
Proof.
  intros NP text stamp s C. destruct (does_nothing text stamp _ _ NP s (sees_start s C)) as (s' & E & C' & F & G).
  exists s'. split; [exact E|]. split; [exact C'|]. split.
  - intros l v. rewrite <- !fval_leaf by auto. rewrite F. reflexivity.
  - intros l k. assert (PK : forall n, aos_at tm n l k -> 0 < k) by (intros n (? & ? & _ & _ & _ & H); lia).
    assert (EQ : forall n, conf tm n -> 0 < k -> (aos_at tm n l k <-> cnt n l = k)).
    { intros n CN K. rewrite <- elements_cnt by auto. unfold ProvProps.elements. split; [auto|intros [A|(-> & _)]; [auto|lia]]. }
    split; intros A; pose proof (PK _ A) as K; (rewrite EQ in * by auto); [rewrite <- G|rewrite G]; auto.
Qed.

(** ** Several conversions after one another: the entries stand in one node, in the order in which they were made *)
Fixpoint adds (es : list (str * str)) : CM unit := match es with [] => cret tt | e :: es => doc _ <- add (fst e) (snd e); adds es end.
Lemma entry_stays : forall s s' i j k, with_reference tm -> conf tm (c_tree s) -> conf tm (c_tree s') ->
  entry_node (c_tree s) i -> elements (c_tree s) node_loc k -> elements (c_tree s') node_loc (Nat.max k (S i)) ->
  (forall l v, l <> in_reference i j "name" -> l <> in_reference i j "timestamp" -> (leaf_at tm (c_tree s') l v <-> leaf_at tm (c_tree s) l v)) ->
  entry_node (c_tree s') i.
Proof.
  intros s s' i j k WR C C' (k0 & E0 & LO & HI) EK EK' SAME. apply elements_cnt in E0, EK, EK'; auto. assert (KK : k0 = k) by congruence. rewrite KK in *. clear KK EK k0.
  assert (AB : forall q, about_all (c_tree s') q <-> about_all (c_tree s) q).
  { intros q. assert (D : forall x, in_node q "path" <> in_reference i j x).
    { intros x H. apply (f_equal (@length _)) in H. unfold in_reference, in_node in H. rewrite !app_length in H. simpl in H. lia. }
    unfold ProvProps.about_all. split; intros H p L; apply H; apply (SAME _ _ (D _) (D _)); auto. }
  exists (Nat.max k (S i)). split; [apply elements_cnt; auto|]. split; [intros q LT H; apply (LO q LT), AB; auto|].
  left. split; [lia|]. apply AB. destruct HI as [(_ & H)| ->]; auto.
  intros p L. exfalso. apply fval_leaf in L; auto. unfold fval in L. clear - E0 L.
  (* beyond the end of the array *)
  destruct (look tm (c_tree s) (in_node k "path")) as [[m' n']|] eqn:LK; [|discriminate]. unfold in_node in LK. rewrite look_app in LK.
  unfold TargetOps.cnt, fsize in E0. destruct (look tm (c_tree s) node_loc) as [[[nm kd cs] n0]|]; [|discriminate LK]. cbn [look] in LK. destruct kd; destruct n0 as [fs|els|]; try discriminate LK.
  cbn [look] in LK. rewrite (proj2 (nth_error_None els k)) in LK by lia. discriminate.
Qed.
Theorem C46_in_order : with_reference tm -> forall es s i j, (forall e, In e es -> fst e <> [] /\ snd e <> []) -> conf tm (c_tree s) ->
  entry_node (c_tree s) i -> elements (c_tree s) (in_node i "reference") j ->
  exists s', adds es s = (s', Ok tt) /\ conf tm (c_tree s') /\
    (forall q text stamp, nth_error es q = Some (text, stamp) ->
       leaf_at tm (c_tree s') (in_reference i (j + q) "name") (VStr text) /\ leaf_at tm (c_tree s') (in_reference i (j + q) "timestamp") (VStr stamp)) /\
    elements (c_tree s') (in_node i "reference") (j + length es) /\
    (forall l v, (forall q, q < length es -> l <> in_reference i (j + q) "name" /\ l <> in_reference i (j + q) "timestamp") ->
       (leaf_at tm (c_tree s') l v <-> leaf_at tm (c_tree s) l v)) /\
    (forall l k, l <> node_loc -> l <> in_node i "reference" -> (elements (c_tree s') l k <-> elements (c_tree s) l k)).
Proof.
  intros WR. induction es as [|[text stamp] es IH]; intros s i j NE C EN EJ.
  - exists s. split; [reflexivity|]. split; auto. split; [intros [|q] ? ? H; discriminate|]. cbn [length]. rewrite Nat.add_0_r. split; auto. split; intros; reflexivity.
  - destruct (NE _ (or_introl eq_refl)) as (NT & NS). cbn [fst snd] in NT, NS.
    destruct (C46_reference WR text stamp s NT NS C) as (s1 & i1 & j1 & k & E & C1 & EN1 & EJ1 & EK & L1 & L2 & L3 & J1 & K1 & Z1).
    pose proof WR as (cs & _ & _ & _ & _ & _ & _ & _ & NC & _).
    assert (i1 = i) as -> by (apply (the_node_entry _ cs) in EN, EN1; auto; congruence).
    assert (j1 = j) as -> by (apply elements_cnt in EJ, EJ1; auto; congruence).
    pose proof (entry_stays s s1 i j k WR C C1 EN EK K1 L3) as EN'.
    destruct (IH s1 i (S j) (fun e I => NE e (or_intror I)) C1 EN' J1) as (s' & E' & C' & P1 & P2 & P3 & P4).
    exists s'. split; [cbn [adds]; unfold cbind; cbn [fst snd]; rewrite E; exact E'|]. split; auto.
    assert (FAR : forall x y q, in_reference i j x <> in_reference i (S j + q) y).
    { intros x y q H. unfold in_reference in H. apply app_inv_head in H. injection H; intros. lia. }
    split; [|split; [|split]].
    + intros [|q] t0 st0 H; cbn [nth_error] in H.
      * injection H as -> ->. rewrite Nat.add_0_r. split; apply P3; auto; intros q LT; split; apply FAR.
      * apply P1 in H. replace (j + S q) with (S j + q) by lia. auto.
    + cbn [length]. replace (j + S (length es)) with (S j + length es) by lia. auto.
    + intros l v H. assert (H0 := H 0 ltac:(cbn; lia)). rewrite Nat.add_0_r in H0. rewrite P3, L3 by tauto || (intros q LT; specialize (H (S q) ltac:(cbn; lia)); replace (j + S q) with (S j + q) in H by lia; auto). reflexivity.
    + intros l q N1 N2. rewrite P4, Z1 by auto. reflexivity.
Qed.
End C46.
Print Assumptions C46_reference.
Print Assumptions C46_sources.
Print Assumptions C46_no_provenance.
Print Assumptions C46_in_order.

(** the text of an entry is never empty *)
Theorem C46_text : forall uri sv tv lib, exists a b c, source_text uri sv tv lib = uri ++ a ++ sv ++ b ++ tv ++ c ++ lib ++ strs "." /\ source_text uri sv tv lib <> [].
Proof.
  intros uri sv tv lib. exists (strs "; This IDS has been converted from DD "), (strs " to DD "), (strs " by IMAS-Python "). split; [reflexivity|].
  unfold source_text. intros E. apply app_eq_nil in E as (_ & E). discriminate.
Qed.
Print Assumptions C46_text.

(** ** Examples *)
Definition pv_meta (node_cs : list meta) : meta := Meta (strs "core") KStruct
  [Meta (strs "ids_properties") KStruct [lf "homogeneous_time" INT 0; Meta (strs "provenance") KStruct [Meta (strs "node") KAoS node_cs]]; lf "x" FLT 0].
Definition pv_new : meta := pv_meta [lf "path" STR 0; Meta (strs "reference") KAoS [lf "name" STR 0; lf "timestamp" STR 0]].
Definition pv_old : meta := pv_meta [lf "path" STR 0; lf "sources" STR 1].
Definition pv_none : meta := Meta (strs "core") KStruct [Meta (strs "ids_properties") KStruct [lf "homogeneous_time" INT 0]].
Definition pv_tree (nodes : list node) : node := NStruct
  [(strs "ids_properties", NStruct [(strs "homogeneous_time", NLeaf (Some (VInt 1))); (strs "provenance", NStruct [(strs "node", NAoS nodes)])]); (strs "x", NLeaf (Some (VFlt 5%Z)))].
Definition pv_part : node := NStruct [(strs "path", NLeaf (Some (VStr (strs "x"))))].
Definition pv_ref (t s : string) : node := NStruct [(strs "name", NLeaf (Some (VStr (strs t)))); (strs "timestamp", NLeaf (Some (VStr (strs s))))].
Definition pv_adds (m : meta) (es : list (str * str)) (n : node) : cst * result cexn unit :=
  adds m (fun _ => []) (fun _ => None) (fun _ => None) Some ex_cast (fun _ => []) es {| c_tree := n; c_shared := [] |}.
Example C46_example :
  (let (st, r) := pv_adds pv_new [(strs "a", strs "t1"); (strs "b", strs "t2")] (pv_tree [pv_part; pv_part]) in
   r = Ok tt /\ c_tree st = pv_tree [pv_part; pv_part; NStruct [(strs "reference", NAoS [pv_ref "a" "t1"; pv_ref "b" "t2"]); (strs "path", NLeaf None)]]) /\
  (let (st, r) := pv_adds pv_old [(strs "a", []); (strs "b", [])] (pv_tree [pv_part; NStruct []; NStruct []]) in
   r = Ok tt /\ c_tree st = pv_tree [pv_part; NStruct [(strs "path", NLeaf None); (strs "sources", NLeaf (Some (VStrs [strs "a"; strs "b"])))]; NStruct []]) /\
  (let (st, r) := pv_adds pv_none [(strs "a", strs "t")] (NStruct []) in r = Ok tt /\ c_tree st = NStruct [(strs "ids_properties", NStruct [])]).
Proof. vm_compute. auto 10. Qed.
Lemma pv_node : forall cs, node_children (pv_meta (lf "path" STR 0 :: cs)) (lf "path" STR 0 :: cs).
Proof.
  intros cs. exists (strs "node"). eexists. eexists. split.
  - eapply (lo_child _ _ (Meta (strs "ids_properties") KStruct _)); [left; reflexivity|]. eapply (lo_child _ _ (Meta (strs "provenance") KStruct _)); [right; left; reflexivity|].
    eapply (lo_child _ _ (Meta (strs "node") KAoS _)); [left; reflexivity|]. constructor.
  - eapply (lo_child _ _ (lf "path" STR 0)); [left; reflexivity|]. constructor.
Qed.
Example C46_hypotheses : wf_meta pv_new /\ str_ok pv_new /\ with_reference pv_new /\ wf_meta pv_old /\ str_ok pv_old /\ with_sources pv_old /\ no_provenance pv_none /\
  conf pv_new (pv_tree [pv_part; pv_part]) /\ entry_node pv_new (pv_tree [pv_part; pv_part]) 2 /\ elements pv_new (pv_tree [pv_part; pv_part]) (in_node 2 "reference") 0.
Proof.
  assert (W : wf_meta pv_new) by by_check. assert (C : conf pv_new (pv_tree [pv_part; pv_part])) by by_check.
  split; [auto|]. split; [by_check|]. split; [|split; [by_check|split; [by_check|split; [|split; [|split; [auto|split]]]]]].
  - eexists. exists []. eexists. eexists. eexists. eexists. eexists. eexists. split; [apply pv_node|]. split; [|split].
    + eapply (lo_child _ _ (Meta (strs "reference") KAoS _)); [right; left; reflexivity|]. constructor.
    + eapply (lo_child _ _ (lf "name" STR 0)); [left; reflexivity|]. constructor.
    + eapply (lo_child _ _ (lf "timestamp" STR 0)); [right; left; reflexivity|]. constructor.
  - eexists. exists []. eexists. eexists. split; [apply pv_node|]. split.
    + intros H. vm_compute in H. repeat (destruct H as [H|H]; [discriminate|]). contradiction.
    + eapply (lo_child _ _ (lf "sources" STR 1)); [right; left; reflexivity|]. constructor.
  - eexists. eexists. split; [eapply (lo_child _ _ (Meta (strs "ids_properties") KStruct _)); [left; reflexivity|]; constructor|].
    intros H. vm_compute in H. repeat (destruct H as [H|H]; [discriminate|]). contradiction.
  - eapply the_node_entry; [auto|auto|apply pv_node|]. vm_compute. reflexivity.
  - apply elements_cnt; auto.
Qed.
