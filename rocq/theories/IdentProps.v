(** Property theorems about identifiers (C28, C29). *)
From Verif Require Import Base IdentModel IdentSpec IdentProofs.

(* ---- C28: equality ---- *)

(** Members of one enumeration are equal iff they are the same member, for every definition. *)
Theorem C28_members : forall id es a b, In a (en_members (from_xml id es)) -> In b (en_members (from_xml id es)) ->
  (py_eq_left a (OMember b) = true <-> a = b).
Proof.
  intros id es a b Ia Ib. destruct (from_xml_inv id es) as [A1 A2 A3 A4 A5 A6 A7 A8]. split.
  - intros H. unfold py_eq_left, ident_eq in H. destruct (same_object a b) eqn:S.
    + unfold same_object in S. apply andb_true_iff in S as [_ S]. apply Nat.eqb_eq in S.
      pose proof (A3 a Ia) as Ka. pose proof (A3 b Ib) as Kb. rewrite S in Ka. congruence.
    + cbn [view] in H. destruct (mb_index b =? mb_index a)%Z eqn:E; [|discriminate]. apply Z.eqb_eq in E.
      apply (NoDup_map_inj mb_index _ A4); auto.
  - intros ->. unfold py_eq_left, ident_eq, same_object. now rewrite !Nat.eqb_refl.
Qed.
Print Assumptions C28_members.

(** Comparison with an identifier structure: the index decides, and the name must be empty, the name or an alias. *)
Theorem C28_structure : forall id es e m s n i d, distinct_defs es -> In e es ->
  In m (en_members (from_xml id es)) -> mb_index m = ie_value e -> reads s n i d ->
  (py_eq_left m (OStruct s) = true <-> i = ie_value e /\ (n = [] \/ n = ie_name e \/ listed (ie_alias e) n)).
Proof.
  intros id es e m s n i d D I Im Ei (R1 & R2 & R3).
  destruct (member_of id es e D I) as (m' & Im' & E1 & E2 & E3 & E4 & _).
  assert (m' = m). { pose proof (from_xml_inv id es) as Hi. apply (NoDup_map_inj mb_index _ (i_idx _ _ _ Hi)); auto; congruence. } subst m'.
  unfold py_eq_left, ident_eq, view. rewrite R1, R2, R3, E1, E2, E4. rewrite <- alias_list_spec.
  destruct (i =? ie_value e)%Z eqn:Ez.
  - apply Z.eqb_eq in Ez. unfold str_in.
    destruct (str_eqb n (ie_name e)) eqn:Q1; [apply str_eqb_eq in Q1; subst; simpl; tauto|].
    destruct (str_eqb n []) eqn:Q2; [apply str_eqb_eq in Q2; subst; simpl; tauto|].
    apply str_eqb_neq in Q1. apply str_eqb_neq in Q2. simpl.
    destruct (existsb (str_eqb n) (alias_list (ie_alias e))) eqn:X.
    + apply existsb_exists in X as (x & J & X). apply str_eqb_eq in X; subst. tauto.
    + split; [discriminate|]. intros (_ & [H|[H|H]]); try tauto. exfalso.
      assert (X2 : existsb (str_eqb n) (alias_list (ie_alias e)) = true); [|congruence].
      apply existsb_exists. exists n. split; auto. apply str_eqb_refl.
  - apply Z.eqb_neq in Ez. simpl. split; [discriminate|tauto].
Qed.
Print Assumptions C28_structure.

(** An object without these three attributes is never equal to an identifier. *)
Theorem C28_not_an_identifier : forall m o, (forall m', o <> OMember m') -> view o = None -> py_eq_left m o = false /\ py_eq_right o m = false.
Proof. intros m [m'|s|] H V; [now elim (H m')| |]; unfold py_eq_left, py_eq_right, ident_eq; rewrite V; auto. Qed.
Print Assumptions C28_not_an_identifier.

(** Comparing is symmetric for structures, and for members of one enumeration. *)
Theorem C28_symmetric_structure : forall m s, py_eq_right (OStruct s) m = py_eq_left m (OStruct s).
Proof. intros m s. unfold py_eq_right, py_eq_left. simpl. destruct (ident_eq m (OStruct s)); auto. Qed.
Print Assumptions C28_symmetric_structure.

Theorem C28_symmetric_members : forall id es a b, In a (en_members (from_xml id es)) -> In b (en_members (from_xml id es)) ->
  py_eq_left a (OMember b) = py_eq_left b (OMember a).
Proof.
  intros id es a b Ia Ib. apply eq_true_iff_eq. rewrite (C28_members id es a b), (C28_members id es b a); auto. split; auto.
Qed.
Print Assumptions C28_symmetric_members.

Definition wall : int_element := {| ie_name := strs "wall"; ie_value := 2; ie_descr := strs "The wall"; ie_alias := strs " first_wall, limiter" |}.
Definition plasma : int_element := {| ie_name := strs "plasma"; ie_value := 1; ie_descr := strs "The plasma"; ie_alias := [] |}.
Definition defs : list int_element := [plasma; wall].
Definition st (n : string) (i : Z) (d : string) : struct :=
  [(strs "name", FStr n); (strs "index", FInt i); (strs "description", FStr d); (strs "x", FNode)].

Ltac distinct := repeat constructor; simpl; intros H; repeat (destruct H as [H|H]; try discriminate); auto.
Example ex_distinct : distinct_defs defs. Proof. split; vm_compute; distinct. Qed.
Example ex_aliases : alias_list (ie_alias wall) = [strs "first_wall"; strs "limiter"]. Proof. vm_compute. reflexivity. Qed.
Example ex_eq : exists m, In m (en_members (from_xml 0 defs)) /\ mb_index m = 2%Z /\ py_eq_left m (OStruct (st "limiter" 2 "")) = true /\
  py_eq_left m (OStruct (st "plasma" 2 "")) = false /\ py_eq_left m (OStruct (st "wall" 1 "")) = false.
Proof. eexists. split; [vm_compute; right; left; reflexivity|]. vm_compute. auto. Qed.

(** The description is not compared (a warning is logged only), and an empty name is accepted: a structure with another, not
    empty, description or with no name at all is equal to the identifier. *)
Theorem C28_description_refuted : exists m s n i d, In m (en_members (from_xml 0 defs)) /\ reads s n i d /\
  py_eq_left m (OStruct s) = true /\ n <> mb_name m /\ ~ In n (mb_aliases m) /\ d <> [] /\ d <> mb_descr m.
Proof.
  exists {| mb_enum := 0; mb_key := 1; mb_name := strs "wall"; mb_index := 2; mb_descr := strs "The wall"; mb_aliases := [strs "first_wall"; strs "limiter"] |}.
  exists (st "" 2 "something else"), [], 2%Z, (strs "something else"). vm_compute. intuition discriminate.
Qed.
Print Assumptions C28_description_refuted.

(** Members of two different enumerations: equality is not symmetric when the name of one is an alias of the other. *)
Theorem C28_symmetric_refuted : exists es1 es2 a b, distinct_defs es1 /\ distinct_defs es2 /\
  In a (en_members (from_xml 1 es1)) /\ In b (en_members (from_xml 2 es2)) /\
  py_eq_left a (OMember b) = true /\ py_eq_left b (OMember a) = false.
Proof.
  exists defs, [{| ie_name := strs "limiter"; ie_value := 2; ie_descr := []; ie_alias := [] |}].
  exists {| mb_enum := 1; mb_key := 1; mb_name := strs "wall"; mb_index := 2; mb_descr := strs "The wall"; mb_aliases := [strs "first_wall"; strs "limiter"] |}.
  exists {| mb_enum := 2; mb_key := 0; mb_name := strs "limiter"; mb_index := 2; mb_descr := []; mb_aliases := [] |}.
  split; [apply ex_distinct|]. split; [split; vm_compute; distinct|]. vm_compute. intuition.
Qed.
Print Assumptions C28_symmetric_refuted.

(* ---- C29: lookup and assignment ---- *)

Lemma lookup_designates : forall id es e a, distinct_defs es -> In e es -> designates (from_xml id es) e a ->
  exists m, lookup_arg (from_xml id es) a = Ok m /\ In m (en_members (from_xml id es)) /\ mb_name m = ie_name e /\ mb_index m = ie_value e /\ mb_descr m = ie_descr e.
Proof.
  intros id es e a D I Ds. destruct (member_of id es e D I) as (m & Im & E1 & E2 & E3 & E4 & L).
  destruct (from_xml_inv id es) as [A1 A2 A3 A4 A5 A6 A7 A8].
  exists m. split; [|auto]. destruct Ds as [|n Hn|m' Im' E]; unfold lookup_arg.
  - destruct (by_value _ _) as [m'|] eqn:B.
    + apply by_value_Some in B as [I' E']. f_equal. apply (NoDup_map_inj mb_index _ A4); auto; congruence.
    + exfalso. exact (by_value_None _ _ B m Im E2).
  - now rewrite (L n Hn).
  - rewrite (A2 m' Im'), A1, Nat.eqb_refl. f_equal. apply (NoDup_map_inj mb_index _ A4); auto; congruence.
Qed.

(** Assigning the index, the name, an alias or the member of a value fills the structure with the three attributes of exactly
    that value and leaves its other children alone. *)
Theorem C29_assign : forall id es e s a, distinct_defs es -> In e es -> identifier_struct s -> designates (from_xml id es) e a ->
  exists s', assign_identifier false (Some (from_xml id es)) s a = (s', Ok tt) /\
    reads s' (ie_name e) (ie_value e) (ie_descr e) /\ others_same s s'.
Proof.
  intros id es e s a D I Hs Ds. destruct (lookup_designates id es e a D I Ds) as (m & L & Im & E1 & E2 & E3).
  rewrite <- E1, <- E2, <- E3. exact (assign_ok _ s a m Hs L).
Qed.
Print Assumptions C29_assign.

(** The structure is then equal to the member of that value. *)
Theorem C29_assigned_is_equal : forall id es e s a, distinct_defs es -> In e es -> identifier_struct s -> designates (from_xml id es) e a ->
  exists s' m, assign_identifier false (Some (from_xml id es)) s a = (s', Ok tt) /\ In m (en_members (from_xml id es)) /\ mb_index m = ie_value e /\
    py_eq_left m (OStruct s') = true /\ py_eq_right (OStruct s') m = true.
Proof.
  intros id es e s a D I Hs Ds. destruct (C29_assign id es e s a D I Hs Ds) as (s' & E & R & _).
  destruct (member_of id es e D I) as (m & Im & E1 & E2 & _). exists s', m. repeat split; auto.
  - eapply C28_structure; eauto.
  - rewrite C28_symmetric_structure. eapply C28_structure; eauto.
Qed.
Print Assumptions C29_assigned_is_equal.

(** Everything else is refused and changes nothing: unknown names, unknown indices, members of other enumerations; also every
    assignment to a structure that is no identifier. *)
Theorem C29_refused : forall id es s a lz, distinct_defs es ->
  (forall m, a = AMember m -> mb_enum m <> id) -> (forall e, In e es -> ~ designates (from_xml id es) e a) ->
  exists x, assign_identifier lz (Some (from_xml id es)) s a = (s, Err x).
Proof.
  intros id es s a lz D Hm Hn. destruct (from_xml_inv id es) as [A1 A2 A3 A4 A5 A6 A7 A8].
  assert (L : exists x, lookup_arg (from_xml id es) a = Err x); [|destruct L as (x & L); now apply assign_err with (e := x)].
  destruct a as [m|z|k]; unfold lookup_arg.
  - rewrite A1. specialize (Hm m eq_refl). apply Nat.eqb_neq in Hm. rewrite Hm. eauto.
  - destruct (by_value _ z) as [m|] eqn:B; [|eauto]. exfalso. apply by_value_Some in B as [Im E].
    destruct (A7 m Im) as (p & q & Ed & _).
    destruct (enum_values_from es (mb_name m) (mb_index m, mb_descr m, mb_aliases m)) as (e & I & _ & Ev).
    { rewrite Ed, in_app_iff. right; left; auto. }
    injection Ev as Ev _ _. apply (Hn e I). rewrite <- E, Ev. constructor.
  - destruct (alookup k _) as [m|] eqn:B; [|eauto]. exfalso. apply alookup_In in B. destruct (A6 _ _ B) as (_ & d & al & J).
    apply enum_values_from in J as (e & I & J & _). apply (Hn e I). now constructor.
Qed.
Print Assumptions C29_refused.

Theorem C29_no_identifier : forall lz s a, exists x, assign_identifier lz None s a = (s, Err x).
Proof. intros. exact (assign_err lz None s a TypeErr I). Qed.
Print Assumptions C29_no_identifier.

(** Without any assumption on the definition: whatever is accepted, the three values come from one element of it. *)
Theorem C29_one_element : forall id es s a s', assign_identifier false (Some (from_xml id es)) s a = (s', Ok tt) ->
  (forall m, a = AMember m -> In m (en_members (from_xml id es))) -> identifier_struct s ->
  exists e n, In e es /\ (n = ie_name e \/ listed (ie_alias e) n) /\ reads s' n (ie_value e) (ie_descr e).
Proof.
  intros id es s a s' H Hm Hs. destruct (from_xml_inv id es) as [A1 A2 A3 A4 A5 A6 A7 A8].
  destruct (lookup_arg (from_xml id es) a) as [m|x] eqn:L.
  2:{ destruct (assign_err false (Some (from_xml id es)) s a x L) as (y & E). congruence. }
  assert (Im : In m (en_members (from_xml id es))).
  { destruct a as [m'|z|k]; unfold lookup_arg in L.
    - destruct (_ =? _)%nat; [|discriminate]. injection L as ->. auto.
    - destruct (by_value _ z) eqn:B; [|discriminate]. injection L as ->. now apply by_value_Some in B.
    - destruct (alookup k _) eqn:B; [|discriminate]. injection L as ->. apply alookup_In in B. now apply A6 in B. }
  destruct (assign_ok _ s a m Hs L) as (s2 & E & R & _). rewrite E in H. injection H as <-.
  destruct (A7 m Im) as (p & q & Ed & _).
  destruct (enum_values_from es (mb_name m) (mb_index m, mb_descr m, mb_aliases m)) as (e & I & J & Ev).
  { rewrite Ed, in_app_iff. right; left; auto. }
  injection Ev as E1 E2 _. exists e, (mb_name m). rewrite E1, E2 in R. repeat split; auto; try apply R.
  destruct J as [J|J]; auto. right. now apply alias_list_spec.
Qed.
Print Assumptions C29_one_element.

Example ex_assign : assign_identifier false (Some (from_xml 0 defs)) (st "" 0 "") (AName "limiter"%string) = (st "wall" 2 "The wall", Ok tt).
Proof. vm_compute. reflexivity. Qed.
Example ex_refused : assign_identifier false (Some (from_xml 0 defs)) (st "a" 7 "b") (AInt 3) = (st "a" 7 "b", Err ValueErr).
Proof. vm_compute. reflexivity. Qed.

(** The assumption on the definition is needed: with two names for one index, or an alias that repeats another name, the value
    filled in is not that of the element whose name was given. *)
Theorem C29_repeated_index_refuted : exists es e s', NoDup (concat (map names_of es)) /\ In e es /\
  assign_identifier false (Some (from_xml 0 es)) (st "" 0 "") (AName (ie_name e)) = (s', Ok tt) /\ ~ reads s' (ie_name e) (ie_value e) (ie_descr e).
Proof.
  set (e2 := {| ie_name := strs "b"; ie_value := 1; ie_descr := strs "B"; ie_alias := [] |}).
  exists [{| ie_name := strs "a"; ie_value := 1; ie_descr := strs "A"; ie_alias := [] |}; e2], e2, (st "a" 1 "A").
  split; [vm_compute; distinct|]. vm_compute. intuition discriminate.
Qed.
Print Assumptions C29_repeated_index_refuted.

Theorem C29_repeated_name_refuted : exists es e x, NoDup (map ie_value es) /\ In e es /\
  assign_identifier false (Some (from_xml 0 es)) (st "" 0 "") (AInt (ie_value e)) = (st "" 0 "", Err x).
Proof.
  set (e1 := {| ie_name := strs "a"; ie_value := 1; ie_descr := strs "A"; ie_alias := [] |}).
  exists [e1; {| ie_name := strs "b"; ie_value := 2; ie_descr := strs "B"; ie_alias := strs "a" |}], e1, ValueErr.
  split; [vm_compute; distinct|]. vm_compute. intuition discriminate.
Qed.
Print Assumptions C29_repeated_name_refuted.
