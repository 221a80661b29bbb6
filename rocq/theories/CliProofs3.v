(** The command "imas convert" as a whole. *)
From Verif Require Import Base PathModel TreeModel TreeSpec TreeProofs PrimModel PrimSpec ConvSpec ConvProofs3 ConvProofs4 ConvModel EndModel EndSpec EndProofs4 EndProps StoreModel StoreSpec StoreProofs2 CliModel CliSpec CliProofs CliProofs2.
From Verif Require PrimProps StoreProps2 StoreProofs5 SerModel SerProps ConvProps ProvProps IdentProofs.
From Coq Require Import Lia.

(** ** entries *)
Lemma same_key_eq : forall a b, same_key a b = true <-> a = b.
Proof. intros [a i] [b j]. unfold same_key. cbn. rewrite andb_true_iff, str_eqb_eq, Z.eqb_eq. split; [intros [-> ->]|intros E; injection E as -> ->]; auto. Qed.
Lemma same_key_refl : forall a, same_key a a = true.
Proof. intros a. now apply same_key_eq. Qed.
Lemma find_set : forall e k k' s, find_store (set_store e k s) k' = if same_key k' k then Some s else find_store e k'.
Proof.
  induction e as [|[k0 s0] e IH]; intros k k' s; cbn [set_store find_store].
  - reflexivity.
  - destruct (same_key k k0) eqn:E; cbn [find_store].
    + apply same_key_eq in E. subst k0. destruct (same_key k' k) eqn:E'; reflexivity.
    + rewrite IH. destruct (same_key k' k0) eqn:E0; [|reflexivity]. destruct (same_key k' k) eqn:E'; [|reflexivity]. apply same_key_eq in E0, E'. subst. rewrite same_key_refl in E. discriminate.
Qed.
Lemma find_in : forall e k s, find_store e k = Some s -> In (k, s) e.
Proof.
  induction e as [|[k0 s0] e IH]; intros k s H; cbn in H; [discriminate|]. destruct (same_key k k0) eqn:E; [apply same_key_eq in E; subst; injection H as ->; left; reflexivity|right; auto].
Qed.
Lemma in_find : forall e k s, unique e -> In (k, s) e -> find_store e k = Some s.
Proof.
  induction e as [|[k0 s0] e IH]; intros k s U H; [contradiction|]. inversion U as [|? ? NI U']; subst. cbn [find_store]. destruct H as [H|H].
  - injection H as -> ->. now rewrite same_key_refl.
  - destruct (same_key k k0) eqn:E; [|auto]. apply same_key_eq in E. subst. exfalso. apply NI. apply in_map_iff. exists (k0, s). auto.
Qed.
Lemma in_occurrences : forall e name o, In o (occurrences e name) <-> exists s, In ((name, o), s) e.
Proof.
  intros e name o. unfold occurrences. rewrite in_map_iff. split.
  - intros ([[x y] s] & E & I). cbn in E. subst y. apply filter_In in I. destruct I as [I T]. cbn in T. apply str_eqb_eq in T. subst x. eauto.
  - intros (s & I). exists ((name, o), s). split; [reflexivity|]. apply filter_In. split; [exact I|apply str_eqb_refl].
Qed.
Lemma nodup_occurrences : forall e name, unique e -> NoDup (occurrences e name).
Proof.
  induction e as [|[[x o] s] e IH]; intros name U; [constructor|]. inversion U as [|? ? NI U']; subst. unfold occurrences. cbn [filter fst]. destruct (str_eqb name x) eqn:E; [|apply IH; assumption].
  apply str_eqb_eq in E. subst x. cbn [map]. constructor; [|apply IH; assumption]. intros I. change (In o (occurrences e name)) in I. apply in_occurrences in I. destruct I as (s' & I). apply NI. apply in_map_iff. exists ((name, o), s'). auto.
Qed.
Lemma in_todo : forall target input name occ k, In k (todo target input name occ) <-> selected target input name occ k.
Proof.
  intros target input name occ [x o]. unfold todo, selected. cbn [fst snd]. rewrite in_flat_map.
  assert (N : forall y, In y (match name with Some z => [z] | None => map fst (d_ids target) end) <-> match name with Some z => y = z | None => exists i, In (y, i) (d_ids target) end).
  { intros y. destruct name as [z|]; [cbn; intuition congruence|]. rewrite in_map_iff. split; [intros ([a b] & <- & I); eauto|intros (i & I); exists (y, i); auto]. }
  split.
  - intros (y & Iy & I). apply N in Iy. destruct (occ =? -1)%Z.
    + apply in_map_iff in I. destruct I as (o' & E & I). injection E as -> ->. apply in_occurrences in I. split; assumption.
    + destruct I as [E|[]]. injection E as -> ->. auto.
  - intros [A B]. exists x. split; [apply N; exact A|]. destruct (occ =? -1)%Z; [|subst; left; reflexivity]. apply in_map_iff. exists o. split; [reflexivity|]. apply in_occurrences. exact B.
Qed.
Lemma nodup_flat : forall (A B : Type) (f : A -> list B) l, NoDup l -> (forall a, In a l -> NoDup (f a)) -> (forall a b x, In a l -> In b l -> In x (f a) -> In x (f b) -> a = b) -> NoDup (flat_map f l).
Proof.
  induction l as [|a l IH]; intros ND H D; [constructor|]. inversion ND as [|? ? NI ND']; subst. cbn [flat_map].
  assert (G : forall l1 l2 : list B, NoDup l1 -> NoDup l2 -> (forall x, In x l1 -> ~ In x l2) -> NoDup (l1 ++ l2)).
  { clear. induction l1 as [|x l1 IH]; intros l2 N1 N2 D; [exact N2|]. inversion N1; subst. cbn. constructor; [|apply IH; auto; intros y I; apply D; right; exact I]. rewrite in_app_iff. intros [I|I]; [contradiction|]. eapply D; [left; reflexivity|exact I]. }
  apply G; [apply H; left; reflexivity|apply IH; auto; [intros; apply H; right; assumption|intros; eapply D; eauto; right; assumption]|]. intros x I1 I2. apply in_flat_map in I2. destruct I2 as (b & Ib & I2).
  assert (a = b) by (eapply D; eauto; [left; reflexivity|right; exact Ib]). subst. contradiction.
Qed.
Lemma nodup_todo : forall target input name occ, unique input -> NoDup (map fst (d_ids target)) -> NoDup (todo target input name occ).
Proof.
  intros target input name occ U ND. unfold todo. apply nodup_flat.
  - destruct name; [constructor; [intros []|constructor]|exact ND].
  - intros a _. destruct (occ =? -1)%Z; [|constructor; [intros []|constructor]]. apply FinFun.Injective_map_NoDup; [intros x y E; injection E as E; exact E|now apply nodup_occurrences].
  - intros a b [x o] _ _ I1 I2. destruct (occ =? -1)%Z.
    + apply in_map_iff in I1, I2. destruct I1 as (o1 & E1 & _), I2 as (o2 & E2 & _). congruence.
    + destruct I1 as [E1|[]], I2 as [E2|[]]. congruence.
Qed.

(** somewhere below ids_properties/provenance *)
Definition in_provenance (l : loc) : Prop := exists l', l = Child (strs "ids_properties") :: Child (strs "provenance") :: l'.
Lemma reference_in : forall i j x, in_provenance (ProvProps.in_reference i j x).
Proof. intros i j x. eexists. reflexivity. Qed.

Section Command.
Variable order : list str -> list str.
Variable flips : str -> list str.
Variable dd341 : dictionary.
Variables (rank340 rank341 : Z).
Variable library_version : str.
Variable str_of : pyval -> str.
Variable parse_float : str -> option flt.
Variable parse_cpx : str -> option (flt * flt).
Variable flt_of_int : Z -> option flt.
Variable np_cast : dtype -> pyval -> result pexn value.
Variable array_items : value -> list pyval.
Variable close : pyval -> pyval -> bool.
Variable np_int32 : flt -> result pexn Z.
Variable enum_of : list str -> option (Z -> option (str * str)).
Variable at_ : list str -> ValModel.attrs.
Variable lin : flt -> flt -> flt -> flt -> flt -> flt.
Variable released : list (str * dictionary).
Variable own : dictionary.
Variable maxoccur : dictionary -> str -> list str -> option nat.
Variable constant : dictionary -> str -> bool.
Variable valid : dictionary -> str -> node -> bool.
Variable verify : bool.
Variables (access_layer language now : str).

Notation convert := (convert_ids order flips dd341 rank340 rank341 library_version str_of parse_float parse_cpx flt_of_int np_cast array_items close np_int32 enum_of at_ lin).
Notation get_ids := (get_ids released own).
Notation put_ids := (put_ids maxoccur constant valid verify access_layer language).
Notation convert_one := (convert_one order flips dd341 rank340 rank341 library_version str_of parse_float parse_cpx flt_of_int np_cast array_items close np_int32 enum_of at_ lin now).
Notation convert_all := (convert_all order flips dd341 rank340 rank341 library_version str_of parse_float parse_cpx flt_of_int np_cast array_items close np_int32 enum_of at_ lin
  released own maxoccur constant valid verify access_layer language now).

(** one occurrence: read, converted, stored in an occurrence that was [s0] *)
Definition done (target : dictionary) (uri : str) (input : entry) (k : str * Z) (s0 s : store) : Prop :=
  exists x y, get_ids input (fst k) (snd k) = Ok x /\ convert_one target uri (fst k) x = Ok y /\ put_ids target (fst k) y s0 = (s, None).

Lemma convert_all_ok : forall target uri input l out out', NoDup l -> convert_all target uri input l out = (out', None) ->
  forall k s, find_store out' k = Some s <-> (In k l /\ done target uri input k (stored out k) s) \/ (~ In k l /\ find_store out k = Some s).
Proof.
  intros target uri input. induction l as [|[name o] l IH]; intros out out' ND H k s; cbn [CliModel.convert_all] in H.
  - injection H as <-. cbn. intuition.
  - inversion ND as [|? ? NI ND']; subst. destruct (get_ids input name o) as [x|] eqn:G; cbn [rbind] in H; [|discriminate].
    destruct (convert_one target uri name x) as [y|] eqn:C; [|discriminate]. destruct (put_ids target name y (stored out (name, o))) as [s1 [[]|]] eqn:P; try discriminate.
    rewrite (IH _ _ ND' H k s). rewrite find_set. unfold stored. rewrite find_set. destruct (same_key k (name, o)) eqn:E.
    + apply same_key_eq in E. subst k. split.
      * intros [(I & _)|(_ & X)]; [contradiction|]. injection X as <-. left. split; [left; reflexivity|]. exists x, y. auto.
      * intros [(_ & (x' & y' & G' & C' & P'))|(N & _)]; [|exfalso; apply N; left; reflexivity]. right. split; [exact NI|]. cbn [fst snd] in *. assert (x' = x) by congruence. subst x'. assert (y' = y) by congruence. subst y'.
        unfold stored in P. rewrite P in P'. congruence.
    + assert (NE : k <> (name, o)) by (intros ->; rewrite same_key_refl in E; discriminate). cbn [In]. split.
      * intros [(I & D)|(N & F)]; [left; split; [right; exact I|exact D]|right]. split; [intros [X|X]; [congruence|contradiction]|exact F].
      * intros [([X|I] & D)|(N & F)]; [congruence|left; auto|right; auto].
Qed.
(** a command that fails: the occurrences before the one that fails are complete, those after it are not there *)
Lemma convert_all_err : forall target uri input l out out' e, NoDup l -> convert_all target uri input l out = (out', Some e) ->
  exists l1 k l2, l = l1 ++ k :: l2 /\
    (forall j s, j <> k -> (find_store out' j = Some s <-> (In j l1 /\ done target uri input j (stored out j) s) \/ (~ In j l1 /\ find_store out j = Some s))) /\
    ((forall b, e <> Backend b) -> find_store out' k = find_store out k) /\
    match get_ids input (fst k) (snd k) with
    | Err e' => e = e'
    | Ok x => match convert_one target uri (fst k) x with Err e' => e = e' | Ok y => snd (put_ids target (fst k) y (stored out k)) = Some e end
    end.
Proof.
  intros target uri input. induction l as [|[name o] l IH]; intros out out' e ND H; cbn [CliModel.convert_all] in H; [discriminate|]. inversion ND as [|? ? NI ND']; subst.
  destruct (get_ids input name o) as [x|e'] eqn:G; cbn [rbind] in H.
  2:{ injection H as <- <-. exists [], (name, o), l. split; [reflexivity|]. split; [intros j s _; cbn; intuition|]. split; [reflexivity|]. cbn [fst snd]. rewrite G. reflexivity. }
  destruct (convert_one target uri name x) as [y|e'] eqn:C.
  2:{ injection H as <- <-. exists [], (name, o), l. split; [reflexivity|]. split; [intros j s _; cbn; intuition|]. split; [reflexivity|]. cbn [fst snd]. rewrite G, C. reflexivity. }
  destruct (put_ids target name y (stored out (name, o))) as [s1 [e'|]] eqn:P.
  - assert (X : e = e' /\ (out' = out \/ (out' = set_store out (name, o) s1 /\ exists b, e' = Backend b))) by (destruct e'; injection H as <- <-; eauto).
    destruct X as (-> & X). exists [], (name, o), l. split; [reflexivity|]. split; [|split].
    + intros j s NE. assert (F : find_store out' j = find_store out j).
      { destruct X as [-> |(-> & _)]; [reflexivity|]. rewrite find_set. destruct (same_key j (name, o)) eqn:E; [apply same_key_eq in E; contradiction|reflexivity]. }
      rewrite F. cbn. intuition.
    + intros NB. destruct X as [-> |(_ & b & ->)]; [reflexivity|]. exfalso. eapply NB. reflexivity.
    + cbn [fst snd]. rewrite G, C, P. reflexivity.
  - destruct (IH _ _ _ ND' H) as (l1 & k & l2 & -> & A & B & D). assert (NK : k <> (name, o)) by (intros ->; apply NI; apply in_or_app; right; left; reflexivity).
    assert (SK : same_key k (name, o) = false) by (destruct (same_key k (name, o)) eqn:E; [apply same_key_eq in E; contradiction|reflexivity]).
    exists ((name, o) :: l1), k, l2. split; [reflexivity|]. split; [|split].
    + intros j s NE. rewrite (A j s NE). rewrite find_set. unfold stored. rewrite find_set. destruct (same_key j (name, o)) eqn:E.
      * apply same_key_eq in E. subst j. assert (NI1 : ~ In (name, o) l1) by (intros I; apply NI; apply in_or_app; left; exact I). split.
        -- intros [(I & _)|(_ & X)]; [contradiction|]. injection X as <-. left. split; [left; reflexivity|]. exists x, y. auto.
        -- intros [(_ & (x' & y' & G' & C' & P'))|(N & _)]; [|exfalso; apply N; left; reflexivity]. right. split; [exact NI1|]. cbn [fst snd] in *. assert (x' = x) by congruence. subst x'. assert (y' = y) by congruence. subst y'.
           unfold stored in P. rewrite P in P'. congruence.
      * assert (NJ : j <> (name, o)) by (intros ->; rewrite same_key_refl in E; discriminate). cbn [In]. split.
        -- intros [(I & X)|(N & F)]; [left; split; [right; exact I|exact X]|right]. split; [intros [Y|Y]; [congruence|contradiction]|exact F].
        -- intros [([Y|I] & X)|(N & F)]; [congruence|left; auto|right; auto].
    + intros NB. rewrite (B NB), find_set, SK. reflexivity.
    + unfold stored in D. rewrite find_set, SK in D. exact D.
Qed.

(** ** conversion of what was read *)
Hypothesis Casts : ConvProps.casts_arrays np_cast.
(** converting keeps the quantities related by C, for data outside ch *)
Definition converts_by (name : str) (d target : dictionary) (i j : ids_def) (C : str -> str -> Prop) (ch : str -> Prop) : Prop :=
  forall src, conf (i_meta i) src -> ConvProps.stored_values (i_meta i) src -> untouched (i_meta i) src ch ->
  exists st, convert false name d target (i_meta i) src None false [] now = Ok st /\ conf (i_meta j) (c_tree st) /\
  (forall t v, leaf_at (i_meta j) (c_tree st) t v <-> exists s, leaf_at (i_meta i) src s v /\ stands_for (i_meta j) C s t) /\
  (forall t k, aos_at (i_meta j) (c_tree st) t k <-> exists s, aos_at (i_meta i) src s k /\ stands_for (i_meta j) C s t).
Lemma stored_settled : forall m n, settled m n -> ConvProps.stored_values m n.
Proof. intros m n S l nm dt cs v N E. apply PrimProps.is_empty_spec in E. rewrite (S _ _ _ N dt eq_refl) in E. discriminate. Qed.
Lemma convert_tree : forall name d target i j C ch uri g st, converts_by name d target i j C ch -> alookup name (d_ids target) = Some j -> wf_meta (i_meta j) ->
  (uri <> [] -> now <> [] /\ str_ok (i_meta j) /\ ProvProps.with_reference (i_meta j)) ->
  conf (i_meta i) g -> settled (i_meta i) g -> untouched (i_meta i) g ch -> convert false name d target (i_meta i) g None false uri now = Ok st ->
  conf (i_meta j) (c_tree st) /\ settled (i_meta j) (c_tree st) /\
  (forall t v, (uri <> [] -> ~ in_provenance t) -> (leaf_at (i_meta j) (c_tree st) t v <-> exists s, leaf_at (i_meta i) g s v /\ stands_for (i_meta j) C s t)) /\
  (uri = [] -> forall t k, aos_at (i_meta j) (c_tree st) t k <-> exists s, aos_at (i_meta i) g s k /\ stands_for (i_meta j) C s t).
Proof.
  intros name d target i j C ch uri g st CB EJ W HP CF SE UN R. destruct (CB g CF (stored_settled _ _ SE) UN) as (st0 & R0 & C0 & L0 & A0).
  assert (S0 : settled (i_meta j) (c_tree st0)).
  { apply (settled_holds _ _ C0). intros t v H dt V. apply L0 in H. destruct H as (s & H & _). exact (proj1 (settled_holds _ _ CF) SE s v H dt V). }
  assert (DU : uri = [] \/ uri <> []) by (destruct uri; [left; reflexivity|right; discriminate]). destruct DU as [-> |NU].
  - assert (st0 = st) by congruence. subst st0. split; [exact C0|]. split; [exact S0|]. split; [intros t v _; apply L0|intros _; exact A0].
  - destruct (HP NU) as (NN & SO & WR).
    destruct (C48_provenance order flips dd341 rank340 rank341 library_version str_of parse_float parse_cpx flt_of_int np_cast array_items close np_int32 enum_of at_ lin Casts
      name d target (i_meta i) g None false uri now st0 NU NN R0 (i_meta j)) as (st' & a & b & x & y & z & R1 & C1 & _ & _ & LN & LT & LO); auto; [discriminate|eauto|].
    assert (st' = st) by congruence. subst st'. split; [exact C1|]. split; [|split; [|intros ->; contradiction]].
    + apply (settled_holds _ _ C1). intros t v H dt V.
      assert (LD : forall a b : loc, {a = b} + {a <> b}) by (intros; repeat decide equality).
      destruct (LD t (ProvProps.in_reference a b "name")) as [-> |N1]; [|destruct (LD t (ProvProps.in_reference a b "timestamp")) as [-> |N2]].
      * assert (E := StoreProofs5.holds_fun_leaf _ _ _ _ _ W H LN). subst v. inversion V; subst. destruct uri; [contradiction|reflexivity].
      * assert (E := StoreProofs5.holds_fun_leaf _ _ _ _ _ W H LT). subst v. inversion V; subst. destruct now; [contradiction|reflexivity].
      * apply (LO t v N1 N2) in H. exact (proj1 (settled_holds _ _ C0) S0 t v H dt V).
    + intros t v NP. assert (NP' := NP NU). rewrite (LO t v); [apply L0| |]; intros ->; apply NP'; apply reference_in.
Qed.
End Command.
