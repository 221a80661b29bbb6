(** C66: names of IDSs and of identifiers. *)
From Coq Require Import Permutation.
From Verif Require Import Base TreeSpec HashModel HashSpec HashProofs2 HashProofs3 LookupModel.

Lemma mem_In : forall n l, mem n l = true <-> In n l.
Proof. intros n l. unfold mem. rewrite existsb_exists. split; [intros (x & I & E); apply str_eqb_eq in E; now subst|intros I; exists n; split; auto; apply str_eqb_refl]. Qed.

(** ** The factory *)
Section Factory.
Variable X : Type.
Variable own : list str.
(** The last element with a name. *)
Definition last_with (root : list (str * X)) (n : str) (x : X) : Prop := exists a b, root = a ++ (n, x) :: b /\ ~ In n (map fst b).
Lemma elements_snoc : forall root e, elements X (root ++ [e]) = aset (fst e) (snd e) (elements X root).
Proof. intros. unfold elements. now rewrite fold_left_app. Qed.
Lemma elements_lookup : forall root n x, alookup n (elements X root) = Some x <-> last_with root n x.
Proof.
  induction root as [|[m y] root IH] using rev_ind; intros n x.
  - split; [intros E; discriminate E|intros (a & b & E & _); destruct a; discriminate E].
  - rewrite elements_snoc. cbn [fst snd]. rewrite alookup_aset. destruct (str_eqb n m) eqn:Q.
    + apply str_eqb_eq in Q. subst m. split.
      * intros E. injection E as ->. exists root, []. split; [reflexivity|intros []].
      * intros (a & b & E & N). destruct b as [|z b] using rev_ind.
        { apply app_inj_tail in E as [_ E]. injection E as ->. reflexivity. }
        clear IHb. rewrite app_comm_cons, app_assoc in E. apply app_inj_tail in E as [_ E]. subst z. exfalso. apply N. rewrite map_app. apply in_or_app. right. now left.
    + apply str_eqb_neq in Q. rewrite IH. split.
      * intros (a & b & E & N). exists a, (b ++ [(m, y)]). rewrite E, <- app_assoc. split; [reflexivity|]. rewrite map_app. intro I. apply in_app_or in I as [I|[I|[]]]; [contradiction|]. cbn in I. congruence.
      * intros (a & b & E & N). destruct b as [|z b] using rev_ind; [apply app_inj_tail in E as [_ E]; injection E; congruence|]. clear IHb.
        rewrite app_comm_cons, app_assoc in E. apply app_inj_tail in E as [E _]. exists a, b. split; auto. intro I. apply N. rewrite map_app. apply in_or_app. now left.
Qed.
Lemma keys_aset : forall (d : list (str * X)) k v, akeys (aset k v d) = if mem k (akeys d) then akeys d else akeys d ++ [k].
Proof.
  induction d as [|[k' v'] d IH]; intros k v; [reflexivity|]. cbn [aset akeys map fst mem existsb]. destruct (str_eqb k k') eqn:Q.
  - apply str_eqb_eq in Q. subst. cbn [orb akeys map fst]. reflexivity.
  - cbn [orb akeys map fst]. change (map fst (aset k v d)) with (akeys (aset k v d)). rewrite IH. change (map fst d) with (akeys d). unfold mem. destruct (existsb (str_eqb k) (akeys d)); reflexivity.
Qed.
(** The names in order of their first element. *)
Fixpoint firsts (seen : list str) (l : list str) : list str :=
  match l with [] => [] | x :: l => if mem x seen then firsts seen l else x :: firsts (x :: seen) l end.
Lemma firsts_snoc : forall l seen x, firsts seen (l ++ [x]) = firsts seen l ++ (if mem x (seen ++ l) then [] else [x]).
Proof.
  induction l as [|y l IH]; intros seen x; cbn [app firsts].
  - rewrite app_nil_r. destruct (mem x seen); reflexivity.
  - assert (P : forall a b, (forall z, In z a <-> In z b) -> mem x a = mem x b) by (intros a b H; apply eq_true_iff_eq; rewrite !mem_In; apply H).
    destruct (mem y seen) eqn:Q.
    + rewrite IH. do 2 f_equal. rewrite (P (seen ++ l) (seen ++ y :: l)); auto. intros z. rewrite !in_app_iff. cbn [In]. apply mem_In in Q. split; [tauto|intros [?|[<-|?]]; auto].
    + cbn [app]. f_equal. rewrite IH. do 2 f_equal. rewrite (P ((y :: seen) ++ l) (seen ++ y :: l)); auto. intros z. rewrite !in_app_iff. cbn [In]. tauto.
Qed.
Lemma names_firsts : forall root, ids_names X root = firsts [] (map fst root).
Proof.
  induction root as [|e root IH] using rev_ind; [reflexivity|]. unfold ids_names in *. rewrite elements_snoc, keys_aset, map_app. cbn [map]. rewrite firsts_snoc, IH. cbn [app].
  assert (P : mem (fst e) (firsts [] (map fst root)) = mem (fst e) (map fst root)).
  { apply eq_true_iff_eq. rewrite !mem_In.
    assert (G : forall l seen z, In z (firsts seen l) <-> In z l /\ ~ In z seen).
    { induction l as [|y l IHl]; intros seen z; cbn [firsts]; [cbn; tauto|]. destruct (mem y seen) eqn:Q.
      - rewrite IHl. apply mem_In in Q. cbn [In]. split; [tauto|intros [[<-|?] ?]; [contradiction|tauto]].
      - cbn [In]. rewrite IHl. cbn [In]. assert (~ In y seen) by (rewrite <- mem_In; congruence). destruct (str_dec y z); [subst; tauto|tauto]. }
    rewrite G. cbn [In]. tauto. }
  rewrite P. destruct (mem (fst e) (map fst root)); [now rewrite app_nil_r|reflexivity].
Qed.

(** All ways to ask for an IDS agree, and give the element with this name; the names come in the order of the definition, each once. *)
Theorem C66_factory : forall root n,
  ids_names X root = firsts [] (map fst root) /\ NoDup (ids_names X root) /\
  (In n (ids_names X root) <-> In n (map fst root)) /\
  (exists_ X root n = true <-> In n (map fst root)) /\
  (forall x, new X root n = Some x <-> last_with root n x) /\
  (new X root n = None <-> ~ In n (map fst root)) /\
  (~ In n own -> attribute X own root n = match new X root n with Some x => Make X x | None => NoAttribute X end).
Proof.
  intros root n.
  assert (K : In n (ids_names X root) <-> In n (map fst root)).
  { unfold ids_names. split.
    - intros I. destruct (alookup n (elements X root)) as [x|] eqn:L; [|apply alookup_None_keys in L; contradiction]. apply elements_lookup in L as (a & b & -> & _). rewrite map_app. apply in_or_app. right. now left.
    - intros I. destruct (in_dec str_dec n (akeys (elements X root))) as [J|J]; auto. exfalso.
      pose proof (names_firsts root) as NF. unfold ids_names in NF. rewrite NF in J. apply J. clear -I.
      assert (G : forall l seen z, In z l -> ~ In z seen -> In z (firsts seen l)).
      { induction l as [|y l IHl]; intros seen z Iz Nz; [destruct Iz|]. cbn [firsts]. destruct (mem y seen) eqn:Q; destruct Iz as [<-|Iz]; auto.
        - apply mem_In in Q. contradiction.
        - now left.
        - destruct (str_dec y z) as [->|N]; [now left|]. right. apply IHl; auto. intros [?|?]; auto. }
      apply G; auto. }
  split; [apply names_firsts|]. split.
  { rewrite names_firsts. assert (G : forall l seen, NoDup (firsts seen l) /\ forall z, In z (firsts seen l) -> ~ In z seen).
    { induction l as [|y l IHl]; intros seen; cbn [firsts]; [split; [constructor|intros z []]|]. destruct (mem y seen) eqn:Q; [apply IHl|]. destruct (IHl (y :: seen)) as [A B]. split.
      - constructor; auto. intro I. apply (B y I). now left.
      - intros z [<-|I]; [rewrite <- mem_In; congruence|]. intro J. apply (B z I). now right. }
    apply G. }
  split; [exact K|]. split; [|split; [|split]].
  - rewrite <- K. unfold exists_, ids_names. destruct (alookup n (elements X root)) as [x|] eqn:L.
    + split; auto. intros _. apply alookup_In in L. apply in_map_iff. exists (n, x). auto.
    + apply alookup_None_keys in L. split; [discriminate|contradiction].
  - intros x. apply elements_lookup.
  - rewrite <- K. unfold new, ids_names. apply alookup_None_keys.
  - intros N. unfold attribute, new. destruct (mem n own) eqn:Q; [apply mem_In in Q; contradiction|reflexivity].
Qed.
(** dir() has exactly the attributes and the names, sorted, each once. *)
Theorem C66_dir : forall root, NoDup (dir X own root) /\ (forall n, In n (dir X own root) <-> In n own \/ In n (map fst root)) /\
  (forall a x b y c, dir X own root = a ++ x :: b ++ y :: c -> str_leb x y = true).
Proof.
  intros root. unfold dir.
  assert (S_ : forall l, NoDup (set_of l) /\ forall n, In n (set_of l) <-> In n l).
  { induction l as [|y l [A B]]; cbn [set_of]; [split; [constructor|tauto]|]. destruct (mem y l) eqn:Q.
    - apply mem_In in Q. split; auto. intros n. rewrite B. cbn [In]. split; [auto|intros [<-|?]; auto].
    - split; [constructor; auto; rewrite B, <- mem_In; congruence|]. intros n. cbn [In]. rewrite B. tauto. }
  destruct (S_ (own ++ ids_names X root)) as [A B]. set (l := set_of _) in *.
  assert (Pm : Permutation (isort (map (fun n => (n, tt)) l)) (map (fun n => (n, tt)) l)) by apply isort_perm.
  split; [|split].
  - eapply Permutation_NoDup; [apply Permutation_map, Permutation_sym, Pm|]. rewrite map_map. cbn [fst]. now rewrite map_id.
  - intros n. rewrite <- (proj1 (proj2 (proj2 (C66_factory root n)))). rewrite <- in_app_iff, <- B. split.
    + intros I. apply in_map_iff in I as ([m u] & <- & I). apply (Permutation_in _ Pm) in I. apply in_map_iff in I as (k & E & I). injection E as <- _. exact I.
    + intros I. apply in_map_iff. exists (n, tt). split; auto. apply (Permutation_in _ (Permutation_sym Pm)). apply in_map_iff. exists n. auto.
  - pose proof (isort_sorted (map (fun n => (n, tt)) l)) as So. intros a x b y c E.
    assert (G : forall (l : list (str * unit)) a x b y c, sorted_by kle l -> map fst l = a ++ x :: b ++ y :: c -> str_leb x y = true).
    { clear. intros l a. revert l. induction a as [|z a IH]; intros [|w l] x b y c So E; try discriminate E; cbn [map app] in E; injection E as E1 E2; inversion So as [|? ? H1 H2]; subst.
      - assert (I : In y (map fst l)) by (rewrite E2; apply in_or_app; right; now left). apply in_map_iff in I as (v & <- & I). apply (H1 v I).
      - eapply IH; eauto. }
    eapply G; eauto.
Qed.
End Factory.

(** An IDS with the name of a method cannot be made by [factory.name()]. *)
Definition factory_own : list str := map strs ["_xml_path"; "_etree"; "_ids_elements"; "_version"; "ids_names"; "new"; "exists"; "version"; "dd_version"]%string.
Theorem C66_shadow_refuted : exists root n, exists_ nat root n = true /\ attribute nat factory_own root n = Own nat n.
Proof. exists [(strs "version", 0)], (strs "version"). vm_compute. auto. Qed.
Example C66_factory_ex : let root := [(strs "core", 1); (strs "edge", 2); (strs "core", 3)] in
  ids_names nat root = [strs "core"; strs "edge"] /\ new nat root (strs "core") = Some 3 /\ attribute nat factory_own root (strs "edge") = Make nat 2.
Proof. vm_compute. auto. Qed.

(** ** Identifiers *)
Section Identifiers.
Variable E : Type.
Variable own : list str.
Variable names : list str.
Variable parse : str -> result nat E.
Local Notation run := (LookupModel.run E own names parse).
Local Notation step := (LookupModel.step E own names parse).
Local Notation init := (LookupModel.init E).
Definition name_of (o : op) : str := match o with GetAttr n | GetItem n => n end.
Definition available (n : str) (x : E) : Prop := In n names /\ ~ In n own /\ parse n = Ok x.
(** What a lookup answers, if objects are named by what they were made from. *)
Definition answers (objects : str -> option nat) (o : op) (a : answer) : Prop :=
  match a with
  | Object i => objects (name_of o) = Some i /\ exists x, available (name_of o) x
  | OwnAttribute n => n = name_of o /\ In n own /\ match o with GetItem n => In n names | _ => True end
  | KeyErr => exists n, o = GetItem n /\ ~ In n names
  | AttributeErr => exists n, o = GetAttr n /\ ~ In n names /\ ~ In n own
  | ParseErr e => In (name_of o) names /\ ~ In (name_of o) own /\ parse (name_of o) = Err e
  end.
Definition consistent (s : st E) : Prop :=
  (forall n i, alookup n (cached E s) = Some i -> exists x, available n x /\ nth_error (made E s) i = Some x) /\
  (forall n m i, alookup n (cached E s) = Some i -> alookup m (cached E s) = Some i -> n = m) /\
  (forall n i, alookup n (cached E s) = Some i -> i < length (made E s)) /\
  (forall n, (exists x, parse n = Ok x) -> count_occ str_dec (parsed E s) n = match alookup n (cached E s) with Some _ => 1 | None => 0 end).
Lemma step_ok : forall s o, consistent s -> let (s', a) := step s o in
  consistent s' /\ (forall n i, alookup n (cached E s) = Some i -> alookup n (cached E s') = Some i) /\ answers (fun n => alookup n (cached E s')) o a.
Proof.
  intros s o C. pose proof C as (C1 & C2 & C3 & C4).
  assert (GA : forall n o, name_of o = n -> (match o with GetItem n => In n names | _ => True end) -> let (s', a) := get_attr E own names parse s n in
    consistent s' /\ (forall n i, alookup n (cached E s) = Some i -> alookup n (cached E s') = Some i) /\ answers (fun n => alookup n (cached E s')) o a).
  { clear o. intros n o No Hi. unfold get_attr. destruct (alookup n (cached E s)) as [i|] eqn:L.
    - split; [exact C|]. split; [auto|]. cbn [answers]. rewrite No. split; [exact L|]. destruct (C1 n i L) as (x & A & _). eauto.
    - destruct (mem n own) eqn:Mo; [apply mem_In in Mo; split; [exact C|]; split; [auto|]; cbn [answers]; rewrite No; auto|].
      assert (No' : ~ In n own) by (rewrite <- mem_In; congruence). destruct (mem n names) eqn:Mn; cbn [negb].
      + apply mem_In in Mn. destruct (parse n) as [x|e] eqn:P.
        * split; [|split].
          -- repeat split; cbn [cached made parsed].
             ++ intros m i. rewrite alookup_aset. destruct (str_eqb m n) eqn:Q.
                ** apply str_eqb_eq in Q. subst. intros I. injection I as <-. exists x. split; [repeat split; auto|]. rewrite nth_error_app2, Nat.sub_diag by lia. reflexivity.
                ** intros I. destruct (C1 m i I) as (y & A & B). exists y. split; auto. rewrite nth_error_app1; eauto.
             ++ intros m k i. rewrite !alookup_aset. destruct (str_eqb m n) eqn:Q1, (str_eqb k n) eqn:Q2; intros I J.
                ** apply str_eqb_eq in Q1, Q2. congruence.
                ** injection I as <-. apply C3 in J. lia.
                ** injection J as <-. apply C3 in I. lia.
                ** eauto.
             ++ intros m i. rewrite alookup_aset, app_length. cbn [length]. destruct (str_eqb m n); intros I; [injection I as <-; lia|apply C3 in I; lia].
             ++ intros m Pm. rewrite count_occ_app, (C4 m Pm), alookup_aset. cbn [count_occ]. destruct (str_dec n m) as [->|N].
                ** rewrite str_eqb_refl, L. reflexivity.
                ** destruct (str_eqb m n) eqn:Q; [apply str_eqb_eq in Q; congruence|lia].
          -- intros m i I. cbn [cached]. rewrite alookup_aset. destruct (str_eqb m n) eqn:Q; auto. apply str_eqb_eq in Q. congruence.
          -- cbn [answers cached]. rewrite No. rewrite alookup_aset_same. split; auto. exists x. repeat split; auto.
        * split; [|split; [auto|cbn [answers]; now rewrite No]]. repeat split; cbn [cached made parsed]; auto.
          intros m Pm. rewrite count_occ_app, (C4 m Pm). cbn [count_occ]. destruct (str_dec n m) as [->|N]; [destruct Pm; congruence|lia].
      + assert (Nn : ~ In n names) by (rewrite <- mem_In; congruence). split; [exact C|]. split; [auto|]. cbn [answers]. destruct o as [k|k]; cbn [name_of] in No; subst k; [eauto|contradiction]. }
  destruct o as [n|n]; cbn [LookupModel.step].
  - apply (GA n (GetAttr n)); auto.
  - unfold get_item. destruct (mem n names) eqn:Q; cbn [negb].
    + apply (GA n (GetItem n)); auto. now apply mem_In.
    + split; [exact C|]. split; [auto|]. cbn [answers]. exists n. split; auto. rewrite <- mem_In. congruence.
Qed.
(** In any sequence of lookups, by attribute or by item, a name always gives the same enumeration, made from its own definition and from
    nothing else, and a definition that can be read is read once at most.  Other lookups raise as said. *)
Theorem C66_identifiers : forall ops, let (s, l) := run init ops in exists objects : str -> option nat,
  Forall2 (answers objects) ops l /\
  (forall n m i, objects n = Some i -> objects m = Some i -> n = m) /\
  (forall n i, objects n = Some i -> exists x, available n x /\ nth_error (made E s) i = Some x) /\
  (forall n x, parse n = Ok x -> count_occ str_dec (parsed E s) n <= 1).
Proof.
  assert (X : forall ops s, consistent s -> let (s', l) := run s ops in consistent s' /\ (forall n i, alookup n (cached E s) = Some i -> alookup n (cached E s') = Some i) /\
     Forall2 (answers (fun n => alookup n (cached E s'))) ops l).
  { induction ops as [|o ops IH]; intros s C; cbn [LookupModel.run]; [split; [exact C|split; [auto|constructor]]|].
    pose proof (step_ok s o C) as H. destruct (step s o) as [s1 a]. destruct H as (C1 & M1 & A1). specialize (IH s1 C1). destruct (run s1 ops) as [s2 l]. destruct IH as (C2 & M2 & A2).
    split; [exact C2|]. split; [auto|]. constructor; auto. destruct a; cbn [answers] in *; auto. destruct A1 as [A1 B1]. split; auto. }
  intros ops. assert (C0 : consistent init).
  { repeat split; try (intros n i I; discriminate I); try (intros n m i I; discriminate I). }
  specialize (X ops init C0). destruct (run init ops) as [s l]. destruct X as ((C1 & C2 & C3 & C4) & _ & F). exists (fun n => alookup n (cached E s)). split; [exact F|]. split; [exact C2|]. split; [exact C1|].
  intros n x P. rewrite C4 by eauto. destruct (alookup n (cached E s)); lia.
Qed.

(** The enumeration of a node is the one that its documentation names: the file name without directories and extension. *)
Lemma rfind_dot_app : forall a b, ~ In "."%char b -> rfind_dot (a ++ "."%char :: b) = Some (length a).
Proof.
  assert (N : forall b, ~ In "."%char b -> rfind_dot b = None).
  { induction b as [|c b IH]; intros H; [reflexivity|]. cbn [rfind_dot]. rewrite IH by (intro; apply H; now right). destruct (Ascii.eqb c ".") eqn:Q; auto. apply Ascii.eqb_eq in Q. exfalso. apply H. now left. }
  induction a as [|c a IH]; intros b H; cbn [app rfind_dot length]; [now rewrite N|now rewrite IH].
Qed.
Lemma last_app1 {A} : forall (l : list A) x d, last (l ++ [x]) d = x.
Proof. intros. apply last_last. Qed.
Lemma split_app : forall c a b, ~ In c b -> exists l, split_on c (a ++ c :: b) = l ++ [b].
Proof.
  intros c a b H. revert a. induction a as [|x a (l & IH)].
  - exists [[]]. cbn [app split_on]. rewrite Ascii.eqb_refl. now rewrite split_on_single.
  - cbn [app split_on]. destruct (Ascii.eqb x c); [exists ([] :: l); now rewrite IH|]. rewrite IH. destruct l as [|p l].
    + exfalso. clear -IH H. assert (length (split_on c (a ++ c :: b)) = 1) as L by (now rewrite IH). clear IH. induction a as [|x a IHa]; cbn [app split_on] in L; [rewrite Ascii.eqb_refl, split_on_single in L by auto; discriminate L|].
      destruct (Ascii.eqb x c); [cbn in L; pose proof (split_on_nonnil c (a ++ c :: b)); destruct (split_on c (a ++ c :: b)); [congruence|discriminate L]|].
      destruct (split_on c (a ++ c :: b)) as [|q r] eqn:Q; [now apply split_on_nonnil in Q|]. cbn in L. apply IHa. exact L.
    + exists ((x :: p) :: l). reflexivity.
Qed.
Lemma stem_name : forall file, ~ In "/"%char file -> file <> [] ->
  forall doc, (doc = file ++ strs ".xml" \/ exists dirs, doc = dirs ++ "/"%char :: file ++ strs ".xml") -> stem doc = file.
Proof.
  intros file Hs Hn doc H.
  assert (Hx : ~ In "/"%char (file ++ strs ".xml")).
  { intro I. apply in_app_or in I as [I|I]; [contradiction|]. cbn in I. repeat destruct I as [I|I]; try discriminate I. exact I. }
  assert (K : negb (str_eqb (file ++ strs ".xml") []) && negb (str_eqb (file ++ strs ".xml") "."%string) = true).
  { destruct file as [|c f]; [congruence|]. cbn [app]. apply andb_true_iff. split; apply negb_true_iff; [reflexivity|]. apply str_eqb_neq. intro Q. cbn in Q. injection Q as _ Q. destruct f; discriminate Q. }
  assert (P : path_name doc = file ++ strs ".xml").
  { unfold path_name. destruct H as [->|(dirs & ->)].
    - rewrite split_on_single by auto. cbn [filter]. rewrite K. reflexivity.
    - destruct (split_app "/"%char dirs _ Hx) as (l & ->). rewrite filter_app. cbn [filter]. rewrite K. apply last_last. }
  unfold stem. rewrite P. change (strs ".xml") with ("."%char :: strs "xml"). rewrite rfind_dot_app by (cbn; intros I; repeat destruct I as [I|I]; try discriminate I; exact I).
  destruct ((0 <? length file)%nat && (length file <? length (file ++ "."%char :: strs "xml") - 1)%nat) eqn:Q.
  - rewrite firstn_app, Nat.sub_diag, firstn_all, firstn_O. apply app_nil_r.
  - exfalso. apply andb_false_iff in Q. rewrite app_length in Q. cbn [length] in Q. change (length (strs "xml")) with 3 in Q. destruct Q as [Q|Q]; apply Nat.ltb_ge in Q; [|lia].
    destruct file; [congruence|cbn in Q; lia].
Qed.
Theorem C66_enum : forall s doc,
  (doc = None \/ doc = Some [] -> identifier_enum E own names parse s doc = (s, None)) /\
  (forall file, ~ In "/"%char file -> file <> [] -> (doc = Some (file ++ strs ".xml") \/ exists dirs, doc = Some (dirs ++ "/"%char :: file ++ strs ".xml")) ->
   identifier_enum E own names parse s doc = (let (s', a) := step s (GetItem file) in (s', Some a))).
Proof.
  intros s doc. split.
  - intros [->| ->]; reflexivity.
  - intros file Hs Hn H.
    assert (exists d, doc = Some d /\ d <> [] /\ stem d = file) as (d & -> & Nd & Sd).
    { destruct H as [->|(dirs & ->)]; eexists; (split; [reflexivity|]); (split; [|eapply stem_name; eauto]); intro Q; [apply app_eq_nil in Q as [_ Q]|apply app_eq_nil in Q as [_ Q]]; discriminate Q. }
    unfold identifier_enum. destruct d as [|c d]; [congruence|]. rewrite Sd. reflexivity.
Qed.
End Identifiers.
(** The documentation says that a node has no enumeration (None) when the data dictionary does not define it; the lookup raises KeyError. *)
Theorem C66_enum_refuted : exists names doc, snd (identifier_enum nat [] names (fun _ => Ok 0) (init nat) (Some doc)) = Some KeyErr.
Proof. exists [strs "core_identifier"], (strs "equilibrium/other_identifier.xml"). reflexivity. Qed.
Example C66_identifiers_ex :
  snd (LookupModel.run nat [strs "identifiers"] [strs "a"; strs "b"; strs "bad"] (fun n => if str_eqb n "bad"%string then Err 7 else Ok (length n)) (init nat)
    [GetAttr "b"%string; GetItem "a"%string; GetItem "b"%string; GetItem "c"%string; GetAttr "c"%string; GetAttr "bad"%string; GetAttr "identifiers"%string]) =
  [Object 0; Object 1; Object 0; KeyErr; AttributeErr; ParseErr 7; OwnAttribute "identifiers"%string].
Proof. reflexivity. Qed.
Print Assumptions C66_factory.
Print Assumptions C66_dir.
Print Assumptions C66_shadow_refuted.
Print Assumptions C66_identifiers.
Print Assumptions C66_enum.
Print Assumptions C66_enum_refuted.
